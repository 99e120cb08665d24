(** Lemmas on the parameters and the arrays of the perturbation theory. *)
From Coq Require Import List ZArith Arith Bool Lia Ring.
From Verif Require Import Py Slater Alg BicliqueLemmas Fanci Fanpt FanptSpec FanptPoly.
Import ListNotations.
Local Open Scope nat_scope.

Section L.
Context {F : CField}.
Local Notation K := (fring F).
Local Open Scope cr_scope.
Add Ring K_ring126 : (rth K).

Lemma map_nth_seq' : forall {A} (l : list A) d, map (fun p => nth p l d) (seq 0 (length l)) = l.
Proof. induction l as [|x l IH]; intros d; [reflexivity|]. cbn [length seq map]. f_equal. rewrite <- seq_shift, map_map. apply IH. Qed.
Lemma sumf_nth : forall (f : nat -> K) (l : list nat), sumf f l = sumf (fun p => f (nth p l 0%nat)) (seq 0 (length l)).
Proof. intros f l. rewrite <- (map_nth_seq' l 0%nat) at 1. now rewrite sumf_map. Qed.
(** * the mask *)
Lemma act_nodup : forall o : fobj K, NoDup (fo_act o).
Proof. intros o. apply NoDup_filter, seq_NoDup. Qed.
Lemma act_lt : forall (o : fobj K) k, In k (fo_act o) -> (k < fo_nparam o - 1)%nat.
Proof. intros o k H. apply filter_In in H as [H _]. apply in_seq in H. lia. Qed.
Lemma ntrue_filter : forall (l : list bool) s (m : list bool), (forall i, nth (s + i) m false = nth i l false) ->
  length (filter (fun k => nth k m false) (seq s (length l))) = ntrue l.
Proof.
  induction l as [|b l IH]; intros s m H; [reflexivity|]. cbn [length seq filter]. unfold ntrue. cbn [filter].
  assert (B := H 0%nat). rewrite Nat.add_0_r in B. cbn [nth] in B. rewrite B.
  assert (E : length (filter (fun k => nth k m false) (seq (S s) (length l))) = ntrue l) by (apply IH; intros i; replace (S s + i)%nat with (s + S i)%nat by lia; apply (H (S i))).
  destruct b; cbn [length]; rewrite E; reflexivity.
Qed.
Lemma nth_removelast : forall {A} (l : list A) i d, (i < length l - 1)%nat -> nth i (removelast l) d = nth i l d.
Proof.
  intros A l. induction l as [|x l IH]; intros i d H; [cbn in H; lia|]. destruct l as [|y l]; [cbn in H; lia|].
  change (removelast (x :: y :: l)) with (x :: removelast (y :: l)). destruct i as [|i]; [reflexivity|]. cbn [nth]. apply IH. cbn [length] in *. lia.
Qed.
Lemma removelast_len : forall {A} (l : list A), length (removelast l) = (length l - 1)%nat.
Proof. intros A l. induction l as [|x l IH]; [reflexivity|]. destruct l as [|y l]; [reflexivity|]. change (removelast (x :: y :: l)) with (x :: removelast (y :: l)). cbn [length] in *. lia. Qed.
Lemma nactive_split : forall o : fobj K, fo_mask o <> [] -> fo_nactive o = (length (fo_act o) + if fo_eact o then 1 else 0)%nat.
Proof.
  intros o N. unfold fo_nactive, fo_act, fo_nparam, fo_eact. destruct (exists_last N) as (l & b & ->). rewrite app_length. cbn [length].
  rewrite last_last. replace (length l + 1 - 1)%nat with (length l) by lia. unfold ntrue. rewrite filter_app, app_length. f_equal; [|destruct b; reflexivity].
  change (length (filter (fun b => b) l)) with (ntrue l). symmetry. replace (filter (fun k => nth k (l ++ [b]) false) (seq 0 (length l))) with (filter (fun k => nth k l false) (seq 0 (length l))).
  - apply ntrue_filter. reflexivity.
  - apply filter_ext_in. intros k H. apply in_seq in H. rewrite app_nth1 by lia. reflexivity.
Qed.
Lemma nw_act : forall q : cont F, fo_mask (q_o q) <> [] -> q_nw q = length (fo_act (q_o q)).
Proof. intros q N. unfold q_nw, q_nactive, q_eact. rewrite (nactive_split _ N). destruct (fo_eact (q_o q)); lia. Qed.

(** * the corrected parameters *)
Lemma add_corr_from : forall (act : list nat) s (ps : list K) corr, NoDup act -> (forall k, In k act -> (k < length ps)%nat) ->
  let v := fold_left (fun v pi => upd v (snd pi) (nth (snd pi) v 0 + corr (fst pi))) (combine (seq s (length act)) act) ps in
  length v = length ps /\ (forall p, (p < length act)%nat -> nth (nth p act 0%nat) v 0 = nth (nth p act 0%nat) ps 0 + corr (s + p)%nat) /\
  (forall k, ~ In k act -> nth k v 0 = nth k ps 0).
Proof.
  induction act as [|x act IH]; intros s ps corr ND B; cbn [length seq combine fold_left fst snd].
  { repeat split; auto. intros p H. lia. }
  inversion ND as [|x' l' NI ND' E1]; subst x' l'. destruct (IH (S s) (upd ps x (nth x ps 0 + corr s)) corr ND') as (A1 & A2 & A3).
  { intros k Hk. rewrite upd_length. apply B. now right. }
  cbv zeta in *. split; [rewrite A1; apply upd_length|]. split.
  - intros [|p] H.
    + cbn [nth]. rewrite (A3 x NI), nth_upd_eq by (apply B; now left). now rewrite Nat.add_0_r.
    + cbn [nth]. rewrite (A2 p) by (cbn [length] in H; lia). rewrite nth_upd_neq.
      * now rewrite Nat.add_succ_r.
      * intros E. apply NI. rewrite E. apply nth_In. cbn [length] in H; lia.
  - intros k H. rewrite A3 by (intros I; apply H; now right). apply nth_upd_neq. intros E. apply H. now left.
Qed.
Lemma add_corr_nth : forall (o : fobj K) (ps : list K) corr, length ps = (fo_nparam o - 1)%nat -> let v := add_corr ps (fo_act o) corr in
  length v = length ps /\ (forall p, (p < length (fo_act o))%nat -> nth (nth p (fo_act o) 0%nat) v 0 = nth (nth p (fo_act o) 0%nat) ps 0 + corr p) /\
  (forall k, ~ In k (fo_act o) -> nth k v 0 = nth k ps 0).
Proof. intros o ps corr L. apply (add_corr_from (fo_act o) 0 ps corr (act_nodup o)). intros k H. rewrite L. now apply act_lt. Qed.
(** sums over the changes of the parameters *)
Lemma diff_sum : forall (o : fobj K) (ps : list K) corr (f : nat -> K), length ps = (fo_nparam o - 1)%nat ->
  sumf (fun k => f k * (nth k (add_corr ps (fo_act o) corr) 0 - nth k ps 0)) (seq 0 (length ps)) = sumf (fun p => f (nth p (fo_act o) 0%nat) * corr p) (seq 0 (length (fo_act o))).
Proof.
  intros o ps corr f L. destruct (add_corr_nth o ps corr L) as (_ & A2 & A3). cbv zeta in *.
  rewrite (sumf_split _ (fun k => nth k (fo_mask o) false)). rewrite L at 1. fold (fo_act o).
  rewrite (sumf_zero _ (filter _ (seq 0 (length ps)))).
  - rewrite sumf_nth. replace (sumf (fun p => f (nth p (fo_act o) 0%nat) * corr p) (seq 0 (length (fo_act o))))
      with (sumf (fun p => f (nth p (fo_act o) 0%nat) * (nth (nth p (fo_act o) 0%nat) (add_corr ps (fo_act o) corr) 0 - nth (nth p (fo_act o) 0%nat) ps 0)) (seq 0 (length (fo_act o)))); [ring|].
    apply sumf_ext. intros p H. apply in_seq in H. rewrite A2 by lia. ring.
  - intros k H. apply filter_In in H as [_ H]. rewrite A3; [ring|]. intros I. apply filter_In in I as [_ I]. rewrite I in H. discriminate H.
Qed.
(** * the responses *)
Variable lstsq : nat -> nat -> (nat -> nat -> K) -> (nat -> K) -> nat -> K.
Lemma responses_length : forall q three m, length (responses lstsq q three m) = m.
Proof. intros q three. induction m as [|m IH]; [reflexivity|]. cbn [responses]. rewrite app_length, IH. cbn [length]. lia. Qed.
Lemma rsp_prefix : forall q three m k o, (1 <= o <= m)%nat -> rsp (responses lstsq q three (m + k)) o = rsp (responses lstsq q three m) o.
Proof.
  intros q three m k o H. induction k as [|k IH]; [now rewrite Nat.add_0_r|]. rewrite Nat.add_succ_r. cbn [responses]. unfold rsp in *. rewrite app_nth1; [exact IH|].
  rewrite responses_length. lia.
Qed.
Lemma rsp_le : forall q three m m' o, (1 <= o <= m)%nat -> (m <= m')%nat -> rsp (responses lstsq q three m') o = rsp (responses lstsq q three m) o.
Proof. intros q three m m' o H L. replace m' with (m + (m' - m))%nat by lia. now apply rsp_prefix. Qed.
Lemma quad_ext : forall (q : cont F) t (u v u' v' : nat -> K), u = u' -> v = v' -> quad q t u v = quad q t u' v'.
Proof. intros. now subst. Qed.
Lemma gen_const_ext : forall (q : cont F) three n prev prev' i, (forall o, (1 <= o < n)%nat -> rsp prev o = rsp prev' o) -> gen_const q three n prev i = gen_const q three n prev' i.
Proof.
  intros q three n prev prev' i H. unfold gen_const. destruct (Nat.eqb_spec n 1) as [->|N1]; [reflexivity|].
  destruct n as [|n].
  { cbn [Nat.sub seq fold_left nat_r Nat.eqb]. destruct (q_eact q), three; ring. }
  assert (R : forall p, fold_left (fun s o => s + comb (S n) o * rsp prev o (q_nactive q - 1)%nat * rsp prev (S n - o) p) (seq 1 (S n - 1)) 0 =
    fold_left (fun s o => s + comb (S n) o * rsp prev' o (q_nactive q - 1)%nat * rsp prev' (S n - o) p) (seq 1 (S n - 1)) 0).
  { intros p. rewrite !fold_add. f_equal. apply sumf_ext. intros o Ho. apply in_seq in Ho. rewrite (H o), (H (S n - o)%nat) by lia. reflexivity. }
  rewrite (H (S n - 1)%nat) by lia.
  assert (B : sumf (fun p => q_d2ep q i p * fold_left (fun s o => s + comb (S n) o * rsp prev o (q_nactive q - 1)%nat * rsp prev (S n - o) p) (seq 1 (S n - 1)) 0) (seq 0 (q_nw q)) =
    sumf (fun p => q_d2ep q i p * fold_left (fun s o => s + comb (S n) o * rsp prev' o (q_nactive q - 1)%nat * rsp prev' (S n - o) p) (seq 1 (S n - 1)) 0) (seq 0 (q_nw q))).
  { apply sumf_ext. intros p _. now rewrite R. }
  rewrite B. clear B R. destruct (q_eact q); [|reflexivity]. destruct three; [|reflexivity].
  destruct (Nat.eqb_spec (S n) 2) as [E|E]; [rewrite (H 1%nat) by lia; reflexivity|]. destruct (Nat.eqb_spec (S n) 3) as [E'|E']; [|reflexivity].
  rewrite (H 1%nat), (H 2%nat) by lia. reflexivity.
Qed.
End L.
