(** Chunks, masks and rows of the Jacobian of the projected equations. *)
From Coq Require Import List ZArith Arith Bool Lia Ring.
From Verif Require Import Py Slater Alg BicliqueLemmas Fanci.
Import ListNotations.
Local Open Scope nat_scope.

Section L.
Context {K : CRing}.
Local Open Scope cr_scope.
Add Ring K_ring130 : (rth K).

Lemma chunk_prefix : forall (f : nat -> K) c size m, (1 <= c)%nat ->
  fold_left (fun y ch => y + sumf f (seq (fst ch) (snd ch - fst ch))) (map (fun i => (i * c, Nat.min size (i * c + c)))%nat (seq 0 m)) 0 = sumf f (seq 0 (Nat.min size (m * c))).
Proof.
  intros f c size m Hc. induction m as [|m IH]; [cbn [seq map fold_left Nat.mul]; now rewrite Nat.min_0_r|].
  rewrite List.seq_S, map_app, fold_left_app, IH. cbn [map fold_left fst snd plus].
  destruct (Nat.le_gt_cases size (m * c)) as [H|H].
  - rewrite !Nat.min_l by lia. replace (size - m * c)%nat with 0%nat by lia. cbn [seq sumf fold_right]. change (sumf f []) with (@rO K). ring.
  - rewrite (Nat.min_r size (m * c)) by lia. set (e := Nat.min size (m * c + c)). replace (Nat.min size (S m * c)) with (m * c + (e - m * c))%nat by (unfold e; lia).
    rewrite seq_app, sumf_app. reflexivity.
Qed.
Lemma chunks_sum : forall (f : nat -> K) c size, (1 <= c)%nat ->
  fold_left (fun y ch => y + sumf f (seq (fst ch) (snd ch - fst ch))) (chunks c size) 0 = sumf f (seq 0 size).
Proof.
  intros f c size Hc. unfold chunks. rewrite chunk_prefix by exact Hc. rewrite Nat.min_l; [reflexivity|].
  destruct size as [|s]; [lia|]. assert (D := Nat.div_mod (S s + c - 1) c ltac:(lia)). assert (Mb := Nat.mod_upper_bound (S s + c - 1) c ltac:(lia)). nia.
Qed.
(** * places of the active parameters *)
Lemma ntrue_pref : forall (l : list bool) s (m : list bool), (forall i, (i < length l)%nat -> nth (s + i) m false = nth i l false) ->
  length (filter (fun k => nth k m false) (seq s (length l))) = ntrue l.
Proof.
  induction l as [|b l IH]; intros s m H; [reflexivity|]. cbn [length seq filter]. assert (H0 := H 0%nat ltac:(cbn; lia)). rewrite Nat.add_0_r in H0. cbn [nth] in H0. rewrite H0.
  assert (T : length (filter (fun k => nth k m false) (seq (S s) (length l))) = ntrue l).
  { apply IH. intros i Hi. replace (S s + i)%nat with (s + S i)%nat by lia. rewrite H by (cbn; lia). reflexivity. }
  unfold ntrue. cbn [filter]. destruct b; cbn [length]; rewrite T; reflexivity.
Qed.
Lemma place_of : forall (m : list bool) n k, (k < n)%nat -> (n <= length m)%nat -> nth k m false = true ->
  nth (ntrue (firstn k m)) (filter (fun j => nth j m false) (seq 0 n)) 0%nat = k.
Proof.
  intros m n k Hk Hn Ht. replace n with (k + (1 + (n - k - 1)))%nat by lia. rewrite seq_app, filter_app. cbn [plus].
  assert (L : length (filter (fun j => nth j m false) (seq 0 k)) = ntrue (firstn k m)).
  { assert (G := ntrue_pref (firstn k m) 0 m). rewrite firstn_length, Nat.min_l in G by lia. apply G. intros i Hi. cbn [plus].
    rewrite <- (firstn_skipn k m) at 1. rewrite app_nth1; [reflexivity|]. rewrite firstn_length. lia. }
  rewrite app_nth2 by lia. rewrite L, Nat.sub_diag. cbn [seq filter]. rewrite Ht. reflexivity.
Qed.
Lemma place_unique : forall (l : list nat) i j, NoDup l -> (i < length l)%nat -> (j < length l)%nat -> nth i l 0%nat = nth j l 0%nat -> i = j.
Proof. intros l i j N Hi Hj E. apply (NoDup_nth l 0%nat); auto. Qed.
Lemma act_full : forall o : fobj K, fo_mask o <> [] -> filter (fun k => nth k (fo_mask o) false) (seq 0 (fo_nparam o)) = fo_act o ++ (if fo_eact o then [(fo_nparam o - 1)%nat] else []).
Proof.
  intros o N. unfold fo_act, fo_eact, fo_nparam. destruct (exists_last N) as (l & b & ->). rewrite app_length. cbn [length]. rewrite Nat.add_1_r. cbn [Nat.sub]. rewrite Nat.sub_0_r, List.seq_S, filter_app. cbn [plus]. f_equal.
  cbn [filter]. rewrite app_nth2, Nat.sub_diag, last_last by lia. cbn [nth]. now destruct b.
Qed.
Lemma nactive_full : forall o : fobj K, length (filter (fun k => nth k (fo_mask o) false) (seq 0 (fo_nparam o))) = fo_nactive o.
Proof. intros o. unfold fo_nparam, fo_nactive. apply ntrue_pref. intros i Hi. reflexivity. Qed.
(** * vectors of parameters *)
Lemma wpar_upd_w : forall (x : list K) k y, (k < length x - 1)%nat -> wpar (upd x k y) = upd (wpar x) k y /\ epar (upd x k y) = epar x.
Proof.
  intros x k y H. destruct x as [|a x']; [cbn in H; lia|]. destruct (exists_last (l := a :: x')) as (l & b & E); [discriminate|]. rewrite E in *. clear E. rewrite app_length in H. cbn [length] in H.
  unfold wpar, epar. assert (U : upd (l ++ [b]) k y = upd l k y ++ [b]).
  { clear a x'. revert k H. induction l as [|c l IH]; intros k H; [cbn in H; lia|]. destruct k as [|k]; cbn [upd app]; [reflexivity|]. f_equal. apply IH. cbn in H. lia. }
  rewrite U, !removelast_last, !last_last. split; reflexivity.
Qed.
Lemma wpar_upd_e : forall (x : list K) y, (1 <= length x)%nat -> wpar (upd x (length x - 1) y) = wpar x /\ epar (upd x (length x - 1) y) = y.
Proof.
  intros x y H. destruct x as [|a x']; [cbn in H; lia|]. destruct (exists_last (l := a :: x')) as (l & b & E); [discriminate|]. rewrite E in *. clear E. rewrite app_length in *. cbn [length] in *.
  replace (length l + 1 - 1)%nat with (length l) by lia. unfold wpar, epar. assert (U : upd (l ++ [b]) (length l) y = l ++ [y]).
  { clear. induction l as [|c l IH]; cbn [upd app length]; [reflexivity|]. f_equal. exact IH. }
  rewrite U, !removelast_last, !last_last. split; reflexivity.
Qed.
Lemma epar_nth : forall x : list K, epar x = nth (length x - 1) x 0.
Proof.
  intros x. destruct x as [|a x']; [reflexivity|]. destruct (exists_last (l := a :: x')) as (l & b & E); [discriminate|]. rewrite E. unfold epar. rewrite last_last, app_length. cbn [length].
  rewrite app_nth2 by lia. replace (length l + 1 - 1 - length l)%nat with 0%nat by lia. reflexivity.
Qed.
Lemma wpar_nth : forall (x : list K) k, (k < length x - 1)%nat -> nth k (wpar x) 0 = nth k x 0.
Proof.
  intros x k H. destruct x as [|a x']; [cbn in H; lia|]. destruct (exists_last (l := a :: x')) as (l & b & E); [discriminate|]. rewrite E in *. unfold wpar. rewrite removelast_last. rewrite app_length in H. cbn [length] in H. now rewrite app_nth1 by lia.
Qed.
(** * rows *)
Lemma row_con : forall (o : fobj K) c x i, (i < length (fo_cons o))%nat -> nth (fo_nproj o + i) (compute_jacobian o c x) [] = con_df o c x (snd (nth i (fo_cons o) (NNorm, CNorm))).
Proof.
  intros o c x i Hi. unfold compute_jacobian. rewrite app_nth2; rewrite map_length, seq_length; [|lia]. replace (fo_nproj o + i - fo_nproj o)%nat with i by lia.
  rewrite (nth_indep _ [] (con_df o c x (snd (NNorm, CNorm)))) by (now rewrite map_length). now rewrite (map_nth (fun p => con_df o c x (snd p))).
Qed.
Lemma row_proj : forall (o : fobj K) c x n, (n < fo_nproj o)%nat -> nth n (compute_jacobian o c x) [] =
  map (fun k => sumf (fun j => fo_ci o n j * fo_dovlp o (wpar x) j k) (seq 0 (fo_ns o)) - epar x * fo_dovlp o (wpar x) n k) (fo_act o) ++ (if fo_eact o then [- fo_ovlp o (wpar x) n] else []).
Proof.
  intros o c x n Hn. unfold compute_jacobian. rewrite app_nth1 by (now rewrite map_length, seq_length).
  set (g := fun n : nat => _). rewrite (nth_indep _ [] (g 0%nat)) by (now rewrite map_length, seq_length). rewrite map_nth, seq_nth by exact Hn. reflexivity.
Qed.
Lemma obj_con : forall (o : fobj K) x i, (i < length (fo_cons o))%nat -> nth (fo_nproj o + i) (compute_objective o x) 0 = con_f o x (snd (nth i (fo_cons o) (NNorm, CNorm))).
Proof.
  intros o x i Hi. unfold compute_objective. rewrite app_nth2; rewrite map_length, seq_length; [|lia]. replace (fo_nproj o + i - fo_nproj o)%nat with i by lia.
  rewrite (nth_indep _ 0 (con_f o x (snd (NNorm, CNorm)))) by (now rewrite map_length). now rewrite (map_nth (fun p => con_f o x (snd p))).
Qed.
Lemma obj_proj : forall (o : fobj K) x n, (n < fo_nproj o)%nat -> nth n (compute_objective o x) 0 = sumf (fun j => fo_ci o n j * fo_ovlp o (wpar x) j) (seq 0 (fo_ns o)) - epar x * fo_ovlp o (wpar x) n.
Proof.
  intros o x n Hn. unfold compute_objective. rewrite app_nth1 by (now rewrite map_length, seq_length).
  set (g := fun n : nat => _). rewrite (nth_indep _ 0 (g 0%nat)) by (now rewrite map_length, seq_length). rewrite map_nth, seq_nth by exact Hn. reflexivity.
Qed.
Lemma nth_row : forall (o : fobj K) (f : nat -> K) e p, nth p (map f (fo_act o) ++ (if fo_eact o then [e] else [])) 0 =
  if Nat.ltb p (length (fo_act o)) then f (nth p (fo_act o) 0%nat) else if (fo_eact o && Nat.eqb p (length (fo_act o)))%bool then e else 0.
Proof.
  intros o f e p. destruct (Nat.ltb_spec p (length (fo_act o))) as [H|H].
  - rewrite app_nth1 by (now rewrite map_length). rewrite (nth_indep _ 0 (f 0%nat)) by (now rewrite map_length). now rewrite map_nth.
  - rewrite app_nth2, map_length by (now rewrite map_length). destruct (fo_eact o); cbn [andb].
    + destruct (Nat.eqb_spec p (length (fo_act o))) as [->|N]; [now rewrite Nat.sub_diag|]. apply nth_overflow. cbn. lia.
    + apply nth_overflow. cbn. lia.
Qed.
End L.
