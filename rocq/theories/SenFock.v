(** Guarded excitation operators: what a product of them does does not depend on their order *)
From Coq Require Import List ZArith NArith Arith Bool Lia Permutation Sorted.
From Verif Require Import Py BitSpec BitLemmas Slater SlaterBits SlaterBits2 SignSpec SignLemmas PermLemmas Combos BicliqueLemmas P_Slater1 P_Slater2 Fock FockLemmas FockInner Alg
  CC CCRows CCRows2 CCGen CCSpec CCFock CCExp SenCC SenSpec.
Import ListNotations.
Local Open Scope nat_scope.

Lemma occupied_apply : forall p b n, applys (occupied p) (Some (b, n)) = if bit n (Z.to_nat p) then Some (b, n) else None.
Proof.
  intros p b n. unfold occupied, Ann, Cre. cbn [applys fold_left apply1 fst snd]. destruct (bit n (Z.to_nat p)) eqn:E; cbn [Bool.eqb apply1 fst snd]; [|reflexivity].
  rewrite bit_flip_eq, E. cbn [negb Bool.eqb]. rewrite par_flip, Nat.ltb_irrefl, xorb_false_r, flip_flip, xorb_assoc, xorb_nilpotent, xorb_false_r. reflexivity.
Qed.
Lemma unoccupied_apply : forall p b n, applys (unoccupied p) (Some (b, n)) = if bit n (Z.to_nat p) then None else Some (b, n).
Proof.
  intros p b n. unfold unoccupied, Ann, Cre. cbn [applys fold_left apply1 fst snd]. destruct (bit n (Z.to_nat p)) eqn:E; cbn [Bool.eqb apply1 fst snd]; [reflexivity|].
  rewrite bit_flip_eq, E. cbn [negb Bool.eqb]. rewrite par_flip, Nat.ltb_irrefl, xorb_false_r, flip_flip, xorb_assoc, xorb_nilpotent, xorb_false_r. reflexivity.
Qed.
Definition chk (ns : Z) (n : N) (e : list Z) : bool :=
  forallb (fun z => bit n (Z.to_nat (partner ns z))) (annihilators e) && forallb (fun z => negb (bit n (Z.to_nat (partner ns z)))) (creators e).
Lemma guarded_apply : forall ns e b n, applys (guarded ns e) (Some (b, n)) = if chk ns n e then applys (eops e) (Some (b, n)) else None.
Proof.
  intros ns e b n. unfold guarded, chk. fold (annihilators e). fold (creators e). rewrite !applys_app.
  assert (A : forall l, applys (flat_map (fun z => occupied (partner ns z)) l) (Some (b, n)) = if forallb (fun z => bit n (Z.to_nat (partner ns z))) l then Some (b, n) else None).
  { induction l as [|z l IH]; [reflexivity|]. cbn [flat_map forallb]. rewrite applys_app, occupied_apply. destruct (bit n _); cbn [andb]; [exact IH|apply applys_None]. }
  assert (C : forall l, applys (flat_map (fun z => unoccupied (partner ns z)) l) (Some (b, n)) = if forallb (fun z => negb (bit n (Z.to_nat (partner ns z)))) l then Some (b, n) else None).
  { induction l as [|z l IH]; [reflexivity|]. cbn [flat_map forallb]. rewrite applys_app, unoccupied_apply. destruct (bit n _); cbn [andb negb]; [apply applys_None|exact IH]. }
  rewrite A. destruct (forallb _ (annihilators e)); cbn [andb]; [|now rewrite !applys_None]. rewrite C. destruct (forallb _ (creators e)); [reflexivity|apply applys_None].
Qed.
Definition gops (ns : Z) (ops : list (list Z)) : list op := flat_map (guarded ns) ops.
Definition pops (ops : list (list Z)) : list op := flat_map eops ops.
Lemma guarded_plain : forall ns ops k b m, applys (gops ns ops) k = Some (b, m) -> applys (pops ops) k = Some (b, m).
Proof.
  intros ns. induction ops as [|e ops IH]; intros k b m H; [exact H|]. unfold gops, pops in *. cbn [flat_map] in *. rewrite applys_app in *.
  destruct k as [[s n]|]; [|now rewrite !applys_None in *]. rewrite guarded_apply in H. destruct (chk ns n e); [now apply IH|]. now rewrite applys_None in H.
Qed.

(** ** the sign computed by the program *)
Lemma check_chk : forall ns n e, (forall z, In z e -> (0 <= z < 2 * ns)%Z) -> sen_check ns (Some n) e = Ok (chk ns n e).
Proof.
  intros ns n e H. unfold sen_check.
  assert (P : forall z, In z e -> partner_occ ns (Some n) z = Ok (bit n (Z.to_nat (partner ns z)))).
  { intros z Hz. apply H in Hz. unfold partner_occ, is_alpha. destruct (Z.leb_spec ns 0); [lia|]. destruct (Z.ltb_spec z 0); [lia|]. destruct (Z.ltb_spec (2 * ns) z); [lia|].
    cbn [orb bind]. rewrite occ_bit. unfold partner. now destruct (z <? ns)%Z. }
  assert (Q : forall (f : bool -> bool) l, (forall z, In z l -> In z e) -> mapM (fun i => do b <- partner_occ ns (Some n) i; Ok (f b)) l = Ok (map (fun z => f (bit n (Z.to_nat (partner ns z)))) l)).
  { intros f. induction l as [|z l IH]; intros I; [reflexivity|]. cbn [mapM map]. rewrite P by (apply I; now left). cbn [bind]. rewrite IH by (intros; apply I; now right). reflexivity. }
  assert (Q' : mapM (partner_occ ns (Some n)) (annihilators e) = Ok (map (fun z => bit n (Z.to_nat (partner ns z))) (annihilators e))).
  { assert (I : forall z, In z (annihilators e) -> In z e) by (intros z Hz; rewrite <- (halves e); apply in_app_iff; auto).
    revert I. generalize (annihilators e). induction l as [|z l IH]; intros I; [reflexivity|]. cbn [mapM map]. rewrite P by (apply I; now left). cbn [bind].
    rewrite IH by (intros; apply I; now right). reflexivity. }
  rewrite Q'. cbn [bind]. rewrite (Q negb) by (intros z Hz; rewrite <- (halves e); apply in_app_iff; auto). cbn [bind]. f_equal.
  rewrite forallb_app. unfold chk. assert (R : forall (f : Z -> bool) l, forallb (fun b => b) (map f l) = forallb f l) by (induction l; cbn; congruence). now rewrite !R.
Qed.
Lemma eops_nat : forall e, eops e = map Ann (map Z.to_nat (annihilators e)) ++ map Cre (map Z.to_nat (creators e)).
Proof. intros e. unfold eops. rewrite !map_map. reflexivity. Qed.
Lemma excite_state : forall n e b m, length (annihilators e) = length (creators e) -> applys (eops e) (Some (false, n)) = Some (b, m) ->
  excite (Some n) (map Z.to_nat e) = Ok (Some m) /\ sign_excite (Some n) (map Z.to_nat (annihilators e)) (map Z.to_nat (creators e)) = Ok (sgn b).
Proof.
  intros n e b m L H. rewrite eops_nat in H.
  assert (S : sign_excite (Some n) (map Z.to_nat (annihilators e)) (map Z.to_nat (creators e)) = Ok (sgn b)) by (rewrite sign_excite_eq, H; reflexivity).
  split; [|exact S]. destruct (C12_state _ _ _ _ S) as (m' & E & M). unfold melem in M. rewrite H in M. cbn [braket] in M.
  assert (X : m' = m). { destruct (N.eqb_spec m' m); [auto|]. destruct b; discriminate M. }
  subst m'. rewrite <- (halves e) at 1. rewrite map_app, excite_app by (now rewrite !map_length). now rewrite E.
Qed.
Lemma sign_guarded : forall ns ops n s, (forall e, In e ops -> length (annihilators e) = length (creators e) /\ forall z, In z e -> (0 <= z < 2 * ns)%Z) ->
  sen_sign ns (Some n) s ops = Ok (match applys (gops ns ops) (Some (false, n)) with Some (b, _) => Some (s * sgn b)%Z | None => None end).
Proof.
  intros ns. induction ops as [|e ops IH]; intros n s H.
  - cbn. now rewrite Z.mul_1_r.
  - destruct (H e (or_introl eq_refl)) as [L R]. cbn [sen_sign]. rewrite check_chk by auto. cbn [bind]. unfold gops. cbn [flat_map]. rewrite applys_app, guarded_apply.
    destruct (chk ns n e); cbn [negb]; [|now rewrite applys_None].
    destruct (applys (eops e) (Some (false, n))) as [[b m]|] eqn:E.
    + destruct (excite_state n e b m L E) as [Ex ->]. rewrite Ex. cbn [bind]. rewrite IH by (intros; apply H; now right).
      replace (Some (b, m)) with (xor_ket b (Some (false, m))) by (cbn; now rewrite xorb_false_r). rewrite applys_xor. fold (gops ns ops).
      destruct (applys (gops ns ops) (Some (false, m))) as [[b' m']|]; [|reflexivity]. cbn [xor_ket]. do 2 f_equal. destruct b, b'; cbn; lia.
    + rewrite sign_excite_eq, <- eops_nat, E, applys_None. reflexivity.
Qed.

(** ** the order of the operators *)
Record fine (ns : Z) (n : N) (ops : list (list Z)) : Prop := mkfine {
  fi_nd : NoDup (concat ops);
  fi_range : forall e z, In e ops -> In z e -> (0 <= z < 2 * ns)%Z;
  fi_ann : forall e z, In e ops -> In z (annihilators e) -> bit n (Z.to_nat z) = true;
  fi_cre : forall e z, In e ops -> In z (creators e) -> bit n (Z.to_nat z) = false }.
Lemma concat_perm : forall {A} (l l' : list (list A)), Permutation l l' -> Permutation (concat l) (concat l').
Proof.
  induction 1; cbn [concat]; auto.
  - now apply Permutation_app_head.
  - rewrite !app_assoc. apply Permutation_app_tail, Permutation_app_comm.
  - etransitivity; eauto.
Qed.
Lemma fine_perm : forall ns n ops ops', Permutation ops ops' -> fine ns n ops -> fine ns n ops'.
Proof.
  intros ns n ops ops' P [F1 F2 F3 F4]. assert (I : forall e, In e ops' -> In e ops) by (intros e; apply Permutation_in; now symmetry). constructor; eauto.
  eapply Permutation_NoDup; [apply concat_perm; exact P|auto].
Qed.
(** every partner is as it must be in the reference and no two operators touch partners *)
Definition apart (ns : Z) (n : N) (ops : list (list Z)) : Prop :=
  (forall e, In e ops -> chk ns n e = true) /\
  (forall e e' z, In e ops -> In e' ops -> In z e -> In (partner ns z) e' -> e = e').
Lemma apart_perm : forall ns n ops ops', Permutation ops ops' -> apart ns n ops -> apart ns n ops'.
Proof.
  intros ns n ops ops' P [A B]. assert (I : forall e, In e ops' -> In e ops) by (intros e; apply Permutation_in; now symmetry). split; eauto.
Qed.
Lemma partner_partner : forall ns z, (0 <= z < 2 * ns)%Z -> (0 <= partner ns z < 2 * ns)%Z /\ partner ns (partner ns z) = z.
Proof. intros ns z H. unfold partner. destruct (Z.ltb_spec z ns), (Z.ltb_spec (z + ns) ns), (Z.ltb_spec (z - ns) ns); lia. Qed.
Lemma chk_spec : forall ns n e, chk ns n e = true <-> (forall z, In z (annihilators e) -> bit n (Z.to_nat (partner ns z)) = true) /\
  (forall z, In z (creators e) -> bit n (Z.to_nat (partner ns z)) = false).
Proof.
  intros ns n e. unfold chk. rewrite andb_true_iff, !forallb_forall. split; intros [A B]; (split; [exact A|]); intros z Hz; specialize (B z Hz).
  - now apply negb_true_iff.
  - now rewrite B.
Qed.
Lemma split_In : forall e z, In z e <-> In z (annihilators e) \/ In z (creators e).
Proof. intros e z. rewrite <- (halves e) at 1. apply in_app_iff. Qed.
(** the state after the first operator *)
Lemma first_step : forall ns n e t s, fine ns n (e :: t) -> exists b m, applys (eops e) (Some (s, n)) = Some (b, m) /\
  (forall z, (0 <= z)%Z -> bit m (Z.to_nat z) = xorb (bit n (Z.to_nat z)) (if in_dec Z.eq_dec z e then true else false)) /\ fine ns m t.
Proof.
  intros ns n e t s [F1 F2 F3 F4]. cbn [concat] in F1. apply NoDup_app_iff in F1 as (N1 & N2 & N3).
  assert (O : map snd (eops e) = map Z.to_nat e).
  { transitivity (map Z.to_nat (annihilators e ++ creators e)); [|now rewrite halves]. unfold eops. rewrite !map_app, !map_map. reflexivity. }
  assert (Nd : NoDup (map snd (eops e))).
  { rewrite O. apply NoDup_map_inj; auto. intros x y Hx Hy Exy. apply (F2 e) in Hx; [|now left]. apply (F2 e) in Hy; [|now left]. lia. }
  assert (Bt : forall o, In o (eops e) -> bit n (snd o) = negb (fst o)).
  { intros o Ho. unfold eops in Ho. apply in_app_iff in Ho as [Ho|Ho]; apply in_map_iff in Ho as (z & <- & Hz); cbn.
    - apply (F3 e); [now left|auto].
    - apply (F4 e); [now left|auto]. }
  destruct (can_apply (eops e) s n Nd Bt) as (b & m & E). exists b, m. split; [exact E|].
  destruct (one_way_state _ _ _ _ _ (one_way_bits _ _ Bt) E) as (_ & _ & M).
  assert (Bm : forall z, (0 <= z)%Z -> bit m (Z.to_nat z) = xorb (bit n (Z.to_nat z)) (if in_dec Z.eq_dec z e then true else false)).
  { intros z Hz. rewrite M, O. f_equal. destruct (in_dec Z.eq_dec z e) as [I|I].
    - apply existsb_mem. now apply in_map.
    - apply not_true_iff_false. intros X. apply existsb_mem, in_map_iff in X as (y & Ey & Hy). apply I. assert (0 <= y)%Z by (apply (F2 e); [now left|auto]).
      assert (y = z) by lia. now subst y. }
  split; [exact Bm|]. 
  assert (Un : forall e' z, In e' t -> In z e' -> bit m (Z.to_nat z) = bit n (Z.to_nat z)).
  { intros e' z He Hz. rewrite Bm by (apply (F2 e'); [now right|auto]). destruct (in_dec Z.eq_dec z e) as [I|I]; [|now rewrite xorb_false_r].
    exfalso. apply (N3 z I). apply in_concat. eauto. }
  constructor; auto.
  - intros e' z He. apply F2. now right.
  - intros e' z He Hz. rewrite (Un e') by (auto; apply split_In; auto). apply (F3 e'); [now right|auto].
  - intros e' z He Hz. rewrite (Un e') by (auto; apply split_In; auto). apply (F4 e'); [now right|auto].
Qed.
Lemma apart_plain : forall ns ops n s, fine ns n ops -> apart ns n ops -> applys (gops ns ops) (Some (s, n)) = applys (pops ops) (Some (s, n)).
Proof.
  intros ns. induction ops as [|e t IH]; intros n s F [A B]; [reflexivity|]. unfold gops, pops. cbn [flat_map]. rewrite !applys_app, guarded_apply, A by now left.
  destruct (first_step ns n e t s F) as (b & m & E & Bm & Ft). rewrite E. apply IH; auto.
  assert (Un : forall e' z, In e' t -> In z e' -> bit m (Z.to_nat (partner ns z)) = bit n (Z.to_nat (partner ns z))).
  { intros e' z He Hz. pose proof (fi_range _ _ _ F e' z (or_intror He) Hz) as Rz. destruct (partner_partner ns z Rz) as [Rp _]. rewrite Bm by lia.
    destruct (in_dec Z.eq_dec (partner ns z) e) as [I|I]; [|now rewrite xorb_false_r]. exfalso.
    assert (X : e' = e) by (apply (B e' e z); [now right|now left|auto|auto]). subst e'.
    pose proof (fi_nd _ _ _ F) as N. cbn [concat] in N. apply NoDup_app_iff in N as (_ & _ & N). apply (N z Hz). apply in_concat. eauto. }
  split.
  - intros e' He. apply chk_spec. pose proof (A e' (or_intror He)) as C. apply chk_spec in C as [C1 C2]. split; intros z Hz; rewrite (Un e') by (auto; apply split_In; auto); auto.
  - intros e1 e2 z H1 H2. apply B; now right.
Qed.
Lemma guarded_apart : forall ns ops n s k, fine ns n ops -> applys (gops ns ops) (Some (s, n)) = Some k -> apart ns n ops.
Proof.
  intros ns. induction ops as [|e t IH]; intros n s k F H; [split; intros; contradiction|]. unfold gops in H. cbn [flat_map] in H. rewrite applys_app, guarded_apply in H.
  destruct (chk ns n e) eqn:Ce; [|rewrite applys_None in H; discriminate]. destruct (first_step ns n e t s F) as (b & m & E & Bm & Ft). rewrite E in H.
  destruct (IH m b k Ft H) as [A B]. apply chk_spec in Ce as [C1 C2].
  (* no later operator touches a partner of the first *)
  assert (T : forall e' z, In e' t -> In z e' -> ~ In (partner ns z) e).
  { intros e' z He Hz I. pose proof (fi_range _ _ _ F e' z (or_intror He) Hz) as Rz. destruct (partner_partner ns z Rz) as [Rp PP].
    pose proof (A e' He) as C. apply chk_spec in C as [D1 D2].
    assert (Bp : bit m (Z.to_nat (partner ns z)) = negb (bit n (Z.to_nat (partner ns z)))).
    { rewrite Bm by lia. destruct (in_dec Z.eq_dec (partner ns z) e); [|contradiction]. apply xorb_true_r. }
    apply split_In in I. apply split_In in Hz as [Hz|Hz].
    - pose proof (D1 z Hz) as X. rewrite Bp in X. pose proof (fi_ann _ _ _ F e' z (or_intror He) Hz) as Y. destruct I as [I|I].
      + rewrite (fi_ann _ _ _ F e _ (or_introl eq_refl) I) in X. discriminate.
      + pose proof (C2 _ I) as W. rewrite PP in W. congruence.
    - pose proof (D2 z Hz) as X. rewrite Bp in X. pose proof (fi_cre _ _ _ F e' z (or_intror He) Hz) as Y. destruct I as [I|I].
      + pose proof (C1 _ I) as W. rewrite PP in W. congruence.
      + rewrite (fi_cre _ _ _ F e _ (or_introl eq_refl) I) in X. discriminate. }
  assert (Un : forall e' z, In e' t -> In z e' -> bit m (Z.to_nat (partner ns z)) = bit n (Z.to_nat (partner ns z))).
  { intros e' z He Hz. pose proof (fi_range _ _ _ F e' z (or_intror He) Hz) as Rz. destruct (partner_partner ns z Rz) as [Rp _]. rewrite Bm by lia.
    destruct (in_dec Z.eq_dec (partner ns z) e) as [I|I]; [|now rewrite xorb_false_r]. exfalso. now apply (T e' z). }
  split.
  - intros e' [<-|He]; apply chk_spec; [auto|]. pose proof (A e' He) as C. apply chk_spec in C as [D1 D2].
    split; intros z Hz; rewrite <- (Un e') by (auto; apply split_In; auto); auto.
  - intros e1 e2 z [<-|H1] [<-|H2] Hz Hp; auto.
    + exfalso. pose proof (fi_range _ _ _ F e z (or_introl eq_refl) Hz) as Rz. destruct (partner_partner ns z Rz) as [_ PP]. apply (T e2 (partner ns z)); auto. now rewrite PP.
    + exfalso. now apply (T e1 z).
    + now apply (B e1 e2 z).
Qed.
Lemma guarded_order : forall ns n s ops ops', Permutation ops ops' -> fine ns n ops -> applys (pops ops) (Some (s, n)) = applys (pops ops') (Some (s, n)) ->
  applys (gops ns ops) (Some (s, n)) = applys (gops ns ops') (Some (s, n)).
Proof.
  intros ns n s ops ops' P F E. pose proof (fine_perm _ _ _ _ P F) as F'.
  destruct (applys (gops ns ops) (Some (s, n))) as [k|] eqn:G.
  - pose proof (guarded_apart ns ops n s k F G) as A. rewrite (apart_plain ns ops' n s F' (apart_perm _ _ _ _ P A)), <- E, <- (apart_plain ns ops n s F A). congruence.
  - destruct (applys (gops ns ops') (Some (s, n))) as [k|] eqn:G'; [|reflexivity].
    pose proof (guarded_apart ns ops' n s k F' G') as A. apply (apart_perm _ _ _ _ (Permutation_sym P)) in A.
    rewrite (apart_plain ns ops n s F A) in G. rewrite E in G. apply (apart_perm _ _ _ _ P) in A. rewrite (apart_plain ns ops' n s F' A) in G'. congruence.
Qed.
