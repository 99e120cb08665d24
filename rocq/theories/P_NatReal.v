(** C77: occupation numbers are between zero and the squared norm. *)
From Coq Require Import List ZArith NArith Arith Bool Lia Reals Lra.
From Verif Require Import Py Slater BitSpec Alg WfnCI CILemmas P_CI Fock DensSpec EqnReal SolverSpec NatOrb NatSpec NatFock P_NatOrb.
Import ListNotations.
Local Open Scope nat_scope.

Lemma squares_pos : forall {A} (g : A -> R_field) l, (0 <= sumf (K := R_ring) (fun x => rmul (g x) (g x)) l)%R.
Proof.
  intros A g l. induction l as [|x t IH]; [apply Rle_refl|]. rewrite sumf_cons. pose proof (Rle_0_sqr (g x)) as Q. unfold Rsqr in Q.
  change (0 <= g x * g x + sumf (K := R_ring) (fun x => rmul (g x) (g x)) t)%R. lra.
Qed.
(** of every density matrix *)
Theorem C77_expectation_bounds : forall (psi : list (R_ring * N)) (f : nat -> R_ring) n, NoDup (map snd psi) ->
  (0 <= sumf (fun p => sumf (fun q => rmul (rmul (f p) (f q)) (rdm1 psi p q)) (seq 0 n)) (seq 0 n)
     <= sumf (fun p => rmul (f p) (f p)) (seq 0 n) * sumf (fun a => rmul (fst a) (fst a)) psi)%R.
Proof.
  intros psi f n ND. pose proof (quad_both psi f n ND) as B. rewrite (quad_ann psi f n) in *. split; [apply squares_pos|].
  assert (T : (0 <= sumf (K := R_ring) (fun m => rmul (amp psi f n true m) (amp psi f n true m)) (targets psi n true))%R) by exact (squares_pos (amp psi f n true) (targets psi n true)).
  revert B T. generalize (sumf (K := R_ring) (fun m => rmul (amp psi f n true m) (amp psi f n true m)) (targets psi n true)) as y.
  generalize (sumf (K := R_ring) (fun m => rmul (amp psi f n false m) (amp psi f n false m)) (targets psi n false)) as x.
  intros x y B T. rewrite <- Rplus_0_r at 1. apply (Rle_trans _ (x + y)); [apply Rplus_le_compat_l; exact T|]. apply Req_le. exact B.
Qed.
(** an occupation number as expectation value of a normalized orbital *)
Section O.
Context {K : CField}.
Local Open Scope cr_scope.
Add Ring K_ring145 : (rth K).
Lemma occ_quad : forall (le : K -> K -> Prop) (psi : list (K * N)) k off occ orbs i, natural_of le k (fun p q => rdm1 psi (off + p) (off + q)) occ orbs -> (i < k)%nat ->
  exists f n, nth i occ 0 = sumf (fun p => sumf (fun q => f p * f q * rdm1 psi p q) (seq 0 n)) (seq 0 n) /\ sumf (fun p => f p * f p) (seq 0 n) = 1.
Proof.
  intros le psi k off occ orbs i [A B C D F G _] Li. specialize (F i i Li Li). specialize (D i i Li Li). rewrite Nat.eqb_refl in F, D.
  set (v := nth i orbs []) in *. set (f := fun p => if Nat.ltb p off then 0 else nth (p - off) v 0). exists f, (off + k)%nat.
  assert (Z : forall h : nat -> K, (forall p, (p < off)%nat -> h p = 0) -> sumf h (seq 0 (off + k)) = sumf (fun p => h (off + p)%nat) (seq 0 k)).
  { intros h Hh. rewrite seq_app, sumf_app. rewrite sumf_zero by (intros p Hp; apply in_seq in Hp; apply Hh; lia). cbn [Nat.add].
    transitivity (sumf h (seq off k)); [ring|]. rewrite <- (Nat.add_0_r off) at 1. rewrite <- shift_seq. apply sumf_map. }
  assert (Fo : forall p, f (off + p)%nat = nth p v 0). { intros p. unfold f. rewrite (proj2 (Nat.ltb_ge (off + p) off)) by lia. f_equal. lia. }
  assert (Fz : forall p, (p < off)%nat -> f p = 0) by (intros p Hp; unfold f; now rewrite (proj2 (Nat.ltb_lt p off) Hp)).
  split.
  - rewrite <- F. symmetry. rewrite Z by (intros p Hp; apply sumf_zero; intros q _; rewrite Fz by auto; ring).
    apply sumf_ext. intros p _. rewrite Z by (intros q Hq; rewrite (Fz q) by auto; ring). rewrite <- sumf_mul_l. apply sumf_ext. intros q _. rewrite !Fo. ring.
  - rewrite <- D. rewrite Z by (intros p Hp; rewrite Fz by auto; ring). apply sumf_ext. intros p _. now rewrite !Fo.
Qed.
End O.
(** the occupation numbers of the natural orbitals *)
Theorem C77_bounds : forall eigh argsort (w : ciwfn R_field) k mo occ orbs, eigh_sym eigh -> good_argsort (K := R_field) Rle argsort ->
  ci_nspin w = Z.of_nat (2 * k) -> NoDup (ci_sds w) -> length (ci_sds w) <= length (ci_params w) -> (forall sd, In sd (ci_sds w) -> fits sd (2 * k)) ->
  natural_orbitals eigh argsort w mo = Ok (occ, orbs) ->
  Forall (fun x : R_field => (0 <= x <= sumf (K := R_ring) (fun a => rmul (fst a) (fst a)) (combine (ci_params w) (ci_sds w)))%R) occ.
Proof.
  intros eigh argsort w k mo occ orbs Ge Ga Hk Nd Lw Fw H. destruct (both (K := R_field) Rle eigh argsort Ge Ga w k Hk Nd Lw Fw mo occ orbs H) as (occa & orba & occb & orbb & Na & Nb & -> & _).
  set (psi := combine (ci_params w) (ci_sds w)) in *. assert (NDp : NoDup (map snd psi)) by (unfold psi; now rewrite psi_sds).
  assert (Q : forall off occ orbs, natural_of (K := R_field) Rle k (fun p q => rdm1 psi (off + p) (off + q)) occ orbs ->
    Forall (fun x : R_field => (0 <= x <= sumf (K := R_ring) (fun a => rmul (fst a) (fst a)) psi)%R) occ).
  { intros off occ orbs0 Hn. apply Forall_forall. intros x Hx. destruct (In_nth _ _ (rO : R_field) Hx) as (i & Li & <-). rewrite (no_occ _ _ _ _ _ Hn) in Li.
    destruct (occ_quad _ _ _ _ _ _ _ Hn Li) as (f & n & -> & U). destruct (C77_expectation_bounds psi f n NDp) as [E1 E2].
    split; [exact E1|]. eapply Rle_trans; [exact E2|]. apply Req_le. transitivity (1 * sumf (K := R_ring) (fun a => rmul (fst a) (fst a)) psi)%R; [|apply Rmult_1_l]. f_equal. exact U. }
  apply Forall_app. split; [apply (Q 0 occa orba Na)|apply (Q k occb orbb Nb)].
Qed.
Print Assumptions C77_expectation_bounds.
Print Assumptions C77_bounds.
(** one electron with coefficients 1 and 2 in two orbitals: 0 <= 9 <= 2 * 5 *)
Example C77_ex_bounds : let psi := [(1%R, 1%N); (2%R, 2%N)] : list (R_ring * N) in let f := fun _ : nat => (1%R : R_ring) in
  NoDup (map snd psi) /\ sumf (fun p => sumf (fun q => rmul (rmul (f p) (f q)) (rdm1 psi p q)) (seq 0 2)) (seq 0 2) = 9%R /\
  sumf (fun p => rmul (f p) (f p)) (seq 0 2) = 2%R /\ sumf (fun a => rmul (fst a) (fst a)) psi = 5%R.
Proof.
  cbv zeta. split; [repeat constructor; cbn; intuition discriminate|]. split; [|split].
  - unfold rdm1, expect. cbn [seq]. rewrite !sumf_cons. unfold sumf. cbn [fold_right fst snd].
    repeat match goal with |- context [melem ?a ?b ?c] => let x := eval vm_compute in (melem a b c) in change (melem a b c) with x end.
    cbv [sgnr Z.eqb Pos.eqb]. change (@radd R_ring) with Rplus. change (@rmul R_ring) with Rmult. change (@rI R_ring) with 1%R. change (@rO R_ring) with 0%R. lra.
  - cbn [seq]. rewrite !sumf_cons. unfold sumf. cbn. lra.
  - rewrite !sumf_cons. unfold sumf. cbn. lra.
Qed.
