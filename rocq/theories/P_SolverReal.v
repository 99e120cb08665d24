(** C70: the energy that brute returns is the lowest one. *)
From Coq Require Import List ZArith NArith Arith Bool Lia Ring Reals Lra.
From Verif Require Import Py Slater BitSpec Alg WfnCI CILemmas P_CI ParamSel EqnBase EqnSpec EqnLemmas EqnObj EqnReal ProjSpec Solver SolverSpec P_SolverCI.
Import ListNotations.
Local Open Scope nat_scope.

Section S.
Context {K : CField}.
Local Open Scope cr_scope.
Add Ring K_ring123 : (rth K).
Lemma sumf_index : forall {A} (f : A -> K) l d, sumf f l = sumf (fun k => f (nth k l d)) (seq 0 (length l)).
Proof. intros A f l d. rewrite <- (map_nth_seq l d) at 1. apply sumf_map. Qed.
Lemma quad_form : forall n (c : list K) (e : nat -> K) (v : nat -> nat -> K) (M : nat -> nat -> K),
  (forall i j, (i < n)%nat -> (j < n)%nat -> M i j = sumf (fun k => e k * (v k i * v k j)) (seq 0 n)) ->
  sumf (fun i => nth i c 0 * sumf (fun j => M i j * nth j c 0) (seq 0 n)) (seq 0 n)
  = sumf (fun k => e k * (sumf (fun i => v k i * nth i c 0) (seq 0 n) * sumf (fun i => v k i * nth i c 0) (seq 0 n))) (seq 0 n).
Proof.
  intros n c e v M H.
  transitivity (sumf (fun i => sumf (fun k => e k * (v k i * nth i c 0) * sumf (fun j => v k j * nth j c 0) (seq 0 n)) (seq 0 n)) (seq 0 n)).
  - apply sumf_ext. intros i Ii. apply in_seq in Ii. rewrite <- sumf_mul_l.
    transitivity (sumf (fun j => sumf (fun k => e k * (v k i * nth i c 0) * (v k j * nth j c 0)) (seq 0 n)) (seq 0 n)).
    + apply sumf_ext. intros j Ij. apply in_seq in Ij. rewrite H by lia. rewrite <- sumf_mul_r, <- sumf_mul_l. apply sumf_ext. intros k _. ring.
    + rewrite sumf_swap. apply sumf_ext. intros k _. apply sumf_mul_l.
  - rewrite sumf_swap. apply sumf_ext. intros k _. rewrite sumf_mul_r. rewrite sumf_mul_l. ring.
Qed.
Lemma spectral : forall n (m : nat -> nat -> K) vals vecs, eigen_system n m vals vecs -> forall i j, (i < n)%nat -> (j < n)%nat ->
  m i j = sumf (fun k => nth k vals 0 * (nth i (nth k vecs []) 0 * nth j (nth k vecs []) 0)) (seq 0 n).
Proof.
  intros n m vals vecs [L1 L2 L3 Eq Or Co] i j Hi Hj.
  transitivity (sumf (fun l => m i l * sumf (fun v => nth l v 0 * nth j v 0) vecs) (seq 0 n)).
  - rewrite (sumf_single _ _ j) by (auto using seq_NoDup; try (apply in_seq; lia); intros l Hl D; apply in_seq in Hl; rewrite Co by lia; apply Nat.eqb_neq in D; rewrite D; ring).
    rewrite Co, Nat.eqb_refl by lia. ring.
  - rewrite (sumf_ext _ (fun l => sumf (fun k => m i l * (nth l (nth k vecs []) 0 * nth j (nth k vecs []) 0)) (seq 0 n)))
      by (intros l Hl; rewrite (sumf_index _ vecs []), L2, <- sumf_mul_l; reflexivity).
    rewrite sumf_swap. apply sumf_ext. intros k Hk. apply in_seq in Hk.
    rewrite (sumf_ext _ (fun l => m i l * nth l (nth k vecs []) 0 * nth j (nth k vecs []) 0)) by (intros; ring).
    rewrite sumf_mul_r, Eq by lia. ring.
Qed.
End S.

(** Over the reals, if eigh returns the eigenvalues in ascending order: no other coefficients give a lower energy. *)
Lemma sumf_le : forall {A} (f g : A -> R_field) l, (forall x, In x l -> (f x <= g x)%R) -> (sumf f l <= sumf g l)%R.
Proof.
  intros A f g l. induction l as [|a l IH]; intros H; [apply Rle_refl|]. rewrite !sumf_cons. apply Rplus_le_compat; [apply H; simpl; auto|apply IH; intros; apply H; simpl; auto].
Qed.
Theorem C70_brute_minimum : forall eigh (w : ciwfn R_field) (h : bham R_field) save out c (y : sys R_field) W, good_eigh eigh -> brute eigh w h save = Ok out ->
  NoDup (ci_sds w) -> symmetric h (ci_sds w) -> (forall E, In E (b_eigval out) -> (b_energy out <= E)%R) ->
  shows y W h w c -> length c = length (ci_sds w) -> inner c c <> 0%R ->
  exists E, two_energy y W (ci_sds w) None None = Ok E /\ (b_energy out <= E)%R.
Proof.
  intros eigh w h save out c y W G B N S Asc Sh L Nz. destruct (brute_inv _ _ _ _ _ B) as (_ & m & M & Ee & _ & E0 & V0 & _).
  assert (Es := G _ _ _ _ Ee). rewrite (shows_two y W h w m c) by auto. eexists. split; [reflexivity|].
  set (n := length (ci_sds w)) in *. destruct Es as [L1 L2 L3 Eq Or Co] eqn:X. clear X.
  rewrite (quad_form n c (fun k => nth k (b_eigval out) rO) (fun k i => nth i (nth k (b_eigvec out) []) rO) (sym_of m)) by (intros; apply spectral; auto).
  assert (Q : inner c c = sumf (fun k => rmul rI (rmul (sumf (fun i => rmul (nth i (nth k (b_eigvec out) []) rO) (nth i c rO)) (seq 0 n)) (sumf (fun i => rmul (nth i (nth k (b_eigvec out) []) rO) (nth i c rO)) (seq 0 n)))) (seq 0 n)).
  { rewrite <- (quad_form n c (fun _ => rI) (fun k i => nth i (nth k (b_eigvec out) []) rO) (fun i j => if Nat.eqb i j then rI else rO)).
    - rewrite (inner_index n) by auto. apply sumf_ext. intros i Hi. f_equal. symmetry. transitivity (rmul (if Nat.eqb i i then rI else rO : R_field) (nth i c rO)).
      + apply (sumf_single (fun j => rmul (if Nat.eqb i j then rI else rO : R_field) (nth j c rO)) (seq 0 n) i); [apply seq_NoDup|exact Hi|].
        intros j Hj D. rewrite (proj2 (Nat.eqb_neq i j)) by congruence. apply Rmult_0_l.
      + rewrite Nat.eqb_refl. apply Rmult_1_l.
    - intros i j Hi Hj. rewrite <- Co by auto. rewrite (sumf_index _ (b_eigvec out) []), L2. apply sumf_ext. intros k _. symmetry. apply Rmult_1_l. }
  set (d := fun k => sumf (fun i => rmul (nth i (nth k (b_eigvec out) []) rO) (nth i c rO)) (seq 0 n)) in *.
  assert (P : (0 < inner c c)%R).
  { assert (0 <= inner c c)%R.
    { rewrite Q. apply Rle_trans with (sumf (fun _ : nat => rO : R_field) (seq 0 n)); [rewrite sumf_zero by auto; apply Rle_refl|]. apply sumf_le. intros k _. change (0 <= 1 * (d k * d k))%R. rewrite Rmult_1_l. apply Rle_0_sqr. }
    destruct H as [H|H]; auto. exfalso. apply Nz. symmetry. exact H. }
  assert (T : (b_energy out * inner c c <= sumf (fun k => rmul (nth k (b_eigval out) rO) (rmul (d k) (d k))) (seq 0 n))%R).
  { rewrite Q. change (b_energy out * ?s)%R with (rmul (b_energy out : R_field) s). rewrite <- sumf_mul_l. apply sumf_le. intros k Hk. apply in_seq in Hk.
    change (b_energy out * (1 * (d k * d k)) <= nth k (b_eigval out) 0 * (d k * d k))%R. rewrite Rmult_1_l. apply Rmult_le_compat_r; [apply Rle_0_sqr|].
    apply Asc. apply nth_In. lia. }
  apply Rmult_le_reg_r with (inner c c); auto. eapply Rle_trans; [exact T|]. right. change (finv (inner c c)) with (/ inner c c)%R.
  change (?a = ?b * / ?x * ?x)%R with (a = b * / x * x)%R. rewrite Rmult_assoc, Rinv_l by auto. rewrite Rmult_1_r. reflexivity.
Qed.
Print Assumptions C70_brute_minimum.
