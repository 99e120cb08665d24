(** C34, C37: orbital-rotation parameters and rotations of the integrals. *)
From Coq Require Import Ring_theory List ZArith NArith Bool Lia Arith QArith Qcanon.
From Verif Require Import Py BitSpec Slater Alg PermLemmas HamSpec HamGen HamSC HamMain HamRes SpinSpec HamRot HamRotLemmas HamRotMat HamRotAssign HamEx HamRotEx P_Ham1 P_Ham2.
Import ListNotations.
Local Open Scope nat_scope.

Lemma twice : forall n i, i < n * (n - 1) / 2 -> (2 * Z.of_nat i < Z.of_nat n * (Z.of_nat n - 1))%Z.
Proof.
  intros n i L. assert (H := half_tri n). assert (L2 : 2 * i < n * (n - 1)) by lia.
  replace (Z.of_nat n * (Z.of_nat n - 1))%Z with (Z.of_nat (n * (n - 1))); [lia|]. rewrite Nat2Z.inj_mul. destruct n; auto. f_equal. lia.
Qed.
Lemma twice_inv : forall n i, (2 * Z.of_nat i < Z.of_nat n * (Z.of_nat n - 1))%Z -> i < n * (n - 1) / 2.
Proof.
  intros n i L. assert (H := half_tri n). replace (Z.of_nat n * (Z.of_nat n - 1))%Z with (Z.of_nat (n * (n - 1))) in L; [lia|].
  rewrite Nat2Z.inj_mul. destruct n; auto. f_equal. lia.
Qed.

(** ** C34 *)

(** every parameter index in range gives a pair x < y < n, with as many pairs before it (row by row) as the index *)
Theorem C34_position : forall n i, i < n * (n - 1) / 2 -> exists x y,
  param_ind_to_rowcol_ind n (Z.of_nat i) = Ok (Z.of_nat x, Z.of_nat y) /\ x < y < n /\
  nth_error (triu_indices n) i = Some (x, y) /\ 2 * i + x * (x + 1) + 2 * (x + 1) = 2 * n * x + 2 * y.
Proof.
  intros n i L. destruct (rowcol_pos n (Z.of_nat i)) as (x & y & E & A); [lia|now apply twice|].
  assert (A' := A). destruct A' as (B & C & D). exists (Z.to_nat x), (Z.to_nat y). rewrite !Z2Nat.id by lia. split; auto. split; [lia|]. split.
  - apply triu_at. rewrite !Z2Nat.id by lia. exact A.
  - apply Nat2Z.inj. rewrite !Nat2Z.inj_add, !Nat2Z.inj_mul, !Nat2Z.inj_add, !Z2Nat.id by lia. unfold rows2 in D. lia.
Qed.
Print Assumptions C34_position.

(** every pair is reached by exactly one index in range *)
Theorem C34_bijection : forall n x y, x < y < n ->
  exists i, i < n * (n - 1) / 2 /\ param_ind_to_rowcol_ind n (Z.of_nat i) = Ok (Z.of_nat x, Z.of_nat y) /\
    forall j, j < n * (n - 1) / 2 -> param_ind_to_rowcol_ind n (Z.of_nat j) = Ok (Z.of_nat x, Z.of_nat y) -> j = i.
Proof.
  intros n x y B. assert (H := half_tri n). destruct (at_pos_exists (Z.of_nat n) (Z.of_nat x) (Z.of_nat y)) as [z A]; [lia|lia|].
  assert (Bz := at_pos_bounds _ _ _ _ A). exists (Z.to_nat z). rewrite !Z2Nat.id by lia. split; [apply twice_inv; rewrite Z2Nat.id; lia|]. split.
  - destruct (rowcol_pos n z) as (x' & y' & E & A'); [lia|lia|]. rewrite E.
    assert (Q1 := at_pos_lex _ _ _ _ _ _ _ A A'). assert (Q2 := at_pos_lex _ _ _ _ _ _ _ A' A). do 2 f_equal; lia.
  - intros j Lj Ej. destruct (rowcol_pos n (Z.of_nat j)) as (x' & y' & E & A'); [lia|now apply twice|]. rewrite E in Ej. injection Ej as -> ->.
    assert (Q := at_pos_inj _ _ _ _ _ A A'). lia.
Qed.
Print Assumptions C34_bijection.

(** the order is row by row *)
Theorem C34_order : forall n i j x y x' y', i < n * (n - 1) / 2 -> j < n * (n - 1) / 2 ->
  param_ind_to_rowcol_ind n (Z.of_nat i) = Ok (x, y) -> param_ind_to_rowcol_ind n (Z.of_nat j) = Ok (x', y') ->
  (i < j <-> (x < x' \/ x = x' /\ y < y')%Z).
Proof.
  intros n i j x y x' y' Li Lj Ei Ej. assert (H := half_tri n).
  destruct (rowcol_pos n (Z.of_nat i)) as (a & b & E & A); [lia|now apply twice|]. rewrite E in Ei. injection Ei as <- <-.
  destruct (rowcol_pos n (Z.of_nat j)) as (c & d & E' & A'); [lia|now apply twice|]. rewrite E' in Ej. injection Ej as <- <-.
  rewrite <- (at_pos_lex _ _ _ _ _ _ _ A A'). lia.
Qed.
Print Assumptions C34_order.

(** the parameter is the element at that row and column of the antisymmetric matrix of unitary_matrix *)
Theorem C34_antihermitian : forall {K : CField} n (el : list K) i x y, 2 * length el = n * (n - 1) -> i < length el ->
  param_ind_to_rowcol_ind n (Z.of_nat i) = Ok (Z.of_nat x, Z.of_nat y) ->
  antiherm n el x y = nth i el rO /\ antiherm n el y x = ropp (nth i el rO).
Proof.
  intros K n el i x y L Li E. destruct (rowcol_pos n (Z.of_nat i)) as (a & b & E' & A); [lia| |].
  { apply twice. rewrite (tri_half n (length el)); auto. }
  rewrite E' in E. injection E as -> ->. now apply antiherm_at.
Qed.
Print Assumptions C34_antihermitian.
Theorem C34_antisymmetric : forall {K : CField} n (el : list K) x y,
  antiherm n el y x = ropp (antiherm n el x y) /\ antiherm n el x x = rO.
Proof. intros. split; [apply antiherm_anti|apply antiherm_diag]. Qed.
Print Assumptions C34_antisymmetric.

(** the dimension is recovered from the number of parameters; other numbers of parameters are rejected *)
Theorem C34_dimension : forall n s, 1 <= n -> s = n * (n - 1) / 2 -> dim_of_size s = Ok n.
Proof. intros n s P ->. apply dim_of_tri; auto. apply half_tri. Qed.
Print Assumptions C34_dimension.
Theorem C34_dimension_rejects : forall s, (forall n, 2 * s <> n * (n - 1)) -> dim_of_size s = Err ValueError.
Proof.
  intros s H. unfold dim_of_size. destruct (Nat.eqb_spec (Nat.sqrt (1 + 8 * s) * Nat.sqrt (1 + 8 * s)) (1 + 8 * s)) as [E|E]; auto.
  exfalso. set (r := Nat.sqrt (1 + 8 * s)) in *. clearbody r. destruct (Nat.Even_or_Odd r) as [[k ->]|[k ->]]; [nia|].
  apply (H (k + 1)). nia.
Qed.
Print Assumptions C34_dimension_rejects.

(** an index out of range is not rejected: the row returned does not exist *)
Theorem C34_range_refuted : forall n i, 0 < n -> n * (n - 1) / 2 <= i ->
  exists y, param_ind_to_rowcol_ind n (Z.of_nat i) = Ok (Z.of_nat n, y).
Proof. intros n i P L. apply rowcol_out; auto. apply Z.nlt_ge. intros G. assert (i < n * (n - 1) / 2); [|lia]. now apply twice_inv. Qed.
Print Assumptions C34_range_refuted.

(** unrestricted: the first half of the parameters rotates the alpha orbitals, the second half the beta orbitals *)
Theorem C34_unrestricted : forall n i, i < n * (n - 1) -> exists s x y,
  u_param_ind_to_rowcol_ind n (Z.of_nat i) = Ok (s, Z.of_nat x, Z.of_nat y) /\ x < y < n /\
  ((s = 0 /\ i < n * (n - 1) / 2 /\ param_ind_to_rowcol_ind n (Z.of_nat i) = Ok (Z.of_nat x, Z.of_nat y)) \/
   (s = 1 /\ n * (n - 1) / 2 <= i /\
    param_ind_to_rowcol_ind n (Z.of_nat (i - n * (n - 1) / 2)) = Ok (Z.of_nat x, Z.of_nat y))).
Proof.
  intros n i L. assert (H := half_tri n). unfold u_param_ind_to_rowcol_ind.
  assert (E : (Z.of_nat n * (Z.of_nat n - 1) / 2)%Z = Z.of_nat (n * (n - 1) / 2)).
  { rewrite Nat2Z.inj_div, Nat2Z.inj_mul. destruct n; auto. do 2 f_equal. lia. }
  rewrite E. destruct (Z.ltb_spec (Z.of_nat i) (Z.of_nat (n * (n - 1) / 2))) as [G|G].
  - destruct (C34_position n i) as (x & y & Ex & B & _); [lia|]. exists 0, x, y. rewrite Ex. cbn [bind fst snd].
    split; auto. split; auto. left. repeat split; lia || auto.
  - destruct (C34_position n (i - n * (n - 1) / 2)) as (x & y & Ex & B & _); [lia|].
    rewrite <- Nat2Z.inj_sub by lia. exists 1, x, y. rewrite Ex. cbn [bind fst snd].
    split; auto. split; auto. right. repeat split; lia || auto.
Qed.
Print Assumptions C34_unrestricted.

Example C34_ex : map (fun i => param_ind_to_rowcol_ind 4 (Z.of_nat i)) (seq 0 7) =
  map (fun p : Z * Z => Ok p) [(0, 1); (0, 2); (0, 3); (1, 2); (1, 3); (2, 3); (4, 1)]%Z /\
  u_param_ind_to_rowcol_ind 3 4 = Ok (1, 0%Z, 2%Z) /\ u_param_ind_to_rowcol_ind 3 2 = Ok (0, 1%Z, 2%Z) /\
  param_ind_to_rowcol_ind 0 0 = Err ZeroDivisionError /\ dim_of_size 6 = Ok 4 /\ dim_of_size 5 = Err ValueError /\
  qs (antiherm 3 [qz 1; qz 2; qz 3] 2 1) = (-3, 1%positive)%Z /\ qs (antiherm 3 [qz 1; qz 2; qz 3] 0 2) = (2, 1%positive)%Z.
Proof. vm_compute. repeat split. Qed.

(** ** C37 *)

(** rotation by a matrix: the formulas of the documentation *)
Theorem C37_matrix : forall {K : CField} (t : ints K) c (m : nat -> nat -> K),
  exists t', orb_rotate_matrix t (i_n t) c m = Ok t' /\ i_n t' = c /\
    (forall a b, i_one t' a b
       = sumf (fun i => sumf (fun j => rmul (rmul (m i a) (i_one t i j)) (m j b)) (seq 0 (i_n t))) (seq 0 (i_n t))) /\
    (forall a b c d, i_two t' a b c d
       = sumf (fun i => sumf (fun j => sumf (fun k => sumf (fun l =>
           rmul (rmul (rmul (rmul (m i a) (m j b)) (i_two t i j k l)) (m k c)) (m l d)) (seq 0 (i_n t)))
           (seq 0 (i_n t))) (seq 0 (i_n t))) (seq 0 (i_n t))).
Proof.
  intros. unfold orb_rotate_matrix. rewrite Nat.eqb_refl. cbn [negb]. eexists. split; [reflexivity|]. split; auto.
  split; intros; [apply rot1_value|apply rot2_value].
Qed.
Print Assumptions C37_matrix.
Theorem C37_matrix_rejects : forall {K : CField} (t : ints K) r c m, r <> i_n t -> orb_rotate_matrix t r c m = Err ValueError.
Proof. intros. unfold orb_rotate_matrix. destruct (Nat.eqb_spec r (i_n t)); [contradiction|auto]. Qed.
Print Assumptions C37_matrix_rejects.

(** two rotations one after the other are the rotation by the product *)
Theorem C37_compose : forall {K : CField} (t t1 t2 : ints K) c d (a b : nat -> nat -> K),
  orb_rotate_matrix t (i_n t) c a = Ok t1 -> orb_rotate_matrix t1 c d b = Ok t2 ->
  exists t3, orb_rotate_matrix t (i_n t) d (mdot c a b) = Ok t3 /\ ieq t2 t3.
Proof.
  intros K t t1 t2 c d a b E1 E2. unfold orb_rotate_matrix in *. rewrite Nat.eqb_refl in *. cbn [negb] in *.
  apply Ok_inj in E1. subst t1. cbn [i_n i_one i_two] in E2. rewrite Nat.eqb_refl in E2. cbn [negb] in E2. apply Ok_inj in E2. subst t2.
  eexists. split; [reflexivity|]. split; [auto|]. split; repeat intro; cbn [i_one i_two].
  - apply rot1_comp.
  - apply rot2_comp.
Qed.
Print Assumptions C37_compose.

(** the Jacobi rotation is the rotation by the Givens matrix of the sorted pair *)
Theorem C37_jacobi : forall {K : CField} (t : ints K) p q (co si : K), p <> q -> p < i_n t -> q < i_n t ->
  exists s r, orb_rotate_jacobi t (Z.of_nat p) (Z.of_nat q) co si = Ok s /\
    orb_rotate_matrix t (i_n t) (i_n t) (givens (Nat.min p q) (Nat.max p q) co si) = Ok r /\ ieq s r.
Proof.
  intros K t p q co si N Lp Lq. unfold orb_rotate_jacobi, orb_rotate_matrix. rewrite Nat.eqb_refl. cbn [negb].
  destruct (Z.eqb_spec (Z.of_nat p) (Z.of_nat q)); [lia|].
  replace ((0 <=? Z.of_nat p) && (Z.of_nat p <? Z.of_nat (i_n t)) && ((0 <=? Z.of_nat q) && (Z.of_nat q <? Z.of_nat (i_n t))))%Z with true by lia.
  cbn [negb]. destruct (Z.ltb_spec (Z.of_nat q) (Z.of_nat p)); rewrite !Nat2Z.id; eexists _, _; split; try reflexivity; split; try reflexivity;
    (split; [auto|]); cbn [i_n i_one i_two].
  - rewrite Nat.min_r, Nat.max_l by lia. split; [apply jac_one|apply jac_two]; lia.
  - rewrite Nat.min_l, Nat.max_r by lia. split; [apply jac_one|apply jac_two]; lia.
Qed.
Print Assumptions C37_jacobi.

(** the order of the two indices does not matter, in particular it does not reverse the rotation *)
Theorem C37_jacobi_symmetric : forall {K : CField} (t : ints K) p q (co si : K),
  orb_rotate_jacobi t p q co si = orb_rotate_jacobi t q p co si.
Proof.
  intros. unfold orb_rotate_jacobi. rewrite (Z.eqb_sym q p). destruct (Z.eqb_spec p q) as [|N]; auto.
  rewrite andb_comm. destruct (negb _); auto. destruct (Z.ltb_spec q p), (Z.ltb_spec p q); auto; lia.
Qed.
Print Assumptions C37_jacobi_symmetric.

Theorem C37_jacobi_rejects : forall {K : CField} (t : ints K) p q (co si : K),
  (p = q \/ ~ (0 <= p < Z.of_nat (i_n t)) \/ ~ (0 <= q < Z.of_nat (i_n t)))%Z -> orb_rotate_jacobi t p q co si = Err ValueError.
Proof.
  intros K t p q co si H. unfold orb_rotate_jacobi. destruct (Z.eqb_spec p q); auto.
  replace ((0 <=? p) && (p <? Z.of_nat (i_n t)) && ((0 <=? q) && (q <? Z.of_nat (i_n t))))%Z with false by lia. auto.
Qed.
Print Assumptions C37_jacobi_rejects.

(** the opposite angle restores the integrals *)
Theorem C37_jacobi_inverse : forall {K : CField} (t s : ints K) p q (co si : K), radd (rmul co co) (rmul si si) = rI ->
  p <> q -> p < i_n t -> q < i_n t ->
  orb_rotate_jacobi t (Z.of_nat p) (Z.of_nat q) co si = Ok s ->
  exists u, orb_rotate_jacobi s (Z.of_nat p) (Z.of_nat q) co (ropp si) = Ok u /\ ieq u t.
Proof.
  intros K t s p q co si C N Lp Lq E. destruct (C37_jacobi t p q co si N Lp Lq) as (s' & r & E1 & R & I). rewrite E in E1. apply Ok_inj in E1. subst s'.
  destruct I as (In & I1 & I2). assert (Ir : i_n r = i_n t).
  { unfold orb_rotate_matrix in R. rewrite Nat.eqb_refl in R. cbn [negb] in R. apply Ok_inj in R. now subst r. }
  rewrite Ir in In.
  destruct (C37_jacobi s p q co (ropp si) N) as (u & r2 & E2 & R2 & I'); try lia. exists u. split; auto.
  assert (X : ieq s (rot t (givens (Nat.min p q) (Nat.max p q) co si))).
  { unfold orb_rotate_matrix in R. rewrite Nat.eqb_refl in R. cbn [negb] in R. apply Ok_inj in R. subst r. split; auto. }
  assert (Y : ieq u (rot s (givens (Nat.min p q) (Nat.max p q) co (ropp si)))).
  { unfold orb_rotate_matrix in R2. rewrite Nat.eqb_refl in R2. cbn [negb] in R2. apply Ok_inj in R2. subst r2. auto. }
  eapply ieq_trans; [exact Y|]. eapply ieq_trans; [apply rot_ieq; [exact X|apply meq_refl]|].
  eapply ieq_trans; [apply rot_comp|]. eapply ieq_trans; [|apply rot_ident]. apply rot_ieq; [apply ieq_refl|].
  apply givens_inv; auto; lia.
Qed.
Print Assumptions C37_jacobi_inverse.

(** unrestricted orbitals: indices below n rotate the alpha orbitals, the others the beta orbitals *)
Theorem C37_unrestricted_alpha : forall {K : CField} (t : uints K) p q (co si : K), p <> q -> p < ui_n t -> q < ui_n t ->
  exists s r, u_orb_rotate_jacobi t (Z.of_nat p) (Z.of_nat q) co si = Ok s /\
    u_orb_rotate_matrix t (ui_n t) (ui_n t) (givens (Nat.min p q) (Nat.max p q) co si) (ui_n t) (ui_n t) ident = Ok r /\ uieq s r.
Proof.
  intros K t p q co si N Lp Lq. unfold u_orb_rotate_jacobi, u_orb_rotate_matrix. rewrite Nat.eqb_refl. cbn [negb andb].
  destruct (Z.eqb_spec (Z.of_nat p) (Z.of_nat q)); [lia|].
  replace ((0 <=? Z.of_nat p) && (Z.of_nat p <? Z.of_nat (ui_n t) + Z.of_nat (ui_n t)) && ((0 <=? Z.of_nat q) && (Z.of_nat q <? Z.of_nat (ui_n t) + Z.of_nat (ui_n t))))%Z with true by lia.
  rewrite (Z.div_small (Z.of_nat p)), (Z.div_small (Z.of_nat q)) by lia. cbn [negb Z.eqb].
  destruct (Z.ltb_spec (Z.of_nat q) (Z.of_nat p)); rewrite ?(Z.div_small (Z.of_nat p)), ?(Z.div_small (Z.of_nat q)), !Z.mod_small, !Nat2Z.id by lia; cbn [Z.eqb];
    eexists _, _; (split; [reflexivity|]); (split; [reflexivity|]);
    (split; [auto|]); cbn [ui_n ui_one0 ui_one1 ui_two0 ui_two1 ui_two2].
  - rewrite Nat.min_r, Nat.max_l by lia. split; [apply jac_one; lia|]. split; [apply meq_sym, rot1_ident|].
    split; [apply jac_two; lia|]. split; [apply jac_alpha; lia|]. repeat intro. symmetry. now apply rot2_ident.
  - rewrite Nat.min_l, Nat.max_r by lia. split; [apply jac_one; lia|]. split; [apply meq_sym, rot1_ident|].
    split; [apply jac_two; lia|]. split; [apply jac_alpha; lia|]. repeat intro. symmetry. now apply rot2_ident.
Qed.
Print Assumptions C37_unrestricted_alpha.
Theorem C37_unrestricted_beta : forall {K : CField} (t : uints K) p q (co si : K), p <> q -> p < ui_n t -> q < ui_n t ->
  exists s r, u_orb_rotate_jacobi t (Z.of_nat (ui_n t + p)) (Z.of_nat (ui_n t + q)) co si = Ok s /\
    u_orb_rotate_matrix t (ui_n t) (ui_n t) ident (ui_n t) (ui_n t) (givens (Nat.min p q) (Nat.max p q) co si) = Ok r /\ uieq s r.
Proof.
  intros K t p q co si N Lp Lq. unfold u_orb_rotate_jacobi, u_orb_rotate_matrix. rewrite Nat.eqb_refl. cbn [negb andb].
  destruct (Z.eqb_spec (Z.of_nat (ui_n t + p)) (Z.of_nat (ui_n t + q))); [lia|].
  rewrite (proj2 (Z.leb_le 0 (Z.of_nat (ui_n t + p)))), (proj2 (Z.leb_le 0 (Z.of_nat (ui_n t + q)))),
    (proj2 (Z.ltb_lt (Z.of_nat (ui_n t + p)) (Z.of_nat (ui_n t) + Z.of_nat (ui_n t)))),
    (proj2 (Z.ltb_lt (Z.of_nat (ui_n t + q)) (Z.of_nat (ui_n t) + Z.of_nat (ui_n t)))) by lia. cbn [andb].
  assert (D : forall x, x < ui_n t -> (Z.of_nat (ui_n t + x) / Z.of_nat (ui_n t) = 1)%Z /\ (Z.of_nat (ui_n t + x) mod Z.of_nat (ui_n t) = Z.of_nat x)%Z).
  { intros x Lx. rewrite Nat2Z.inj_add. replace (Z.of_nat (ui_n t) + Z.of_nat x)%Z with (Z.of_nat x + 1 * Z.of_nat (ui_n t))%Z by lia.
    rewrite Z.div_add, Z.mod_add, Z.div_small, Z.mod_small by lia. split; lia. }
  rewrite (proj1 (D p Lp)), (proj1 (D q Lq)). cbn [negb Z.eqb Pos.eqb].
  destruct (Z.ltb_spec (Z.of_nat (ui_n t + q)) (Z.of_nat (ui_n t + p))); rewrite ?(proj1 (D p Lp)), ?(proj1 (D q Lq)), (proj2 (D p Lp)), (proj2 (D q Lq)), !Nat2Z.id; cbn [Z.eqb];
    eexists _, _; (split; [reflexivity|]); (split; [reflexivity|]);
    (split; [auto|]); cbn [ui_n ui_one0 ui_one1 ui_two0 ui_two1 ui_two2].
  - rewrite Nat.min_r, Nat.max_l by lia. split; [apply meq_sym, rot1_ident|]. split; [apply jac_one; lia|].
    split; [repeat intro; symmetry; now apply rot2_ident|]. split; [apply jac_beta; lia|]. apply jac_two; lia.
  - rewrite Nat.min_l, Nat.max_r by lia. split; [apply meq_sym, rot1_ident|]. split; [apply jac_one; lia|].
    split; [repeat intro; symmetry; now apply rot2_ident|]. split; [apply jac_beta; lia|]. apply jac_two; lia.
Qed.
Print Assumptions C37_unrestricted_beta.
Theorem C37_unrestricted_rejects : forall {K : CField} (t : uints K) p q (co si : K), let n := Z.of_nat (ui_n t) in
  (p = q \/ ~ (0 <= p < 2 * n) \/ ~ (0 <= q < 2 * n) \/ (p < n /\ n <= q) \/ (q < n /\ n <= p))%Z ->
  u_orb_rotate_jacobi t p q co si = Err ValueError.
Proof.
  intros K t p q co si n H. unfold u_orb_rotate_jacobi. fold n. destruct (Z.eqb_spec p q); auto.
  destruct ((0 <=? p) && (p <? n + n) && ((0 <=? q) && (q <? n + n)))%Z eqn:B; auto. cbn [negb].
  assert (R : (0 <= p < 2 * n /\ 0 <= q < 2 * n)%Z) by lia. destruct H as [H|[H|[H|[H|H]]]]; try lia.
  - rewrite (Z.div_small p) by lia. replace (q / n)%Z with 1%Z; [reflexivity|]. apply Z.div_unique with (q - n)%Z; lia.
  - rewrite (Z.div_small q) by lia. replace (p / n)%Z with 1%Z; [reflexivity|]. apply Z.div_unique with (p - n)%Z; lia.
Qed.
Print Assumptions C37_unrestricted_rejects.

(** finding: the rotation methods of the chemical Hamiltonians do not refresh the cached integrals, so the matrix
    elements after orb_rotate_jacobi are not those of the rotated integrals *)
Theorem C37_stale_cache_refuted : exists (o : hobj Qc_field) o' p q co si,
  radd (rmul co co) (rmul si si) = rI /\ cached (obj_gham o) /\ obj_jacobi o p q co si = (o', Ok tt) /\
  ~ cached (obj_gham o') /\ integrate_sd_sd (obj_gham o') 3 3 <> integrate_sd_sd (obj_gham (obj_cache o')) 3 3.
Proof.
  exists (fst (new_ham ex_big ex_huge ex_expm (ex_ints 3) None false)).
  eexists. exists 0%Z, 2%Z, (qf 3 5), (qf 4 5). split; [apply Qc_is_canon; reflexivity|]. split; [split; reflexivity|].
  split; [unfold obj_jacobi, orb_rotate_jacobi; cbn [i_n o_ints fst]; reflexivity|].
  split; [|intros E; apply (f_equal (fun r => match r with Ok v => qs v | Err _ => (0%Z, 1%positive) end)) in E; vm_compute in E; discriminate E].
  intros C. 
  assert (W : this (gh_ijij (obj_gham (fst (obj_jacobi (fst (new_ham ex_big ex_huge ex_expm (ex_ints 3) None false)) 0 2 (qf 3 5) (qf 4 5)))) 0 1)
           = this (gh_two (obj_gham (fst (obj_jacobi (fst (new_ham ex_big ex_huge ex_expm (ex_ints 3) None false)) 0 2 (qf 3 5) (qf 4 5)))) 0 1 0 1)).
  { f_equal. apply (proj1 (C 0 1)). }
  vm_compute in W. discriminate W.
Qed.
Print Assumptions C37_stale_cache_refuted.

Example C37_ex :
  (do t <- orb_rotate_jacobi (ex_ints 3) 2 0 (qf 3 5) (qf 4 5); Ok (qs (i_one t 0 1), qs (i_two t 0 1 2 0)))
  = Ok (32, 5%positive, (1106, 125%positive))%Z /\
  (do t <- orb_rotate_matrix (ex_ints 3) 3 3 (givens 0 2 (qf 3 5) (qf 4 5)); Ok (qs (i_one t 0 1), qs (i_two t 0 1 2 0)))
  = Ok (32, 5%positive, (1106, 125%positive))%Z /\
  (do t <- u_orb_rotate_jacobi (ex_uints 3) 5 3 (qf 3 5) (qf 4 5); Ok (qs (ui_one0 t 0 1), qs (ui_one1 t 0 1), qs (ui_two1 t 0 1 2 0)))
  = Ok (24, 1%positive, (24, 5%positive), (18, 5%positive))%Z /\
  (do t <- u_orb_rotate_jacobi (ex_uints 3) 0 1 (qf 3 5) (qf 4 5); Ok (qs (ui_one0 t 0 1), qs (ui_one1 t 0 1), qs (ui_two1 t 0 1 2 0)))
  = Ok (-516, 25%positive, (24, 1%positive), (14, 5%positive))%Z /\
  (do t <- u_orb_rotate_jacobi (ex_uints 3) 5 2 (qf 3 5) (qf 4 5); Ok 0) = Err ValueError /\
  (do t <- orb_rotate_jacobi (ex_ints 3) 1 3 (qf 3 5) (qf 4 5); Ok 0) = Err ValueError /\
  (do t <- orb_rotate_matrix (ex_ints 3) 2 3 (givens 0 2 (qf 3 5) (qf 4 5)); Ok 0) = Err ValueError.
Proof. vm_compute. repeat split. Qed.
