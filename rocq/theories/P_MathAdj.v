(** C79: adjugate; eigh and power_symmetric. *)
From Coq Require Import Ring_theory List ZArith NArith Bool Lia Arith QArith Qcanon.
From Verif Require Import Py Slater Alg MathTools DetLemmas HamMain MathAdj MathAdjSpec MathAdjL MathAdjEx.
Import ListNotations.
Local Open Scope nat_scope.

(** a square matrix whose determinant is not too small: the transposed matrix of cofactors *)
Theorem C79_adjugate : forall {K : CField} inv small n (m : nat -> nat -> K), good_inv inv -> small rO = true ->
  0 < n -> small (det n m) = false ->
  exists a, adjugate inv small n n m = Ok a /\
    forall i j, i < n -> j < n -> a i j = cofactor n m j i.
Proof.
  intros K inv small n m Gi S0 Hn Hs. unfold adjugate. destruct (Nat.eqb_spec (n * n) 0) as [E|_]; [destruct n; [lia|discriminate]|].
  rewrite Nat.eqb_refl. cbn [negb]. rewrite Hs. destruct (Gi n m) as (x & -> & Hx); [congruence|]. cbn [bind].
  eexists. split; [reflexivity|]. intros i j Hi Hj. now apply adj_unique.
Qed.
Print Assumptions C79_adjugate.

(** its products with the matrix are the determinant times the unit matrix *)
Theorem C79_products : forall {K : CField} inv small n (m : nat -> nat -> K) a, good_inv inv -> small rO = true ->
  adjugate inv small n n m = Ok a -> forall i j, i < n -> j < n ->
  mat_mul n a m i j = rmul (det n m) (unit_mat i j) /\ mat_mul n m a i j = rmul (det n m) (unit_mat i j).
Proof.
  intros K inv small n m a Gi S0 E i j Hi Hj.
  assert (Hs : small (det n m) = false).
  { unfold adjugate in E. destruct (Nat.eqb (n * n) 0); [discriminate|]. rewrite Nat.eqb_refl in E. cbn [negb] in E.
    destruct (small (det n m)); [discriminate|reflexivity]. }
  destruct (C79_adjugate inv small n m Gi S0 ltac:(lia) Hs) as (a' & E' & H). assert (a' = a) by congruence. subst a'. split.
  - rewrite <- adj_left by auto. unfold mat_mul. apply sumf_ext. intros k Hk. apply in_seq in Hk. now rewrite H by lia.
  - transitivity (if Nat.eqb j i then det n m else rO).
    + rewrite <- row_expand by auto. unfold mat_mul. apply sumf_ext. intros k Hk. apply in_seq in Hk. now rewrite H by lia.
    + unfold unit_mat. rewrite Nat.eqb_sym. destruct (Nat.eqb i j).
      * now rewrite (Rmul_comm (rth K)), (Rmul_1_l (rth K)).
      * rewrite (Rmul_comm (rth K)). symmetry. apply cr_mul_0_l.
Qed.
Print Assumptions C79_products.

(** everything else is refused: empty matrices with ValueError, others with LinAlgError *)
Theorem C79_refused : forall {K : CField} inv small nr nc (m : nat -> nat -> K), good_inv inv -> small rO = true ->
  ((nr = 0 \/ nc = 0) -> adjugate inv small nr nc m = Err ValueError) /\
  (nr <> 0 -> nc <> 0 -> (nr <> nc \/ small (det nr m) = true) -> adjugate inv small nr nc m = Err (Exc 1)).
Proof.
  intros K inv small nr nc m Gi S0. unfold adjugate. split.
  - intros H. replace (nr * nc) with 0 by (destruct H; subst; lia). reflexivity.
  - intros A B C. destruct (Nat.eqb_spec (nr * nc) 0) as [E|_]; [apply Nat.eq_mul_0 in E; tauto|].
    destruct (Nat.eqb_spec nr nc) as [<-|]; cbn [negb]; [|reflexivity]. destruct C as [C|C]; [congruence|rewrite C; reflexivity].
Qed.
Print Assumptions C79_refused.

(** eigh and power_symmetric never return: eigh negates an array of booleans *)
Theorem C79_eigh_refuted : forall {K : CField} np_eigh argsort (kept : K -> bool) nr nc m,
  (nr <> nc -> mt_eigh np_eigh argsort kept nr nc m = Err (Exc 2)) /\
  (forall r, np_eigh nr m = Ok r -> nr = nc -> mt_eigh np_eigh argsort kept nr nc m = Err TypeError).
Proof.
  intros K np_eigh argsort kept nr nc m. unfold mt_eigh. split.
  - intros H. destruct (Nat.eqb_spec nr nc); [congruence|reflexivity].
  - intros r E <-. rewrite Nat.eqb_refl. cbn [negb]. rewrite E. reflexivity.
Qed.
Theorem C79_power_refuted : forall {K : CField} np_eigh argsort (kept asym neg : K -> bool) frac pow n m r,
  0 < n -> np_eigh n m = Ok r -> (forall i j, i < n -> j < n -> m i j = m j i) -> asym rO = false ->
  power_symmetric np_eigh argsort kept asym neg frac pow n n m = Err TypeError.
Proof.
  intros K np_eigh argsort kept asym neg frac pow n m r Hn E S A. unfold power_symmetric. rewrite Nat.eqb_refl. cbn [negb].
  destruct (Nat.eqb_spec n 0); [lia|]. destruct (existsb _ _) eqn:X.
  - apply existsb_exists in X as ([i j] & I & X). apply in_prod_iff in I as [I J]. apply in_seq in I. apply in_seq in J. cbn [fst snd] in X.
    rewrite (S i j) in X by lia. rewrite (Rsub_def (rth K)), (Ropp_def (rth K)) in X. congruence.
  - destruct (C79_eigh_refuted np_eigh argsort kept n n m) as [_ H]. now rewrite (H r E eq_refl).
Qed.
Print Assumptions C79_eigh_refuted.
Print Assumptions C79_power_refuted.

(** the contract of the inverse can be met in every field *)
Theorem C79_inverse : forall {K : CField}, good_inv (K := K) cof_inv.
Proof.
  intros K n m D. eexists. split; [reflexivity|]. intros i j Hi Hj. exact (cof_inv_right n m D i j Hi Hj).
Qed.
Print Assumptions C79_inverse.
Example C79_ex : good_inv (K := Qc_field) ex_inv /\ ex_small (rO (c := Qc_field)) = true /\ ex_small (det (K := Qc_field) 3 ex_m) = false /\
  match adjugate (K := Qc_field) ex_inv ex_small 3 3 ex_m with
  | Ok a => map (fun i => map (fun j => this (a i j)) (seq 0 3)) (seq 0 3) = [[-10; 4; -13]; [5; -19; -2]; [-20; -9; 8]]%Q
  | Err _ => False end /\
  adjugate (K := Qc_field) ex_inv ex_small 2 2 (fun i j => 1%Qc) = Err (Exc 1) /\
  adjugate (K := Qc_field) ex_inv ex_small 2 3 ex_m = Err (Exc 1) /\ adjugate (K := Qc_field) ex_inv ex_small 0 3 ex_m = Err ValueError.
Proof. split; [exact C79_inverse|]. vm_compute. repeat split. Qed.
Example C79_power_ex : power_symmetric (K := Qc_field) (fun n _ => Ok (repeat 1%Qc n, map (fun i => map (fun j => if Nat.eqb i j then 1%Qc else 0%Qc) (seq 0 n)) (seq 0 n)))
  (fun l => seq 0 (length l)) (fun x => negb (ex_small x)) (fun x => negb (ex_small x)) (fun x => negb (Qle_bool 0 (this x))) true (fun x => x)
  2 2 (fun i j => if Nat.eqb i j then 1%Qc else 0%Qc) = Err TypeError.
Proof. vm_compute. reflexivity. Qed.
