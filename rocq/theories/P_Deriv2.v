(** C35: the paths of the code's rotation matrices; rejected indices; findings; examples. *)
From Coq Require Import Ring_theory List ZArith NArith Bool Lia Arith QArith Qcanon.
From Verif Require Import Py BitSpec BitLemmas Slater Fock SignLemmas Alg PermLemmas PermSpec HamSpec HamGen HamLemmas HamSC HamMain HamRes SpinSpec HamSpin HamSpinSum
  HamRot HamRotLemmas HamRotMat HamRotAssign HamRotTaylor HamEx HamRotEx HamDeriv DerivSpec DerivHams DerivLemmas DerivGen DerivSpin DerivSpin2 DerivSpin4 DerivTan DerivEx
  P_Ham1 P_Rot.
Import ListNotations.
Local Open Scope nat_scope.

(** the antihermitian matrix of the parameters (0, .., 0, e, 0, ..) is e times the generator *)
Definition one_param {K : CRing} (len i : nat) (e : K) : list K := map (fun j => if Nat.eqb j i then e else rO) (seq 0 len).
Section Path.
Context {K : CField}.
Local Open Scope cr_scope.
Add Ring K_ring36 : (rth K).
Lemma one_param_nth : forall len i (e : K) j, (j < len)%nat -> nth j (one_param len i e) 0 = if Nat.eqb j i then e else 0.
Proof.
  intros len i e j L. unfold one_param.
  rewrite (nth_indep _ 0 ((fun j => if Nat.eqb j i then e else 0) 0%nat)) by (rewrite map_length, seq_length; auto).
  rewrite (map_nth (fun j => if Nat.eqb j i then e else 0)). now rewrite seq_nth.
Qed.
Theorem C35_generator : forall n i (e : K), (i < n * (n - 1) / 2)%nat -> exists x y,
  param_ind_to_rowcol_ind n (Z.of_nat i) = Ok (Z.of_nat x, Z.of_nat y) /\
  forall p q, (p < n)%nat -> (q < n)%nat -> antiherm n (one_param (n * (n - 1) / 2) i e) p q = e * gen_xy x y p q.
Proof.
  intros n i e L. assert (H := half_tri n). destruct (C34_position n i L) as (x & y & E & B & _). exists x, y. split; auto.
  assert (LL : length (one_param (n * (n - 1) / 2) i e) = (n * (n - 1) / 2)%nat) by (unfold one_param; now rewrite map_length, seq_length).
  assert (U : forall p q, (p < q < n)%nat -> antiherm n (one_param (n * (n - 1) / 2) i e) p q = e * gen_xy x y p q).
  { intros p q Lt. destruct (C34_bijection n p q Lt) as (j & Lj & Ej & Uj).
    destruct (C34_antihermitian n (one_param (n * (n - 1) / 2) i e) j p q) as [-> _]; auto; try (rewrite LL; lia). rewrite one_param_nth by auto. unfold gen_xy.
    assert (NQ : (Nat.eqb p y && Nat.eqb q x)%bool = false).
    { destruct (Nat.eqb_spec p y), (Nat.eqb_spec q x); auto. lia. }
    rewrite NQ. destruct (Nat.eqb_spec j i) as [->|Ne].
    - rewrite E in Ej. assert (x = p /\ y = q) as [-> ->] by (injection Ej; lia). rewrite !Nat.eqb_refl. cbn [andb]. ring.
    - destruct (Nat.eqb_spec p x) as [->|]; [destruct (Nat.eqb_spec q y) as [->|]|]; cbn [andb]; try ring.
      exfalso. apply Ne. symmetry. apply Uj; auto. }
  intros p q Hp Hq. destruct (Nat.lt_trichotomy p q) as [Lt|[->|Lt]].
  - apply U; lia.
  - rewrite antiherm_diag. unfold gen_xy. destruct (Nat.eqb_spec q x), (Nat.eqb_spec q y); cbn [andb]; try ring; lia.
  - rewrite antiherm_anti, (U q p) by lia. unfold gen_xy. rewrite (andb_comm (Nat.eqb q _)), (andb_comm (Nat.eqb q y)). ring.
Qed.

Fixpoint kpow (e : K) (k : nat) : K := match k with O => 1 | S k => e * kpow e k end.
Lemma mpow_scale : forall n (a : nat -> nat -> K) e k i j, mpow n (fun i j => e * a i j) k i j = kpow e k * mpow n a k i j.
Proof.
  intros n a e. induction k as [|k IH]; intros i j; cbn [mpow kpow]; [ring|]. unfold mdot. rewrite !psum_sumf. rewrite <- sumf_mul_l.
  apply sumf_ext. intros x _. rewrite IH. ring.
Qed.
Lemma horner_terms : forall e (f : nat -> K) len s, kpow e s * horner (map f (seq s len)) e = sumf (fun k => kpow e k * f k) (seq s len).
Proof.
  intros e f. induction len as [|len IH]; intros s; [cbn; ring|]. cbn [seq map horner]. rewrite sumf_cons, <- IH. cbn [kpow]. ring.
Qed.
(** the truncations of the exponential series that the code computes (C60) are such paths *)
Theorem C35_taylor_path : forall n x y k, (2 <= k)%nat ->
  rotates n x y (fun e : K => partial n (fun i j => e * gen_xy x y i j) k).
Proof.
  intros n x y k Hk i j Hi Hj. destruct k as [|[|k]]; try lia.
  exists (map (fun q => term n (gen_xy x y) q i j) (seq 2 k)). intros e.
  unfold partial. cbn [seq]. rewrite !sumf_cons.
  assert (T0 : term n (fun i j => e * gen_xy x y i j) 0 i j = (if Nat.eqb i j then 1 else 0)).
  { unfold term. cbn [mpow fact]. unfold ident. replace (finv (nat_r (K := K) 1)) with (1 : K); [ring|]. symmetry. apply finv_unique. cbn [nat_r]. ring. }
  rewrite T0. rewrite term_1 by auto.
  rewrite (sumf_ext _ (fun q => kpow e q * term n (gen_xy x y) q i j)) by (intros q _; unfold term; rewrite mpow_scale; ring).
  rewrite <- horner_terms. cbn [kpow]. ring.
Qed.
(** as is the first order path itself *)
Theorem C35_linear_path : forall n x y, rotates n x y (fun (e : K) i j => (if Nat.eqb i j then 1 else 0) + e * gen_xy x y i j).
Proof. intros n x y i j _ _. apply tan_id. Qed.
End Path.
Print Assumptions C35_generator. Print Assumptions C35_taylor_path. Print Assumptions C35_linear_path.

(** ** rejected and ignored indices *)
Lemma deriv_ok_false : forall k ds d, In d ds -> (d < 0 \/ Z.of_nat k <= d)%Z -> deriv_ok k ds = false.
Proof.
  intros k ds d Hd H. apply not_true_iff_false. intros E. unfold deriv_ok in E. rewrite forallb_forall in E. apply E in Hd.
  apply andb_true_iff in Hd as [A B]. apply Z.leb_le in A. apply Z.ltb_lt in B. lia.
Qed.
Theorem C35_rejects : forall {K : CRing} (h : gham K) m n ds d, length (fst (diff_orbs m n)) = length (snd (diff_orbs m n)) ->
  length (fst (diff_orbs m n)) <= 2 -> In d ds -> (d < 0 \/ Z.of_nat (gh_n h * (gh_n h - 1) / 2) <= d)%Z ->
  deriv_decomposed h m n ds = Err ValueError /\ integrate_sd_sd_deriv h m n ds = Err ValueError.
Proof.
  intros K h m n ds d E L Hd B. assert (X : deriv_decomposed h m n ds = Err ValueError).
  { unfold deriv_decomposed. destruct (sign_code m n) as (s & E1 & _). destruct (diff_orbs m n) as [e1 e2]. cbn [fst snd] in *. rewrite E, Nat.eqb_refl. cbn [negb].
    rewrite <- E. destruct (Nat.ltb_spec 2 (length e1)); [lia|]. rewrite E1. cbn [bind]. now rewrite (deriv_ok_false _ ds d) by auto. }
  split; auto. unfold integrate_sd_sd_deriv. now rewrite X.
Qed.
Print Assumptions C35_rejects.
Theorem C35_spin_rejects : forall {K : CRing} (h : rham K) (u : uham K) m n ds d, length (fst (diff_orbs m n)) = length (snd (diff_orbs m n)) ->
  length (fst (diff_orbs m n)) <= 2 -> In d ds ->
  (0 < rh_n h -> (d < 0 \/ Z.of_nat (rh_n h * (rh_n h - 1) / 2) <= d)%Z -> r_sd_sd_deriv h m n ds = Err ValueError) /\
  (0 < uh_n u -> (d < 0 \/ Z.of_nat (uh_n u * (uh_n u - 1)) <= d)%Z -> u_sd_sd_deriv u m n ds = Err ValueError).
Proof.
  intros K h u m n ds d E L Hd. destruct (sign_code m n) as (s & E1 & _).
  split; intros P B.
  - unfold r_sd_sd_deriv, r_deriv_decomposed, spin_deriv_decomposed. destruct (split_occ (shared_sd m n) (rh_n h) P) as (x & y & -> & _). cbn [bind fst snd].
    destruct (diff_orbs m n) as [e1 e2]. cbn [fst snd] in *. rewrite E, Nat.eqb_refl. cbn [negb].
    rewrite <- E. destruct (Nat.ltb_spec 2 (length e1)); [lia|]. rewrite E1. cbn [bind]. now rewrite (deriv_ok_false _ ds d) by auto.
  - unfold u_sd_sd_deriv, u_deriv_decomposed, spin_deriv_decomposed. destruct (split_occ (shared_sd m n) (uh_n u) P) as (x & y & -> & _). cbn [bind fst snd].
    destruct (diff_orbs m n) as [e1 e2]. cbn [fst snd] in *. rewrite E, Nat.eqb_refl. cbn [negb].
    rewrite <- E. destruct (Nat.ltb_spec 2 (length e1)); [lia|]. rewrite E1. cbn [bind]. now rewrite (deriv_ok_false _ ds d) by auto.
Qed.
Print Assumptions C35_spin_rejects.
(** for determinants that the Hamiltonian does not connect, zeros, whatever the indices *)
Theorem C35_far : forall {K : CRing} (h : gham K) m n ds,
  length (fst (diff_orbs m n)) <> length (snd (diff_orbs m n)) \/ 2 < length (fst (diff_orbs m n)) ->
  deriv_decomposed h m n ds = Ok (map (fun _ => (rO, rO, rO)) ds).
Proof.
  intros K h m n ds H. unfold deriv_decomposed. destruct (diff_orbs m n) as [e1 e2]. cbn [fst snd] in H.
  destruct (Nat.eqb_spec (length e1) (length e2)) as [E|E]; cbn [negb]; [destruct (Nat.ltb_spec 2 (length e1)); [|lia]|]; reflexivity.
Qed.
Print Assumptions C35_far.

(** ** findings *)
(** the documentation promises an array with one derivative for each index; the code sums over the indices *)
Theorem C35_array_refuted : exists (h : gham Qc_field) m n a b s, herm1 (gh_one h) /\ herm2 (gh_two h) /\ two_sym (gh_two h) /\
  integrate_sd_sd_deriv h m n [0%Z] = Ok a /\ integrate_sd_sd_deriv h m n [1%Z] = Ok b /\ integrate_sd_sd_deriv h m n [0%Z; 1%Z] = Ok s /\
  s <> a /\ s <> b /\ s = radd a b.
Proof.
  exists (mkgham (K := Qc_field) 3 (fun i j => qz (Z.of_nat (i + j))) (fun _ _ _ _ => qz 0) (fun _ _ => qz 0) (fun _ _ => qz 0)), 1%N, 1%N,
    (rmul (qz (-2)) (qz 1)), (rmul (qz (-2)) (qz 2)), (qz (-6)).
  repeat split; try (intros ? ?; cbn; now rewrite Nat.add_comm).
  all: try (apply f_equal; apply Qc_is_canon; reflexivity). all: try (apply Qc_is_canon; reflexivity).
  all: intros E; apply (f_equal qs) in E; vm_compute in E; discriminate E.
Qed.
Print Assumptions C35_array_refuted.
(** the elements on the diagonal assume symmetric integrals, against the documentation: with others the value is
    not the change of the element *)
Theorem C35_symmetric_refuted : exists (h : gham Qc_field) v, cached h /\ two_sym (gh_two h) /\
  integrate_sd_sd_deriv h 1 1 [0%Z] = Ok v /\ param_ind_to_rowcol_ind (gh_n h) 0 = Ok (0%Z, 1%Z) /\
  v <> ham_elem (gh_n h) (d1 0 1 (gh_one h)) (d2 0 1 (gh_two h)) 1 1.
Proof.
  exists (mkgham (K := Qc_field) 2 (fun i j => qz (Z.of_nat j)) (fun _ _ _ _ => qz 0) (fun _ _ => qz 0) (fun _ _ => qz 0)). eexists.
  split; [repeat split|]. split; [repeat split|]. split; [reflexivity|]. split; [reflexivity|].
  intros E. apply (f_equal qs) in E. vm_compute in E. discriminate E.
Qed.
Print Assumptions C35_symmetric_refuted.

(** ** examples *)
(** the hypotheses hold of these integrals; every pair of determinants over few orbitals *)
Example C35_ex_hyps : herm1 (gh_one (ex_h 5)) /\ herm2 (gh_two (ex_h 5)) /\ two_sym (gh_two (ex_h 5)) /\
  herm1 (uh_one0 (ex_us 3)) /\ herm1 (uh_one1 (ex_us 3)) /\ herm2 (uh_two0 (ex_us 3)) /\ herm2 (uh_two1 (ex_us 3)) /\ herm2 (uh_two2 (ex_us 3)) /\
  two_sym (uh_two0 (ex_us 3)) /\ two_sym (uh_two2 (ex_us 3)).
Proof.
  assert (A : forall i j, ex_a i j = ex_a j i) by (intros; unfold ex_a; f_equal; ring).
  assert (B : forall i j, ex_b i j = ex_b j i) by (intros; unfold ex_b; f_equal; ring).
  assert (O1 : forall i j, ex_one i j = ex_one j i) by (intros i j; unfold ex_one; now rewrite (A i j), (B i j)).
  assert (O2 : forall i j k l, ex_two i j k l = ex_two k l i j) by (intros i j k l; unfold ex_two; now rewrite (A k i), (A l j), (B k i), (B l j)).
  assert (O3 : forall i j k l, ex_two i j k l = ex_two j i l k) by (intros i j k l; unfold ex_two; ring).
  repeat split; (intros i j k l || intros i j); cbn [ex_h ex_us u_cache_two_ints cache_two_ints gh_one gh_two uh_one0 uh_one1 uh_two0 uh_two1 uh_two2]; change (rcar Z_ring) with Z; rewrite ?(O1 i j); auto; try (rewrite (Nat.mul_comm i j); reflexivity); rewrite !Nat2Z.inj_mul, ?Nat2Z.inj_add; try (rewrite O2; ring); rewrite O3; ring.
Qed.
Example C35_ex : all_pairs 5 (g_agrees 5) = true /\ all_pairs 4 (r_agrees 2) = true /\ all_pairs 6 (r_agrees 3) = true /\
  all_pairs 4 (u_agrees 2) = true /\ all_pairs 6 (u_agrees 3) = true.
Proof. vm_compute. repeat split. Qed.
Example C35_ex_values : deriv_decomposed (ex_h 5) 7 14 [0; 9]%Z = Ok [(-3, 18, -21); (-32, -42, 19)]%Z /\
  integrate_sd_sd_deriv (ex_h 5) 7 14 [0]%Z = Ok (-6)%Z /\
  r_deriv_decomposed (ex_r 3) 11 13 [0; 1; 2]%Z = Ok [(50, 2, 17); (24, 56, -21); (-18, 32, -27)]%Z /\
  u_deriv_decomposed (ex_us 3) 11 13 [0; 3; 5]%Z = Ok [(50, 6, 17); (0, -10, 0); (0, 0, 0)]%Z /\
  deriv_decomposed (ex_h 5) 7 14 [10]%Z = Err ValueError /\ u_sd_sd_deriv (ex_us 3) 11 13 [-1]%Z = Err ValueError /\
  deriv_decomposed (ex_h 5) 7 15 [10]%Z = Ok [(0, 0, 0)]%Z.
Proof. vm_compute. repeat split. Qed.
