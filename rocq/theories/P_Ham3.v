(** C32: the seniority-zero Hamiltonian. *)
From Coq Require Import Ring_theory List ZArith NArith Bool Lia Arith Permutation.
From Verif Require Import Py BitSpec BitLemmas Slater Fock FockLemmas Alg PermLemmas HamSpec HamGen FockInner HamLemmas
  HamSC HamMain HamWfn HamRes SpinSpec HamSpin HamSpinSum HamSen HamSenLemmas HamEx P_Ham1 P_Ham2.
Import ListNotations.
Local Open Scope nat_scope.

(** On determinants in which every orbital is doubly occupied or empty, all three components equal those of the
    restricted class *)
Theorem C32_equal : forall {K : CRing} (h : rham K) m n, 0 < rh_n h -> paired (rh_n h) m -> paired (rh_n h) n ->
  sz_decomposed h m n = r_decomposed h m n /\ sz_sd_sd h m n = r_sd_sd h m n.
Proof. intros. unfold sz_sd_sd, r_sd_sd. rewrite sz_eq by auto. auto. Qed.
Print Assumptions C32_equal.

(** hence they are matrix elements of the second-quantized Hamiltonian *)
Theorem C32_elements : forall {K : CField} (h : rham K) m n, (@radd K rI rI <> rO) -> r_cached h -> two_sym (rh_two h) ->
  0 < rh_n h -> paired (rh_n h) m -> paired (rh_n h) n ->
  sz_sd_sd h m n = Ok (ham_elem (2 * rh_n h) (expand1 (rh_n h) (rh_one h)) (expand2 (rh_n h) (rh_two h)) m n).
Proof.
  intros K h m n H2 C S P Pm Pn. rewrite (proj2 (C32_equal h m n P Pm Pn)). apply C30_elements; auto; now apply paired_fits.
Qed.
Print Assumptions C32_elements.

(** all other elements are zero *)
Theorem C32_zero : forall {K : CRing} (h : rham K) m n, 0 < rh_n h -> ~ (paired (rh_n h) m /\ paired (rh_n h) n) ->
  sz_decomposed h m n = Ok (rO, rO, rO) /\ sz_sd_sd h m n = Ok rO.
Proof.
  intros K h m n P H. unfold sz_sd_sd. rewrite sz_not_paired by auto. split; auto. cbn. f_equal.
  now rewrite !(Radd_0_l (rth K)).
Qed.
Print Assumptions C32_zero.

(** the projection is the sum of the elements over all determinants, for any number of orbitals and any left
    determinant *)
Theorem C32_projection_components : forall {K : CRing} (h : rham K) m (f : N -> K), 0 < rh_n h ->
  exists a b c, sz_wfn3 h m f = Ok (a, b, c) /\
    sum_over (fun n => fits n (2 * rh_n h)) (fun n => rmul (f n) (comp1 (value3 (sz_decomposed h m n)))) a /\
    sum_over (fun n => fits n (2 * rh_n h)) (fun n => rmul (f n) (comp2 (value3 (sz_decomposed h m n)))) b /\
    sum_over (fun n => fits n (2 * rh_n h)) (fun n => rmul (f n) (comp3 (value3 (sz_decomposed h m n)))) c.
Proof.
  intros K h m f P. rewrite sz_wfn3_value by auto. eexists _, _, _. split; [reflexivity|].
  apply tsum_over. reflexivity.
Qed.
Print Assumptions C32_projection_components.

Theorem C32_projection : forall {K : CRing} (h : rham K) m (f : N -> K), 0 < rh_n h ->
  exists v, sz_wfn h m f = Ok v /\
    sum_over (fun n => fits n (2 * rh_n h)) (fun n => match sz_sd_sd h m n with Ok e => rmul e (f n) | _ => rO end) v.
Proof.
  intros K h m f P. rewrite sz_wfn_value by auto. eexists. split; [reflexivity|].
  destruct (tsum_elem (2 * rh_n h) f (fun n => sz_decomposed h m n) (fun n => t_sum (value3 (sz_decomposed h m n))))
    as (l & N & I & E); [reflexivity|]. exists l. split; auto. split; auto. rewrite E. apply sumf_ext. intros n _.
  unfold sz_sd_sd. destruct (sz_total h P m n) as [t Et]. rewrite Et. reflexivity.
Qed.
Print Assumptions C32_projection.

(** on wavefunctions of seniority zero the two classes give the same projections *)
Theorem C32_projection_equal : forall {K : CRing} (h : rham K) m (f : N -> K), r_cached h -> two_sym (rh_two h) ->
  0 < rh_n h -> 2 * rh_n h <> 64 -> paired (rh_n h) m -> (forall n, ~ paired (rh_n h) n -> f n = rO) ->
  sz_wfn h m f = r_wfn h m f /\ sz_wfn3 h m f = r_wfn3 h m f.
Proof.
  intros K h m f C S P L Pm Z.
  assert (X : sz_wfn3 h m f = r_wfn3 h m f).
  { rewrite sz_wfn3_value, r_wfn3_value by (auto; now apply paired_fits). f_equal.
    assert (Y : forall n, In n (alldets (2 * rh_n h)) ->
      t_scale (f n) (value3 (sz_decomposed h m n)) = t_scale (f n) (decT (gen_of_r h) m n)).
    { intros n Hn. apply alldets_In in Hn. destruct (seniority_ok (rh_n h) n P) as [[|s] E].
      - apply paired_seniority in E; auto. rewrite sz_eq by auto. f_equal. unfold decT.
        assert (D : (m = 0%N /\ n = 0%N) \/ ~ (m = 0%N /\ n = 0%N)) by lia. destruct D as [[-> ->]|D].
        + now rewrite r_vacuum.
        + rewrite r_decomposed_eq; auto. now apply paired_fits.
      - rewrite Z.
        + unfold t_scale. destruct (value3 _) as [[? ?] ?], (decT _ _ _) as [[? ?] ?]. now rewrite !cr_mul_0_l.
        + intros H. apply paired_seniority in H; auto. congruence. }
    unfold tsumf. f_equal; [f_equal|]; apply sumf_ext; intros n Hn; now rewrite Y. }
  split; auto. unfold r_wfn. rewrite <- X, sz_wfn3_value, sz_wfn_value by auto. reflexivity.
Qed.
Print Assumptions C32_projection_equal.

Theorem C32_projection_zero : forall {K : CRing} (h : rham K) m (f : N -> K), 0 < rh_n h -> ~ paired (rh_n h) m ->
  sz_wfn h m f = Ok rO /\ sz_wfn3 h m f = Ok (rO, rO, rO).
Proof.
  intros K h m f P H. unfold sz_wfn, sz_wfn3, sz_integrate. destruct (seniority_ok (rh_n h) m P) as [[|s] E].
  - exfalso. apply H. now apply paired_seniority.
  - rewrite E. auto.
Qed.
Print Assumptions C32_projection_zero.

(** finding: the projection with components=True and wfn_deriv fails for every paired determinant unless there are
    exactly one or three derivatives, and mixes derivatives with components for three *)
Theorem C32_components_deriv_refuted : forall {K : CRing} (h : rham K) m (fs : list (N -> K)), 0 < rh_n h ->
  paired (rh_n h) m ->
  (length fs <> 1 -> length fs <> 3 -> sz_diag3_deriv h m fs = Err ValueError) /\
  (forall f1 f2 f3, exists x y z, sz_decomposed h m m = Ok (x, y, z) /\
     sz_diag3_deriv h m [f1; f2; f3] = Ok (rmul (f1 m) x, rmul (f2 m) y, rmul (f3 m) z)).
Proof.
  intros K h m fs P Pm. unfold sz_diag3_deriv. destruct (sz_total h P m m) as [[[x y] z] E]. rewrite E. cbn [bind]. split.
  - intros L1 L3. destruct fs as [|a [|b [|c [|]]]]; cbn in *; auto; congruence.
  - intros. exists x, y, z. auto.
Qed.
Print Assumptions C32_components_deriv_refuted.

Example C32_ex : sz_decomposed (ex_r 3) 27 45 = r_decomposed (ex_r 3) 27 45 /\ sz_decomposed (ex_r 3) 27 45 = Ok (0, 1, 0)%Z /\
  sz_decomposed (ex_r 3) 27 27 = Ok (110, 144, -104)%Z /\ sz_sd_sd (ex_r 3) 27 11 = Ok 0%Z /\
  sz_decomposed (ex_r 4) 51 204 = Ok (0, 0, 0)%Z /\ sz_decomposed (ex_r 3) 9 27 = Ok (0, 0, 0)%Z /\ r_sd_sd (ex_r 3) 11 11 <> Ok 0%Z.
Proof. vm_compute. repeat split; congruence. Qed.
Example C32_wfn_ex : sz_wfn3 (ex_r 3) 27 ex_f = Ok (110, 118, -104)%Z /\ sz_wfn (ex_r 4) 51 ex_f = Ok 331%Z /\ 
  sz_wfn (ex_r 3) 11 ex_f = Ok 0%Z /\ sz_wfn (ex_r 3) 0 ex_f = Ok 0%Z.
Proof. vm_compute. repeat split; congruence. Qed.
Example C32_paired_ex : paired 3 27 /\ ~ paired 3 11.
Proof. split; [|intros H; discriminate (H 1)].
  intros i. do 8 (destruct i as [|i]; [reflexivity|]). unfold bit. 
  rewrite (N.bits_above_log2 27 (N.of_nat (S (S (S (S (S (S (S (S i)))))))))), (N.bits_above_log2 27) by (cbn; lia). now rewrite andb_false_r. Qed.
