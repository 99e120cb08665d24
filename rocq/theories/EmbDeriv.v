(** Derivatives of the overlap of any coupled-cluster wavefunction with consistent dictionaries (as in P_CC.v) *)
From Coq Require Import List ZArith NArith Arith Bool Lia Permutation Sorted QArith Qcanon.
From Verif Require Import Py BitSpec BitLemmas Slater SlaterBits SlaterBits2 BicliqueLemmas GeneralLemmas P_Slater1 P_Slater2 PermSpec FockLemmas Alg WfnCI CILemmas GemSpec P_Geminal P_CI
  SignLemmas CC CCEx CCRows CCGen CCSpec CCExp CCLemmas CCMain CCDeriv.
From Verif Require Import P_CC.
Import ListNotations.

(** ** C46 *)
Section D.
Context {K : CRing}.
Local Open Scope cr_scope.
Add Ring K_ring141 : (rth K).
Variables (w : cc K) (ref sd : N).
Hypothesis R : ready w ref.
Hypothesis T : forall a c, table_ok w a c.
Hypothesis Ref : cc_ref w = RSd ref.
Hypothesis Electrons : (total_occ (Some ref) <= total_occ (Some sd))%nat.
Lemma ready_formulas : sd <> ref -> exists rr s, formulas w ref sd rr s.
Proof. intros Ne. apply have_formulas; auto. now apply anns_length. Qed.
Lemma ready_deriv_ref : sd = ref -> forall P, cc_overlap (with_params w P) sd = Ok 1 /\ exists w', cc_olp_deriv (with_params w P) sd = Ok (repeat 0 (length P), w') /\
  exists w2, cc_olp_hessian (with_params w P) sd = Ok (repeat (repeat 0 (length P)) (length P), w2).
Proof.
  intros -> P. unfold cc_overlap, cc_olp, cc_olp_deriv, cc_olp_hessian, with_table. cbn [with_params cc_ref cc_params]. rewrite Ref, N.eqb_refl. cbn. eauto.
Qed.
(** the overlap is affine in each amplitude and the derivative is its slope *)
Lemma ready_derivative : exists v D, cc_overlap w sd = Ok v /\ length D = length (cc_params w) /\
  (forall i x, (i < length (cc_params w))%nat -> cc_overlap (set_amp w i x) sd = Ok (v + (x - nth i (cc_params w) 0) * nth i D 0)) /\
  (forall ds is, Forall2 (selects (length (cc_params w))) ds is -> cc_overlap_deriv w sd ds = Ok (map (fun i => nth i D 0) is)) /\
  (forall k, (forall i, ~ selects (length (cc_params w)) k i) -> cc_overlap_deriv w sd [k] = Err IndexError).
Proof.
  assert (Q : exists v D w', cc_overlap w sd = Ok v /\ length D = length (cc_params w) /\
    (forall i x, (i < length (cc_params w))%nat -> cc_overlap (set_amp w i x) sd = Ok (v + (x - nth i (cc_params w) 0) * nth i D 0)) /\
    cc_olp_deriv w sd = Ok (D, w')).
  { destruct (N.eq_dec sd ref) as [E|Ne].
    - destruct (ready_deriv_ref E (cc_params w)) as (E1 & w' & E2 & _). rewrite with_same in E1, E2. exists 1. exists (repeat 0 (length (cc_params w))). exists w'.
      split; [auto|]. split; [apply repeat_length|]. split; [|auto]. intros i x Hi. unfold set_amp. rewrite (proj1 (ready_deriv_ref E _)), nth_repeat. f_equal. ring.
    - destruct (ready_formulas Ne) as (rr & s & [Fv Fs _ Fg]). pose proof (Fv _ eq_refl) as V. destruct (Fs _ eq_refl) as (w' & S). rewrite with_same in V, S.
      eexists. exists (map (fun dd => s * sumf (rslope w ref sd (cc_params w) dd) rr) (seq 0%nat (length (cc_params w)))). exists w'.
      split; [exact V|]. split; [now rewrite map_length, seq_length|]. split; [|exact S].
      intros i x Hi. unfold set_amp. rewrite Fv by apply upd_length. f_equal.
      assert (NE : nth i (map (fun dd => s * sumf (rslope w ref sd (cc_params w) dd) rr) (seq 0%nat (length (cc_params w)))) 0 = s * sumf (rslope w ref sd (cc_params w) i) rr).
      { rewrite (nth_indep _ 0 (s * sumf (rslope w ref sd (cc_params w) 0%nat) rr)) by (now rewrite map_length, seq_length).
        rewrite (map_nth (fun dd => s * sumf (rslope w ref sd (cc_params w) dd) rr)), seq_nth by auto. reflexivity. }
      rewrite NE.
      rewrite (sumf_ext _ (fun r => rval w (anns sd ref) (cres sd ref) r + (x - nth i (cc_params w) 0) * rslope w ref sd (cc_params w) i r)).
      + rewrite sumf_add, sumf_mul_l. ring.
      + intros r Hr. destruct (Fg r Hr) as [G1 G2]. 
        rewrite (rval_upd w ref sd R (proj2 (anns_length _ _) Electrons) (cc_params w) i x r G1 G2 Hi). now rewrite with_same. }
  destruct Q as (v & D & w' & E1 & L & H & E2). exists v, D. split; [exact E1|]. split; [exact L|]. split; [exact H|].
  unfold cc_overlap_deriv. rewrite E2. cbn [bind fst]. rewrite L. split.
  - induction 1 as [|k i ds is Hk H' IH]; [reflexivity|]. cbn [mapM map].
    rewrite (proj1 (np_index_ok _ _ _) Hk). cbn [bind]. rewrite IH. reflexivity.
  - intros k Hk. cbn [mapM]. destruct (np_index (length (cc_params w)) k) as [i|x] eqn:E; [exfalso; apply (Hk i); now apply np_index_ok|].
    unfold np_index in E. destruct (_ && _)%bool; [discriminate|]. injection E as <-. reflexivity.
Qed.
(** second derivatives: slopes of the first derivatives; the diagonal is zero *)
Lemma ready_hessian : exists H, cc_overlap_hessian w sd = Ok H /\
  length H = length (cc_params w) /\ (forall row, In row H -> length row = length (cc_params w)) /\
  (forall i, (i < length (cc_params w))%nat -> nth i (nth i H []) 0 = 0) /\
  (forall i j, (i < length (cc_params w))%nat -> (j < length (cc_params w))%nat -> nth i (nth j H []) 0 = nth j (nth i H []) 0) /\
  (forall i j x, (i < length (cc_params w))%nat -> (j < length (cc_params w))%nat -> exists D0 D1,
     cc_overlap_deriv w sd [Z.of_nat i] = Ok [D0] /\ cc_overlap_deriv (set_amp w j x) sd [Z.of_nat i] = Ok [D1] /\
     D1 = D0 + (x - nth j (cc_params w) 0) * nth j (nth i H []) 0).
Proof.
  assert (One : forall (w0 w' : cc K) D i, cc_olp_deriv w0 sd = Ok (D, w') -> (i < length D)%nat -> cc_overlap_deriv w0 sd [Z.of_nat i] = Ok [nth i D 0]).
  { intros w0 w' D i E Hi. unfold cc_overlap_deriv. rewrite E. cbn [bind fst mapM]. rewrite (proj1 (np_index_ok _ _ _) (conj Hi (or_introl eq_refl))). reflexivity. }
  destruct (N.eq_dec sd ref) as [E|Ne].
  - destruct (ready_deriv_ref E (cc_params w)) as (_ & w' & E2 & w2 & E3). rewrite with_same in E2, E3. unfold cc_overlap_hessian. rewrite E3. cbn [bind fst].
    eexists. split; [reflexivity|]. split; [apply repeat_length|]. split; [intros row Hr; apply repeat_spec in Hr; subst; apply repeat_length|].
    assert (Z0 : forall i j, nth i (nth j (repeat (repeat 0 (length (cc_params w))) (length (cc_params w))) []) 0 = (0 : K)).
    { intros i j. destruct (Nat.lt_ge_cases j (length (cc_params w))) as [Hj|Hj].
      - rewrite (nth_indep _ [] (repeat 0 (length (cc_params w)))) by now rewrite repeat_length. now rewrite !nth_repeat.
      - rewrite (nth_overflow _ []) by now rewrite repeat_length. now destruct i. }
    split; [auto|]. split; [intros; now rewrite !Z0|]. intros i j x Hi Hj. exists 0, 0. split; [|split].
    + rewrite (One w _ _ i E2) by now rewrite repeat_length. now rewrite nth_repeat.
    + destruct (ready_deriv_ref E (upd (cc_params w) j x)) as (_ & w3 & E4 & _). fold (set_amp w j x) in E4. rewrite (One _ _ _ i E4) by now rewrite repeat_length, upd_length. now rewrite nth_repeat.
    + rewrite Z0. ring.
  - destruct (ready_formulas Ne) as (rr & s & [Fv Fs Fc Fg]). destruct (Fs _ eq_refl) as (w' & S). destruct (Fc _ eq_refl) as (w2 & C). rewrite with_same in S, C.
    unfold cc_overlap_hessian. rewrite C. cbn [bind fst]. set (n := length (cc_params w)) in *. eexists. split; [reflexivity|].
    assert (Nt : forall i j, (i < n)%nat -> (j < n)%nat -> nth j (nth i (map (fun x => map (fun y => s * sumf (rcurv w ref sd (cc_params w) x y) rr) (seq 0%nat n)) (seq 0%nat n)) []) 0
       = s * sumf (rcurv w ref sd (cc_params w) i j) rr).
    { intros i j Hi Hj. rewrite (nth_indep _ [] (map (fun y => s * sumf (rcurv w ref sd (cc_params w) 0%nat y) rr) (seq 0%nat n))) by now rewrite map_length, seq_length.
      rewrite (map_nth (fun x => map (fun y => s * sumf (rcurv w ref sd (cc_params w) x y) rr) (seq 0%nat n))), seq_nth by auto. cbn [Nat.add].
      rewrite (nth_indep _ 0 (s * sumf (rcurv w ref sd (cc_params w) i 0%nat) rr)) by now rewrite map_length, seq_length.
      rewrite (map_nth (fun y => s * sumf (rcurv w ref sd (cc_params w) i y) rr)), seq_nth by auto. reflexivity. }
    
    assert (Sl : forall P i, length P = n -> (i < n)%nat -> nth i (map (fun dd => s * sumf (rslope w ref sd P dd) rr) (seq 0%nat (length P))) 0 = s * sumf (rslope w ref sd P i) rr).
    { intros P i L Hi. rewrite (nth_indep _ 0 (s * sumf (rslope w ref sd P 0%nat) rr)) by (rewrite map_length, seq_length; lia).
      rewrite (map_nth (fun dd => s * sumf (rslope w ref sd P dd) rr)), seq_nth by lia. reflexivity. }
    split; [now rewrite map_length, seq_length|]. split; [intros row Hr; apply in_map_iff in Hr as (x & <- & _); now rewrite map_length, seq_length|].
    split; [|split].
    + intros i Hi. rewrite Nt by auto. rewrite (sumf_zero (rcurv w ref sd (cc_params w) i i)); [ring|]. intros r _. unfold rcurv. now rewrite Nat.eqb_refl.
    + intros i j Hi Hj. rewrite !Nt by auto. f_equal. apply sumf_ext. intros r Hr. apply rcurv_sym.
    + intros i j x Hi Hj. destruct (Fs (upd (cc_params w) j x)) as (w3 & S3); [apply upd_length|]. fold (set_amp w j x) in S3.
      exists (s * sumf (rslope w ref sd (cc_params w) i) rr), (s * sumf (rslope w ref sd (upd (cc_params w) j x) i) rr). split; [|split].
      * rewrite (One w _ _ i S) by now rewrite map_length, seq_length. do 2 f_equal. now apply (Sl (cc_params w)).
      * rewrite (One _ _ _ i S3) by (now rewrite map_length, seq_length, upd_length). rewrite Sl; auto. apply upd_length.
      * rewrite Nt by auto. rewrite (sumf_ext (rslope w ref sd (upd (cc_params w) j x) i) (fun r => rslope w ref sd (cc_params w) i r + (x - nth j (cc_params w) 0) * rcurv w ref sd (cc_params w) i j r)).
        -- rewrite sumf_add, sumf_mul_l. ring.
        -- intros r Hr. destruct (Fg r Hr) as [G1 G2]. now apply (rslope_upd w ref sd R (proj2 (anns_length _ _) Electrons)).
Qed.
End D.
