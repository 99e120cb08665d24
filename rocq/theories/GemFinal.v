(** Overlaps of geminal wavefunctions: assembling the pieces *)
From Coq Require Import List ZArith NArith Arith Bool Lia Permutation Sorted Ring_theory.
From Verif Require Import Py Slater BitSpec BitLemmas SlaterBits Combos Fock Alg SignSpec SignLemmas
  Graphs GraphSpec MatchSpec MatchLemmas GeneralLemmas MathTools SdLemmas PermLemmas HamLemmas
  BicliqueLemmas BicliqueMain WfnCI Geminal GemPairs CreSpec CreLemmas P_Slater2 P_Graphs GemSpec P_GemPairs GemMain GemSchemes GemOlp GemWf CILemmas.
Import ListNotations.

Section Final.
Context {K : CField}.
Local Open Scope cr_scope.
Add Ring K_ring50 : (rth K).

Lemma sgnr_pm : forall a b, (a = 1 \/ a = -1)%Z -> (b = 1 \/ b = -1)%Z -> sgnr (a * b) = sgnr a * sgnr b :> K.
Proof. intros a b [->| ->] [->| ->]; cbn; unfold sgnr; cbn; ring. Qed.
Lemma pow_m1_pm : forall k, (pow_m1 k = 1 \/ pow_m1 k = -1)%Z.
Proof. intros k. unfold pow_m1. destruct (Nat.odd k); auto. Qed.
Lemma gem_zero : forall pairs (cs : list (Z * Z -> K)) m, NoDup pairs -> length (zocc m) = (2 * length cs)%nat ->
  (forall qs, incl qs pairs -> ~ Permutation (flat qs) (zocc m)) -> gem_product pairs cs m = 0.
Proof.
  intros pairs cs m N L H. rewrite (product_good pairs 1 []); auto. split; [intros p []|]. split; [|constructor].
  intros qs I P. now apply H in P.
Qed.
Lemma loop_good : forall (w : gem K) C sd g L h, char_zero K -> wf_gem w -> coefficients w C -> (0 < h <= gm_ngem w)%nat -> length (zocc sd) = (2 * h)%nat ->
  (g = 1 \/ g = -1)%Z -> good_schemes (gm_pairs w) (zocc sd) g L ->
  (forall p, In p L -> forall q, In q (fst p) -> (fst q < snd q)%Z) ->
  olp_loop w L 0 = Ok (sgnr g * antisymmetrised (gm_pairs w) C (gm_ngem w) h sd).
Proof.
  intros w C sd g L h Ch W HC Hh Len Hg G Srt. pose proof G as (G1 & _ & _).
  assert (Hl : forall p, In p L -> length (fst p) = h /\ NoDup (fst p)).
  { intros p Hp. destruct (G1 p Hp) as (_ & k & Sw & _). apply swaps_perm in Sw. split.
    - pose proof (Permutation_length Sw) as E. rewrite flat_length, Len in E. lia.
    - eapply flat_perm_NoDup; [|exact Sw]. apply occZ_NoDup. }
  rewrite olp_loop_value; auto.
  2:{ intros p Hp. split; [now apply Hl|]. split; [now apply Srt|]. now apply G1. }
  f_equal. unfold antisymmetrised.
  rewrite (sumf_ext _ (fun S => sumf (fun p => sgnr (g * snd p)%Z * permR (map C S) (fst p)) L) (combinations (seq 0 (gm_ngem w)) h)).
  2:{ intros S HS. apply combinations_In in HS as [_ LS]. apply product_good; auto; [apply W|]. rewrite map_length, LS. auto. }
  rewrite sumf_swap, <- sumf_mul_l. transitivity (sumf (term w) L); [ring|]. apply sumf_ext. intros p Hp.
  destruct (Hl p Hp) as [Lp Np]. destruct (G1 p Hp) as (Ip & k & _ & Ek).
  assert (Hs : (snd p = 1 \/ snd p = -1)%Z) by (destruct (pow_m1_pm k) as [Z1|Z1]; rewrite Z1 in Ek; lia).
  unfold term. destruct (fst p) as [|q qs] eqn:Eq; [cbn in Lp; lia|]. rewrite <- Eq in *.
  rewrite pm_tall by (try apply seq_NoDup; rewrite map_length, seq_length; lia). rewrite map_length, Lp, <- !sumf_mul_l. apply sumf_ext. intros S HS.
  rewrite sgnr_pm by auto. rewrite permR_map, map_map.
  rewrite (permR_ext (map (fun (x : nat) (x0 : Z * Z) => entry (gm_params w) (norbpair w) x (idx w x0)) S) (map C S) (fst p)).
  - assert (Eg : sgnr g * sgnr g = 1 :> K) by (destruct Hg as [->| ->]; unfold sgnr; cbn; ring).
    unfold scheme in *. generalize (permR (map C S) (fst p)). intros x. rewrite !(Rmul_assoc (rth K)), Eg, (Rmul_1_l (rth K)). reflexivity.
  - apply combinations_In in HS as [Sub _]. assert (Bd : forall r, In r S -> (r < gm_ngem w)%nat).
    { intros r Hr. assert (X : In r (seq 0 (gm_ngem w))) by (eapply subseq_incl; eauto). apply in_seq in X. lia. }
    clear Sub. induction S as [|r S IH]; cbn [map]; constructor; auto.
    + intros x Hx. apply Ip in Hx. apply In_nth_error in Hx as [i Hi]. rewrite (idx_nth w x i) by auto.
      rewrite (HC r i x) by (auto; apply Bd; now left). reflexivity.
    + apply IH. intros r' Hr'. apply Bd. now right.
Qed.

Lemma loop_nil : forall (w : gem K) (s : Z) v, olp_loop w [([], s)] v = Ok v.
Proof. reflexivity. Qed.

Lemma overlap_value : forall c nelec nspin ngem o ps (w : gem K) C sd h, char_zero K -> new_gem c nelec nspin ngem o ps = Ok w ->
  coefficients w C -> (0 < h <= gm_ngem w)%nat -> length (zocc sd) = (2 * h)%nat ->
  (c = GAPIG -> nelec = Z.of_nat (2 * h)) -> (c = GAPIG \/ forall i, bit sd i = true -> (Z.of_nat i < nspin)%Z) ->
  gem_overlap w sd = Ok (convention c h * antisymmetrised (gm_pairs w) C (gm_ngem w) h sd).
Proof.
  intros c nelec nspin ngem o ps w C sd h Ch E HC Hh Len Hn Hb. pose proof (new_gem_wf _ _ _ _ _ _ _ E) as W.
  pose proof (fun L => scheme_facts _ _ _ _ _ _ _ sd L E) as SF.
  apply new_gem_inv in E as (Ec & Ene & Ens & (h0 & Hh0 & Eh & Hg) & (k & Hk & Ek) & Eo & El).
  assert (Zero : (forall qs, incl qs (gm_pairs w) -> ~ Permutation (flat qs) (zocc sd)) -> convention c h * antisymmetrised (gm_pairs w) C (gm_ngem w) h sd = 0).
  { intros Hz. unfold antisymmetrised. rewrite (sumf_zero (K := K)); [ring|]. intros S HS. apply combinations_In in HS as [_ LS]. apply gem_zero; auto; [apply W|]. rewrite map_length, LS; auto. }
  unfold gem_overlap. destruct c.
  - assert (Es : gem_schemes w sd = Ok (generate_complete_pmatch (zocc sd) 1)) by (unfold gem_schemes, schemes; now rewrite Ec).
    destruct Hb as [|Hb]; [discriminate|]. assert (Ep : gm_pairs w = all_pairs (Z.to_nat nspin)) by (destruct o; cbn in Eo; [discriminate|]; injection Eo as <-; auto).
    rewrite Es. cbn [bind]. rewrite (loop_good w C sd 1 _ h); auto.
    + rewrite Ep. apply (good_apg _ _ h); auto; [|lia]. intros i Hi. apply Hb in Hi. lia.
    + intros p Hp q Hq. apply (SF _ Es p Hp); auto.
  - specialize (Hn eq_refl).
    assert (F : NoDup (flat (gm_pairs w)) /\ forall p, In p (gm_pairs w) -> (fst p < snd p)%Z).
    { destruct o; cbn [assign_orbpairs] in Eo; apply C42_apig in Eo as (A & F & _); rewrite pair_orbs_flat in F; auto. }
    destruct F as [F Srt].
    assert (Es : gem_schemes w sd = apig_schemes nelec (gm_pairs w) (zocc sd)) by (unfold gem_schemes, schemes; now rewrite Ec, Ene).
    destruct (good_apig nelec (gm_pairs w) sd h) as [(L & EL & G)|(EL & Hz)]; auto; [lia| |]; rewrite EL in Es; rewrite Es; cbn [bind].
    + rewrite (loop_good w C sd (pow_m1 h) L h); auto; [|apply pow_m1_pm|intros p Hp q Hq; apply (SF _ Es p Hp); auto].
      f_equal. f_equal. unfold convention, pow_m1. destruct (Nat.odd h); reflexivity.
    + rewrite loop_nil, Zero; auto.
  - destruct Hb as [|Hb]; [discriminate|]. assert (Ep : gm_pairs w = ab_pairs k).
    { destruct o; cbn in Eo; [discriminate|]; injection Eo as <-. rewrite Ek, (Z.mul_comm 2), Z.div_mul, Nat2Z.id by lia. auto. }
    assert (Es : gem_schemes w sd = set_schemes k (zocc sd)).
    { unfold gem_schemes, schemes, set_schemes. rewrite Ec, Ens, Ek, (Z.mul_comm 2), Z.div_mul by lia. reflexivity. }
    rewrite Ep in *. destruct (good_set k sd h) as [(L & EL & G)|(EL & Hz)]; auto; [intros i Hi; apply Hb in Hi; lia|lia| |]; rewrite EL in Es; rewrite Es; cbn [bind].
    + rewrite (loop_good w C sd 1 L h); auto; [now rewrite Ep|now rewrite Ep|]. intros p Hp q Hq; apply (SF _ Es p Hp); auto.
    + rewrite loop_nil, Zero; auto.
Qed.

(** *** derivatives *)
Lemma div_mod_nat : forall k n, (0 < n)%nat -> k = ((k / n) * n + k mod n)%nat.
Proof. intros k n H. rewrite (Nat.mul_comm (k / n) n). apply Nat.div_mod. lia. Qed.
Lemma overlap_deriv : forall c nelec nspin ngem o ps (w : gem K) sd v, char_zero K -> new_gem c nelec nspin ngem o ps = Ok w ->
  gem_overlap w sd = Ok v -> (gm_ngem w = 1%nat <-> length (zocc sd) = 2%nat) ->
  exists L D, gem_schemes w sd = Ok L /\ olp_deriv_loop w L (zeros (length (gm_params w))) = Ok D /\ length D = length (gm_params w) /\
    forall k t, (k < length (gm_params w))%nat -> gem_overlap (with_entry w k (nth k (gm_params w) 0 + t)) sd = Ok (v + t * nth k D 0).
Proof.
  intros c nelec nspin ngem o ps w sd v Ch E EV Mo. pose proof (new_gem_wf _ _ _ _ _ _ _ E) as W.
  unfold gem_overlap in EV. destruct (gem_schemes w sd) as [L|] eqn:Es; [|discriminate]. cbn [bind] in EV.
  pose proof (scheme_facts _ _ _ _ _ _ _ sd L E Es) as SF.
  assert (GL : good_list w L). { eapply (olp_loop_good w L 0 v); eauto. intros p Hp. split; apply (SF p Hp). }
  rewrite olp_loop_value in EV by auto. injection EV as <-.
  destruct (olp_deriv_value Ch w L (zeros (length (gm_params w)))) as (D & ED & LD & HD); auto.
  { intros p Hp Ne. destruct (SF p Hp) as (_ & _ & P). specialize (P Ne). apply Permutation_length in P. rewrite flat_length in P. unfold minor_ok. rewrite Mo. lia. }
  { unfold zeros. now rewrite repeat_length. }
  exists L, D. split; [reflexivity|]. split; [exact ED|]. split; [rewrite LD; unfold zeros; now rewrite repeat_length|]. intros k t Hk.
  change (with_entry w k (nth k (gm_params w) 0 + t)) with (with_gparams w (upd (gm_params w) k (nth k (gm_params w) 0 + t))). set (w' := with_gparams w _).
  assert (W' : wf_gem w') by (apply wf_with; auto; apply upd_length').
  unfold gem_overlap. change (gem_schemes w' sd) with (gem_schemes w sd). rewrite Es. cbn [bind].
  assert (GL' : good_list w' L) by exact GL.
  rewrite olp_loop_value by auto. f_equal. pose proof (wf_len w W) as WL. rewrite WL in Hk.
  assert (Np : (0 < norbpair w)%nat) by (destruct (norbpair w); [rewrite Nat.mul_0_r in Hk; lia|lia]).
  assert (Hr : (k / norbpair w < gm_ngem w)%nat) by (apply Nat.div_lt_upper_bound; lia).
  assert (Hc : (k mod norbpair w < norbpair w)%nat) by (apply Nat.mod_upper_bound; lia).
  pose proof (div_mod_nat k (norbpair w) Np) as Dk.
  specialize (HD _ _ Hr Hc). rewrite <- Dk in HD. rewrite HD. 
  assert (Z0 : nth k (zeros (K := K) (length (gm_params w))) 0 = 0) by (unfold zeros; apply nth_repeat).
  rewrite Z0. transitivity (sumf (fun p => term w p + t * dterm w (k / norbpair w) (k mod norbpair w) p) L).
  - transitivity (sumf (term w') L); [ring|]. apply sumf_ext. intros p Hp. pose proof (term_bump w p (k / norbpair w) (k mod norbpair w) t W) as T.
    cbn zeta in T. rewrite <- Dk in T. apply T; auto; apply (GL p Hp).
  - rewrite sumf_add, sumf_mul_l. ring.
Qed.
End Final.
