(** Constructed geminal wavefunctions are well formed *)
From Coq Require Import List ZArith NArith Arith Bool Lia Permutation Sorted.
From Verif Require Import Py Slater BitSpec BitLemmas SlaterBits Combos Fock Alg SignSpec SignLemmas
  Graphs GraphSpec MatchSpec MatchLemmas GeneralLemmas MathTools SdLemmas PermLemmas HamLemmas
  BicliqueLemmas BicliqueMain WfnCI Geminal GemPairs CreSpec CreLemmas P_Slater2 P_Graphs GemSpec P_GemPairs GemMain GemSchemes GemOlp.
Import ListNotations.

Lemma assign_nspin_inv : forall n m, assign_nspin n = Ok m -> m = n /\ (0 < n)%Z /\ exists k, n = (2 * Z.of_nat k)%Z.
Proof.
  intros n m E. unfold assign_nspin in E. destruct (Z.leb_spec n 0); [discriminate|]. destruct (Z.eqb_spec (n mod 2) 1) as [|D]; [discriminate|].
  injection E as <-. split; auto. split; [lia|]. exists (Z.to_nat (n / 2)). pose proof (Z.div_mod n 2 ltac:(lia)). pose proof (Z.mod_pos_bound n 2 ltac:(lia)). lia.
Qed.
Section Wf.
Context {K : CField}.
Lemma new_gem_inv : forall c nelec nspin ngem o ps (w : gem K), new_gem c nelec nspin ngem o ps = Ok w ->
  gm_class w = c /\ gm_nelec w = nelec /\ gm_nspin w = nspin /\
  (exists h, 0 < h /\ nelec = Z.of_nat (2 * h) /\ h <= gm_ngem w) /\ (exists k, 0 < k /\ nspin = (2 * Z.of_nat k)%Z) /\
  assign_orbpairs c nspin o = Ok (gm_pairs w) /\ length (gm_params w) = gm_ngem w * norbpair w.
Proof.
  intros c nelec nspin ngem o ps w E. unfold new_gem in E.
  destruct (gem_assign_nelec nelec) as [ne|] eqn:E1; [|discriminate]. cbn [bind] in E.
  destruct (assign_nspin nspin) as [ns|] eqn:E2; [|discriminate]. cbn [bind] in E.
  destruct (gem_assign_ngem ne ngem) as [ng|] eqn:E3; [|discriminate]. cbn [bind] in E.
  destruct (assign_orbpairs c ns o) as [pr|] eqn:E4; [|discriminate]. cbn [bind] in E.
  apply assign_nspin_inv in E2 as (-> & P2 & k & Ek).
  unfold gem_assign_nelec in E1. destruct (Z.leb_spec nelec 0); [discriminate|]. destruct (Z.eqb_spec (nelec mod 2) 0) as [Ev|]; [|discriminate].
  injection E1 as <-.
  unfold gem_assign_params in E. destruct (match ps with PNone => _ | PArray l => _ | PGem _ => _ end) as [l|] eqn:E5; [|discriminate]. cbn [bind] in E.
  destruct (Nat.eqb_spec (length l) (gm_ngem (mkgem c nelec nspin ng pr ([] : list K)) * norbpair (mkgem c nelec nspin ng pr ([] : list K)))) as [El|]; [|discriminate].
  cbn [negb] in E. injection E as <-. cbn [gm_class gm_nelec gm_nspin gm_ngem gm_pairs gm_params norbpair] in *.
  split; [auto|]. split; [auto|]. split; [auto|]. split.
  - exists (Z.to_nat (nelec / 2)). pose proof (Z.div_mod nelec 2 ltac:(lia)). unfold gem_assign_ngem in E3.
    destruct ngem as [ng'|].
    + destruct (Z.ltb_spec ng' (nelec / 2)); [discriminate|]. injection E3 as <-. lia.
    + rewrite Z.ltb_irrefl in E3. injection E3 as <-. lia.
  - split; [exists k; lia|]. split; auto.
Qed.
Lemma new_gem_wf : forall c nelec nspin ngem o ps (w : gem K), new_gem c nelec nspin ngem o ps = Ok w -> wf_gem w.
Proof.
  intros c nelec nspin ngem o ps w E. apply new_gem_inv in E as (Ec & Ene & Ens & (h & Hh & Eh & Hg) & (k & Hk & Ek) & Eo & El).
  constructor; auto; [| |lia].
  - unfold assign_orbpairs in Eo. destruct c, o; try discriminate.
    + injection Eo as <-. apply all_pairs_NoDup.
    + apply C42_apig in Eo as (_ & N & _). rewrite pair_orbs_flat in N. eapply flat_perm_NoDup; eauto.
    + apply C42_apig in Eo as (_ & N & _). rewrite pair_orbs_flat in N. eapply flat_perm_NoDup; eauto.
    + injection Eo as <-. apply ab_NoDup.
  - intros p z Hp. unfold col_ind. rewrite Ec, Ens. unfold assign_orbpairs in Eo. destruct c; try (destruct o; try discriminate).
    + injection Eo as <-. replace nspin with (Z.of_nat (Z.to_nat nspin)) at 1 by lia. rewrite apg_col_spec. now rewrite sort_pair_id.
    + apply base_col_spec. apply C42_apig in Eo as (_ & N & _). rewrite pair_orbs_flat in N. eapply flat_perm_NoDup; eauto.
    + apply base_col_spec. apply C42_apig in Eo as (_ & N & _). rewrite pair_orbs_flat in N. eapply flat_perm_NoDup; eauto.
    + injection Eo as <-. rewrite Ek, (Z.mul_comm 2), Z.div_mul, Nat2Z.id, (Z.mul_comm _ 2) by lia. apply set_col_spec.
Qed.
Lemma scheme_facts : forall c nelec nspin ngem o ps (w : gem K) sd L, new_gem c nelec nspin ngem o ps = Ok w -> gem_schemes w sd = Ok L ->
  forall p, In p L -> NoDup (fst p) /\ (forall q, In q (fst p) -> (fst q < snd q)%Z) /\ (fst p <> [] -> Permutation (flat (fst p)) (zocc sd)).
Proof.
  intros c nelec nspin ngem o ps w sd L E EL p Hp. apply new_gem_inv in E as (Ec & Ene & Ens & (h & Hh & Eh & Hg) & (k & Hk & Ek) & Eo & El).
  pose proof (occZ_sorted sd) as So. pose proof (occZ_NoDup sd) as N.
  assert (Triv : forall s : Z, p = ([], s) -> NoDup (fst p) /\ (forall q, In q (fst p) -> (fst q < snd q)%Z) /\ (fst p <> [] -> Permutation (flat (fst p)) (zocc sd))).
  { intros s ->. cbn [fst]. split; [constructor|split; [intros q []|congruence]]. }
  unfold gem_schemes, schemes in EL. rewrite Ec, Ens, Ene in EL. destruct c.
  - injection EL as <-. destruct (Nat.Even_or_Odd (length (zocc sd))) as [[j Ev]|Od].
    + destruct (Nat.eq_dec j 0) as [->|J]; [rewrite C19_odd in Hp by (right; lia); destruct Hp as [<-|[]]; eapply Triv; reflexivity|]. split; [|split].
      * destruct p as [q s]. apply (C19_sound j) in Hp; auto; [|lia]. eapply flat_perm_NoDup; [exact N|exact Hp].
      * intros [x y] Hq. rewrite (cpm_even j) in Hp by (auto; lia). destruct (cpm_sorted j (rev (zocc sd)) 1 p) with (x := x) (y := y) as (_ & _ & D); auto.
        -- now rewrite rev_length.
        -- now rewrite rev_involutive.
      * intros _. destruct p as [q s]. apply (C19_sound j) in Hp; auto; lia.
    + rewrite C19_odd in Hp by (left; now apply Nat.odd_spec). destruct Hp as [<-|[]]; eapply Triv; reflexivity.
  - unfold apig_schemes in EL. destruct (negb _); [discriminate|]. destruct (sign_perm _ _ _) as [s|]; [|discriminate]. cbn [bind] in EL.
    destruct o as [o|].
    all: cbn [assign_orbpairs] in Eo; apply C42_apig in Eo as (A & F & _); rewrite pair_orbs_flat in F.
    all: rewrite pair_orbs_flat in EL; fold (apig_pairs (gm_pairs w) (zocc sd)) in EL.
    all: match type of EL with (if ?b then _ else _) = _ => destruct b eqn:T end; injection EL as <-; destruct Hp as [<-|[]]; [|eapply Triv; reflexivity].
    all: cbn [fst]; split; [now apply apig_pairs_NoDup|]; split; [intros q Hq; apply apig_pairs_In in Hq as [Hq _]; auto|].
    all: intros _; apply incl_perm; auto; apply (flat_sub_NoDup _ (gm_pairs w)); auto; [now apply apig_pairs_NoDup|intros q Hq; apply apig_pairs_In in Hq as [Hq _]; auto|].
    all: intros q Hq; apply A in Hq; lia.
  - rewrite Ek, (Z.mul_comm 2), Z.div_mul in EL by lia. set (one := filter _ (zocc sd)) in EL. set (two := filter (fun i => negb _) (zocc sd)) in EL.
    assert (P12 : Permutation (zocc sd) (one ++ two)) by apply filter_perm.
    assert (N12 : NoDup (one ++ two)) by (eapply Permutation_NoDup; eauto).
    destruct (Nat.eq_dec (length one) (length two)) as [Eq|Ne]; [destruct one as [|o1 one'] eqn:E1|].
    + unfold generate_biclique_pmatch in EL. destruct (sign_perm _ _ _) as [s|]; [|discriminate]. cbn [bind length Nat.eqb orb] in EL. injection EL as <-.
      destruct Hp as [<-|[]]; eapply Triv; reflexivity.
    + rewrite <- E1 in *. destruct (C20_matchings one two (Some (zocc sd)) false) as (out & Eout & _ & A & _); auto; [congruence|right; eauto|].
      rewrite Eout in EL. injection EL as ->. specialize (A p Hp). destruct A as [B1 B2]. split; [|split].
      * apply (NoDup_map_inv fst). eapply Permutation_NoDup; [symmetry; exact B1|]. apply NoDup_filter, N.
      * intros q Hq. assert (X : In (fst q) one) by (eapply Permutation_in; [exact B1|now apply in_map]).
        assert (Y : In (snd q) two) by (eapply Permutation_in; [exact B2|now apply in_map]).
        apply filter_In in X as [_ X], Y as [_ Y]. apply Z.ltb_lt in X. apply negb_true_iff, Z.ltb_ge in Y. lia.
      * intros _. rewrite flat_fst_snd, B1, B2. now symmetry.
    + unfold generate_biclique_pmatch in EL. destruct (sign_perm _ _ _) as [s|]; [|discriminate]. cbn [bind] in EL.
      destruct (_ || _)%bool; [injection EL as <-; destruct Hp as [<-|[]]; eapply Triv; reflexivity|]. rewrite (proj2 (Nat.eqb_neq _ _) Ne) in EL. cbn [negb] in EL.
      injection EL as <-; destruct Hp as [<-|[]]; eapply Triv; reflexivity.
Qed.
End Wf.
