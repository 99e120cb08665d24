(** C46: the reference of a coupled-cluster wavefunction *)
From Coq Require Import List ZArith NArith Arith Bool Lia.
From Verif Require Import Py BitSpec BitLemmas Slater SlaterBits SlaterBits2 P_Slater1 Alg WfnCI CC CCEx CCLemmas.
Import ListNotations.

Section P.
Context {K : CRing}.

(** the reference is the given determinant or else the ground state determinant, and has the electrons of the wavefunction *)
Theorem C46_reference : forall c nelec nspin ra indices refwfn (ps : ccparams K) given refresh (w : cc K) ref,
  new_cc c nelec nspin ra indices refwfn ps given refresh = Ok w -> cc_ref w = RSd ref ->
  has_electrons ref (Z.to_nat nelec) /\
  match refwfn with RefNone => ground nelec nspin = Ok ref | RefSd sd => ref = sd | RefCI _ _ => False end.
Proof.
  intros c nelec nspin ra indices refwfn ps given refresh w ref New Er.
  destruct (new_cc_built _ _ _ _ _ _ _ _ _ _ New) as (g & B). pose proof (b_ref _ _ _ _ _ _ _ _ _ _ B) as R. pose proof (b_nelec _ _ _ _ _ _ _ _ _ _ B) as Pn.
  rewrite Er in R. destruct refwfn as [|sd|ne ns]; cbn [assign_refwfn] in R.
  - destruct (ground nelec nspin) as [g'|] eqn:Eg; [|discriminate]. cbn [bind] in R. injection R as ->. split; auto.
    destruct (C04_ground nelec nspin) as (_ & _ & G). apply (G _ Eg).
  - destruct (Z.eqb_spec (Z.of_nat (total_occ (Some sd))) nelec) as [E|]; [|discriminate]. cbn [negb] in R. injection R as ->. split; auto.
    rewrite <- E, Nat2Z.id. apply total_occ_has.
  - destruct c; try discriminate; destruct (negb _); try discriminate; destruct (negb _); discriminate.
Qed.
(** references with another number of electrons are refused *)
Theorem C46_reference_electrons : forall c nelec nspin ra indices refwfn (ps : ccparams K) given refresh (w : cc K) sd,
  new_cc c nelec nspin ra indices refwfn ps given refresh = Ok w -> ~ has_electrons sd (Z.to_nat nelec) ->
  new_cc c nelec nspin ra indices (RefSd sd) ps given refresh = Err ValueError.
Proof.
  intros c nelec nspin ra indices refwfn ps given refresh w sd New Ne.
  assert (R : forall c, assign_refwfn c nelec nspin (RefSd sd) = Err ValueError).
  { intros c'. cbn [assign_refwfn]. destruct (Z.eqb_spec (Z.of_nat (total_occ (Some sd))) nelec) as [E|]; [|reflexivity]. exfalso. apply Ne.
    rewrite <- E, Nat2Z.id. apply total_occ_has. }
  unfold new_cc in *. unfold assign_nelec in *. destruct (nelec <=? 0)%Z; [discriminate|]. cbn [bind] in *.
  unfold assign_nspin in *. destruct (nspin <=? 0)%Z; [discriminate|]. destruct (nspin mod 2 =? 1)%Z; [discriminate|]. cbn [bind] in *.
  destruct (assign_ranks nelec _) as [rk|]; [|discriminate]. cbn [bind] in *.
  destruct (match c with CCStandard | CCSingles => true | _ => false end).
  - destruct (assign_refwfn c nelec nspin RefNone) as [r1|]; [|discriminate]. cbn [bind] in *.
    destruct (exop_keys c nspin rk _ None) as [keys|]; [|discriminate]. cbn [bind] in *.
    destruct (cc_assign_params _ ps) as [w1|]; [|discriminate]. cbn [bind] in *.
    destruct (exop_keys c nspin rk _ indices) as [keys2|]; [|discriminate]. cbn [bind] in *. rewrite R. reflexivity.
  - rewrite R. reflexivity.
Qed.
End P.
Print Assumptions C46_reference.
Print Assumptions C46_reference_electrons.

Example C46_reference_ex : (do w <- ex_cc CCStandard (RefSd 3) RanksNone 14; Ok (cc_ref w)) = Ok (RSd 3) /\
  (do w <- ex_cc CCStandard (RefSd 7) RanksNone 14; Ok (cc_ref w)) = Err ValueError.
Proof. split; vm_compute; reflexivity. Qed.
