(** C80: wavefunctions of wfn_factory, projected by Hamiltonians of ham_factory. *)
From Coq Require Import Ring_theory List ZArith NArith Bool Lia Arith.
From Verif Require Import Py BitSpec BitLemmas Slater SlaterBits SlaterBits2 Alg Combos BulkLemmas SdSpec SdLemmas HamFac HamFacL HamGen HamEx HamFacEx EqnSpec HamMain WfnFac WfnFacEx.
Import ListNotations.

(** the overlap is that of the parameters assigned last *)
Theorem C80_assigned : forall {K : CRing} (w w' : facwfn K) p sd, fw_assign w (Some p) = Ok w' ->
  fw_get w' sd None = match fw_olp w sd p with Ok v => Ok [v] | Err x => Err x end /\ fw_assign w None = Err NotImplementedError.
Proof. intros K w w' p sd H. apply Ok_inj in H. subst w'. split; [|reflexivity]. cbn. destruct (fw_olp w sd p); reflexivity. Qed.
Print Assumptions C80_assigned.

(** selected derivatives: negative indices count from the end, others raise IndexError *)
Theorem C80_selected : forall {K : CRing} (w : facwfn K) sd d idx, fw_dolp w sd (fw_params w) = Ok d ->
  let n := Z.of_nat (length d) in
  (Forall (fun i => - n <= i < n)%Z idx -> fw_get w sd (Some idx) = Ok (map (fun i => nth (Z.to_nat (i mod n)) d rO) idx)) /\
  (~ Forall (fun i => - n <= i < n)%Z idx -> fw_get w sd (Some idx) = Err IndexError).
Proof.
  intros K w sd d idx E n. cbn [fw_get]. rewrite E. cbn [bind].
  assert (G : forall i, (- n <= i < n)%Z -> np_pick d i = Ok (nth (Z.to_nat (i mod n)) d rO)).
  { intros i H. unfold np_pick. fold n. destruct (Z.leb_spec 0 i) as [A|A]; cbn [andb].
    - destruct (Z.ltb_spec i n); [|lia]. now rewrite Z.mod_small by lia.
    - destruct (Z.leb_spec (- n) i); [|lia]. destruct (Z.ltb_spec i 0); [|lia]. cbn [andb].
      assert (Ei : (i mod n = n + i)%Z) by (symmetry; apply (Z.mod_unique_pos i n (-1)); lia). now rewrite Ei. }
  assert (B : forall i, ~ (- n <= i < n)%Z -> np_pick d i = Err IndexError).
  { intros i H. unfold np_pick. fold n. assert (0 <= n)%Z by (unfold n; lia).
    destruct (Z.leb_spec 0 i), (Z.ltb_spec i n), (Z.leb_spec (- n) i), (Z.ltb_spec i 0); cbn [andb]; auto; lia. }
  clear E. induction idx as [|i idx IH]; cbn [mapM map].
  - split; [reflexivity|]. intros H. destruct H. constructor.
  - destruct IH as [I1 I2]. assert (D : (- n <= i < n)%Z \/ ~ (- n <= i < n)%Z) by lia. split; intros H.
    + inversion H; subst. rewrite G by auto. cbn [bind]. now rewrite I1.
    + destruct D as [D|D]; [|now rewrite B]. rewrite G by auto. cbn [bind]. rewrite I2; [reflexivity|]. intros X. apply H. now constructor.
Qed.
Print Assumptions C80_selected.

Section D.
Context {K : CField} {I : Type}.
Add Ring K_ring148 : (rth K).
Local Open Scope cr_scope.
Lemma der_sum : forall Der (L : list N) (F : N -> K -> K) (d : N -> K) (e : N -> K) x, calculus Der ->
  (forall m, In m L -> Der (F m) x (d m)) -> Der (fun y => sumf (fun m => F m y * e m) L) x (sumf (fun m => d m * e m) L).
Proof.
  intros Der L F d e x C. induction L as [|m L IH]; intros H; [exact (cal_const _ C 0 x)|].
  rewrite sumf_cons. apply (cal_ext _ C) with (f := fun y => F m y * e m + sumf (fun m => F m y * e m) L); [reflexivity|].
  apply (cal_add _ C); [|apply IH; intros; apply H; now right].
  replace (d m * e m) with (d m * e m + F m x * 0) by ring.
  apply (cal_mul _ C (F m) (fun _ => e m) x (d m) 0); [apply H; now left|apply (cal_const _ C)].
Qed.

(** if olp_deriv is the derivative of olp, integrate_sd_wfn with wfn_deriv is the derivative of integrate_sd_wfn *)
Theorem C80_gradient : forall Der (h : facham K I) (w : facwfn K) sd n (idx : list nat) (g : N -> list K -> K) d e,
  calculus Der -> fa_nspin h = Z.of_nat n -> fits sd n -> fa_wfn h = None -> (forall k, In k (fa_orders h) -> (0 <= k)%Z) ->
  (forall m, fits m n -> fac_ss h sd m = Ok (e m)) ->
  (forall m p, fits m n -> length p = length (fw_params w) -> fw_olp w m p = Ok (g m p)) ->
  (forall m, fits m n -> fw_dolp w m (fw_params w) = Ok (d m) /\ length (d m) = length (fw_params w)) ->
  (forall m i, fits m n -> (i < length (fw_params w))%nat ->
     Der (fun x => g m (upd (fw_params w) i x)) (nth i (fw_params w) 0) (nth i (d m) 0)) ->
  Forall (fun i => i < length (fw_params w))%nat idx ->
  exists vs, fac_integrate h (fun m => fw_get w m (Some (map Z.of_nat idx))) sd = Ok vs /\ length vs = length idx /\
  exists F : nat -> K -> K,
    (forall i x, (i < length (fw_params w))%nat -> exists w', fw_assign w (Some (upd (fw_params w) i x)) = Ok w' /\
       fac_integrate h (fun m => fw_get w' m None) sd = Ok [F i x]) /\
    forall j i, nth_error idx j = Some i -> Der (F i) (nth i (fw_params w) 0) (nth j vs 0).
Proof.
  intros Der h w sd n idx g d e C Hn Hs Hw Ho He Hg Hd HD Hi.
  set (L := sd :: candidates sd (occ_indices (Some sd)) (vir_indices (Some sd) (fa_nspin h)) (fa_orders h)).
  assert (FL : forall m, In m L -> fits m n).
  { intros m [<-|Hm]; auto. apply (fac_cand_In h sd n Hn Hs _ m Ho) in Hm as (k & _ & X & _). exact X. }
  exists (map (fun i => sumf (fun m => nth i (d m) 0 * e m) L) idx). split; [|split; [apply map_length|]].
  - apply (fac_value h _ sd n nat idx (fun i m => nth i (d m) 0) e); auto.
    intros m Fm. destruct (Hd m Fm) as [E El]. cbn [fw_get]. rewrite E. cbn [bind]. clear - Hi El.
    induction Hi as [|i idx H _ IH]; cbn [map mapM]; [reflexivity|]. unfold np_pick at 1.
    destruct (Z.leb_spec 0 (Z.of_nat i)); [|lia]. destruct (Z.ltb_spec (Z.of_nat i) (Z.of_nat (length (d m)))); [|lia].
    cbn [andb bind]. rewrite IH. cbn [bind]. now rewrite Nat2Z.id.
  - exists (fun i x => sumf (fun m => g m (upd (fw_params w) i x) * e m) L). split.
    + intros i x Hx. eexists. split; [reflexivity|].
      apply (fac_value h _ sd n unit [tt] (fun _ m => g m (upd (fw_params w) i x)) e); auto.
      intros m Fm. cbn [fw_get fw_olp fw_params]. rewrite Hg; auto. clear. revert i. induction (fw_params w) as [|a l IH]; intros [|i]; cbn [upd length]; auto.
    + intros j i Hj. assert (Hlt : (i < length (fw_params w))%nat) by (rewrite Forall_forall in Hi; apply Hi; eapply nth_error_In; eauto).
      assert (E : nth j (map (fun i => sumf (fun m => nth i (d m) 0 * e m) L) idx) 0 = sumf (fun m => nth i (d m) 0 * e m) L).
      { apply nth_error_nth. now rewrite nth_error_map, Hj. }
      rewrite E. apply (der_sum Der L (fun m x => g m (upd (fw_params w) i x)) (fun m => nth i (d m) 0) e); auto.
Qed.
End D.
Print Assumptions C80_gradient.

(** ** Examples *)
Example C80_ex : fac_integrate (hx [1; 2]%Z) (fun m => fw_get (wx (K := Z_ring) 3 7)%Z m None) 5 = Ok [168%Z] /\
  fac_integrate (hx [1; 2]%Z) (fun m => fw_get (wx (K := Z_ring) 3 7)%Z m (Some [1; 0; -1]%Z)) 5 = Ok [24; 21; 24]%Z /\
  fac_integrate (hx [1; 2]%Z) (fun m => fw_get (wx (K := Z_ring) 3 7)%Z m (Some [2]%Z)) 5 = Err IndexError.
Proof. vm_compute. repeat split. Qed.
(** the hypotheses of C80_gradient hold in every field, for every calculus and all parameters *)
Example C80_ex_gradient : forall {K : CField} Der (a b : K), calculus Der ->
  exists vs, fac_integrate (hx [1; 2]%Z) (fun m => fw_get (wx a b) m (Some (map Z.of_nat [1; 0]%nat))) 5 = Ok vs /\ length vs = 2%nat /\
  exists F : nat -> K -> K,
    (forall i x, (i < 2)%nat -> exists w', fw_assign (wx a b) (Some (upd [a; b] i x)) = Ok w' /\
       fac_integrate (hx [1; 2]%Z) (fun m => fw_get w' m None) 5 = Ok [F i x]) /\
    forall j i, nth_error [1; 0]%nat j = Some i -> Der (F i) (nth i [a; b] rO) (nth j vs rO).
Proof.
  intros K Der a b C.
  apply (C80_gradient Der (hx [1; 2]%Z) (wx a b) 5 4 [1; 0]%nat
    (fun m p => if N.eqb m 5 then rmul (nth 0 p rO) (nth 1 p rO) else nth 1 p rO)
    (fun m => if N.eqb m 5 then [b; a] else [rO; rI]) (fun _ => radd rI (radd (radd rI rI) rO))); auto.
  - intros i Hi. unfold bit. destruct i as [|[|[|i]]]; try lia. rewrite N.bits_above_log2; [reflexivity|]. cbn. lia.
  - intros k [<-|[<-|[]]]; lia.
  - intros m _. cbn. destruct (N.eqb m 5); auto.
  - intros m i _ Hi. cbn [fw_params wx] in *. destruct (N.eqb m 5).
    + destruct i as [|[|i]]; cbn in Hi; try lia; cbn [upd nth].
      * pose proof (cal_mul _ C (fun x => x) (fun _ => b) a rI rO (cal_id _ C a) (cal_const _ C b a)) as H.
        cbn beta in H. rewrite (Rmul_1_l (rth K)), (Rmul_comm (rth K) a), cr_mul_0_l, (Radd_comm (rth K)), (Radd_0_l (rth K)) in H. exact H.
      * pose proof (cal_mul _ C (fun _ => a) (fun x => x) b rO rI (cal_const _ C a b) (cal_id _ C b)) as H.
        cbn beta in H. rewrite cr_mul_0_l, (Radd_0_l (rth K)), (Rmul_comm (rth K)), (Rmul_1_l (rth K)) in H. exact H.
    + destruct i as [|[|i]]; cbn in Hi; try lia; cbn [upd nth]; [apply (cal_const _ C)|apply (cal_id _ C)].
  - repeat constructor.
Qed.
