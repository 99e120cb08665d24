(** C78: the Hamiltonians of ham_factory. *)
From Coq Require Import Ring_theory List ZArith NArith Bool Lia Arith.
From Verif Require Import Py BitSpec BitLemmas Slater SlaterBits SlaterBits2 Alg Combos BulkLemmas SdSpec SdLemmas HamSpec HamGen FockInner
  HamLemmas HamSC HamMain HamWfn HamEx P_Ham1 HamFac HamFacL HamFacEx.
Import ListNotations.
Local Open Scope nat_scope.

(** [m] is [sd] or an excitation of [sd] of one of the orders *)
Definition reached (orders : list Z) (n : nat) (sd m : N) : Prop :=
  fits m n /\ (m = sd \/ exists k, In (Z.of_nat k) orders /\ excitation sd m k).

(** distinct positive orders: every determinant in reach counts once, for the overlap and for every derivative *)
Theorem C78_reach : forall {K : CRing} {I Q} (h : facham K I) ov sd n (js : list Q) (f : Q -> N -> K) e,
  fa_nspin h = Z.of_nat n -> fits sd n -> fa_wfn h = None ->
  (forall m, fits m n -> ov m = Ok (map (fun j => f j m) js)) -> (forall m, fits m n -> fac_ss h sd m = Ok (e m)) ->
  NoDup (fa_orders h) -> (forall k, In k (fa_orders h) -> (0 < k)%Z) ->
  exists vs, fac_integrate h ov sd = Ok vs /\
    Forall2 (fun j v => sum_over (reached (fa_orders h) n sd) (fun m => rmul (f j m) (e m)) v) js vs.
Proof.
  intros K I Q h ov sd n js f e Hn Hs Hw Ho He N P.
  assert (P0 : forall k, In k (fa_orders h) -> (0 <= k)%Z) by (intros k Hk; pose proof (P k Hk); lia).
  eexists. split; [apply (fac_value h ov sd n Q js f e); auto|].
  assert (X : forall j, sum_over (reached (fa_orders h) n sd) (fun m => rmul (f j m) (e m))
    (sumf (fun m => rmul (f j m) (e m)) (sd :: candidates sd (occ_indices (Some sd)) (vir_indices (Some sd) (fa_nspin h)) (fa_orders h)))).
  { intros j. eexists. split; [|split; [|reflexivity]].
    - constructor; [eapply fac_sd_notin; eauto|eapply fac_cand_NoDup; eauto].
    - intros m. cbn [In]. rewrite (fac_cand_In h sd n Hn Hs _ m P0). unfold reached. split.
      + intros [<-|(k & A & B & C)]; eauto 6.
      + intros [F [->|(k & A & B)]]; eauto 6. }
  clear - X. induction js; cbn [map]; constructor; auto.
Qed.
Print Assumptions C78_reach.

(** the projection on the whole space, if the Hamiltonian does not connect other determinants *)
Theorem C78_projection : forall {K : CRing} {I Q} (h : facham K I) ov sd n (js : list Q) (f : Q -> N -> K) e,
  fa_nspin h = Z.of_nat n -> fits sd n -> fa_wfn h = None ->
  (forall m, fits m n -> ov m = Ok (map (fun j => f j m) js)) -> (forall m, fits m n -> fac_ss h sd m = Ok (e m)) ->
  NoDup (fa_orders h) -> (forall k, In k (fa_orders h) -> (0 < k)%Z) ->
  (forall m, fits m n -> ~ reached (fa_orders h) n sd m -> e m = rO) ->
  exists vs, fac_integrate h ov sd = Ok vs /\
    Forall2 (fun j v => sum_over (fun m => fits m n) (fun m => rmul (f j m) (e m)) v) js vs.
Proof.
  intros K I Q h ov sd n js f e Hn Hs Hw Ho He N P Z.
  destruct (C78_reach h ov sd n js f e Hn Hs Hw Ho He N P) as (vs & E & R). exists vs. split; auto.
  assert (X : forall j v, sum_over (reached (fa_orders h) n sd) (fun m => rmul (f j m) (e m)) v ->
    sum_over (fun m => fits m n) (fun m => rmul (f j m) (e m)) v); [|clear - X R; induction R; constructor; auto].
  intros j v (l & Nl & Il & ->).
  exists (alldets n). split; [apply alldets_NoDup|]. split; [intros; apply alldets_In|].
  symmetry. apply sumf_support; auto using alldets_NoDup.
  - intros m Hm. apply alldets_In. apply Il in Hm. destruct Hm; auto.
  - intros m Hm. apply alldets_In in Hm. destruct (in_dec N.eq_dec m l) as [|X]; auto. left.
    rewrite Z; auto; [|intros Y; apply X; now apply Il].
    rewrite (Rmul_comm (rth K)). apply cr_mul_0_l.
Qed.
Print Assumptions C78_projection.

(** given the components of the generalized chemical Hamiltonian: any distinct positive orders with 1 and 2 give its projection *)
Theorem C78_generalized : forall {K : CField} {Q} (g : gham K) ov sd (js : list Q) (f : Q -> N -> K) orders,
  (@radd K rI rI <> rO) -> cached g -> two_sym (gh_two g) -> fits sd (gh_n g) -> sd <> 0%N ->
  (forall m, fits m (gh_n g) -> ov m = Ok (map (fun j => f j m) js)) ->
  NoDup orders -> (forall k, In k orders -> (0 < k)%Z) -> In 1%Z orders -> In 2%Z orders ->
  exists vs, fac_integrate (mkfac gen_dec g (Z.of_nat (gh_n g)) orders None) ov sd = Ok vs /\
    Forall2 (fun j v => sum_over (fun m => fits m (gh_n g))
      (fun m => rmul (f j m) (ham_elem (gh_n g) (gh_one g) (gh_two g) sd m)) v) js vs.
Proof.
  intros K Q g ov sd js f orders H2 C S F M Ho N P I1 I2.
  apply C78_projection; auto.
  - intros m Fm. pose proof (C28_elements g sd m H2 C S F Fm (or_introl M)) as E. unfold integrate_sd_sd in E.
    unfold fac_ss. cbn [fa_dec fa_ints]. unfold gen_dec.
    destruct (integrate_sd_sd_decomposed g sd m) as [[[a b] c]|]; [|discriminate]. cbn [bind] in *.
    rewrite <- E. cbn [fst snd]. f_equal. cbn [t_sum]. unfold sumf. cbn [fold_right].
    rewrite (Radd_comm (rth K) c), (Radd_0_l (rth K)). apply (Radd_assoc (rth K)).
  - cbn [fa_orders]. intros m Fm X.
    assert (D : length (fst (diff_orbs sd m)) <> length (snd (diff_orbs sd m)) \/ 2 < length (fst (diff_orbs sd m))).
    { destruct (Nat.eq_dec (length (fst (diff_orbs sd m))) (length (snd (diff_orbs sd m)))) as [E|]; auto. right.
      assert (Ex : excitation sd m (length (fst (diff_orbs sd m)))).
      { split.
        - exists (fst (diff_orbs sd m)). split; [apply increasing_NoDup, occ_indices_increasing|]. split; auto.
          intros i. rewrite diff_orbs_In1. unfold lost. rewrite andb_true_iff, negb_true_iff. tauto.
        - exists (snd (diff_orbs sd m)). split; [apply increasing_NoDup, occ_indices_increasing|]. split; auto.
          intros i. rewrite diff_orbs_In2. unfold lost. rewrite andb_true_iff, negb_true_iff. tauto. }
      destruct (length (fst (diff_orbs sd m))) as [|[|[|k]]] eqn:L; [| | |lia]; exfalso; apply X; split; auto.
      - left. now apply excitation_0.
      - right. exists 1. auto.
      - right. exists 2. auto. }
    unfold ham_elem. rewrite two_body_pairs, pair_far by auto.
    rewrite one_far by (destruct D; [left; auto|right; lia]).
    rewrite half_double by auto. rewrite (Radd_0_l (rth K)). reflexivity.
Qed.
Print Assumptions C78_generalized.

(** any orders that are not negative: the diagonal term and, for every entry of the list, all excitations of this order *)
Theorem C78_orders : forall {K : CRing} {I Q} (h : facham K I) ov sd n (js : list Q) (f : Q -> N -> K) e,
  fa_nspin h = Z.of_nat n -> fits sd n -> fa_wfn h = None ->
  (forall m, fits m n -> ov m = Ok (map (fun j => f j m) js)) -> (forall m, fits m n -> fac_ss h sd m = Ok (e m)) ->
  (forall k, In k (fa_orders h) -> (0 <= k)%Z) ->
  exists ws : Z -> Q -> K,
    (forall k j, (0 <= k)%Z -> sum_over (fun m => fits m n /\ excitation sd m (Z.to_nat k)) (fun m => rmul (f j m) (e m)) (ws k j)) /\
    fac_integrate h ov sd = Ok (map (fun j => radd (rmul (f j sd) (e sd)) (sumf (fun k => ws k j) (fa_orders h))) js).
Proof.
  intros K I Q h ov sd n js f e Hn Hs Hw Ho He P.
  exists (fun k j => sumf (fun m => rmul (f j m) (e m))
    (candidates sd (occ_indices (Some sd)) (vir_indices (Some sd) (fa_nspin h)) [k])). split.
  - intros k j Hk. eexists. split; [|split; [|reflexivity]].
    + eapply fac_cand_NoDup; eauto; [intros k' [<-|[]]; auto|constructor; [intros []|constructor]].
    + intros m. rewrite (fac_cand_In h sd n Hn Hs [k] m) by (intros k' [<-|[]]; auto). split.
      * intros (k' & [->|[]] & X). now rewrite Nat2Z.id.
      * intros X. exists (Z.to_nat k). rewrite Z2Nat.id by auto. split; [now left|auto].
  - rewrite (fac_value h ov sd n Q js f e) by auto. f_equal. apply map_ext. intros j. cbn [sumf fold_right]. f_equal.
    change (fold_right _ _ (candidates ?g ?o ?v ?l)) with (sumf (fun m => rmul (f j m) (e m)) (candidates g o v l)).
    clear. generalize (vir_indices (Some sd) (fa_nspin h)). intros V. induction (fa_orders h) as [|k t IH]; auto.
    rewrite sumf_cons, <- IH. unfold candidates. cbn [flat_map]. now rewrite app_nil_r, sumf_app.
Qed.
Print Assumptions C78_orders.

(** a negative order raises ValueError *)
Theorem C78_negative : forall {K : CRing} {I Q} (h : facham K I) ov sd n (js : list Q) (f : Q -> N -> K) e a k b,
  fa_nspin h = Z.of_nat n -> fits sd n -> fa_wfn h = None ->
  (forall m, fits m n -> ov m = Ok (map (fun j => f j m) js)) -> (forall m, fits m n -> fac_ss h sd m = Ok (e m)) ->
  fa_orders h = a ++ k :: b -> (forall k, In k a -> (0 <= k)%Z) -> (k < 0)%Z ->
  fac_integrate h ov sd = Err ValueError.
Proof.
  intros K I Q h ov sd n js f e a k b Hn Hs Hw Ho He E P Hk. unfold fac_integrate.
  rewrite Hw, Ho by auto. cbn [bind]. rewrite He by auto. cbn [bind]. unfold v_scale. rewrite map_map, E. clear E.
  generalize (fun j => rmul (f j sd) (e sd)). induction a as [|x a IH]; intros F; cbn [app fac_orders].
  - destruct (Z.ltb_spec k 0); auto; lia.
  - destruct (Z.ltb_spec x 0) as [X|_]; [pose proof (P x (or_introl eq_refl)); lia|].
    rewrite (fac_loop_value h ov sd n Q js f e) by (auto; intros c d Hp; exact (fpairs h sd n Hn Hs _ c d Hp)). cbn [bind].
    apply IH. intros; apply P; now right.
Qed.
Print Assumptions C78_negative.

(** a given integrate_sd_wfn is called, and nothing else *)
Theorem C78_given : forall {K : CRing} {I} (h : facham K I) ov sd u, fa_wfn h = Some u -> fac_integrate h ov sd = u sd.
Proof. intros K I h ov sd u E. unfold fac_integrate. now rewrite E. Qed.
Print Assumptions C78_given.

(** the order 0 and repeated orders count determinants twice *)
Theorem C78_orders_refuted : exists (h0 h1 : facham Z_ring (gham Z_ring)) ov sd v w,
  (forall k, In k (fa_orders h0) <-> k = 0%Z \/ k = 1%Z \/ k = 2%Z) /\ NoDup (fa_orders h0) /\
  (forall k, In k (fa_orders h1) <-> k = 1%Z \/ k = 2%Z) /\
  fac_integrate (fx [1; 2]%Z) ov sd = Ok [191%Z] /\
  fac_integrate h0 ov sd = Ok [v] /\ fac_integrate h1 ov sd = Ok [w] /\ v <> 191%Z /\ w <> 191%Z.
Proof.
  exists (fx [0; 1; 2]%Z), (fx [1; 2; 1]%Z), fx_ov, 5%N. eexists _, _.
  split; [intros k; cbn; intuition lia|]. split; [repeat constructor; cbn; intuition lia|]. split; [intros k; cbn; intuition lia|].
  split; [vm_compute; reflexivity|]. split; [vm_compute; reflexivity|]. split; [vm_compute; reflexivity|]. split; lia.
Qed.
Print Assumptions C78_orders_refuted.

Example C78_ex : fac_integrate (fx [1; 2]%Z) fx_ov 5 = Ok [191%Z] /\ fac_integrate (fx [2; 1; 3]%Z) fx_ov 5 = Ok [191%Z] /\
  base_integrate_sd_wfn (integrate_sd_sd (ex_h2 4)) 4 [1; 2] 5 ex_f = Ok 191%Z /\
  fac_integrate (fx [1; -1; 2]%Z) fx_ov 5 = Err ValueError /\
  fac_integrate (mkfac gen_dec (ex_h2 4) 4 [1]%Z (Some (fun m => Ok [Z.of_N m]))) fx_ov 5 = Ok [5%Z].
Proof. vm_compute. repeat split. Qed.
Example C78_ex2 : exists v w, fac_integrate (fx [1; 2]%Z) fx_ov2 5 = Ok [191%Z; v] /\ fac_integrate (fx [1]%Z) fx_ov 5 = Ok [w] /\
  w <> 191%Z /\ v <> 191%Z.
Proof. eexists _, _. split; [vm_compute; reflexivity|]. split; [vm_compute; reflexivity|]. split; lia. Qed.
