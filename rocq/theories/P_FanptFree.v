(** C71: the energy-free equations of the perturbation theory. *)
From Coq Require Import List ZArith Arith Bool Lia Ring QArith Qcanon.
From Verif Require Import Py Slater Alg EqnSpec EqnLemmas BicliqueLemmas Fanci FanciSpec Fanpt FanptSpec FanptSpec2 FanptLemmas FanptOrders FanciLemmas FanptFree SolverEx FanptEx FanptEx3.
Import ListNotations.
Local Open Scope nat_scope.

Section Free.
Context {F : CField}.
Local Notation K := (fring F).
Local Open Scope cr_scope.
Add Ring K_ring135 : (rth K).
Variable sop : pham F -> nat -> nat -> K.

(** the vector d_g_lambda holds the derivatives with respect to lambda *)
Theorem C71_free_lambda : forall Der, calculus Der -> linear_op sop -> forall o chunk x h0 h1 l ref inorm three q, new_cont sop true o chunk x h0 h1 l ref inorm three = Ok q ->
  forall n, (n < fo_nproj o)%nat -> Der (fun l' => free_equation sop o h0 h1 ref inorm l' (wpar x) n) l (q_dgl q n).
Proof.
  intros Der C Lin o chunk x h0 h1 l ref inorm three q Hq n Hn. destruct (cont_fields sop _ _ _ _ _ _ _ _ _ _ _ Hq) as (E1 & E2 & E3 & E4 & E5 & E6 & E7 & E8 & E9 & E10 & E11 & _). destruct (free_ref sop _ _ _ _ _ _ _ _ _ _ Hq) as [Hr _].
  assert (D : forall m, (m < fo_nproj o)%nat -> super_dgl q m = sumf (fun j => sop (linear_comb_ham h1 h0 1 (- (1))) m j * fo_ovlp o (wpar x) j) (seq 0 (fo_ns o))).
  { intros m Hm. unfold super_dgl, q_nproj, opdot, q_ns, q_c. rewrite E1, E2, E11. apply Nat.ltb_lt in Hm. now rewrite Hm. }
  unfold q_dgl, q_nproj. rewrite E4, E1, E7, E8. assert (N : Nat.ltb n (fo_nproj o) = true) by (now apply Nat.ltb_lt). rewrite N. cbn [andb]. rewrite !D by assumption. unfold q_c. rewrite E1, E2. unfold free_equation. cbv zeta. destruct inorm.
  - apply (der_sub Der C); [apply (braket_lam sop Der C Lin)|]. apply (cal_ext Der C (fun y => fo_ovlp o (wpar x) n * braket sop o h0 h1 y (wpar x) ref)); [intros; ring|]. eapply (der_eq Der); [apply (der_scale Der C); apply (braket_lam sop Der C Lin)|]. ring.
  - apply (der_sub Der C); [apply (braket_lam sop Der C Lin)|]. apply (cal_ext Der C (fun y => (finv (fo_ovlp o (wpar x) ref) * fo_ovlp o (wpar x) n) * braket sop o h0 h1 y (wpar x) ref)); [intros; ring|]. eapply (der_eq Der); [apply (der_scale Der C); apply (braket_lam sop Der C Lin)|]. ring.
Qed.
(** the derivative with respect to an active parameter, at any lambda *)
Definition free_slope (o : fobj K) (h0 h1 : pham F) (ref : nat) (inorm : bool) (ps : list K) (k n : nat) (l : K) : K :=
  let f := fun m => sumf (fun j => sop (linear_comb_ham h1 h0 l (1 - l)) m j * fo_dovlp o ps j k) (seq 0 (fo_ns o)) in
  let c := finv (fo_ovlp o ps ref) in
  if inorm then f n - (f ref * fo_ovlp o ps n + braket sop o h0 h1 l ps ref * fo_dovlp o ps n k)
  else f n - ((f ref * c - c * (braket sop o h0 h1 l ps ref * c * fo_dovlp o ps ref k)) * fo_ovlp o ps n + braket sop o h0 h1 l ps ref * c * fo_dovlp o ps n k).
Lemma slope_der : forall Der, calculus Der -> forall (o : fobj K) h0 h1 ref inorm ps k n l, overlaps_derived Der o ps -> (k < length ps)%nat -> (n < fo_ns o)%nat -> (ref < fo_ns o)%nat -> (inorm = false -> fo_ovlp o ps ref <> 0) ->
  Der (fun y => free_equation sop o h0 h1 ref inorm l (upd ps k y) n) (nth k ps 0) (free_slope o h0 h1 ref inorm ps k n l).
Proof.
  intros Der C o h0 h1 ref inorm ps k n l Ho Hk Hn Hr Hc. assert (U : upd ps k (nth k ps 0) = ps) by (now apply upd_same). unfold free_equation, free_slope. cbv zeta. destruct inorm.
  - apply (der_sub Der C); [apply (braket_par sop Der C); assumption|]. eapply (der_eq Der).
    + apply (cal_mul Der C (fun y => braket sop o h0 h1 l (upd ps k y) ref) (fun y => fo_ovlp o (upd ps k y) n)); [apply (braket_par sop Der C); assumption|now apply Ho].
    + rewrite U. reflexivity.
  - apply (der_sub Der C); [apply (braket_par sop Der C); assumption|]. eapply (der_eq Der).
    + apply (cal_mul Der C (fun y => braket sop o h0 h1 l (upd ps k y) ref * finv (fo_ovlp o (upd ps k y) ref)) (fun y => fo_ovlp o (upd ps k y) n)); [|now apply Ho].
      apply (der_div Der C (fun y => braket sop o h0 h1 l (upd ps k y) ref) (fun y => fo_ovlp o (upd ps k y) ref)); [rewrite U; auto|apply (braket_par sop Der C); assumption|now apply Ho].
    + rewrite U. reflexivity.
Qed.
(** the coefficient matrix holds the derivatives with respect to the active parameters, if the energy parameter is the energy of
    the reference *)
Theorem C71_free_parameters : forall Der, calculus Der -> forall o chunk x h0 h1 l ref inorm three q, new_cont sop true o chunk x h0 h1 l ref inorm three = Ok q ->
  fo_mask o <> [] -> length x = fo_nparam o -> (fo_nproj o <= fo_ns o)%nat -> at_lambda q -> overlaps_derived Der o (wpar x) -> (inorm = false -> fo_ovlp o (wpar x) ref <> 0) ->
  epar x = (if inorm then braket sop o h0 h1 l (wpar x) ref else braket sop o h0 h1 l (wpar x) ref * finv (fo_ovlp o (wpar x) ref)) ->
  forall n p, (n < fo_nproj o)%nat -> (p < fo_nactive o)%nat -> let k := nth p (fo_act o) 0%nat in
  Der (fun y => free_equation sop o h0 h1 ref inorm l (upd (wpar x) k y) n) (nth k (wpar x) 0) (q_cmat q n p).
Proof.
  intros Der C o chunk x h0 h1 l ref inorm three q Hq Nm Hx Hps At Ho Hc He n p Hn Hp k. destruct (cont_fields sop _ _ _ _ _ _ _ _ _ _ _ Hq) as (E1 & E2 & E3 & E4 & E5 & E6 & E7 & E8 & E9 & E10 & E11 & _). destruct (free_ref sop _ _ _ _ _ _ _ _ _ _ Hq) as [Hr Hea].
  assert (Hp' := Hp). rewrite free_nactive in Hp' by assumption. assert (Lk : (k < length (wpar x))%nat) by (unfold wpar; rewrite removelast_len, Hx; apply act_lt; now apply nth_In).
  eapply (der_eq Der); [apply (slope_der Der C); auto; lia|]. rewrite free_row by (try assumption; unfold q_eact, q_nproj, q_nactive; rewrite ?E1; assumption).
  rewrite E7, E8. unfold opdot, q_c, q_d, q_energy, q_ns. rewrite E1, E2, E10. fold k. unfold free_slope. cbv zeta. destruct inorm; rewrite He; ring.
Qed.
(** the mixed derivatives, of the slope of the equations along a parameter with respect to lambda *)
Theorem C71_free_mixed : forall Der, calculus Der -> linear_op sop -> forall o chunk x h0 h1 l ref inorm three q, new_cont sop true o chunk x h0 h1 l ref inorm three = Ok q ->
  fo_mask o <> [] -> length x = fo_nparam o -> (fo_nproj o <= fo_ns o)%nat -> overlaps_derived Der o (wpar x) -> (inorm = false -> fo_ovlp o (wpar x) ref <> 0) ->
  forall n p, (n < fo_nproj o)%nat -> (p < fo_nactive o)%nat -> let k := nth p (fo_act o) 0%nat in
  exists slope, (forall l', Der (fun y => free_equation sop o h0 h1 ref inorm l' (upd (wpar x) k y) n) (nth k (wpar x) 0) (slope l')) /\ Der slope l (q_d2lp q n p).
Proof.
  intros Der C Lin o chunk x h0 h1 l ref inorm three q Hq Nm Hx Hps Ho Hc n p Hn Hp k. destruct (cont_fields sop _ _ _ _ _ _ _ _ _ _ _ Hq) as (E1 & E2 & E3 & E4 & E5 & E6 & E7 & E8 & E9 & E10 & E11 & _). destruct (free_ref sop _ _ _ _ _ _ _ _ _ _ Hq) as [Hr Hea].
  assert (Hp' := Hp). rewrite free_nactive in Hp' by assumption. assert (Lk : (k < length (wpar x))%nat) by (unfold wpar; rewrite removelast_len, Hx; apply act_lt; now apply nth_In).
  exists (free_slope o h0 h1 ref inorm (wpar x) k n). split; [intros l'; apply (slope_der Der C); auto; lia|].
  assert (D : forall m, (m < fo_nproj o)%nat -> super_dgl q m = sumf (fun j => sop (linear_comb_ham h1 h0 1 (- (1))) m j * fo_ovlp o (wpar x) j) (seq 0 (fo_ns o))).
  { intros m Hm. unfold super_dgl, q_nproj, opdot, q_ns, q_c. rewrite E1, E2, E11. apply Nat.ltb_lt in Hm. now rewrite Hm. }
  assert (D2 : forall m, (m < fo_nproj o)%nat -> super_d2 q m p = sumf (fun j => sop (linear_comb_ham h1 h0 1 (- (1))) m j * fo_dovlp o (wpar x) j k) (seq 0 (fo_ns o))).
  { intros m Hm. unfold super_d2, q_nproj, opdot, q_ns, q_d. rewrite E1, E2, E11. apply Nat.ltb_lt in Hm. now rewrite Hm. }
  assert (A := fun m => braket_dlam sop Der C Lin o h0 h1 (wpar x) k m l). assert (B := braket_lam sop Der C Lin o h0 h1 (wpar x) ref l).
  unfold q_d2lp, q_nproj. rewrite E4, E1, E7, E8. assert (N : Nat.ltb n (fo_nproj o) = true) by (now apply Nat.ltb_lt). rewrite N. cbn [andb]. rewrite !D, !D2 by assumption. unfold q_c, q_d. rewrite E1, E2. fold k.
  unfold free_slope. cbv zeta. set (cn := fo_ovlp o (wpar x) n). set (dn := fo_dovlp o (wpar x) n k). set (ci := finv (fo_ovlp o (wpar x) ref)). set (dr := fo_dovlp o (wpar x) ref k). destruct inorm.
  - set (fn := fun l' => sumf (fun j => sop (linear_comb_ham h1 h0 l' (1 - l')) n j * fo_dovlp o (wpar x) j k) (seq 0 (fo_ns o))). set (fr := fun l' => sumf (fun j => sop (linear_comb_ham h1 h0 l' (1 - l')) ref j * fo_dovlp o (wpar x) j k) (seq 0 (fo_ns o))). set (br := fun l' => braket sop o h0 h1 l' (wpar x) ref).
    apply (cal_ext Der C (fun y => fn y - (cn * fr y + dn * br y))); [intros y; unfold fn, fr, br; ring|].
    eapply (der_eq Der); [apply (der_sub Der C); [apply (A n)|apply (cal_add Der C); [apply (der_scale Der C); apply (A ref)|apply (der_scale Der C); exact B]]|]. ring.
  - set (fn := fun l' => sumf (fun j => sop (linear_comb_ham h1 h0 l' (1 - l')) n j * fo_dovlp o (wpar x) j k) (seq 0 (fo_ns o))). set (fr := fun l' => sumf (fun j => sop (linear_comb_ham h1 h0 l' (1 - l')) ref j * fo_dovlp o (wpar x) j k) (seq 0 (fo_ns o))). set (br := fun l' => braket sop o h0 h1 l' (wpar x) ref).
    apply (cal_ext Der C (fun y => fn y - ((ci * cn) * fr y + (ci * dn - ci * ci * dr * cn) * br y))); [intros y; unfold fn, fr, br; ring|].
    eapply (der_eq Der); [apply (der_sub Der C); [apply (A n)|apply (cal_add Der C); [apply (der_scale Der C); apply (A ref)|apply (der_scale Der C); exact B]]|]. ring.
Qed.
(** the equation of the reference is empty if its overlap is not fixed *)
Theorem C71_free_reference : forall o chunk x h0 h1 l ref three (q : cont F), new_cont sop true o chunk x h0 h1 l ref false three = Ok q -> fo_mask o <> [] -> at_lambda q -> fo_ovlp o (wpar x) ref <> 0 ->
  (forall l' ps, fo_ovlp o ps ref <> 0 -> free_equation sop o h0 h1 ref false l' ps ref = 0) /\
  q_dgl q ref = 0 /\ (forall p, (p < fo_nactive o)%nat -> q_cmat q ref p = 0 /\ q_d2lp q ref p = 0).
Proof.
  intros o chunk x h0 h1 l ref three q Hq Nm At Hc. destruct (cont_fields sop _ _ _ _ _ _ _ _ _ _ _ Hq) as (E1 & E2 & E3 & E4 & E5 & E6 & E7 & E8 & _). destruct (free_ref sop _ _ _ _ _ _ _ _ _ _ Hq) as [Hr Hea].
  assert (N : Nat.ltb ref (q_nproj q) = true) by (apply Nat.ltb_lt; unfold q_nproj; now rewrite E1). assert (Hc' : q_c q ref * finv (q_c q ref) = 1) by (apply finv_r; unfold q_c; now rewrite E1, E2). set (c := q_c q ref) in *.
  split; [intros l' ps Z; unfold free_equation; cbv zeta; transitivity (braket sop o h0 h1 l' ps ref * (1 - fo_ovlp o ps ref * finv (fo_ovlp o ps ref))); [ring|rewrite finv_r by exact Z; ring]|].
  split; [unfold q_dgl; rewrite E4, N, E7, E8; cbn [andb]; fold c; transitivity (super_dgl q ref * (1 - c * finv c)); [ring|rewrite Hc'; ring]|].
  intros p Hp. split.
  - rewrite free_row by (try assumption; unfold q_eact, q_nproj, q_nactive; rewrite ?E1; assumption). rewrite E7, E8. fold c. set (g := opdot _ _ _ _). transitivity ((g - q_energy q * q_d q ref p) * (1 - c * finv c)); [ring|rewrite Hc'; ring].
  - unfold q_d2lp. rewrite E4, N, E7, E8. cbn [andb]. fold c. set (a := super_d2 _ _ _). set (b := super_dgl _ _). set (d := q_d _ _ _).
    transitivity ((a - b * d * finv c) * (1 - c * finv c)); [ring|rewrite Hc'; ring].
Qed.
(** so the matrix of a resummation has no inverse *)
Theorem C71_free_resum_refuted : forall o chunk x h0 h1 l ref three (q : cont F), new_cont sop true o chunk x h0 h1 l ref false three = Ok q -> fo_mask o <> [] -> at_lambda q -> fo_ovlp o (wpar x) ref <> 0 ->
  q_nequation q = q_nactive q -> forall b, ~ right_inverse (q_nequation q) (q_cmat q) b.
Proof.
  intros o chunk x h0 h1 l ref three q Hq Nm At Hc He b R. destruct (C71_free_reference _ _ _ _ _ _ _ _ _ Hq Nm At Hc) as (_ & _ & Z). destruct (cont_fields sop _ _ _ _ _ _ _ _ _ _ _ Hq) as (E1 & _). destruct (free_ref sop _ _ _ _ _ _ _ _ _ _ Hq) as [Hr _].
  assert (Lr : (ref < q_nequation q)%nat) by (unfold q_nequation, fo_nequation; rewrite E1; lia). assert (Q := R ref ref Lr Lr). rewrite Nat.eqb_refl in Q. apply (f_one F). rewrite <- Q. apply sumf_zero. intros k Hk. apply in_seq in Hk.
  destruct (Z k) as [-> _]; [unfold q_nactive in He; rewrite E1 in He; lia|ring].
Qed.
End Free.
Print Assumptions C71_free_lambda. Print Assumptions C71_free_parameters. Print Assumptions C71_free_mixed. Print Assumptions C71_free_reference. Print Assumptions C71_free_resum_refuted.

Local Ltac qv := apply Qc_is_canon; vm_compute; reflexivity.
Example C71_free_ex : exists q, ex_fq = Ok q /\ at_lambda q /\ exact_orders ex_lstsq1 q false 2 /\ q_nactive q = 1 /\
  (forall n, (n < 2)%nat -> free_equation ex_sop (ex_obj 2 (ex_sop ex_g0) [true; false]) ex_g0 ex_g1 0 false (0%Qc : Qc_field) (wpar ex_x1) n = 0%Qc) /\
  epar ex_x1 = @rmul Qc_field (braket ex_sop (ex_obj 2 (ex_sop ex_g0) [true; false]) ex_g0 ex_g1 (0%Qc : Qc_field) (wpar ex_x1) 0) (finv (1%Qc : Qc_field)).
Proof.
  eexists. split; [reflexivity|]. split; [|split; [|split; [reflexivity|split]]].
  - intros n j Hn Hj. cbn in Hn, Hj. destruct n as [|[|n]]; try lia; destruct j as [|[|j]]; try lia; qv.
  - intros i Hi n Hn. cbn in Hn. destruct n as [|[|n]]; try lia; destruct i as [|[|[|i]]]; try lia; qv.
  - intros n Hn. destruct n as [|[|n]]; try lia; qv.
  - qv.
Qed.
Lemma ex_free_eq : forall p fl : Qc, free_equation ex_sop (ex_obj 2 (ex_sop ex_g0) [true; false]) ex_g0 ex_g1 0 false (fl : Qc_field) [p : Qc_field] 1 = (1 + fl * p - p * p)%Qc.
Proof.
  intros p fl. unfold free_equation, braket. cbn [fo_ovlp fo_ns ex_obj seq nth]. rewrite !sumf_cons. change (sumf _ []) with (@rO Qc_field).
  unfold ex_sop, linear_comb_ham. cbn [h_one ex_g0 ex_g1 ex_ham mat2]. cbn [rmul radd rsub ropp rI rO fring Qc_field Qc_ring finv].
  change (zc 0) with (0%Qc). change (zc 1) with (1%Qc). replace (/ 1)%Qc with 1%Qc by (apply Qc_is_canon; reflexivity).
  match goal with |- ?a = ?b => change (@eq Qc a b) end. ring.
Qed.
(** without the second derivatives with respect to the parameters the second order is not better than the first: the overlaps are
    linear, and the error is of the second power *)
Theorem C71_free_second_order_refuted : exists q, ex_fq = Ok q /\ at_lambda q /\ exact_orders ex_lstsq1 q false 2 /\
  forall (fl : Qc_field) u, new_updater ex_sop ex_lstsq1 ex_inv ex_lt ex_le q 2 fl false false false = Ok u ->
  free_equation ex_sop (q_o q) ex_g0 ex_g1 0 false fl (u_params u) 1 = (- (fl * fl * / zc 4) - fl * fl * fl * fl * / zc 16)%Qc.
Proof.
  destruct C71_free_ex as (q & Hq & A & B & _). exists q. split; [exact Hq|]. split; [exact A|]. split; [exact B|]. intros fl u Hu. injection Hq as <-.
  unfold new_updater in Hu. destruct (negb _) in Hu; [discriminate Hu|]. rewrite ?andb_false_r in Hu. cbn [andb Z.ltb Z.compare] in Hu. injection Hu as <-. cbn [u_params q_o q_x].
  set (q := mkcont _ _ _ _ _ _ _ _ _ _ _ _) in *. set (r := responses ex_lstsq1 q false (Z.to_nat 2)).
  assert (R1 : rsp r 1 0 = (/ zc 2)%Qc) by qv. assert (R2 : rsp r 2 0 = (/ zc 2)%Qc) by qv.
  assert (S : series_corr q fl r 0 = (/ zc 2 * fl + / zc 4 * (fl * fl))%Qc).
  { unfold series_corr. assert (L : length r = 2) by reflexivity. rewrite L. cbn [seq]. rewrite !sumf_cons. change (sumf _ []) with (@rO Qc_field). rewrite R1, R2. unfold dlam. cbn [q_l q fpow].
    assert (F1 : finv (nat_r (K := Qc_field) (fact 1)) = 1%Qc) by qv. assert (F2 : finv (nat_r (K := Qc_field) (fact 2)) = (/ zc 2)%Qc) by qv. rewrite F1, F2. cbn [rmul radd rsub ropp rI rO fring Qc_field Qc_ring].
    replace (/ zc 4)%Qc with (/ zc 2 * / zc 2)%Qc by qv. change (q_l q) with (0%Qc). match goal with |- ?a = ?b => change (@eq Qc a b) end. ring. }
  assert (U : add_corr (wpar ex_x1) (fo_act (q_o q)) (series_corr q fl r) = [(1 + (/ zc 2 * fl + / zc 4 * (fl * fl)))%Qc : Qc_field]) by (rewrite <- S; reflexivity).
  refine (eq_trans (f_equal (fun ps => free_equation ex_sop (ex_obj 2 (ex_sop ex_g0) [true; false]) ex_g0 ex_g1 0 false fl ps 1) U) _). clear. rewrite ex_free_eq.
  replace (/ zc 16)%Qc with (/ zc 4 * / zc 4)%Qc by qv. set (h := (/ zc 2)%Qc). replace (/ zc 4)%Qc with (h * h)%Qc by qv. assert (H : (h + h = 1)%Qc) by qv.
  assert (G : forall h f : Qc, (h + h = 1 -> 1 + f * (1 + (h * f + h * h * (f * f))) - (1 + (h * f + h * h * (f * f))) * (1 + (h * f + h * h * (f * f))) = - (f * f * (h * h)) - f * f * f * f * (h * h * (h * h)))%Qc).
  { clear. intros h f H. assert (E : f = (h * f + h * f)%Qc) by (transitivity ((h + h) * f)%Qc; [rewrite H; ring|ring]).
    transitivity (1 + (h * f + h * f) * (1 + (h * f + h * h * (f * f))) - (1 + (h * f + h * h * (f * f))) * (1 + (h * f + h * h * (f * f))))%Qc; [now rewrite <- E|ring]. }
  exact (G h fl H).
Qed.
Print Assumptions C71_free_second_order_refuted.
