(** C71: how well the series of responses of the perturbation theory solve the projected equations. *)
From Coq Require Import List ZArith Arith Bool Lia Ring QArith Qcanon.
From Verif Require Import Py Slater Alg Fanci Fanpt FanptSpec FanptLemmas FanptOrders SolverEx FanptEx.
From Verif Require P_Geminal.
Import ListNotations.
Local Open Scope nat_scope.

Section Orders.
Context {F : CField}.
Local Notation K := (fring F).
Local Open Scope cr_scope.
Add Ring K_ring129 : (rth K).
Variable sop : pham F -> nat -> nat -> K.
Variable lstsq : nat -> nat -> (nat -> nat -> K) -> (nat -> K) -> nat -> K.
Variable inv : nat -> (nat -> nat -> K) -> nat -> nat -> K.
Variable lt le : K -> K -> bool.

(** wavefunctions that are linear in their parameters: the series of order M solves the equations up to the power M+1 *)
Theorem C71_linear_all_orders : linear_op sop -> char0 (F := F) ->
  forall o chunk x h0 h1 l ref inorm three q M, new_cont sop false o chunk x h0 h1 l ref inorm three = Ok q -> settled lstsq q three M -> linear_overlaps o (wpar x) ->
  (three = true -> forall f, fo_ddovlp o = Some f -> forall j a b, f (wpar x) j a b = 0) ->
  forall n, (n < fo_nproj o)%nat -> residual_order sop lstsq inv lt le q (Z.of_nat M) three n (S M).
Proof.
  intros Lin C0 o chunk x h0 h1 l ref inorm three q M Hq Hs Hl Hd n Hn. destruct (cont_fields sop _ _ _ _ _ _ _ _ _ _ _ Hq) as (E1 & _).
  eapply (linear_order sop lstsq inv lt le Lin C0 o chunk x h0 h1 l ref inorm three q M (fun _ _ _ => 0)); auto.
  - intros qs j L Hj. cbv zeta. rewrite (Hl qs j L Hj). rewrite (sumf_zero (fun k => sumf (fun l0 => 0 * (nth k qs 0 - nth k (wpar x) 0) * (nth l0 qs 0 - nth l0 (wpar x) 0)) (seq 0 (length (wpar x))))); [ring|].
    intros a _. apply sumf_zero. intros; ring.
  - unfold q_nproj. rewrite E1. exact Hn.
Qed.
(** quadratic overlaps: the first response makes the error of the second power of the step, whatever is added after it *)
Theorem C71_first_order : linear_op sop -> char0 (F := F) ->
  forall o chunk x h0 h1 l ref inorm three q M dd, new_cont sop false o chunk x h0 h1 l ref inorm three = Ok q -> settled lstsq q three M -> quadratic_overlaps o (wpar x) dd ->
  (1 <= M)%nat -> forall n, (n < fo_nproj o)%nat -> residual_order sop lstsq inv lt le q (Z.of_nat M) three n 2.
Proof.
  intros Lin C0 o chunk x h0 h1 l ref inorm three q M dd Hq Hs Hl HM n Hn. destruct (cont_fields sop _ _ _ _ _ _ _ _ _ _ _ Hq) as (E1 & _).
  eapply (first_order sop lstsq inv lt le Lin C0 o chunk x h0 h1 l ref inorm three q M dd); eauto. unfold q_nproj. rewrite E1. exact Hn.
Qed.
(** with the second derivatives (order 3 of the quasi approximation) the second response is right *)
Theorem C71_second_order : linear_op sop -> char0 (F := F) ->
  forall o chunk x h0 h1 l ref inorm q M dd, new_cont sop false o chunk x h0 h1 l ref inorm true = Ok q -> settled lstsq q true M -> quadratic_overlaps o (wpar x) dd ->
  (forall j a b, dd j a b = dd j b a) -> (forall f, fo_ddovlp o = Some f -> forall j a b, f (wpar x) j a b = dd j a b) ->
  (2 <= M)%nat -> forall n, (n < fo_nproj o)%nat -> residual_order sop lstsq inv lt le q (Z.of_nat M) true n 3.
Proof.
  intros Lin C0 o chunk x h0 h1 l ref inorm q M dd Hq Hs Hl Hy Hd HM n Hn. destruct (cont_fields sop _ _ _ _ _ _ _ _ _ _ _ Hq) as (E1 & _).
  eapply (second_order sop lstsq inv lt le Lin C0 o chunk x h0 h1 l ref inorm true q M dd); eauto. unfold q_nproj. rewrite E1. exact Hn.
Qed.
(** without them the error stays of the second power, with the second derivatives along the first response *)
Theorem C71_second_order_missing : linear_op sop -> char0 (F := F) ->
  forall o chunk x h0 h1 l ref inorm q M dd, new_cont sop false o chunk x h0 h1 l ref inorm false = Ok q -> settled lstsq q false M -> quadratic_overlaps o (wpar x) dd ->
  (2 <= M)%nat -> forall n, (n < fo_nproj o)%nat ->
  let r1 := first_response lstsq q false in
  residual_leads sop lstsq inv lt le q (Z.of_nat M) false n 2
    (half * (sumf (fun j => sop (linear_comb_ham h1 h0 l (1 - l)) n j * along q dd j r1 r1) (seq 0 (fo_ns o)) - epar x * along q dd n r1 r1)).
Proof.
  intros Lin C0 o chunk x h0 h1 l ref inorm q M dd Hq Hs Hl HM n Hn r1. destruct (cont_fields sop _ _ _ _ _ _ _ _ _ _ _ Hq) as (E1 & E2 & _ & _ & _ & _ & _ & _ & _ & E6 & _).
  assert (G := second_leads sop lstsq inv lt le Lin C0 o chunk x h0 h1 l ref inorm false q M dd Hq Hs Hl). unfold opdot, q_energy, q_ns, q_nproj in G. rewrite E6, E1, E2 in G. apply G; auto.
Qed.
(** the third response of the order 3: the error of the third power is that of taking the second response for the first
    one in the derivative with respect to the energy and two parameters *)
Theorem C71_third_order : linear_op sop -> char0 (F := F) ->
  forall o chunk x h0 h1 l ref inorm q M dd, new_cont sop false o chunk x h0 h1 l ref inorm true = Ok q -> settled lstsq q true M -> quadratic_overlaps o (wpar x) dd ->
  (forall j a b, dd j a b = dd j b a) -> (forall f, fo_ddovlp o = Some f -> forall j a b, f (wpar x) j a b = dd j a b) ->
  (3 <= M)%nat -> forall n, (n < fo_nproj o)%nat ->
  let r1 := first_response lstsq q true in let r2 := second_response lstsq q true in
  residual_leads sop lstsq inv lt le q (Z.of_nat M) true n 3 (half * r1 (fo_nactive o - 1)%nat * (along q dd n r2 r1 - along q dd n r1 r1)).
Proof.
  intros Lin C0 o chunk x h0 h1 l ref inorm q M dd Hq Hs Hl Hy Hd HM n Hn r1 r2. destruct (cont_fields sop _ _ _ _ _ _ _ _ _ _ _ Hq) as (E1 & E2 & _).
  assert (G := third_leads sop lstsq inv lt le Lin C0 o chunk x h0 h1 l ref inorm true q M dd Hq Hs Hl Hy (fun _ => Hd) eq_refl). unfold q_nproj, q_nactive in G. rewrite E1 in G. apply G; auto.
Qed.

(** * the rows of the constraints *)
(** the right sides of the rows of the constraints are zero, at every order *)
Theorem C71_constraint_rows : forall o chunk x h0 h1 l ref inorm three q, new_cont sop false o chunk x h0 h1 l ref inorm three = Ok q ->
  forall order prev n, (fo_nproj o <= n)%nat -> gen_const q three order prev n = 0.
Proof.
  intros o chunk x h0 h1 l ref inorm three q Hq order prev n Hn. destruct (cont_fields sop _ _ _ _ _ _ _ _ _ _ _ Hq) as (E1 & _ & _ & E4 & _).
  assert (N : Nat.ltb n (q_nproj q) = false) by (apply Nat.ltb_ge; unfold q_nproj; now rewrite E1).
  assert (A1 : q_dgl q n = 0) by (unfold q_dgl, super_dgl; rewrite N, andb_false_r; reflexivity).
  assert (A2 : forall p, q_d2lp q n p = 0) by (intros p; unfold q_d2lp, super_d2; rewrite N, andb_false_r; reflexivity).
  assert (A3 : forall p, q_d2ep q n p = 0) by (intros p; unfold q_d2ep; rewrite N; reflexivity).
  assert (Q : forall t u v, (forall k m, t k m = 0) -> quad q t u v = 0) by (intros t u v Z; apply sumf_zero; intros a _; apply sumf_zero; intros b _; rewrite Z; ring).
  assert (B1 : forall u v, quad q (q_d2pp q n) u v = 0) by (intros; apply Q; intros; unfold q_d2pp; cbv zeta; rewrite N; reflexivity).
  assert (B2 : forall u v, quad q (q_d3lpp q n) u v = 0) by (intros; apply Q; intros; unfold q_d3lpp; cbv zeta; rewrite N; reflexivity).
  assert (B3 : forall u v, quad q (q_d3epp q n) u v = 0) by (intros; apply Q; intros; unfold q_d3epp; rewrite N; reflexivity).
  unfold gen_const. rewrite A1. destruct (Nat.eqb order 1); [ring|]. cbv zeta.
  rewrite (sumf_zero (fun p => q_d2lp q n p * rsp prev (order - 1) p)) by (intros; rewrite A2; ring).
  rewrite (sumf_zero (fun p => q_d2ep q n p * _)) by (intros; rewrite A3; ring). rewrite !B1, !B2, !B3.
  destruct (q_eact q), three, (Nat.eqb order 2), (Nat.eqb order 3); ring.
Qed.
End Orders.
Print Assumptions C71_linear_all_orders. Print Assumptions C71_first_order. Print Assumptions C71_second_order. Print Assumptions C71_second_order_missing.
Print Assumptions C71_third_order. Print Assumptions C71_constraint_rows.

(** * the conditions hold for systems of two determinants; the third order of quadratic overlaps is wrong in one of them *)
Local Ltac qv := apply Qc_is_canon; vm_compute; reflexivity.
Lemma ex_linop : linear_op ex_sop.
Proof. intros h1 h0 a1 a0 n j. reflexivity. Qed.
Lemma ex_settled : forall o three, o = ex_lin \/ o = ex_quad -> settled ex_lstsq (ex_cont o three) three 3.
Proof.
  intros o three Ho. assert (B : o = ex_lin \/ o = ex_quad) by exact Ho. clear Ho. do 4 (split; [destruct B as [-> | ->]; cbn; auto|]). split; [|split].
  - intros n j Hn Hj. destruct B as [-> | ->]; cbn in Hn, Hj; destruct n as [|[|n]]; try lia; destruct j as [|[|j]]; try lia; qv.
  - intros n Hn. destruct B as [-> | ->]; cbn in Hn; destruct n as [|[|n]]; try lia; qv.
  - intros i Hi n Hn. destruct B as [-> | ->]; destruct three; cbn in Hn; destruct n as [|[|n]]; try lia; destruct i as [|[|[|[|i]]]]; try lia; qv.
Qed.
Lemma ex_overlaps : linear_overlaps ex_lin (wpar ex_x) /\ quadratic_overlaps ex_quad (wpar ex_x) ex_dd.
Proof.
  assert (A : forall p : Qc, (1 = 1 + (Q2Qc 0 * (p - Q2Qc 0) + Q2Qc 0))%Qc) by (intros; ring).
  assert (B : forall p : Qc, (p = Q2Qc 0 + (1 * (p - Q2Qc 0) + Q2Qc 0))%Qc) by (intros; ring).
  split.
  - intros qs j L Hj. cbn in Hj. destruct qs as [|p [|a qs]]; try discriminate L. destruct j as [|[|j]]; try lia; [exact (A p)|exact (B p)].
  - assert (C : forall p : Qc, (1 + p * p = 1 + Q2Qc 0 * Q2Qc 0 + ((1 + 1) * Q2Qc 0 * (p - Q2Qc 0) + Q2Qc 0) + / (1 + 1) * ((1 + 1) * (p - Q2Qc 0) * (p - Q2Qc 0) + Q2Qc 0 + Q2Qc 0))%Qc).
    { intros p. transitivity (1 + ((1 + 1) * / (1 + 1)) * (p * p))%Qc; [|ring]. rewrite Qcmult_inv_r by discriminate. ring. }
    assert (D : forall p : Qc, (p = Q2Qc 0 + (1 * (p - Q2Qc 0) + Q2Qc 0) + / (1 + 1) * (Q2Qc 0 * (p - Q2Qc 0) * (p - Q2Qc 0) + Q2Qc 0 + Q2Qc 0))%Qc) by (intros; ring).
    intros qs j L Hj. cbn in Hj. destruct qs as [|p [|a qs]]; try discriminate L. destruct j as [|[|j]]; try lia; [exact (C p)|exact (D p)].
Qed.
Lemma ex_char : char0 (F := Qc_field).
Proof. intros k. apply (P_Geminal.Qc_char_zero (S k)). lia. Qed.
Example C71_ex : (forall three, exists q, new_cont ex_sop false ex_lin 1 ex_x ex_h0 ex_h1 0%Qc 0 false three = Ok q /\ settled ex_lstsq q three 3 /\ linear_overlaps ex_lin (wpar ex_x)) /\
  (forall three, exists q, new_cont ex_sop false ex_quad 1 ex_x ex_h0 ex_h1 0%Qc 0 false three = Ok q /\ settled ex_lstsq q three 3 /\ quadratic_overlaps ex_quad (wpar ex_x) ex_dd) /\
  linear_op ex_sop /\ char0 (F := Qc_field).
Proof.
  split; [|split; [|split; [exact ex_linop|exact ex_char]]].
  - intros three. exists (ex_cont ex_lin three). split; [destruct three; reflexivity|]. split; [apply ex_settled; auto|apply ex_overlaps].
  - intros three. exists (ex_cont ex_quad three). split; [destruct three; reflexivity|]. split; [apply ex_settled; auto|apply ex_overlaps].
Qed.
(** the third response with second derivatives leaves an error of the third power *)
Theorem C71_third_order_refuted : exists (a : Qc), a <> 0%Qc /\ settled ex_lstsq (ex_cont ex_quad true) true 3 /\ quadratic_overlaps ex_quad (wpar ex_x) ex_dd /\
  residual_leads ex_sop ex_lstsq ex_inv ex_lt ex_le (ex_cont ex_quad true) 3 true 0 3 (a : Qc_field).
Proof.
  exists 1%Qc. split; [discriminate|]. split; [apply ex_settled; auto|]. split; [apply ex_overlaps|].
  assert (Hq : new_cont ex_sop false ex_quad 1 ex_x ex_h0 ex_h1 (0%Qc : Qc_field) 0 false true = Ok (ex_cont ex_quad true)) by reflexivity.
  assert (G := C71_third_order ex_sop ex_lstsq ex_inv ex_lt ex_le ex_linop ex_char ex_quad 1 ex_x ex_h0 ex_h1 0%Qc 0 false _ 3 ex_dd Hq (ex_settled _ _ (or_intror eq_refl)) (proj2 ex_overlaps) (fun _ _ _ => eq_refl)).
  assert (D : forall f, fo_ddovlp ex_quad = Some f -> forall j a b, f (wpar ex_x) j a b = ex_dd j a b) by (intros f Ef; injection Ef as <-; reflexivity).
  specialize (G D (le_n 3) 0 ltac:(cbn; lia)). cbv zeta in G.
  replace (1%Qc : Qc_field) with (rmul (rmul half (first_response ex_lstsq (ex_cont ex_quad true) true (fo_nactive ex_quad - 1))) (rsub (along (ex_cont ex_quad true) ex_dd 0 (second_response ex_lstsq (ex_cont ex_quad true) true) (first_response ex_lstsq (ex_cont ex_quad true) true))
     (along (ex_cont ex_quad true) ex_dd 0 (first_response ex_lstsq (ex_cont ex_quad true) true) (first_response ex_lstsq (ex_cont ex_quad true) true)))); [exact G|]. qv.
Qed.
Print Assumptions C71_third_order_refuted.
