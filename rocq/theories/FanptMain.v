(** The equations along the series of responses, as polynomials in the step of lambda. *)
From Coq Require Import List ZArith Arith Bool Lia Ring.
From Verif Require Import Py Slater Alg BicliqueLemmas Fanci Fanpt FanptSpec FanptPoly FanptLemmas.
Import ListNotations.
Local Open Scope nat_scope.

Section Main.
Context {F : CField}.
Local Notation K := (fring F).
Local Open Scope cr_scope.
Add Ring K_ring127 : (rth K).
Variable sop : pham F -> nat -> nat -> K.
Variable lstsq : nat -> nat -> (nat -> nat -> K) -> (nat -> K) -> nat -> K.
Hypothesis Lin : linear_op sop.
Hypothesis C0 : char0 (F := F).

Lemma finv_fact_mul : forall a b, finv (nat_r (K := K) (fact a * fact b)) = finv (nat_r (fact a)) * finv (nat_r (fact b)).
Proof.
  intros a b. symmetry. rewrite nat_r_mul. assert (A := fact_nz C0 a). assert (B := fact_nz C0 b). apply f_inv_unique; [now apply f_mul_nz|].
  transitivity ((finv (nat_r (fact a)) * nat_r (fact a)) * (finv (nat_r (fact b)) * nat_r (K := K) (fact b))); [ring|]. rewrite !f_inv by auto. ring.
Qed.
Lemma comb_fact : forall n o, finv (nat_r (K := K) (fact n)) * comb n o = finv (nat_r (fact o)) * finv (nat_r (fact (n - o))).
Proof. intros n o. unfold comb. rewrite finv_fact_mul. transitivity ((finv (nat_r (fact n)) * nat_r (K := K) (fact n)) * (finv (nat_r (fact o)) * finv (nat_r (fact (n - o))))); [ring|]. rewrite f_inv by (apply fact_nz; auto). ring. Qed.
Lemma fact_pred : forall n, (1 <= n)%nat -> finv (nat_r (K := K) (fact n)) * nat_r n = finv (nat_r (fact (n - 1))).
Proof.
  intros [|n] H; [lia|]. cbn [Nat.sub]. rewrite Nat.sub_0_r. change (fact (S n)) with (S n * fact n)%nat. assert (A := fact_nz C0 n). assert (B := C0 n).
  apply f_inv_unique; auto. rewrite nat_r_mul. transitivity (finv (nat_r (S n) * nat_r (K := K) (fact n)) * (nat_r (S n) * nat_r (fact n))); [ring|]. apply f_inv. now apply f_mul_nz.
Qed.

Section Q.
Variable q : cont F.
Variable three : bool.
Variable M : nat.
Variable dd : nat -> nat -> nat -> K.
Hypothesis Hfree : q_free q = false.
Hypothesis Heact : q_eact q = true.
Hypothesis Hmask : fo_mask (q_o q) <> [].
Hypothesis Hx : length (q_x q) = fo_nparam (q_o q).
Hypothesis Hps : (q_nproj q <= q_ns q)%nat.
Hypothesis Hham : q_ham q = sop (linear_comb_ham (q_h1 q) (q_h0 q) (q_l q) (1 - q_l q)).
Hypothesis Hfpot : q_fpot q = sop (linear_comb_ham (q_h1 q) (q_h0 q) 1 (- (1))).
Hypothesis Hat : at_lambda q.
Hypothesis Hsol : solved q.
Hypothesis Hex : exact_orders lstsq q three M.
Hypothesis Hquad : quadratic_overlaps (q_o q) (wpar (q_x q)) dd.

Let o := q_o q.
Let act := fo_act o.
Let nw := q_nw q.
Let r := responses lstsq q three M.
Let ie := (q_nactive q - 1)%nat.
Let dp (j k l : nat) : K := dd j (nth k act 0%nat) (nth l act 0%nat).
(** the series of parameter [p] (the energy is at [ie]) *)
Definition ser (p : nat) : list K := 0 :: map (fun i => rsp r i p * finv (nat_r (fact i))) (seq 1 M).
Definition epoly : list K := q_energy q :: map (fun i => rsp r i ie * finv (nat_r (fact i))) (seq 1 M).
Definition upoly (j : nat) : list K :=
  padd [q_c q j] (padd (psums (fun p => pscale (q_d q j p) (ser p)) (seq 0 nw))
    (pscale half (psums (fun k => psums (fun l => pscale (dp j k l) (pmul (ser k) (ser l))) (seq 0 nw)) (seq 0 nw)))).
Definition rpoly (n : nat) : list K :=
  padd (psums (fun j => pscale (q_ham q n j) (upoly j)) (seq 0 (q_ns q)))
    (padd (0 :: psums (fun j => pscale (q_fpot q n j) (upoly j)) (seq 0 (q_ns q))) (pscale (- (1)) (pmul epoly (upoly n)))).
Definition Lr (j i : nat) : K := sumf (fun p => q_d q j p * cf (ser p) i) (seq 0 nw).
Definition Qr (j i : nat) : K := half * sumf (fun k => sumf (fun l => dp j k l * cf (pmul (ser k) (ser l)) i) (seq 0 nw)) (seq 0 nw).

Lemma ser_eval : forall p fl, peval (ser p) (fl - q_l q) = series_corr q fl r p.
Proof. clear Hx Hps.
  intros p fl. unfold ser, series_corr, r. rewrite peval_cons, responses_length, peval_sum, map_length, seq_length.
  replace (0 + _) with ((fl - q_l q) * sumf (fun i => cf (map (fun i0 => rsp (responses lstsq q three M) i0 p * finv (nat_r (fact i0))) (seq 1 M)) i * fpow (fl - q_l q) i) (seq 0 M)) by ring.
  rewrite <- sumf_mul_l. rewrite <- seq_shift, sumf_map. apply sumf_ext. intros i Hi. apply in_seq in Hi. rewrite map_map, cf_map_seq.
  destruct (Nat.ltb_spec i M); [|lia]. unfold dlam. cbn [plus fpow]. ring.
Qed.
Lemma epoly_eval : forall fl, peval epoly (fl - q_l q) = q_energy q + sumf (fun i => rsp r i ie * dlam q fl i) (seq 1 (length r)).
Proof. clear Hx Hps.
  intros fl. assert (A := ser_eval ie fl). unfold ser, series_corr in A. rewrite peval_cons in A. unfold epoly. rewrite peval_cons, <- A. ring.
Qed.
Lemma wlen : length (wpar (q_x q)) = (fo_nparam o - 1)%nat.
Proof. unfold wpar. rewrite removelast_len, Hx. reflexivity. Qed.
Lemma nw_len : nw = length act. Proof. apply nw_act. exact Hmask. Qed.
Lemma upoly_eval : forall j fl, (j < q_ns q)%nat -> peval (upoly j) (fl - q_l q) = fo_ovlp (q_o q) (add_corr (wpar (q_x q)) act (series_corr q fl r)) j.
Proof.
  intros j fl Hj. set (cr := series_corr q fl r). destruct (add_corr_nth o (wpar (q_x q)) cr wlen) as (A1 & _ & _). cbv zeta in A1. fold act in A1.
  rewrite (Hquad (add_corr (wpar (q_x q)) act cr) j A1 Hj). cbv zeta.
  assert (S1 := diff_sum o (wpar (q_x q)) cr (fun k => fo_dovlp (q_o q) (wpar (q_x q)) j k) wlen). cbv beta in S1. fold act in S1. rewrite S1. clear S1.
  unfold upoly. rewrite !peval_padd, peval_pscale, !peval_psums, !peval_cons. change (peval [] (fl - q_l q)) with (@rO K). unfold q_c.
  replace (fo_ovlp (q_o q) (wpar (q_x q)) j + (fl - q_l q) * 0) with (fo_ovlp (q_o q) (wpar (q_x q)) j) by ring.
  rewrite nw_len.
  replace (sumf (fun k => sumf (fun l => dd j k l * (nth k (add_corr (wpar (q_x q)) act cr) 0 - nth k (wpar (q_x q)) 0) * (nth l (add_corr (wpar (q_x q)) act cr) 0 - nth l (wpar (q_x q)) 0)) (seq 0 (length (wpar (q_x q))))) (seq 0 (length (wpar (q_x q)))))
    with (sumf (fun k => sumf (fun l => dp j k l * cr k * cr l) (seq 0 (length act))) (seq 0 (length act))).
  - rewrite (sumf_ext (fun p => peval (pscale (q_d q j p) (ser p)) (fl - q_l q)) (fun p => fo_dovlp (q_o q) (wpar (q_x q)) j (nth p act 0%nat) * cr p)).
    + rewrite (sumf_ext (fun k => peval (psums (fun l => pscale (dp j k l) (pmul (ser k) (ser l))) (seq 0 (length act))) (fl - q_l q)) (fun k => sumf (fun l => dp j k l * cr k * cr l) (seq 0 (length act)))); [ring|].
      intros k _. rewrite peval_psums. apply sumf_ext. intros l _. rewrite peval_pscale, peval_pmul, !ser_eval. unfold cr. ring.
    + intros p _. rewrite peval_pscale, ser_eval. reflexivity.
  - symmetry.
    transitivity (sumf (fun k => (sumf (fun l => dd j k (nth l act 0%nat) * cr l) (seq 0 (length act))) * (nth k (add_corr (wpar (q_x q)) act cr) 0 - nth k (wpar (q_x q)) 0)) (seq 0 (length (wpar (q_x q))))).
    + apply sumf_ext. intros k _. assert (S2 := diff_sum o (wpar (q_x q)) cr (fun l => dd j k l) wlen). cbv beta in S2. fold act in S2. rewrite <- S2, <- sumf_mul_r. apply sumf_ext. intros l _. ring.
    + assert (S3 := diff_sum o (wpar (q_x q)) cr (fun k => sumf (fun l => dd j k (nth l act 0%nat) * cr l) (seq 0 (length act))) wlen). cbv beta in S3. fold act in S3. rewrite S3.
      apply sumf_ext. intros k _. rewrite <- sumf_mul_r. apply sumf_ext. intros l _. unfold dp. ring.
Qed.
(** the polynomial is the equation at the new parameters and energy *)
Lemma rpoly_eval : forall n fl, (n < q_nproj q)%nat ->
  peval (rpoly n) (fl - q_l q) = equation sop q fl (add_corr (wpar (q_x q)) act (series_corr q fl r)) (q_energy q + sumf (fun i => rsp r i ie * dlam q fl i) (seq 1 (length r))) n.
Proof.
  intros n fl Hn. unfold rpoly, equation. rewrite !peval_padd, peval_pscale, peval_cons, peval_pmul, !peval_psums, epoly_eval, upoly_eval by lia.
  set (v := add_corr (wpar (q_x q)) act (series_corr q fl r)).
  replace (sumf (fun j => sop (linear_comb_ham (q_h1 q) (q_h0 q) fl (1 - fl)) n j * fo_ovlp (q_o q) v j) (seq 0 (q_ns q)))
    with (sumf (fun j => q_ham q n j * fo_ovlp (q_o q) v j) (seq 0 (q_ns q)) + (fl - q_l q) * sumf (fun j => q_fpot q n j * fo_ovlp (q_o q) v j) (seq 0 (q_ns q))).
  - rewrite (sumf_ext (fun j => peval (pscale (q_ham q n j) (upoly j)) (fl - q_l q)) (fun j => q_ham q n j * fo_ovlp (q_o q) v j)).
    + rewrite (sumf_ext (fun j => peval (pscale (q_fpot q n j) (upoly j)) (fl - q_l q)) (fun j => q_fpot q n j * fo_ovlp (q_o q) v j)); [ring|].
      intros j Hj. apply in_seq in Hj. rewrite peval_pscale, upoly_eval by lia. reflexivity.
    + intros j Hj. apply in_seq in Hj. rewrite peval_pscale, upoly_eval by lia. reflexivity.
  - rewrite <- sumf_mul_l, <- sumf_add. apply sumf_ext. intros j _. rewrite Hham, Hfpot, !Lin. ring.
Qed.

(** * coefficients *)
Lemma ser_0 : forall p, cf (ser p) 0 = 0. Proof. clear Hx Hps. reflexivity. Qed.
Lemma ser_cf : forall p i, (1 <= i <= M)%nat -> cf (ser p) i = rsp r i p * finv (nat_r (fact i)).
Proof. clear Hx Hps.
  intros p [|i] H; [lia|]. unfold ser. change (cf (0 :: map (fun i => rsp r i p * finv (nat_r (fact i))) (seq 1 M)) (S i)) with (cf (map (fun i => rsp r i p * finv (nat_r (fact i))) (seq 1 M)) i).
  rewrite cf_map_seq. destruct (Nat.ltb_spec i M); [|lia]. reflexivity.
Qed.
Lemma epoly_cf : forall i, (1 <= i)%nat -> cf epoly i = cf (ser ie) i.
Proof. clear Hx Hps. intros [|i] H; [lia|]. reflexivity. Qed.
Lemma Lr_0 : forall j, Lr j 0 = 0.
Proof. clear Hx Hps. intros j. apply sumf_zero. intros p _. rewrite ser_0. ring. Qed.
Lemma Qr_01 : forall j i, (i <= 1)%nat -> Qr j i = 0.
Proof. clear Hx Hps.
  intros j i Hi. unfold Qr. rewrite sumf_zero; [ring|]. intros k _. apply sumf_zero. intros l _. rewrite cf_pmul.
  replace (sumf _ (seq 0 (S i))) with (@rO K); [ring|]. symmetry. apply sumf_zero. intros m Hm. apply in_seq in Hm.
  destruct m as [|[|m]]; [rewrite ser_0; ring| |lia]. replace (i - 1)%nat with 0%nat by lia. rewrite !ser_0. ring.
Qed.
Lemma upoly_cf : forall j i, cf (upoly j) i = (if Nat.eqb i 0 then q_c q j else 0) + Lr j i + Qr j i.
Proof. clear Hx Hps.
  intros j i. unfold upoly. rewrite !cf_padd, cf_pscale, !cf_psums. unfold Lr, Qr.
  rewrite (sumf_ext (fun x => cf (pscale (q_d q j x) (ser x)) i) (fun p => q_d q j p * cf (ser p) i)) by (intros; apply cf_pscale).
  rewrite (sumf_ext (fun x => cf (psums (fun l => pscale (dp j x l) (pmul (ser x) (ser l))) (seq 0 nw)) i) (fun k => sumf (fun l => dp j k l * cf (pmul (ser k) (ser l)) i) (seq 0 nw))).
  - replace (cf [q_c q j] i) with (if Nat.eqb i 0 then q_c q j else 0); [ring|]. destruct i as [|[|i]]; reflexivity.
  - intros k _. rewrite cf_psums. apply sumf_ext. intros l _. apply cf_pscale.
Qed.
Lemma seq_split : forall n, (1 <= n)%nat -> seq 0 (S n) = 0%nat :: seq 1 (n - 1) ++ [n].
Proof. clear Hx Hps. intros [|n] H; [lia|]. cbn [Nat.sub]. rewrite Nat.sub_0_r. change (seq 0 (S (S n))) with (0%nat :: seq 1 (S n)). rewrite List.seq_S. reflexivity. Qed.
Lemma rpoly_cf0 : forall n, (n < q_nproj q)%nat -> cf (rpoly n) 0 = 0.
Proof. clear Hx Hps.
  intros n Hn. unfold rpoly. rewrite !cf_padd, cf_pscale, cf_pmul, cf_psums. change (cf (0 :: psums (fun j => pscale (q_fpot q n j) (upoly j)) (seq 0 (q_ns q))) 0) with (@rO K).
  cbn [seq sumf fold_right Nat.sub]. rewrite upoly_cf, Lr_0, Qr_01 by lia. cbn [Nat.eqb]. change (cf epoly 0) with (q_energy q).
  assert (S := Hsol n Hn). unfold compute_objective in S. rewrite app_nth1 in S by (rewrite map_length, seq_length; exact Hn).
  rewrite (nth_indep _ 0 (sumf (fun j => fo_ci o n j * fo_ovlp o (wpar (q_x q)) j) (seq 0 (fo_ns o)) - epar (q_x q) * fo_ovlp o (wpar (q_x q)) n)) in S by (rewrite map_length, seq_length; exact Hn).
  set (g := fun n : nat => sumf (fun j => fo_ci (q_o q) n j * fo_ovlp (q_o q) (wpar (q_x q)) j) (seq 0 (fo_ns (q_o q))) - epar (q_x q) * fo_ovlp (q_o q) (wpar (q_x q)) n) in S.
  change (nth n (map g (seq 0 (fo_nproj (q_o q)))) (g n) = 0) in S. rewrite map_nth, seq_nth in S by exact Hn. unfold g in S.
  change (sumf (fun x => cf (pscale (q_ham q n x) (upoly x)) 0) (seq 0 (q_ns q)) + (0 + - (1) * (q_energy q * (q_c q n + 0 + 0) + 0)) = 0).
  transitivity (sumf (fun j => fo_ci (q_o q) (0 + n) j * fo_ovlp (q_o q) (wpar (q_x q)) j) (seq 0 (fo_ns (q_o q))) - epar (q_x q) * fo_ovlp (q_o q) (wpar (q_x q)) (0 + n)); [|exact S].
  cbn [plus]. unfold q_energy, q_c. rewrite (sumf_ext (fun x => cf (pscale (q_ham q n x) (upoly x)) 0) (fun j => fo_ci (q_o q) n j * fo_ovlp (q_o q) (wpar (q_x q)) j)); [unfold q_ns; ring|].
  intros j Hj. apply in_seq in Hj. rewrite cf_pscale, upoly_cf, Lr_0, Qr_01 by lia. cbn [Nat.eqb]. rewrite (Hat n j) by (auto; lia). unfold q_c. ring.
Qed.
(** the terms of higher derivatives of an order that are used *)
Definition extra (n N : nat) : K :=
  if three then
    if Nat.eqb N 2 then quad q (q_d2pp q n) (rsp r 1) (rsp r 1)
    else if Nat.eqb N 3 then nat_r 3 * quad q (q_d2pp q n) (rsp r 2) (rsp r 1) + nat_r 3 * rsp r 1 ie * quad q (q_d3epp q n) (rsp r 2) (rsp r 1) + nat_r 3 * quad q (q_d3lpp q n) (rsp r 1) (rsp r 1)
    else 0
  else 0.
Lemma ie_nw : ie = nw /\ q_nactive q = S nw.
Proof. assert (N := nactive_split (q_o q) Hmask). unfold q_eact in Heact. rewrite Heact in N. unfold ie, nw, q_nw, q_eact, q_nactive. rewrite Heact. split; [reflexivity|]. rewrite N. cbn. rewrite Nat.add_1_r. cbn. now rewrite Nat.sub_0_r. Qed.
Lemma jac_row : forall n p, (n < q_nproj q)%nat -> q_cmat q n p = if Nat.ltb p nw then opdot (q_ham q) (q_ns q) n (fun j => q_d q j p) - q_energy q * q_d q n p else if Nat.eqb p nw then - q_c q n else 0.
Proof.
  intros n p Hn. unfold q_cmat. rewrite Hfree. cbn [andb]. unfold compute_jacobian. rewrite app_nth1 by (rewrite map_length, seq_length; exact Hn).
  set (g := fun n : nat => map (fun k => sumf (fun j => fo_ci (q_o q) n j * fo_dovlp (q_o q) (wpar (q_x q)) j k) (seq 0 (fo_ns (q_o q))) - epar (q_x q) * fo_dovlp (q_o q) (wpar (q_x q)) n k) (fo_act (q_o q))
                ++ (if fo_eact (q_o q) then [- fo_ovlp (q_o q) (wpar (q_x q)) n] else [])).
  rewrite (nth_indep _ [] (g 0%nat)) by (rewrite map_length, seq_length; exact Hn). rewrite map_nth, seq_nth by exact Hn. cbn [plus]. unfold g. rewrite nw_len. fold act o.
  unfold q_eact in Heact. fold o in Heact. rewrite Heact. destruct (Nat.ltb_spec p (length act)) as [H|H].
  - rewrite app_nth1 by (rewrite map_length; exact H).
    set (h := fun k : nat => sumf (fun j => fo_ci o n j * fo_dovlp o (wpar (q_x q)) j k) (seq 0 (fo_ns o)) - epar (q_x q) * fo_dovlp o (wpar (q_x q)) n k).
    rewrite (nth_indep _ 0 (h 0%nat)) by (rewrite map_length; exact H). rewrite map_nth. unfold h, opdot, q_d. fold o act. f_equal. apply sumf_ext. intros j Hj. apply in_seq in Hj.
    unfold o. rewrite (Hat n j); [reflexivity|exact Hn|]. destruct Hj as [_ Hj]. exact Hj.
  - rewrite app_nth2, map_length by (rewrite map_length; exact H). destruct (Nat.eqb_spec p (length act)) as [->|Np].
    + rewrite Nat.sub_diag. reflexivity.
    + apply nth_overflow. cbn [length]. fold act. lia.
Qed.
Lemma row_sum : forall n v, (n < q_nproj q)%nat -> sumf (fun p => q_cmat q n p * v p) (seq 0 (q_nactive q)) =
  opdot (q_ham q) (q_ns q) n (fun j => sumf (fun p => q_d q j p * v p) (seq 0 nw)) - q_energy q * sumf (fun p => q_d q n p * v p) (seq 0 nw) - q_c q n * v ie.
Proof.
  intros n v Hn. rewrite (proj1 ie_nw), (proj2 ie_nw). rewrite (sumf_ext _ (fun p => (if Nat.ltb p nw then opdot (q_ham q) (q_ns q) n (fun j => q_d q j p) - q_energy q * q_d q n p else if Nat.eqb p nw then - q_c q n else 0) * v p)) by (intros p _; now rewrite (jac_row n p Hn)).
  rewrite List.seq_S, sumf_app, sumf_cons. cbn [plus]. rewrite Nat.ltb_irrefl, Nat.eqb_refl. change (sumf _ []) with (@rO K).
  rewrite (sumf_ext _ (fun p => opdot (q_ham q) (q_ns q) n (fun j => q_d q j p) * v p - q_energy q * (q_d q n p * v p))).
  - rewrite sumf_sub, sumf_mul_l. replace (sumf (fun x => opdot (q_ham q) (q_ns q) n (fun j => q_d q j x) * v x) (seq 0 nw)) with (opdot (q_ham q) (q_ns q) n (fun j => sumf (fun p => q_d q j p * v p) (seq 0 nw))); [ring|].
    unfold opdot. transitivity (sumf (fun j => sumf (fun p => q_ham q n j * (q_d q j p * v p)) (seq 0 nw)) (seq 0 (q_ns q))).
    + apply sumf_ext. intros j _. now rewrite sumf_mul_l.
    + rewrite sumf_swap. apply sumf_ext. intros p _. rewrite <- sumf_mul_r. apply sumf_ext. intros j _. ring.
  - intros p Hp. apply in_seq in Hp. destruct (Nat.ltb_spec p nw); [ring|lia].
Qed.
(** the constant terms of an order, divided by the factorial *)
Lemma const_scaled : forall n N, (n < q_nproj q)%nat -> (1 <= N <= M)%nat ->
  finv (nat_r (fact N)) * gen_const q three N (responses lstsq q three (N - 1)) n =
  - opdot (q_fpot q) (q_ns q) n (fun j => if Nat.eqb N 1 then q_c q j else Lr j (N - 1))
  + sumf (fun i => cf (ser ie) i * Lr n (N - i)) (seq 1 (N - 1)) - finv (nat_r (fact N)) * extra n N.
Proof.
  intros n N Hn HN. rewrite (gen_const_ext q three N _ r) by (intros i Hi; symmetry; apply rsp_le; lia).
  assert (Hd2 : forall p, q_d2lp q n p = opdot (q_fpot q) (q_ns q) n (fun j => q_d q j p)).
  { intros p. unfold q_d2lp, super_d2. rewrite Hfree. cbn [andb]. destruct (Nat.ltb_spec n (q_nproj q)); [reflexivity|lia]. }
  assert (He : forall p, q_d2ep q n p = - q_d q n p).
  { intros p. unfold q_d2ep. destruct (Nat.ltb_spec n (q_nproj q)); [reflexivity|lia]. }
  unfold gen_const. destruct (Nat.eqb_spec N 1) as [->|N1].
  { cbn [Nat.sub seq]. unfold q_dgl, super_dgl. rewrite Hfree. cbn [andb]. destruct (Nat.ltb_spec n (q_nproj q)); [|lia]. unfold extra. cbn [Nat.eqb].
    assert (sumf_nil : forall f : nat -> K, sumf f [] = 0) by reflexivity. assert (I : finv (nat_r (K := K) (fact 1)) = 1).
    { symmetry. apply f_inv_unique; cbn; [|ring]. intros E. apply (f_one F). transitivity (1 + 0 : K); [ring|exact E]. }
    rewrite I. change (fun j => q_c q j) with (q_c q). rewrite sumf_nil. case three; ring. }
  rewrite Heact. fold ie.
  assert (Base : finv (nat_r (fact N)) * (- nat_r N * sumf (fun p => q_d2lp q n p * rsp r (N - 1) p) (seq 0 nw) - sumf (fun p => q_d2ep q n p * fold_left (fun s i => s + comb N i * rsp r i ie * rsp r (N - i) p) (seq 1 (N - 1)) 0) (seq 0 nw))
     = - opdot (q_fpot q) (q_ns q) n (fun j => Lr j (N - 1)) + sumf (fun i => cf (ser ie) i * Lr n (N - i)) (seq 1 (N - 1))).
  { transitivity (- (finv (nat_r (fact N)) * nat_r N * sumf (fun p => q_d2lp q n p * rsp r (N - 1) p) (seq 0 nw))
       + sumf (fun p => q_d q n p * (finv (nat_r (fact N)) * sumf (fun i => comb N i * rsp r i ie * rsp r (N - i) p) (seq 1 (N - 1)))) (seq 0 nw)).
    - rewrite (sumf_ext (fun p => q_d2ep q n p * _) (fun p => - (q_d q n p * sumf (fun i => comb N i * rsp r i ie * rsp r (N - i) p) (seq 1 (N - 1))))).
      + rewrite sumf_opp. rewrite (sumf_ext (fun p => q_d q n p * (finv (nat_r (fact N)) * sumf (fun i => comb N i * rsp r i ie * rsp r (N - i) p) (seq 1 (N - 1)))) (fun p => finv (nat_r (fact N)) * (q_d q n p * sumf (fun i => comb N i * rsp r i ie * rsp r (N - i) p) (seq 1 (N - 1))))) by (intros; ring).
        rewrite sumf_mul_l. ring.
      + intros p _. rewrite He, fold_add. ring.
    - f_equal.
      + f_equal. rewrite fact_pred by lia. unfold opdot, Lr. rewrite <- sumf_mul_l.
        transitivity (sumf (fun p => sumf (fun j => q_fpot q n j * (q_d q j p * cf (ser p) (N - 1))) (seq 0 (q_ns q))) (seq 0 nw)).
        * apply sumf_ext. intros p _. rewrite Hd2. unfold opdot. rewrite (ser_cf p (N - 1)) by lia.
          transitivity ((finv (nat_r (fact (N - 1))) * rsp r (N - 1) p) * sumf (fun j => q_fpot q n j * q_d q j p) (seq 0 (q_ns q))); [ring|]. rewrite <- sumf_mul_l. apply sumf_ext. intros j _. ring.
        * rewrite sumf_swap. apply sumf_ext. intros j _. now rewrite sumf_mul_l.
      + unfold Lr. transitivity (sumf (fun p => sumf (fun i => cf (ser ie) i * (q_d q n p * cf (ser p) (N - i))) (seq 1 (N - 1))) (seq 0 nw)).
        * apply sumf_ext. intros p _. rewrite <- sumf_mul_l, <- sumf_mul_l. apply sumf_ext. intros i Hi. apply in_seq in Hi. rewrite (ser_cf ie i), (ser_cf p (N - i)) by lia.
          transitivity (q_d q n p * (finv (nat_r (fact N)) * comb N i) * rsp r i ie * rsp r (N - i) p); [ring|]. rewrite comb_fact. ring.
        * rewrite sumf_swap. apply sumf_ext. intros i _. now rewrite sumf_mul_l. }
  fold nw. unfold extra. assert (T : {three = true} + {three = false}) by (case three; auto). destruct T as [T|T]; rewrite !T; [|rewrite Base; ring].
  destruct (Nat.eqb_spec N 2) as [E2|E2]; [|destruct (Nat.eqb_spec N 3) as [E3|E3]]; [| |rewrite Base; ring].
  - transitivity (finv (nat_r (fact N)) * (- nat_r N * sumf (fun p => q_d2lp q n p * rsp r (N - 1) p) (seq 0 nw) - sumf (fun p => q_d2ep q n p * fold_left (fun s i => s + comb N i * rsp r i ie * rsp r (N - i) p) (seq 1 (N - 1)) 0) (seq 0 nw)) - finv (nat_r (fact N)) * quad q (q_d2pp q n) (rsp r 1) (rsp r 1)); [ring|]. rewrite Base. reflexivity.
  - match goal with |- _ = ?B - _ * ?E => transitivity (finv (nat_r (fact N)) * (- nat_r N * sumf (fun p => q_d2lp q n p * rsp r (N - 1) p) (seq 0 nw) - sumf (fun p => q_d2ep q n p * fold_left (fun s i => s + comb N i * rsp r i ie * rsp r (N - i) p) (seq 1 (N - 1)) 0) (seq 0 nw)) - finv (nat_r (fact N)) * E) end; [ring|]. rewrite Base. reflexivity.
Qed.
(** the coefficient of a power of the step in the equation *)
Theorem rpoly_cf : forall n N, (n < q_nproj q)%nat -> (1 <= N <= M)%nat ->
  cf (rpoly n) N = opdot (q_ham q) (q_ns q) n (fun j => Qr j N) - q_energy q * Qr n N + opdot (q_fpot q) (q_ns q) n (fun j => Qr j (N - 1))
    - sumf (fun i => cf (ser ie) i * Qr n (N - i)) (seq 1 (N - 1)) - finv (nat_r (fact N)) * extra n N.
Proof.
  intros n N Hn HN. unfold rpoly. rewrite !cf_padd, cf_pscale, cf_pmul, cf_psums.
  assert (H1 : sumf (fun x => cf (pscale (q_ham q n x) (upoly x)) N) (seq 0 (q_ns q)) = opdot (q_ham q) (q_ns q) n (fun j => Lr j N) + opdot (q_ham q) (q_ns q) n (fun j => Qr j N)).
  { unfold opdot. rewrite <- sumf_add. apply sumf_ext. intros j _. rewrite cf_pscale, upoly_cf. destruct (Nat.eqb_spec N 0); [lia|]. ring. }
  assert (H2 : cf (0 :: psums (fun j => pscale (q_fpot q n j) (upoly j)) (seq 0 (q_ns q))) N = opdot (q_fpot q) (q_ns q) n (fun j => if Nat.eqb N 1 then q_c q j else Lr j (N - 1)) + opdot (q_fpot q) (q_ns q) n (fun j => Qr j (N - 1))).
  { destruct N as [|N]; [lia|]. change (cf (0 :: psums (fun j => pscale (q_fpot q n j) (upoly j)) (seq 0 (q_ns q))) (S N)) with (cf (psums (fun j => pscale (q_fpot q n j) (upoly j)) (seq 0 (q_ns q))) N).
    rewrite cf_psums. cbn [Nat.sub]. rewrite Nat.sub_0_r. unfold opdot. rewrite <- sumf_add. apply sumf_ext. intros j _. rewrite cf_pscale, upoly_cf. destruct N as [|N]; cbn [Nat.eqb]; [rewrite Lr_0; ring|ring]. }
  assert (H3 : sumf (fun i => cf epoly i * cf (upoly n) (N - i)) (seq 0 (S N)) = q_energy q * (Lr n N + Qr n N) + sumf (fun i => cf (ser ie) i * Lr n (N - i)) (seq 1 (N - 1)) + sumf (fun i => cf (ser ie) i * Qr n (N - i)) (seq 1 (N - 1)) + cf (ser ie) N * q_c q n).
  { rewrite seq_split by lia. rewrite sumf_cons, sumf_app, sumf_cons, Nat.sub_0_r, Nat.sub_diag, !upoly_cf. cbn [Nat.eqb]. destruct (Nat.eqb_spec N 0); [lia|]. rewrite Lr_0, (Qr_01 n 0) by lia. change (cf epoly 0) with (q_energy q).
    rewrite epoly_cf by lia. change (sumf (fun i => cf epoly i * cf (upoly n) (N - i)) []) with (@rO K).
    rewrite (sumf_ext (fun i => cf epoly i * cf (upoly n) (N - i)) (fun i => cf (ser ie) i * Lr n (N - i) + cf (ser ie) i * Qr n (N - i))); [rewrite sumf_add; ring|].
    intros i Hi. apply in_seq in Hi. rewrite epoly_cf, upoly_cf by lia. destruct (Nat.eqb_spec (N - i) 0); [lia|]. ring. }
  rewrite H1, H2, H3. clear H1 H2 H3.
  assert (E := Hex N HN n). fold r in E. assert (Hn' : (n < q_nequation q)%nat) by (eapply Nat.lt_le_trans; [exact Hn|]; unfold q_nequation, fo_nequation, q_nproj; apply Nat.le_add_r). specialize (E Hn'). rewrite (row_sum n _ Hn) in E.
  apply (f_equal (fun z => finv (nat_r (fact N)) * z)) in E. rewrite (const_scaled n N Hn HN) in E.
  assert (A : forall j, Lr j N = finv (nat_r (fact N)) * sumf (fun p => q_d q j p * rsp r N p) (seq 0 nw)).
  { intros j. unfold Lr. rewrite <- sumf_mul_l. apply sumf_ext. intros p _. rewrite (ser_cf p N HN). ring. }
  assert (B : opdot (q_ham q) (q_ns q) n (fun j => Lr j N) = finv (nat_r (fact N)) * opdot (q_ham q) (q_ns q) n (fun j => sumf (fun p => q_d q j p * rsp r N p) (seq 0 nw))).
  { unfold opdot. rewrite <- sumf_mul_l. apply sumf_ext. intros j _. rewrite A. ring. }
  rewrite B, (A n), (ser_cf ie N HN).
  transitivity (finv (nat_r (fact N)) * (opdot (q_ham q) (q_ns q) n (fun j => sumf (fun p => q_d q j p * rsp r N p) (seq 0 nw)) - q_energy q * sumf (fun p => q_d q n p * rsp r N p) (seq 0 nw) - q_c q n * rsp r N ie)
     + opdot (q_ham q) (q_ns q) n (fun j => Qr j N) + opdot (q_fpot q) (q_ns q) n (fun j => if Nat.eqb N 1 then q_c q j else Lr j (N - 1)) + opdot (q_fpot q) (q_ns q) n (fun j => Qr j (N - 1))
     - q_energy q * Qr n N - sumf (fun i => cf (ser ie) i * Lr n (N - i)) (seq 1 (N - 1)) - sumf (fun i => cf (ser ie) i * Qr n (N - i)) (seq 1 (N - 1))); [ring|].
  rewrite E. ring.
Qed.
End Q.
End Main.
