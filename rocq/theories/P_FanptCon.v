(** C71: what the series of responses do to the constraints of wavefunctions that are linear in their parameters. *)
From Coq Require Import List ZArith Arith Bool Lia Ring QArith Qcanon.
From Verif Require Import Py Slater Alg BicliqueLemmas Fanci Fanpt FanptSpec FanptLemmas FanptOrders FanciLemmas P_Fanpt SolverEx FanptEx FanptEx2.
Import ListNotations.
Local Open Scope nat_scope.

Section Con.
Context {F : CField}.
Local Notation K := (fring F).
Local Open Scope cr_scope.
Add Ring K_ring132 : (rth K).
Variable sop : pham F -> nat -> nat -> K.
Variable lstsq : nat -> nat -> (nat -> nat -> K) -> (nat -> K) -> nat -> K.
Variable inv : nat -> (nat -> nat -> K) -> nat -> nat -> K.
Variable lt le : K -> K -> bool.

(** the parameters of an updater that takes the series *)
Lemma updater_params : forall (q : cont F) M fl given resum three u, new_updater sop lstsq inv lt le q (Z.of_nat M) fl given resum three = Ok u -> (q_eact q = true \/ resum = false) ->
  u_params u = add_corr (wpar (q_x q)) (fo_act (q_o q)) (series_corr q fl (responses lstsq q three M)).
Proof.
  intros q M fl given resum three u H E. unfold new_updater in H. destruct (negb _) in H; [discriminate H|].
  assert (Z : (negb (q_eact q) && resum && (q_nequation q =? q_nactive q))%bool = false) by (destruct E as [-> | ->]; [reflexivity|]; now rewrite andb_false_r).
  rewrite Z in H. destruct (Z.of_nat M <? 0)%Z; [discriminate H|]. destruct (given && _)%bool in H; [discriminate H|]. rewrite Nat2Z.id in H. injection H as <-. reflexivity.
Qed.
(** a row of a constraint: the combination of the responses that it fixes is zero *)
Lemma series_zero : forall (q : cont F) three M fl (f : nat -> K),
  (forall o, (1 <= o <= M)%nat -> sumf (fun p => f p * rsp (responses lstsq q three M) o p) (seq 0 (length (fo_act (q_o q)))) = 0) ->
  sumf (fun p => f p * series_corr q fl (responses lstsq q three M) p) (seq 0 (length (fo_act (q_o q)))) = 0.
Proof.
  intros q three M fl f H. unfold series_corr. rewrite responses_length.
  transitivity (sumf (fun o => sumf (fun p => f p * rsp (responses lstsq q three M) o p) (seq 0 (length (fo_act (q_o q)))) * dlam q fl o) (seq 1 M)).
  - rewrite (sumf_ext (fun o => _ * dlam q fl o) (fun o => sumf (fun p => f p * (rsp (responses lstsq q three M) o p * dlam q fl o)) (seq 0 (length (fo_act (q_o q)))))).
    + rewrite sumf_swap. apply sumf_ext. intros p _. now rewrite sumf_mul_l.
    + intros o _. rewrite <- sumf_mul_r. apply sumf_ext. intros p _. ring.
  - apply sumf_zero. intros o Ho. apply in_seq in Ho. rewrite H by lia. ring.
Qed.
Lemma row_zero : forall o chunk x h0 h1 l ref inorm three q M, new_cont sop false o chunk x h0 h1 l ref inorm three = Ok q -> exact_orders lstsq q three M -> fo_mask o <> [] ->
  forall i, (i < length (fo_cons o))%nat -> forall k, (1 <= k <= M)%nat ->
  sumf (fun p => nth p (con_df o chunk x (snd (nth i (fo_cons o) (NNorm, CNorm)))) 0 * rsp (responses lstsq q three M) k p) (seq 0 (fo_nactive o)) = 0.
Proof.
  intros o chunk x h0 h1 l ref inorm three q M Hq Hex Nm i Hi k Hk. destruct (cont_fields sop _ _ _ _ _ _ _ _ _ _ _ Hq) as (E1 & E2 & _ & E4 & _ & _ & _ & _ & E9 & _).
  assert (E := Hex k Hk (fo_nproj o + i)%nat). unfold q_nequation, fo_nequation in E. rewrite E1 in E. specialize (E ltac:(lia)).
  rewrite (C71_constraint_rows sop _ _ _ _ _ _ _ _ _ _ Hq k) in E by lia. unfold q_nactive in E. rewrite E1 in E. refine (eq_trans _ E). apply sumf_ext. intros p _. f_equal.
  unfold q_cmat. rewrite E4, E1, E2, E9. cbn [andb]. cbv zeta. now rewrite row_con by exact Hi.
Qed.
Lemma row_act : forall (o : fobj K) (f : nat -> K) (v : nat -> K), fo_mask o <> [] ->
  sumf (fun p => nth p (map f (fo_act o) ++ (if fo_eact o then [0] else [])) 0 * v p) (seq 0 (fo_nactive o)) = sumf (fun p => f (nth p (fo_act o) 0%nat) * v p) (seq 0 (length (fo_act o))).
Proof.
  intros o f v Nm. rewrite (nactive_split o Nm), seq_app, sumf_app. cbn [plus].
  rewrite (sumf_zero _ (seq (length (fo_act o)) _)).
  - rewrite (sumf_ext _ (fun p => f (nth p (fo_act o) 0%nat) * v p)); [ring|]. intros p Hp. apply in_seq in Hp. rewrite nth_row. destruct (Nat.ltb_spec p (length (fo_act o))); [reflexivity|lia].
  - intros p Hp. apply in_seq in Hp. rewrite nth_row. destruct (Nat.ltb_spec p (length (fo_act o))); [lia|]. destruct (fo_eact o && Nat.eqb p (length (fo_act o)))%bool; ring.
Qed.

Section Q.
Variables (o : fobj K) (chunk : nat) (x : list K) (h0 h1 : pham F) (l : K) (ref : nat) (inorm three : bool) (q : cont F) (M : nat) (fl : K) (given resum : bool) (u : updated F).
Hypothesis Hq : new_cont sop false o chunk x h0 h1 l ref inorm three = Ok q.
Hypothesis Hex : exact_orders lstsq q three M.
Hypothesis Nm : fo_mask o <> [].
Hypothesis Hx : length x = fo_nparam o.
Hypothesis Hu : new_updater sop lstsq inv lt le q (Z.of_nat M) fl given resum three = Ok u.
Hypothesis Hr : fo_eact o = true \/ resum = false.

Lemma upars : u_params u = add_corr (wpar x) (fo_act o) (series_corr q fl (responses lstsq q three M)) /\ length (wpar x) = (fo_nparam o - 1)%nat.
Proof.
  destruct (cont_fields sop _ _ _ _ _ _ _ _ _ _ _ Hq) as (E1 & E2 & _). rewrite (updater_params q M fl given resum three u Hu); [|unfold q_eact; now rewrite E1]. rewrite E1, E2. split; [reflexivity|]. unfold wpar. now rewrite removelast_len, Hx.
Qed.
Lemma change : linear_overlaps o (wpar x) -> forall j, (j < fo_ns o)%nat ->
  fo_ovlp o (u_params u) j = fo_ovlp o (wpar x) j + sumf (fun p => fo_dovlp o (wpar x) j (nth p (fo_act o) 0%nat) * series_corr q fl (responses lstsq q three M) p) (seq 0 (length (fo_act o))).
Proof.
  intros Hl j Hj. destruct upars as [-> Lw]. destruct (add_corr_nth o (wpar x) (series_corr q fl (responses lstsq q three M)) Lw) as (A1 & _). cbv zeta in A1.
  rewrite (Hl _ j A1 Hj). now rewrite (diff_sum o (wpar x) _ (fun k => fo_dovlp o (wpar x) j k) Lw).
Qed.
Lemma zero_row : forall (f : nat -> K) i, (i < length (fo_cons o))%nat ->
  con_df o chunk x (snd (nth i (fo_cons o) (NNorm, CNorm))) = map f (fo_act o) ++ (if fo_eact o then [0] else []) ->
  sumf (fun p => f (nth p (fo_act o) 0%nat) * series_corr q fl (responses lstsq q three M) p) (seq 0 (length (fo_act o))) = 0.
Proof.
  intros f i Hi E. destruct (cont_fields sop _ _ _ _ _ _ _ _ _ _ _ Hq) as (E1 & _).
  assert (G := series_zero q three M fl (fun p => f (nth p (fo_act o) 0%nat))). rewrite E1 in G. apply G. intros k Hk.
  assert (R := row_zero o chunk x h0 h1 l ref inorm three q M Hq Hex Nm i Hi k Hk). rewrite E, (row_act o f _ Nm) in R. exact R.
Qed.
End Q.

(** an overlap that is constrained stays the same *)
Theorem C71_overlap_constraint_kept : forall o chunk x h0 h1 l ref inorm three q M fl given resum u, new_cont sop false o chunk x h0 h1 l ref inorm three = Ok q -> exact_orders lstsq q three M ->
  fo_mask o <> [] -> length x = fo_nparam o -> new_updater sop lstsq inv lt le q (Z.of_nat M) fl given resum three = Ok u -> (fo_eact o = true \/ resum = false) ->
  linear_overlaps o (wpar x) -> forall nm i v, In (nm, CDet i v) (fo_cons o) -> (i < fo_ns o)%nat -> fo_ovlp o (u_params u) i = fo_ovlp o (wpar x) i.
Proof.
  intros o chunk x h0 h1 l ref inorm three q M fl given resum u Hq Hex Nm Hx Hu Hr Hl nm i v Hin Hi. rewrite (change o chunk x h0 h1 l ref inorm three q M fl given resum u Hq Hx Hu Hr Hl i Hi).
  destruct (In_nth _ _ (NNorm, CNorm) Hin) as (n & Hn & En).
  rewrite (zero_row o chunk x h0 h1 l ref inorm three q M fl Hq Hex Nm (fun k => fo_dovlp o (wpar x) i k) n Hn); [ring|]. rewrite En. reflexivity.
Qed.
(** a parameter that is constrained stays the same *)
Theorem C71_parameter_constraint_kept : forall o chunk x h0 h1 l ref inorm three q M fl given resum u, new_cont sop false o chunk x h0 h1 l ref inorm three = Ok q -> exact_orders lstsq q three M ->
  fo_mask o <> [] -> length x = fo_nparam o -> new_updater sop lstsq inv lt le q (Z.of_nat M) fl given resum three = Ok u -> (fo_eact o = true \/ resum = false) ->
  forall nm i v, In (nm, CParam i v) (fo_cons o) -> nth i (u_params u) 0 = nth i (wpar x) 0.
Proof.
  intros o chunk x h0 h1 l ref inorm three q M fl given resum u Hq Hex Nm Hx Hu Hr nm i v Hin. destruct (upars o chunk x h0 h1 l ref inorm three q M fl given resum u Hq Hx Hu Hr) as [-> Lw].
  destruct (add_corr_nth o (wpar x) (series_corr q fl (responses lstsq q three M)) Lw) as (A1 & A2 & A3). destruct (in_dec Nat.eq_dec i (fo_act o)) as [Y|Y]; [|now apply A3].
  assert (Li := act_lt o i Y). unfold fo_act in Y. apply filter_In in Y. destruct Y as [Y Mi].
  assert (Pl : nth (ntrue (firstn i (fo_mask o))) (fo_act o) 0%nat = i) by (apply place_of; auto; unfold fo_nparam; lia).
  assert (Lp : (ntrue (firstn i (fo_mask o)) < length (fo_act o))%nat).
  { assert (In i (fo_act o)) by (apply filter_In; auto). destruct (Nat.lt_ge_cases (ntrue (firstn i (fo_mask o))) (length (fo_act o))) as [Z|Z]; [exact Z|]. exfalso.
    rewrite (nth_overflow (fo_act o) 0%nat Z) in Pl. subst i. cbn in Z. destruct (fo_act o); [destruct H|cbn in Z; lia]. }
  set (p := ntrue (firstn i (fo_mask o))) in *. assert (S := A2 p Lp). rewrite Pl in S. rewrite S.
  destruct (In_nth _ _ (NNorm, CNorm) Hin) as (n & Hn & En). destruct (cont_fields sop _ _ _ _ _ _ _ _ _ _ _ Hq) as (E1 & _).
  assert (R : forall k, (1 <= k <= M)%nat -> rsp (responses lstsq q three M) k p = 0).
  { intros k Hk. assert (R := row_zero o chunk x h0 h1 l ref inorm three q M Hq Hex Nm n Hn k Hk). rewrite En in R. cbn [snd con_df] in R. refine (eq_trans (eq_sym _) R).
    assert (Lpn : (p < fo_nactive o)%nat) by (rewrite (nactive_split o Nm); lia).
    set (g := fun p0 : nat => if (nth i (fo_mask o) false && Nat.eqb p0 (ntrue (firstn i (fo_mask o))))%bool then (1 : K) else 0).
    assert (Ev : forall p0, (p0 < fo_nactive o)%nat -> nth p0 (map g (seq 0 (fo_nactive o))) 0 = g p0).
    { intros p0 Hp0. rewrite (nth_indep (map g (seq 0 (fo_nactive o))) 0 (g 0%nat)) by (now rewrite map_length, seq_length). rewrite map_nth, seq_nth by exact Hp0. reflexivity. }
    rewrite (sumf_single _ (seq 0 (fo_nactive o)) p); [|apply seq_NoDup|apply in_seq; lia|].
    - rewrite Ev by exact Lpn. unfold g. rewrite Mi. cbn [andb]. fold p. rewrite Nat.eqb_refl. ring.
    - intros p0 Hp0 Np. apply in_seq in Hp0. rewrite Ev by lia. unfold g. fold p. destruct (Nat.eqb_spec p0 p); [contradiction|]. rewrite andb_false_r. ring. }
  assert (Z : series_corr q fl (responses lstsq q three M) p = 0).
  { unfold series_corr. apply sumf_zero. intros k Hk. apply in_seq in Hk. rewrite responses_length in Hk. rewrite R by lia. ring. }
  rewrite Z. ring.
Qed.
(** the norm grows by the squares of the changes of the overlaps *)
Theorem C71_norm_change : forall o chunk x h0 h1 l ref inorm three q M fl given resum u, new_cont sop false o chunk x h0 h1 l ref inorm three = Ok q -> exact_orders lstsq q three M ->
  fo_mask o <> [] -> length x = fo_nparam o -> new_updater sop lstsq inv lt le q (Z.of_nat M) fl given resum three = Ok u -> (fo_eact o = true \/ resum = false) -> (1 <= chunk)%nat ->
  linear_overlaps o (wpar x) -> forall nm, In (nm, CNorm) (fo_cons o) ->
  sumf (fun j => fo_ovlp o (u_params u) j * fo_ovlp o (u_params u) j) (seq 0 (fo_ns o)) =
  sumf (fun j => fo_ovlp o (wpar x) j * fo_ovlp o (wpar x) j) (seq 0 (fo_ns o))
  + sumf (fun j => (fo_ovlp o (u_params u) j - fo_ovlp o (wpar x) j) * (fo_ovlp o (u_params u) j - fo_ovlp o (wpar x) j)) (seq 0 (fo_ns o)).
Proof.
  intros o chunk x h0 h1 l ref inorm three q M fl given resum u Hq Hex Nm Hx Hu Hr Hc Hl nm Hin. destruct (In_nth _ _ (NNorm, CNorm) Hin) as (n & Hn & En).
  assert (Z := zero_row o chunk x h0 h1 l ref inorm three q M fl Hq Hex Nm (fun k => sumf (fun j => (1 + 1) * fo_ovlp o (wpar x) j * fo_dovlp o (wpar x) j k) (seq 0 (fo_ns o))) n Hn).
  rewrite En in Z. cbn [snd con_df] in Z. specialize (Z ltac:(f_equal; apply map_ext; intros k; now apply chunks_sum)).
  set (cr := series_corr q fl (responses lstsq q three M)) in *.
  assert (Z' : (1 + 1) * sumf (fun j => fo_ovlp o (wpar x) j * (fo_ovlp o (u_params u) j - fo_ovlp o (wpar x) j)) (seq 0 (fo_ns o)) = 0).
  { refine (eq_trans _ Z). rewrite <- sumf_mul_l. transitivity (sumf (fun j => sumf (fun p => (1 + 1) * fo_ovlp o (wpar x) j * fo_dovlp o (wpar x) j (nth p (fo_act o) 0%nat) * cr p) (seq 0 (length (fo_act o)))) (seq 0 (fo_ns o))).
    - apply sumf_ext. intros j Hj. apply in_seq in Hj. rewrite (change o chunk x h0 h1 l ref inorm three q M fl given resum u Hq Hx Hu Hr Hl j) by lia. fold cr.
      rewrite (sumf_ext (fun p => (1 + 1) * fo_ovlp o (wpar x) j * fo_dovlp o (wpar x) j (nth p (fo_act o) 0%nat) * cr p) (fun p => ((1 + 1) * fo_ovlp o (wpar x) j) * (fo_dovlp o (wpar x) j (nth p (fo_act o) 0%nat) * cr p))) by (intros; ring).
      rewrite sumf_mul_l. ring.
    - rewrite sumf_swap. apply sumf_ext. intros p _. now rewrite sumf_mul_r. }
  transitivity (sumf (fun j => fo_ovlp o (wpar x) j * fo_ovlp o (wpar x) j) (seq 0 (fo_ns o)) + (1 + 1) * sumf (fun j => fo_ovlp o (wpar x) j * (fo_ovlp o (u_params u) j - fo_ovlp o (wpar x) j)) (seq 0 (fo_ns o))
     + sumf (fun j => (fo_ovlp o (u_params u) j - fo_ovlp o (wpar x) j) * (fo_ovlp o (u_params u) j - fo_ovlp o (wpar x) j)) (seq 0 (fo_ns o))); [|rewrite Z'; ring].
  rewrite <- sumf_mul_l, <- !sumf_add. apply sumf_ext. intros j _. ring.
Qed.
(** frozen parameters stay the same *)
Theorem C71_frozen_kept : forall (q : cont F) order fl given resum three u, new_updater sop lstsq inv lt le q order fl given resum three = Ok u -> length (q_x q) = fo_nparam (q_o q) ->
  length (u_params u) = (fo_nparam (q_o q) - 1)%nat /\ u_ham u = linear_comb_ham (q_h1 q) (q_h0 q) fl (1 - fl) /\
  (forall k, nth k (fo_mask (q_o q)) false = false -> nth k (u_params u) 0 = nth k (wpar (q_x q)) 0).
Proof.
  intros q order fl given resum three u H Hx. assert (Lw : length (wpar (q_x q)) = (fo_nparam (q_o q) - 1)%nat) by (unfold wpar; now rewrite removelast_len, Hx).
  assert (G : exists cr, u_params u = add_corr (wpar (q_x q)) (fo_act (q_o q)) cr /\ u_ham u = linear_comb_ham (q_h1 q) (q_h0 q) fl (1 - fl)).
  { unfold new_updater in H. destruct (negb _) in H; [discriminate H|]. destruct (negb (q_eact q) && resum && _)%bool in H; [injection H as <-; eexists; split; reflexivity|].
    destruct (order <? 0)%Z; [discriminate H|]. destruct (given && _)%bool in H; [discriminate H|]. injection H as <-. eexists; split; reflexivity. }
  destruct G as (cr & -> & E). destruct (add_corr_nth (q_o q) (wpar (q_x q)) cr Lw) as (A1 & _ & A3). cbv zeta in *. split; [now rewrite A1|]. split; [exact E|]. intros k Hk. apply A3. intros Y. apply filter_In in Y. rewrite Hk in Y. destruct Y as [_ Y]. discriminate Y.
Qed.
Lemma updater_ok : forall (q : cont F) M fl three, (lt (q_l q) fl && le fl 1)%bool = true -> q_eact q = true -> exists u, new_updater sop lstsq inv lt le q (Z.of_nat M) fl false false three = Ok u.
Proof.
  intros q M fl three H E. unfold new_updater. rewrite H, E. cbn [negb andb]. destruct (Z.ltb_spec (Z.of_nat M) 0); [lia|]. eexists. reflexivity.
Qed.
End Con.
Print Assumptions C71_overlap_constraint_kept. Print Assumptions C71_parameter_constraint_kept. Print Assumptions C71_norm_change. Print Assumptions C71_frozen_kept.

(** the conditions hold, with the constraint on the norm or on the overlap with the first determinant *)
Local Ltac qv := apply Qc_is_canon; vm_compute; reflexivity.
Lemma ex_norm_exact : forall (cons : list (cname * ccon Qc_field)) q, cons = [(NNorm, CNorm)] \/ cons = [(NDet 0, CDet (K := Qc_field) 0 (zc 1))] ->
  new_cont ex_sop false (ex_norm cons) 1 ex_x3 ex_h0 ex_h1 0%Qc 0 false false = Ok q -> exact_orders ex_lstsq3 q false 2.
Proof.
  intros cons q Hc Hq. injection Hq as <-. intros i Hi n Hn. destruct Hc as [-> | ->]; cbn in Hn; destruct i as [|[|[|i]]]; try lia; destruct n as [|[|[|n]]]; try lia; qv.
Qed.
Lemma ex_norm_linear : forall cons, linear_overlaps (ex_norm cons) (wpar ex_x3).
Proof.
  assert (A : forall p s : Qc, (1 + p = 1 + Q2Qc 0 + (1 * (p - Q2Qc 0) + (Q2Qc 0 * (s - Q2Qc 0) + Q2Qc 0)))%Qc) by (intros; ring).
  assert (B : forall p s : Qc, (s = Q2Qc 0 + (Q2Qc 0 * (p - Q2Qc 0) + (1 * (s - Q2Qc 0) + Q2Qc 0)))%Qc) by (intros; ring).
  intros cons qs j L Hj. cbn in Hj. destruct qs as [|p [|s [|a qs]]]; try discriminate L. destruct j as [|[|j]]; try lia; [exact (A p s)|exact (B p s)].
Qed.
Example C71_con_ex : forall cons : list (cname * ccon Qc_field), cons = [(NNorm, CNorm)] \/ cons = [(NDet 0, CDet (K := Qc_field) 0 (zc 1))] ->
  exists q u, new_cont ex_sop false (ex_norm cons) 1 ex_x3 ex_h0 ex_h1 0%Qc 0 false false = Ok q /\ exact_orders ex_lstsq3 q false 2 /\ linear_overlaps (ex_norm cons) (wpar ex_x3) /\
  new_updater ex_sop ex_lstsq3 ex_inv ex_lt ex_le q 2 1%Qc false false false = Ok u.
Proof.
  intros cons Hc. assert (G : exists q, new_cont ex_sop false (ex_norm cons) 1 ex_x3 ex_h0 ex_h1 0%Qc 0 false false = Ok q /\ q_l q = 0%Qc /\ q_eact q = true) by (eexists; split; [reflexivity|split; reflexivity]).
  destruct G as (q & Hq & El & Ea). destruct (updater_ok ex_sop ex_lstsq3 ex_inv ex_lt ex_le q 2 1%Qc false) as (u & Hu); [rewrite El; vm_compute; reflexivity|exact Ea|].
  exists q, u. split; [exact Hq|]. split; [eapply ex_norm_exact; [exact Hc|exact Hq]|]. split; [apply ex_norm_linear|exact Hu].
Qed.
(** the parameters of the series do not satisfy the constraint on the norm that holds at the start *)
Theorem C71_norm_kept_refuted : exists q u, new_cont ex_sop false (ex_norm [(NNorm, CNorm)]) 1 ex_x3 ex_h0 ex_h1 0%Qc 0 false false = Ok q /\ exact_orders ex_lstsq3 q false 1 /\
  con_f (ex_norm []) ex_x3 CNorm = 0%Qc /\ new_updater ex_sop ex_lstsq3 ex_inv ex_lt ex_le q 1 1%Qc false false false = Ok u /\
  con_f (ex_norm []) (u_params u ++ [u_energy u]) CNorm = 1%Qc.
Proof.
  do 2 eexists. split; [reflexivity|]. split; [|split; [qv|split; [reflexivity|qv]]].
  intros i Hi n Hn. cbn in Hn; destruct i as [|[|i]]; try lia; destruct n as [|[|[|n]]]; try lia; qv.
Qed.
Print Assumptions C71_norm_kept_refuted.
