(** How well the series of responses of the perturbation theory solve the projected equations. *)
From Coq Require Import List ZArith Arith Bool Lia Ring.
From Verif Require Import Py Slater Alg BicliqueLemmas Fanci Fanpt FanptSpec FanptPoly FanptLemmas FanptMain.
Import ListNotations.
Local Open Scope nat_scope.

Section Orders.
Context {F : CField}.
Local Notation K := (fring F).
Local Open Scope cr_scope.
Add Ring K_ring128 : (rth K).
Variable sop : pham F -> nat -> nat -> K.
Variable lstsq : nat -> nat -> (nat -> nat -> K) -> (nat -> K) -> nat -> K.
Variable inv : nat -> (nat -> nat -> K) -> nat -> nat -> K.
Variable lt le : K -> K -> bool.
Hypothesis Lin : linear_op sop.
Hypothesis C0 : char0 (F := F).

Lemma half_fact : finv (nat_r (K := K) (fact 2)) = half.
Proof. unfold half. f_equal. cbn. ring. Qed.
Lemma half_two : (1 + 1) * half = (1 : K).
Proof. unfold half. apply f_inv_r. intros E. apply (C0 1%nat). cbn. transitivity (1 + 1 : K); [ring|exact E]. Qed.
Lemma filter_length_le : forall {A} (f : A -> bool) l, (length (filter f l) <= length l)%nat.
Proof. intros A f l. induction l as [|a l IH]; cbn; auto. destruct (f a); cbn; lia. Qed.
Lemma act_all : forall o : fobj K, length (fo_act o) = (fo_nparam o - 1)%nat -> fo_act o = seq 0 (fo_nparam o - 1).
Proof.
  intros o. unfold fo_act. generalize (fo_nparam o - 1)%nat as n. intros n. generalize (fun k => nth k (fo_mask o) false) as f. intros f H.
  assert (G : forall l : list nat, length (filter f l) = length l -> filter f l = l).
  { induction l as [|a l IH]; cbn; auto. destruct (f a); cbn; intros E; [f_equal; apply IH; lia|]. assert (X := filter_length_le f l). lia. }
  apply G. rewrite H. now rewrite seq_length.
Qed.
Lemma cont_fields : forall free o chunk x h0 h1 l ref inorm qao3 q, new_cont sop free o chunk x h0 h1 l ref inorm qao3 = Ok q ->
  q_o q = o /\ q_x q = x /\ q_l q = l /\ q_free q = free /\ q_h1 q = h1 /\ q_h0 q = h0 /\ q_ref q = ref /\ q_inorm q = inorm /\ q_chunk q = chunk /\
  q_ham q = sop (linear_comb_ham h1 h0 l (1 - l)) /\ q_fpot q = sop (linear_comb_ham h1 h0 1 (- (1))) /\
  (qao3 = true -> free = false -> (exists f, fo_ddovlp o = Some f /\ q_dd q = f (wpar x)) /\ fo_eact o = true /\ (fo_nactive o - 1 = fo_nparam o - 1 \/ fo_nparam o - 1 = 1)%nat) /\
  (free && fo_eact o = false)%bool /\ (inorm = true -> has_con o (NDet ref) = true).
Proof.
  intros free o chunk x h0 h1 l ref inorm qao3 q H. unfold new_cont in H. destruct (free && fo_eact o)%bool eqn:A; [discriminate H|].
  destruct (qao3 && negb free)%bool eqn:T.
  - destruct (fo_ddovlp o) as [f|] eqn:D; [|discriminate H]. cbn [bind] in H. destruct (inorm && negb (has_con o (NDet ref)))%bool eqn:I; [discriminate H|]. destruct (free && Nat.leb (fo_nproj o) ref)%bool; [discriminate H|]. cbn [andb] in H.
    destruct (fo_eact o) eqn:Ea; [|discriminate H]. cbn [negb] in H. destruct (Nat.eqb (fo_nactive o - 1) (fo_nparam o - 1) || Nat.eqb (fo_nparam o - 1) 1)%bool eqn:C; [|discriminate H]. cbn [negb] in H.
    injection H as <-. cbn. repeat (split; [reflexivity|]). split; [|split; [reflexivity|]].
    + intros _ _. split; [now exists f|]. split; auto. apply orb_true_iff in C. rewrite !Nat.eqb_eq in C. exact C.
    + intros ->. now destruct (has_con o (NDet ref)).
  - cbn [bind] in H. destruct (inorm && negb (has_con o (NDet ref)))%bool eqn:I; [discriminate H|]. destruct (free && Nat.leb (fo_nproj o) ref)%bool; [discriminate H|]. cbn [andb] in H.
    injection H as <-. cbn. repeat (split; [reflexivity|]). split; [|split; [reflexivity|]].
    + intros -> ->. discriminate T.
    + intros ->. now destruct (has_con o (NDet ref)).
Qed.

Section Q.
Variables (o : fobj K) (chunk : nat) (x : list K) (h0 h1 : pham F) (l : K) (ref : nat) (inorm three : bool) (q : cont F) (M : nat) (dd : nat -> nat -> nat -> K).
Hypothesis Hq : new_cont sop false o chunk x h0 h1 l ref inorm three = Ok q.
Hypothesis Hset : settled lstsq q three M.
Hypothesis Hquad : quadratic_overlaps o (wpar x) dd.
Hypothesis Hsym : forall j a b, dd j a b = dd j b a.
Hypothesis Hdd : three = true -> forall f, fo_ddovlp o = Some f -> forall j a b, f (wpar x) j a b = dd j a b.

Lemma mask_ne : fo_mask (q_o q) <> [].
Proof. destruct Hset as (_ & E & _). unfold q_eact, fo_eact in E. intros N. rewrite N in E. discriminate E. Qed.
Lemma master : forall n N, (n < q_nproj q)%nat -> (1 <= N <= M)%nat ->
  cf (rpoly lstsq q three M dd n) N = opdot (q_ham q) (q_ns q) n (fun j => Qr lstsq q three M dd j N) - q_energy q * Qr lstsq q three M dd n N + opdot (q_fpot q) (q_ns q) n (fun j => Qr lstsq q three M dd j (N - 1))
    - sumf (fun i => cf (ser lstsq q three M (q_nactive q - 1)) i * Qr lstsq q three M dd n (N - i)) (seq 1 (N - 1)) - finv (nat_r (fact N)) * extra lstsq q three M n N.
Proof.
  destruct (cont_fields _ _ _ _ _ _ _ _ _ _ _ Hq) as (E1 & E2 & E3 & _ & E4 & E5 & _ & _ & _ & E6 & E7 & _). destruct Hset as (S1 & S2 & S3 & S4 & S5 & S6 & S7).
  intros n N Hn HN. apply rpoly_cf; auto; exact mask_ne.
Qed.
Lemma master0 : forall n, (n < q_nproj q)%nat -> cf (rpoly lstsq q three M dd n) 0 = 0.
Proof.
  destruct Hset as (S1 & S2 & S3 & S4 & S5 & S6 & S7). intros n Hn. now apply rpoly_cf0.
Qed.
Lemma poly_updater : forall n fl given resum u, (n < q_nproj q)%nat -> new_updater sop lstsq inv lt le q (Z.of_nat M) fl given resum three = Ok u ->
  exists e, u_fanpt_e u = Some e /\ equation sop q fl (u_params u) e n = peval (rpoly lstsq q three M dd n) (fl - q_l q).
Proof.
  intros n fl given resum u Hn H. destruct (cont_fields _ _ _ _ _ _ _ _ _ _ _ Hq) as (E1 & E2 & E3 & _ & E4 & E5 & _ & _ & _ & E6 & E7 & _). destruct Hset as (S1 & S2 & S3 & S4 & S5 & S6 & S7).
  unfold new_updater in H. destruct (negb _) in H; [discriminate H|]. rewrite S2 in H. cbn [negb andb] in H. destruct (Z.of_nat M <? 0)%Z eqn:Z; [discriminate H|]. destruct (given && _)%bool in H; [discriminate H|].
  rewrite Nat2Z.id in H. injection H as <-. cbn [u_fanpt_e u_params]. eexists. split; [reflexivity|]. symmetry. apply rpoly_eval; auto; try exact mask_ne.
  - now rewrite E4, E5, E3.
  - now rewrite E4, E5.
  - rewrite E1, E2. exact Hquad.
Qed.
Lemma order_of : forall n m, (n < q_nproj q)%nat -> (forall i, (1 <= i < m)%nat -> cf (rpoly lstsq q three M dd n) i = 0) -> residual_order sop lstsq inv lt le q (Z.of_nat M) three n m.
Proof.
  intros n m Hn H. exists (skipn m (rpoly lstsq q three M dd n)). intros fl given resum u Hu. destruct (poly_updater n fl given resum u Hn Hu) as (e & He & Eq). exists e. split; [exact He|]. rewrite Eq. apply vanish_low.
  intros [|i] Hi; [now apply master0|]. apply H. lia.
Qed.
Lemma leads_of : forall n m a, (n < q_nproj q)%nat -> (forall i, (1 <= i < m)%nat -> cf (rpoly lstsq q three M dd n) i = 0) -> (1 <= m)%nat -> cf (rpoly lstsq q three M dd n) m = a -> residual_leads sop lstsq inv lt le q (Z.of_nat M) three n m a.
Proof.
  intros n m a Hn H Hm <-. exists (skipn (S m) (rpoly lstsq q three M dd n)). intros fl given resum u Hu. destruct (poly_updater n fl given resum u Hn Hu) as (e & He & Eq). exists e. split; [exact He|]. rewrite Eq. apply lead_low.
  intros [|i] Hi; [now apply master0|]. apply H. lia.
Qed.
Lemma cf1 : forall n, (n < q_nproj q)%nat -> (1 <= M)%nat -> cf (rpoly lstsq q three M dd n) 1 = 0.
Proof.
  intros n Hn HM. rewrite master by lia. cbn [Nat.sub seq]. rewrite (Qr_01 lstsq q three M dd n 1) by lia.
  assert (Z : forall m, opdot m (q_ns q) n (fun j => Qr lstsq q three M dd j 1) = 0) by (intros m; apply sumf_zero; intros j _; rewrite Qr_01 by lia; ring).
  assert (Z' : forall m, opdot m (q_ns q) n (fun j => Qr lstsq q three M dd j 0) = 0) by (intros m; apply sumf_zero; intros j _; rewrite Qr_01 by lia; ring).
  rewrite Z, Z'. assert (X : extra lstsq q three M n 1 = 0) by (unfold extra; cbn [Nat.eqb]; case three; reflexivity). rewrite X. change (sumf _ []) with (@rO K). ring.
Qed.
Let r1 := first_response lstsq q three.
Let r2 := second_response lstsq q three.
Lemma r1_eq : (1 <= M)%nat -> rsp (responses lstsq q three M) 1 = r1. Proof. intros H. apply rsp_le; lia. Qed.
Lemma r2_eq : (2 <= M)%nat -> rsp (responses lstsq q three M) 2 = r2. Proof. intros H. apply rsp_le; lia. Qed.
Lemma nwl : q_nw q = length (fo_act (q_o q)). Proof. apply nw_act. exact mask_ne. Qed.
Lemma fact1 : finv (nat_r (K := K) (fact 1)) = 1.
Proof. symmetry. apply f_inv_unique; cbn; [|ring]. intros E. apply (f_one F). transitivity (1 + 0 : K); [ring|exact E]. Qed.
Lemma Qr_2 : forall j, (2 <= M)%nat -> Qr lstsq q three M dd j 2 = half * along q dd j r1 r1.
Proof.
  intros j HM. unfold Qr, along. rewrite nwl. f_equal. apply sumf_ext. intros a _. apply sumf_ext. intros b _. rewrite cf_pmul. cbn [seq sumf fold_right Nat.sub]. rewrite !ser_0, !ser_cf by lia. rewrite r1_eq by lia. rewrite fact1.
  transitivity (dd j (nth a (fo_act (q_o q)) 0%nat) (nth b (fo_act (q_o q)) 0%nat) * (r1 a * r1 b)); [f_equal|]; ring.
Qed.
Lemma along_swap : forall j u v, along q dd j u v = along q dd j v u.
Proof. intros j u v. unfold along. rewrite sumf_swap. apply sumf_ext. intros a _. apply sumf_ext. intros b _. rewrite Hsym. ring. Qed.
Lemma along_scale : forall j c e u v, along q dd j (fun k => c * u k) (fun k => e * v k) = c * e * along q dd j u v.
Proof. intros j c e u v. unfold along. rewrite <- sumf_mul_l. apply sumf_ext. intros a _. rewrite <- sumf_mul_l. apply sumf_ext. intros b _. ring. Qed.
Lemma Qr_3 : forall j, (3 <= M)%nat -> Qr lstsq q three M dd j 3 = half * along q dd j r2 r1.
Proof.
  intros j HM. unfold Qr. rewrite nwl.
  transitivity (half * (half * along q dd j r1 r2 + half * along q dd j r2 r1)).
  - f_equal. unfold along. rewrite <- !sumf_mul_l, <- sumf_add. apply sumf_ext. intros a _. rewrite <- !sumf_mul_l, <- sumf_add. apply sumf_ext. intros b _.
    rewrite cf_pmul. cbn [seq sumf fold_right Nat.sub]. rewrite !ser_0, !ser_cf by lia. rewrite r1_eq, r2_eq by lia. rewrite fact1, half_fact. ring.
  - rewrite (along_swap j r1 r2). transitivity (half * ((1 + 1) * half) * along q dd j r2 r1); [ring|]. rewrite half_two. ring.
Qed.
Lemma dd_act : three = true -> forall j a b, (a < q_nw q)%nat -> (b < q_nw q)%nat -> q_dd q j a b = dd j (nth a (fo_act (q_o q)) 0%nat) (nth b (fo_act (q_o q)) 0%nat).
Proof.
  intros T j a b Ha Hb. destruct (cont_fields _ _ _ _ _ _ _ _ _ _ _ Hq) as (E1 & _ & _ & _ & _ & _ & _ & _ & _ & _ & _ & E & _). destruct (E T eq_refl) as ((f & D & ->) & Ea & Ns).
  rewrite (Hdd T f D). assert (Mn := mask_ne). rewrite nwl in Ha, Hb. rewrite E1 in *. assert (N := nactive_split o Mn). rewrite Ea in N.
  assert (L : length (fo_act o) = (fo_nparam o - 1)%nat).
  { destruct Ns as [Ns|Ns]; [lia|]. assert (length (fo_act o) <= fo_nparam o - 1)%nat; [|lia]. unfold fo_act. etransitivity; [apply filter_length_le|]. now rewrite seq_length. }
  assert (A := act_all o L). rewrite L in Ha, Hb. rewrite A. now rewrite !seq_nth by lia.
Qed.
Lemma dd_upper : three = true -> forall j a b, (a < q_nw q)%nat -> (b < q_nw q)%nat -> q_dd q j (fst (upper a b)) (snd (upper a b)) = dd j (nth a (fo_act (q_o q)) 0%nat) (nth b (fo_act (q_o q)) 0%nat).
Proof. intros T j a b Ha Hb. unfold upper. destruct (Nat.leb a b); cbn [fst snd]; rewrite (dd_act T) by lia; auto. Qed.
Lemma quad_pp : three = true -> forall n u v, (n < q_nproj q)%nat -> quad q (q_d2pp q n) u v = opdot (q_ham q) (q_ns q) n (fun j => along q dd j u v) - q_energy q * along q dd n u v.
Proof.
  intros T n u v Hn. unfold quad, along, opdot. rewrite <- nwl, <- sumf_mul_l.
  transitivity (sumf (fun k => sumf (fun l => sumf (fun j => q_ham q n j * (dd j (nth k (fo_act (q_o q)) 0%nat) (nth l (fo_act (q_o q)) 0%nat) * u k * v l)) (seq 0 (q_ns q)) - q_energy q * (dd n (nth k (fo_act (q_o q)) 0%nat) (nth l (fo_act (q_o q)) 0%nat) * u k * v l)) (seq 0 (q_nw q))) (seq 0 (q_nw q))).
  - apply sumf_ext. intros a Ha. apply sumf_ext. intros b Hb. apply in_seq in Ha, Hb. unfold q_d2pp. cbv zeta. destruct (Nat.ltb_spec n (q_nproj q)); [|lia]. rewrite (dd_upper T) by lia. unfold opdot.
    rewrite (sumf_ext _ (fun j => (q_ham q n j * dd j (nth a (fo_act (q_o q)) 0%nat) (nth b (fo_act (q_o q)) 0%nat)))) by (intros j _; now rewrite (dd_upper T) by lia).
    rewrite (sumf_ext (fun j => q_ham q n j * (dd j (nth a (fo_act (q_o q)) 0%nat) (nth b (fo_act (q_o q)) 0%nat) * u a * v b)) (fun j => (u a * v b) * (q_ham q n j * dd j (nth a (fo_act (q_o q)) 0%nat) (nth b (fo_act (q_o q)) 0%nat)))) by (intros; ring).
    rewrite sumf_mul_l. ring.
  - transitivity (sumf (fun k => sumf (fun l => sumf (fun j => q_ham q n j * (dd j (nth k (fo_act (q_o q)) 0%nat) (nth l (fo_act (q_o q)) 0%nat) * u k * v l)) (seq 0 (q_ns q))) (seq 0 (q_nw q)) - q_energy q * sumf (fun l => dd n (nth k (fo_act (q_o q)) 0%nat) (nth l (fo_act (q_o q)) 0%nat) * u k * v l) (seq 0 (q_nw q))) (seq 0 (q_nw q))).
    + apply sumf_ext. intros a _. now rewrite sumf_sub, sumf_mul_l.
    + rewrite sumf_sub. f_equal. transitivity (sumf (fun k => sumf (fun j => q_ham q n j * sumf (fun l => dd j (nth k (fo_act (q_o q)) 0%nat) (nth l (fo_act (q_o q)) 0%nat) * u k * v l) (seq 0 (q_nw q))) (seq 0 (q_ns q))) (seq 0 (q_nw q))).
      * apply sumf_ext. intros a _. rewrite sumf_swap. apply sumf_ext. intros j _. now rewrite sumf_mul_l.
      * rewrite sumf_swap. apply sumf_ext. intros j _. now rewrite sumf_mul_l.
Qed.
Lemma quad_lpp : three = true -> forall n u v, (n < q_nproj q)%nat -> quad q (q_d3lpp q n) u v = opdot (q_fpot q) (q_ns q) n (fun j => along q dd j u v).
Proof.
  intros T n u v Hn. unfold quad, along, opdot. rewrite <- nwl.
  transitivity (sumf (fun k => sumf (fun l => sumf (fun j => q_fpot q n j * (dd j (nth k (fo_act (q_o q)) 0%nat) (nth l (fo_act (q_o q)) 0%nat) * u k * v l)) (seq 0 (q_ns q))) (seq 0 (q_nw q))) (seq 0 (q_nw q))).
  - apply sumf_ext. intros a Ha. apply sumf_ext. intros b Hb. apply in_seq in Ha, Hb. unfold q_d3lpp. cbv zeta. destruct (Nat.ltb_spec n (q_nproj q)); [|lia]. unfold opdot.
    rewrite (sumf_ext _ (fun j => (q_fpot q n j * dd j (nth a (fo_act (q_o q)) 0%nat) (nth b (fo_act (q_o q)) 0%nat)))) by (intros j _; now rewrite (dd_upper T) by lia).
    rewrite (sumf_ext (fun j => q_fpot q n j * (dd j (nth a (fo_act (q_o q)) 0%nat) (nth b (fo_act (q_o q)) 0%nat) * u a * v b)) (fun j => (u a * v b) * (q_fpot q n j * dd j (nth a (fo_act (q_o q)) 0%nat) (nth b (fo_act (q_o q)) 0%nat)))) by (intros; ring).
    rewrite sumf_mul_l. ring.
  - transitivity (sumf (fun k => sumf (fun j => q_fpot q n j * sumf (fun l => dd j (nth k (fo_act (q_o q)) 0%nat) (nth l (fo_act (q_o q)) 0%nat) * u k * v l) (seq 0 (q_nw q))) (seq 0 (q_ns q))) (seq 0 (q_nw q))).
    * apply sumf_ext. intros a _. rewrite sumf_swap. apply sumf_ext. intros j _. now rewrite sumf_mul_l.
    * rewrite sumf_swap. apply sumf_ext. intros j _. now rewrite sumf_mul_l.
Qed.
Lemma quad_epp : three = true -> forall n u v, (n < q_nproj q)%nat -> quad q (q_d3epp q n) u v = - along q dd n u v.
Proof.
  intros T n u v Hn. unfold quad, along. rewrite <- nwl, <- sumf_opp. apply sumf_ext. intros a Ha. rewrite <- sumf_opp. apply sumf_ext. intros b Hb. apply in_seq in Ha, Hb.
  unfold q_d3epp. destruct (Nat.ltb_spec n (q_nproj q)); [|lia]. rewrite (dd_act T) by lia. ring.
Qed.
Lemma opdot_half : forall m n (f : nat -> K), opdot m (q_ns q) n (fun j => half * f j) = half * opdot m (q_ns q) n f.
Proof. intros m n f. unfold opdot. rewrite <- sumf_mul_l. apply sumf_ext. intros; ring. Qed.
Lemma opdot_ext : forall m n (f g : nat -> K), (forall j, f j = g j) -> opdot m (q_ns q) n f = opdot m (q_ns q) n g.
Proof. intros m n f g H. apply sumf_ext. intros; now rewrite H. Qed.
Lemma cf2_base : forall n, (n < q_nproj q)%nat -> (2 <= M)%nat -> cf (rpoly lstsq q three M dd n) 2 =
  half * (opdot (q_ham q) (q_ns q) n (fun j => along q dd j r1 r1) - q_energy q * along q dd n r1 r1) - half * extra lstsq q three M n 2.
Proof.
  intros n Hn HM. rewrite master by lia. cbn [Nat.sub seq]. rewrite Qr_2 by lia. rewrite (opdot_ext _ _ _ _ (fun j => Qr_2 j HM)), opdot_half.
  assert (Z' : forall m, opdot m (q_ns q) n (fun j => Qr lstsq q three M dd j 1) = 0) by (intros m; apply sumf_zero; intros j _; rewrite Qr_01 by lia; ring).
  rewrite Z', sumf_cons, (Qr_01 lstsq q three M dd n 1), half_fact by lia. change (sumf _ []) with (@rO K). ring.
Qed.
Lemma extra_f : three = false -> forall n N, extra lstsq q three M n N = 0.
Proof. intros T n N. unfold extra. rewrite T. reflexivity. Qed.
Lemma extra_2 : three = true -> forall n, (n < q_nproj q)%nat -> (2 <= M)%nat -> extra lstsq q three M n 2 = opdot (q_ham q) (q_ns q) n (fun j => along q dd j r1 r1) - q_energy q * along q dd n r1 r1.
Proof. intros T n Hn HM. rewrite <- (quad_pp T n) by auto. rewrite <- r1_eq by lia. unfold extra. rewrite T. reflexivity. Qed.
Lemma extra_3 : three = true -> forall n, (n < q_nproj q)%nat -> (3 <= M)%nat -> extra lstsq q three M n 3 =
  nat_r 3 * (opdot (q_ham q) (q_ns q) n (fun j => along q dd j r2 r1) - q_energy q * along q dd n r2 r1) + nat_r 3 * r1 (q_nactive q - 1)%nat * (- along q dd n r2 r1) + nat_r 3 * opdot (q_fpot q) (q_ns q) n (fun j => along q dd j r1 r1).
Proof. intros T n Hn HM. rewrite <- (quad_pp T n), <- (quad_epp T n), <- (quad_lpp T n) by auto. rewrite <- r1_eq, <- r2_eq by lia. unfold extra. rewrite T. reflexivity. Qed.
Lemma six : finv (nat_r (K := K) (fact 3)) * nat_r 3 = half.
Proof. rewrite (fact_pred C0 3) by lia. exact half_fact. Qed.
Lemma cf3 : three = true -> forall n, (n < q_nproj q)%nat -> (3 <= M)%nat -> cf (rpoly lstsq q three M dd n) 3 =
  half * r1 (q_nactive q - 1)%nat * (along q dd n r2 r1 - along q dd n r1 r1).
Proof.
  intros T n Hn HM. rewrite master by lia. rewrite (extra_3 T n Hn HM). cbn [Nat.sub]. change (seq 1 2) with [1%nat; 2%nat]. rewrite !sumf_cons. cbn [Nat.sub]. change (sumf _ []) with (@rO K).
  rewrite (Qr_01 lstsq q three M dd n 1), Qr_3, Qr_2 by lia. rewrite (opdot_ext _ _ _ _ (fun j => Qr_3 j HM)), opdot_half. assert (HM2 : (2 <= M)%nat) by lia. rewrite (opdot_ext _ _ _ _ (fun j => Qr_2 j HM2)), opdot_half.
  rewrite (ser_cf lstsq q three M (q_nactive q - 1) 1), r1_eq, fact1 by lia.
  set (A := opdot (q_ham q) (q_ns q) n (fun j => along q dd j r2 r1)). set (B := opdot (q_fpot q) (q_ns q) n (fun j => along q dd j r1 r1)).
  transitivity (half * A - q_energy q * (half * along q dd n r2 r1) + half * B - r1 (q_nactive q - 1)%nat * (half * along q dd n r1 r1) - (finv (nat_r (fact 3)) * nat_r 3) * ((A - q_energy q * along q dd n r2 r1) - r1 (q_nactive q - 1)%nat * along q dd n r2 r1 + B)); [ring|].
  rewrite six. ring.
Qed.
Lemma first_order : forall n, (n < q_nproj q)%nat -> (1 <= M)%nat -> residual_order sop lstsq inv lt le q (Z.of_nat M) three n 2.
Proof. intros n Hn HM. apply order_of; auto. intros i Hi. replace i with 1%nat by lia. now apply cf1. Qed.
Lemma second_leads : three = false -> forall n, (n < q_nproj q)%nat -> (2 <= M)%nat ->
  residual_leads sop lstsq inv lt le q (Z.of_nat M) three n 2 (half * (opdot (q_ham q) (q_ns q) n (fun j => along q dd j r1 r1) - q_energy q * along q dd n r1 r1)).
Proof. intros T n Hn HM. apply leads_of; auto. - intros i Hi. replace i with 1%nat by lia. apply cf1; auto. lia. - rewrite cf2_base, (extra_f T) by lia. ring. Qed.
Lemma second_order : three = true -> forall n, (n < q_nproj q)%nat -> (2 <= M)%nat -> residual_order sop lstsq inv lt le q (Z.of_nat M) three n 3.
Proof.
  intros T n Hn HM. apply order_of; auto. intros i Hi. assert (D : i = 1%nat \/ i = 2%nat) by lia. destruct D as [-> | ->]; [apply cf1; auto; lia|]. rewrite cf2_base, (extra_2 T) by lia. ring.
Qed.
Lemma third_leads : three = true -> forall n, (n < q_nproj q)%nat -> (3 <= M)%nat ->
  residual_leads sop lstsq inv lt le q (Z.of_nat M) three n 3 (half * r1 (q_nactive q - 1)%nat * (along q dd n r2 r1 - along q dd n r1 r1)).
Proof.
  intros T n Hn HM. apply leads_of; auto; [|now apply cf3]. intros i Hi. assert (D : i = 1%nat \/ i = 2%nat) by lia. destruct D as [-> | ->]; [apply cf1; auto; lia|]. rewrite cf2_base, (extra_2 T) by lia. ring.
Qed.
Lemma linear_order : (forall j a b, dd j a b = 0) -> forall n, (n < q_nproj q)%nat -> residual_order sop lstsq inv lt le q (Z.of_nat M) three n (S M).
Proof.
  intros Z n Hn. apply order_of; auto. intros i Hi. rewrite master by lia.
  assert (Q0 : forall j i, Qr lstsq q three M dd j i = 0).
  { intros j i'. unfold Qr. rewrite sumf_zero; [ring|]. intros a _. apply sumf_zero. intros b _. rewrite Z. ring. }
  assert (A0 : forall j u v, along q dd j u v = 0) by (intros j u v; apply sumf_zero; intros a _; apply sumf_zero; intros b _; rewrite Z; ring).
  assert (O0 : forall (m : nat -> nat -> K) (f : nat -> K), (forall j, f j = 0) -> opdot m (q_ns q) n f = 0) by (intros m f Hf; apply sumf_zero; intros j _; rewrite Hf; ring).
  rewrite !O0 by auto. rewrite Q0. rewrite sumf_zero by (intros; rewrite Q0; ring).
  assert (X : extra lstsq q three M n i = 0).
  { assert (T : {three = true} + {three = false}) by (case three; auto). destruct T as [T|T]; [|now apply extra_f].
    assert (D : i = 2%nat \/ i = 3%nat \/ (i <> 2 /\ i <> 3)%nat) by lia. destruct D as [-> | [-> | [D2 D3]]].
    - rewrite (extra_2 T) by (auto; lia). rewrite O0, A0 by auto. ring.
    - rewrite (extra_3 T) by (auto; lia). rewrite !O0, !A0 by auto. ring.
    - unfold extra. rewrite (proj2 (Nat.eqb_neq i 2) D2), (proj2 (Nat.eqb_neq i 3) D3). case three; reflexivity. }
  rewrite X. ring.
Qed.
End Q.
End Orders.
