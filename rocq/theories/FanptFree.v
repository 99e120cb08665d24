(** The rows of the energy-free containers. *)
From Coq Require Import List ZArith Arith Bool Lia Ring.
From Verif Require Import Py Slater Alg EqnSpec EqnLemmas BicliqueLemmas Fanci FanciSpec Fanpt FanptSpec FanptSpec2 FanptLemmas FanptOrders FanciLemmas.
Import ListNotations.
Local Open Scope nat_scope.

Section Free.
Context {F : CField}.
Local Notation K := (fring F).
Local Open Scope cr_scope.
Add Ring K_ring134 : (rth K).
Variable sop : pham F -> nat -> nat -> K.

Lemma finv_r : forall x : K, x <> 0 -> x * finv x = 1.
Proof. intros x H. transitivity (finv x * x); [ring|now apply f_inv]. Qed.
Lemma free_ref : forall o chunk x h0 h1 l ref inorm three (q : cont F), new_cont sop true o chunk x h0 h1 l ref inorm three = Ok q -> (ref < fo_nproj o)%nat /\ fo_eact o = false.
Proof.
  intros o chunk x h0 h1 l ref inorm three q H. unfold new_cont in H. cbn [andb] in H. destruct (fo_eact o); [discriminate H|]. cbn [negb] in H. rewrite andb_false_r in H. cbn [bind] in H.
  destruct (inorm && _)%bool in H; [discriminate H|]. destruct (Nat.leb_spec (fo_nproj o) ref) as [L|L]; [discriminate H|]. auto.
Qed.
Lemma free_nactive : forall o : fobj K, fo_mask o <> [] -> fo_eact o = false -> fo_nactive o = length (fo_act o).
Proof. intros o Nm E. rewrite (nactive_split o Nm), E. apply Nat.add_0_r. Qed.
Lemma jac_free : forall (q : cont F) n p, at_lambda q -> fo_mask (q_o q) <> [] -> q_eact q = false -> (n < q_nproj q)%nat -> (p < q_nactive q)%nat ->
  nth p (nth n (compute_jacobian (q_o q) (q_chunk q) (q_x q)) []) 0 = opdot (q_ham q) (q_ns q) n (fun j => q_d q j p) - q_energy q * q_d q n p.
Proof.
  intros q n p At Nm Ea Hn Hp. unfold q_eact in Ea. unfold q_nactive in Hp. rewrite free_nactive in Hp by assumption. rewrite row_proj by exact Hn. rewrite nth_row. apply Nat.ltb_lt in Hp. rewrite Hp.
  unfold opdot, q_d, q_energy. f_equal. apply sumf_ext. intros j Hj. apply in_seq in Hj. assert (Hj' : (j < q_ns q)%nat) by (destruct Hj as [_ Hj]; exact Hj). rewrite (At n j Hn Hj'). reflexivity.
Qed.
Lemma free_row : forall (q : cont F) n p, q_free q = true -> at_lambda q -> fo_mask (q_o q) <> [] -> q_eact q = false -> (n < q_nproj q)%nat -> (p < q_nactive q)%nat ->
  q_cmat q n p = opdot (q_ham q) (q_ns q) n (fun j => q_d q j p) - q_energy q * q_d q n p
    - (if q_inorm q then opdot (q_ham q) (q_ns q) (q_ref q) (fun j => q_d q j p) * q_c q n
       else (opdot (q_ham q) (q_ns q) (q_ref q) (fun j => q_d q j p) - q_energy q * q_d q (q_ref q) p) * q_c q n * finv (q_c q (q_ref q))).
Proof.
  intros q n p Fr At Nm Ea Hn Hp. unfold q_cmat. cbv zeta. rewrite jac_free by assumption. rewrite Fr. assert (N : Nat.ltb n (q_nproj q) = true) by (now apply Nat.ltb_lt). rewrite N. cbn [andb]. destruct (q_inorm q); reflexivity.
Qed.
(** derivatives of the brakets *)
Variable Der : (K -> K) -> K -> K -> Prop.
Hypothesis C : calculus Der.
Hypothesis Lin : linear_op sop.
Lemma braket_lam : forall (o : fobj K) h0 h1 ps n l, Der (fun l' => braket sop o h0 h1 l' ps n) l (sumf (fun j => sop (linear_comb_ham h1 h0 1 (- (1))) n j * fo_ovlp o ps j) (seq 0 (fo_ns o))).
Proof.
  intros o h0 h1 ps n l. unfold braket. apply (der_sum Der C). intros j _.
  apply (cal_ext Der C (fun y => sop h0 n j * fo_ovlp o ps j + (fo_ovlp o ps j * (sop h1 n j - sop h0 n j)) * y)); [intros y; rewrite Lin; ring|].
  eapply (der_eq Der); [apply (cal_add Der C); [apply (cal_const Der C)|apply (der_scale Der C); apply (cal_id Der C)]|]. rewrite Lin. ring.
Qed.
Lemma braket_dlam : forall (o : fobj K) h0 h1 ps k n l, Der (fun l' => sumf (fun j => sop (linear_comb_ham h1 h0 l' (1 - l')) n j * fo_dovlp o ps j k) (seq 0 (fo_ns o))) l
  (sumf (fun j => sop (linear_comb_ham h1 h0 1 (- (1))) n j * fo_dovlp o ps j k) (seq 0 (fo_ns o))).
Proof.
  intros o h0 h1 ps k n l. apply (der_sum Der C). intros j _.
  apply (cal_ext Der C (fun y => sop h0 n j * fo_dovlp o ps j k + (fo_dovlp o ps j k * (sop h1 n j - sop h0 n j)) * y)); [intros y; rewrite Lin; ring|].
  eapply (der_eq Der); [apply (cal_add Der C); [apply (cal_const Der C)|apply (der_scale Der C); apply (cal_id Der C)]|]. rewrite Lin. ring.
Qed.
Lemma braket_par : forall (o : fobj K) h0 h1 ps k n l, overlaps_derived Der o ps -> (k < length ps)%nat ->
  Der (fun y => braket sop o h0 h1 l (upd ps k y) n) (nth k ps 0) (sumf (fun j => sop (linear_comb_ham h1 h0 l (1 - l)) n j * fo_dovlp o ps j k) (seq 0 (fo_ns o))).
Proof.
  intros o h0 h1 ps k n l Ho Hk. unfold braket. apply (der_sum Der C). intros j Hj. apply in_seq in Hj. apply (der_scale Der C). apply Ho; [lia|exact Hk].
Qed.
End Free.
