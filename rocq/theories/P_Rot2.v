(** C36, C60: assignment of orbital-rotation parameters; the rotation matrix as a truncated exponential. *)
From Coq Require Import Ring_theory List ZArith NArith Bool Lia Arith QArith Qcanon.
From Verif Require Import Py BitSpec Slater Alg PermLemmas HamSpec HamGen HamSC HamMain HamRes SpinSpec HamRot HamRotLemmas HamRotMat HamRotAssign HamRotHist HamRotTaylor HamEx HamRotEx P_Ham1.
Import ListNotations.
Local Open Scope nat_scope.

(** ** C36: any history of assign_params, set_ref_ints and changes of update_prev_params, valid or not *)
Section C36.
Context {K : CField}.
Variables (big huge : nat -> (nat -> nat -> K) -> bool) (expm : nat -> (nat -> nat -> K) -> nat -> nat -> K).
Hypothesis small_zero : forall n m, meq n m (fun _ _ => rO) -> big n m = false.

Theorem C36_history : forall (t : ints K) b ops, 1 <= i_n t ->
  let o := hrun big huge expm (init t b) ops in
  let s := srun big huge expm (i_n t) (sinit (i_n t) b) ops in
  ieq (o_ints o) (rot t (s_cur s)) /\ ieq (o_ref o) (rot t (s_ref s)) /\ cached (obj_gham o).
Proof.
  intros t b ops P. cbn zeta. destruct (sim_run big huge expm small_zero t (i_n t) ops _ _ eq_refl (sim_init t b P)) as (_ & I & R & _ & _ & _ & C).
  split; auto. split; auto. intros i j. cbn. split; apply C.
Qed.

(** without update_prev_params only the last valid parameters matter, whatever was assigned before *)
Theorem C36_last : forall (t : ints K) ps, 1 <= i_n t ->
  let o := hrun big huge expm (init t false) (map HAssign ps) in
  ieq (o_ints o) (rot t (uni big huge expm (last_valid (i_n t) ps))).
Proof.
  intros t ps P. cbn zeta. destruct (C36_history t false (map HAssign ps) P) as (I & _). eapply ieq_trans; [exact I|].
  apply rot_ieq; [apply ieq_refl|]. apply (srun_keep big huge expm (i_n t) ps (sinit (i_n t) false) (zeros (i_n t))); auto.
  cbn [sinit s_cur]. rewrite (uni_U big huge expm (i_n t)); auto.
  - unfold zeros. rewrite (U_zero big huge expm small_zero). apply meq_refl.
  - unfold zeros. now rewrite repeat_length, half_tri.
Qed.

(** with update_prev_params the rotations by the successive differences are multiplied *)
Theorem C36_update : forall (t : ints K) ps, 1 <= i_n t -> forallb (valid (i_n t)) ps = true -> ps <> [] ->
  let o := hrun big huge expm (init t true) (map (fun p => HAssign (Some p)) ps) in
  ieq (o_ints o) (rot t (chain big huge expm (i_n t) (zeros (i_n t)) ps)).
Proof.
  intros t ps P V N. cbn zeta. destruct (C36_history t true (map (fun p => HAssign (Some p)) ps) P) as (I & _). eapply ieq_trans; [exact I|].
  apply rot_ieq; [apply ieq_refl|].
  destruct (srun_chain big huge expm (i_n t) ps (sinit (i_n t) true) eq_refl eq_refl V N) as [Q _].
  eapply meq_trans; [exact Q|]. apply mdot_ident_l.
Qed.

(** the constructor is such a history *)
Theorem C36_new : forall (t : ints K) p b, fst (new_ham big huge expm t p b) = hrun big huge expm (init t b) [HAssign p].
Proof. reflexivity. Qed.

(** parameters of the wrong number are rejected and the object is not changed *)
Theorem C36_rejects : forall (t : ints K) b ops p, 1 <= i_n t -> length p <> i_n t * (i_n t - 1) / 2 ->
  let o := hrun big huge expm (init t b) ops in assign_params big huge expm o (Some p) = (o, Err ValueError).
Proof.
  intros t b ops p P L. cbn zeta. destruct (sim_run big huge expm small_zero t (i_n t) ops _ _ eq_refl (sim_init t b P)) as (W & _).
  apply assign_bad with (n := i_n t); auto. intros E. apply L. symmetry. apply tri_half. lia.
Qed.
(** the others are accepted and stored *)
Theorem C36_accepts : forall (t : ints K) b ops p, 1 <= i_n t -> length p = i_n t * (i_n t - 1) / 2 ->
  let o := hrun big huge expm (init t b) ops in
  exists o', assign_params big huge expm o (Some p) = (o', Ok tt) /\ o_params o' = p /\ ieq (o_ref o') (o_ref o).
Proof.
  intros t b ops p P L. cbn zeta. destruct (sim_run big huge expm small_zero t (i_n t) ops _ _ eq_refl (sim_init t b P)) as (W & _ & _ & F & _).
  assert (X := assign_ok big huge expm small_zero _ _ p W). rewrite F in X. cbn zeta in X.
  destruct X as (o' & E & _ & _ & R & Q & _); [rewrite L; apply half_tri|]. exists o'. rewrite R. repeat split; auto.
Qed.
(** no parameters: the zero parameters *)
Theorem C36_default : forall (t : ints K) b ops, 1 <= i_n t -> let o := hrun big huge expm (init t b) ops in
  assign_params big huge expm o None = assign_params big huge expm o (Some (repeat rO (i_n t * (i_n t - 1) / 2))).
Proof.
  intros t b ops P. cbn zeta. destruct (sim_run big huge expm small_zero t (i_n t) ops _ _ eq_refl (sim_init t b P)) as (W & _). now apply assign_none.
Qed.

(** the saved matrix rotates the reference integrals into the current ones *)
Theorem C36_save : forall (t : ints K) b ops p, 1 <= i_n t -> length p = i_n t * (i_n t - 1) / 2 ->
  let o := hrun big huge expm (init t b) (ops ++ [HAssign (Some p)]) in
  exists w, save_params big huge expm o = Ok (p, (i_n t, w)) /\ ieq (o_ints o) (rot (o_ref o) w).
Proof.
  intros t b ops p P L. cbn zeta. unfold hrun. rewrite fold_left_app. cbn [fold_left hstep]. fold (hrun big huge expm (init t b) ops).
  destruct (sim_run big huge expm small_zero t (i_n t) ops _ _ eq_refl (sim_init t b P)) as (W & _ & _ & F & LF & _).
  set (o := hrun big huge expm (init t b) ops) in *. set (s := srun big huge expm (i_n t) (sinit (i_n t) b) ops) in *.
  assert (L2 : 2 * length p = i_n t * (i_n t - 1)) by (rewrite L; apply half_tri).
  assert (X := assign_ok big huge expm small_zero _ _ p W L2). rewrite F in X. cbn zeta in X.
  destruct X as (o' & E & W' & I & R & Q & Up & F' & _). rewrite E. cbn [fst]. unfold save_params. rewrite Q.
  assert (NP : o_prev o' <> None).
  { revert E. unfold assign_params. destruct W as (_ & N1 & N2 & Wp). rewrite N1, L, Nat.eqb_refl. cbn [negb o_prev o_ints o_ref o_upd o_ijij o_ijji o_params].
    destruct (o_prev o) as [pp|].
    - destruct pp as [q u]. destruct (vsub p q); [|discriminate]. destruct (bind _ _) as [[? ?]|]; [|discriminate].
      intros E. injection E as <-. unfold set_ints. cbn [o_upd]. destruct (o_upd o); cbn; discriminate.
    - destruct (bind _ _) as [[q u]|]; [|discriminate]. destruct (vsub p q); [|discriminate]. destruct (bind _ _) as [[? ?]|]; [|discriminate].
      intros E. injection E as <-. unfold set_ints. cbn [o_upd]. destruct (o_upd o); cbn; discriminate. }
  unfold wf, folded in W', F'. destruct (o_prev o') as [[q [d w]]|]; [|congruence]. destruct W' as (_ & _ & _ & Lq & ->).
  rewrite vsub_ok by lia. cbn [bind]. fold (diff p q). rewrite (umat_ok big huge expm (i_n t)) by (auto; rewrite diff_length; lia).
  cbn [bind]. unfold dotc. cbn [fst snd]. rewrite Nat.eqb_refl. cbn [bind]. eexists. split; [reflexivity|].
  rewrite I, R. apply rot_ieq; [apply ieq_refl|]. replace (i_n (o_ref o)) with (i_n t) by (symmetry; apply W).
  destruct (o_upd o); injection F' as -> ->.
  - apply meq_sym. unfold diff at 2. rewrite vsub_self, (U_zero big huge expm small_zero). apply mdot_ident_r.
  - apply meq_refl.
Qed.

(** rotated integrals keep the exchange symmetry *)
Lemma rot2_sym : forall n (g : nat -> nat -> nat -> nat -> K) (m : nat -> nat -> K), two_sym g -> two_sym (rot2 n g m m m m).
Proof.
  intros n g m S a b c d. rewrite !rot2_value. 
  rewrite sumf_swap. apply sumf_ext. intros j _. apply sumf_ext. intros i _. rewrite sumf_swap. apply sumf_ext. intros l _. apply sumf_ext. intros k _.
  rewrite (S i j k l). assert (R := rth K). 
  rewrite (Rmul_comm R (m i a) (m j b)). rewrite <- !(Rmul_assoc R). do 3 f_equal. apply (Rmul_comm R).
Qed.

(** so the matrix elements after a valid assignment are those of the second-quantised operator with rotated integrals *)
Theorem C36_elements : forall (t : ints K) b ops p o' m n, (@radd K rI rI <> rO) -> 1 <= i_n t -> two_sym (i_two (o_ref (hrun big huge expm (init t b) ops))) ->
  length p = i_n t * (i_n t - 1) / 2 -> fits m (i_n t) -> fits n (i_n t) -> (m <> 0%N \/ n <> 0%N) ->
  assign_params big huge expm (hrun big huge expm (init t b) ops) (Some p) = (o', Ok tt) ->
  integrate_sd_sd (obj_gham o') m n = Ok (ham_elem (i_n t) (i_one (o_ints o')) (i_two (o_ints o')) m n).
Proof.
  intros t b ops p o' m n H2 P TS L Fm Fn NZ E.
  destruct (sim_run big huge expm small_zero t (i_n t) ops _ _ eq_refl (sim_init t b P)) as (W & _ & _ & F & LF & _).
  assert (X := assign_ok big huge expm small_zero _ _ p W). rewrite F in X. cbn zeta in X.
  destruct X as (o2 & E2 & W' & I & R & Q & Up & F' & C1 & C2); [rewrite L; apply half_tri|]. rewrite E in E2. injection E2 as <-.
  assert (N' : i_n (o_ints o') = i_n t) by apply W'. rewrite <- N' in *.
  apply (C28_elements (obj_gham o')); auto.
  - intros i j. cbn. auto.
  - cbn. rewrite I. cbn [rot i_two]. apply rot2_sym. exact TS.
Qed.

(** set_ref_ints does not forget the rotation folded in: assigning again rotates a second time *)
Theorem C36_set_ref : forall (t : ints K) p, 1 <= i_n t -> length p = i_n t * (i_n t - 1) / 2 ->
  let o := hrun big huge expm (init t true) [HAssign (Some p); HSetRef; HAssign (Some p)] in
  ieq (o_ints o) (rot (rot t (uni big huge expm p)) (uni big huge expm p)).
Proof.
  intros t p P L. cbn zeta. destruct (C36_history t true [HAssign (Some p); HSetRef; HAssign (Some p)] P) as (I & _).
  eapply ieq_trans; [exact I|]. apply ieq_sym. eapply ieq_trans; [apply rot_comp|]. apply rot_ieq; [apply ieq_refl|].
  assert (L2 : 2 * length p = i_n t * (i_n t - 1)) by (rewrite L; apply half_tri).
  cbn [srun fold_left]. cbn [sstep]. unfold valid. cbn [given]. rewrite L2, Nat.eqb_refl. cbn [sinit s_upd s_cur s_ref s_fp s_fw].
  rewrite sub_zeros by auto. set (n := i_n t) in *. set (u := uni big huge expm p).
  assert (Z : uni big huge expm (sub p p) = ident).
  { unfold sub. rewrite vsub_self. rewrite (uni_U big huge expm n) by (auto; now rewrite repeat_length). apply (U_zero big huge expm small_zero). }
  rewrite Z. intros i j Hi Hj. symmetry. apply mdot_meq; auto.
  - eapply meq_trans; [apply mdot_ident_l|]. apply mdot_ident_l.
  - eapply meq_trans; [apply mdot_ident_r|]. apply mdot_ident_l.
Qed.

(** unrestricted: the same with one matrix for each spin *)
Theorem C36_unrestricted_history : forall (t : uints K) b ops, 1 <= ui_n t ->
  let o := u_hrun big huge expm (u_init t b) ops in
  let s := u_srun big huge expm (ui_n t) (u_sinit (ui_n t) b) ops in
  uieq (uo_ints o) (urot t (fst (su_cur s)) (snd (su_cur s))) /\ uieq (uo_ref o) (urot t (fst (su_ref s)) (snd (su_ref s))) /\
  obj_uham o = u_cache_two_ints (obj_uham o).
Proof.
  intros t b ops P. cbn zeta. destruct (u_sim_run big huge expm small_zero t (ui_n t) ops _ _ eq_refl (u_sim_init t b P)) as (_ & I & R & _ & _ & _ & C).
  auto.
Qed.
Theorem C36_unrestricted_last : forall (t : uints K) ps, 1 <= ui_n t ->
  let o := u_hrun big huge expm (u_init t false) (map HAssign ps) in
  let p := u_last_valid (ui_n t) ps in
  uieq (uo_ints o) (urot t (uni big huge expm (firstn (ui_n t * (ui_n t - 1) / 2) p)) (uni big huge expm (skipn (ui_n t * (ui_n t - 1) / 2) p))).
Proof.
  intros t ps P. cbn zeta. destruct (C36_unrestricted_history t false (map HAssign ps) P) as (I & _). eapply uieq_trans; [exact I|].
  assert (X := u_srun_keep big huge expm (ui_n t) ps (u_sinit (ui_n t) false) (u_zeros (ui_n t)) eq_refl eq_refl eq_refl eq_refl).
  assert (Z : uni2 big huge expm (ui_n t) (u_zeros (ui_n t)) = (ident, ident)).
  { assert (LZ : length (u_zeros (K := K) (ui_n t)) = ui_n t * (ui_n t - 1)) by (unfold u_zeros; now rewrite repeat_length).
    unfold uni2. fold (pa (ui_n t) (u_zeros (K := K) (ui_n t))). fold (pb (ui_n t) (u_zeros (K := K) (ui_n t))).
    rewrite !(uni_U big huge expm (ui_n t)) by (auto using pa_len, pb_len). unfold pa, pb, u_zeros. rewrite firstn_rep, skipn_rep.
    now rewrite !(U_zero big huge expm small_zero). }
  rewrite Z in X. destruct X as [A B]; [split; apply meq_refl|]. apply urot_ieq; [apply uieq_refl|exact A|exact B].
Qed.
Theorem C36_unrestricted_rejects : forall (t : uints K) b ops p, 1 <= ui_n t -> length p <> ui_n t * (ui_n t - 1) ->
  let o := u_hrun big huge expm (u_init t b) ops in u_assign_params big huge expm o (Some p) = (o, Err ValueError).
Proof.
  intros t b ops p P L. cbn zeta. destruct (u_sim_run big huge expm small_zero t (ui_n t) ops _ _ eq_refl (u_sim_init t b P)) as (W & _).
  apply u_assign_bad with (n := ui_n t); auto.
Qed.
End C36.
Print Assumptions C36_history.
Print Assumptions C36_last.
Print Assumptions C36_update.
Print Assumptions C36_new.
Print Assumptions C36_rejects.
Print Assumptions C36_accepts.
Print Assumptions C36_default.
Print Assumptions C36_save.
Print Assumptions C36_elements.
Print Assumptions C36_set_ref.
Print Assumptions C36_unrestricted_history.
Print Assumptions C36_unrestricted_last.
Print Assumptions C36_unrestricted_rejects.

(** the hypothesis holds of the norm used in the examples *)
Example C36_ex_norm : forall n m, meq n m (fun _ _ => rO) -> ex_big n m = false.
Proof.
  intros n m H. unfold ex_big. assert (E : norm2 n m = rO).
  { unfold norm2. apply sumf_zero. intros [x y] I. apply in_prod_iff in I. rewrite !in_seq in I. cbn [fst snd]. rewrite H by lia. apply cr_mul_0_l. }
  rewrite E. vm_compute. reflexivity.
Qed.
Example C36_ex :
  ex_val (fst (ex_new None false)) = ((24, 1%positive), (32, 1%positive), (52, 1%positive))%Z /\
  ex_val (fst (ex_new (Some [qf 1 4]) false)) = ((14, 1%positive), (3269049, 65536%positive), (11311797, 262144%positive))%Z /\
  ex_val (fst (ex_assign (ex_new None true) [qf 1 4])) = ((14, 1%positive), (3269049, 65536%positive), (11311797, 262144%positive))%Z /\
  ex_val (fst (ex_assign (ex_assign (ex_new None true) [qf 1 4]) [qf 1 8]))
    = ((162717, 8192%positive), (96017227117, 2147483648%positive), (55841856397, 1073741824%positive))%Z /\
  ex_val (fst (ex_assign (ex_assign (ex_new None false) [qf 1 4]) [qf 1 8])) = ((20, 1%positive), (90789, 2048%positive), (53301, 1024%positive))%Z /\
  ex_uval (fst (ex_unew (Some [qf 1 4; qf 1 8]) false)) = ((14, 1%positive), (1271, 64%positive), (1216191, 32768%positive), (53175, 1024%positive))%Z /\
  snd (ex_assign (ex_new None false) [qf 1 4; qf 1 8]) = Err ValueError /\
  snd (ex_uassign (ex_unew None false) [qf 1 4]) = Err ValueError.
Proof. vm_compute. repeat split. Qed.

(** ** C60 *)

(** the matrix is the sum of the first m terms of the exponential series of the antisymmetric matrix, where m is the
    number of the first term with norm below the threshold (at most 100), unless a term exceeds the upper threshold *)
Theorem C60_series : forall {K : CField} (big huge : nat -> (nat -> nat -> K) -> bool) (expm : nat -> (nat -> nat -> K) -> nat -> nat -> K),
  (forall k, @nat_r K (S k) <> rO) ->
  (forall n a b, meq n a b -> big n a = big n b) -> (forall n a b, meq n a b -> huge n a = huge n b) ->
  forall n el, 1 <= n -> length el = n * (n - 1) / 2 ->
  exists u, unitary_matrix big huge expm el = Ok (n, u) /\
  let a := antiherm n el in
  ((exists m, 1 < m <= 100 /\ u = expm n a /\ huge n (term n a m) = true /\ (forall j, 1 <= j < m -> big n (term n a j) = true)) \/
   (exists m, 1 <= m <= 100 /\ meq n u (partial n a m) /\ (m = 100 \/ big n (term n a m) = false) /\
      (forall j, 1 <= j < m -> big n (term n a j) = true) /\ (forall j, 1 < j <= m -> huge n (term n a j) = false))).
Proof.
  intros K big huge expm C BE HE n el P L. exists (U big huge expm n el). split.
  - apply umat_ok; auto. rewrite L. apply half_tri.
  - cbn zeta. now apply U_taylor.
Qed.
Print Assumptions C60_series.
(** zero parameters give the identity *)
Theorem C60_zero : forall {K : CField} (big huge : nat -> (nat -> nat -> K) -> bool) (expm : nat -> (nat -> nat -> K) -> nat -> nat -> K),
  (forall n m, meq n m (fun _ _ => rO) -> big n m = false) -> forall n, 1 <= n ->
  unitary_matrix big huge expm (repeat rO (n * (n - 1) / 2)) = Ok (n, ident).
Proof.
  intros K big huge expm SZ n P. rewrite (umat_ok big huge expm n), (U_zero big huge expm SZ); auto. rewrite repeat_length. apply half_tri.
Qed.
Print Assumptions C60_zero.
(** opposite parameters give the transpose *)
Theorem C60_transpose : forall {K : CField} (big huge : nat -> (nat -> nat -> K) -> bool) (expm : nat -> (nat -> nat -> K) -> nat -> nat -> K),
  (forall k, @nat_r K (S k) <> rO) ->
  (forall n a b, meq n a b -> big n a = big n b) -> (forall n a b, meq n a b -> huge n a = huge n b) ->
  (forall n a, big n (fun i j => a j i) = big n a) -> (forall n a, huge n (fun i j => a j i) = huge n a) ->
  (forall n a b, meq n b (fun i j => a j i) -> meq n (expm n b) (fun i j => expm n a j i)) ->
  forall n el, 1 <= n -> length el = n * (n - 1) / 2 ->
  exists u v, unitary_matrix big huge expm el = Ok (n, u) /\ unitary_matrix big huge expm (map ropp el) = Ok (n, v) /\
    forall i j, i < n -> j < n -> v i j = u j i.
Proof.
  intros K big huge expm C BE HE BT HT ET n el P L. assert (L2 : 2 * length el = n * (n - 1)) by (rewrite L; apply half_tri).
  exists (U big huge expm n el), (U big huge expm n (map ropp el)). split; [now apply umat_ok|]. split; [apply umat_ok; auto; now rewrite map_length|].
  apply (U_tr C big huge expm BE HE BT HT ET).
Qed.
Print Assumptions C60_transpose.
(** other numbers of parameters are rejected *)
Theorem C60_rejects : forall {K : CField} (big huge : nat -> (nat -> nat -> K) -> bool) (expm : nat -> (nat -> nat -> K) -> nat -> nat -> K) el,
  (forall n, 2 * length el <> n * (n - 1)) -> unitary_matrix big huge expm el = Err ValueError.
Proof.
  intros K big huge expm el H. unfold unitary_matrix. replace (dim_of_size (length el)) with (@Err nat ValueError); auto.
  symmetry. unfold dim_of_size. set (s := length el) in *.
  destruct (Nat.eqb_spec (Nat.sqrt (1 + 8 * s) * Nat.sqrt (1 + 8 * s)) (1 + 8 * s)) as [E|E]; auto.
  exfalso. set (r := Nat.sqrt (1 + 8 * s)) in *. clearbody r. destruct (Nat.Even_or_Odd r) as [[k ->]|[k ->]]; [nia|].
  apply (H (k + 1)). nia.
Qed.
Print Assumptions C60_rejects.
(** 1/2: stops after the quadratic term; 20: the fallback *)
Example C60_ex :
  ex_um [qf 1 2] = Ok [(7, 8%positive); (1, 2%positive); (-1, 2%positive); (7, 8%positive)]%Z /\
  ex_um [qz 20] = Ok [(7, 1%positive); (7, 1%positive); (7, 1%positive); (7, 1%positive)]%Z /\ ex_um [qz 1; qz 1] = Err ValueError.
Proof. vm_compute. repeat split. Qed.
