(** The assignment of orbital-rotation parameters. *)
From Coq Require Import List ZArith NArith Bool Lia Arith Setoid Morphisms.
From Verif Require Import Py Slater Combos Alg PermLemmas HamGen HamRes FockInner HamRot HamRotLemmas HamRotMat.
Import ListNotations.

Section Assign.
Context {K : CField}.
Local Open Scope cr_scope.
Add Ring K_ring24 : (rth K).
Notation mat := (nat -> nat -> K).
Variables (big huge : nat -> mat -> bool) (expm : nat -> mat -> mat).
Hypothesis small_zero : forall n m, meq n m (fun _ _ => 0) -> big n m = false.
Notation umat := (unitary_matrix big huge expm).

(** agreement of integrals *)
Definition ieq (s t : ints K) : Prop :=
  i_n s = i_n t /\ meq (i_n s) (i_one s) (i_one t) /\ teqn (i_n s) (i_two s) (i_two t).
(** rotation by a square matrix *)
Definition rot (t : ints K) (m : mat) : ints K :=
  mkints (i_n t) (rot1 (i_n t) (i_one t) m m) (rot2 (i_n t) (i_two t) m m m m).
Lemma ieq_refl : forall t, ieq t t.
Proof. intros t. repeat split; repeat intro; reflexivity. Qed.
Lemma ieq_sym : forall s t, ieq s t -> ieq t s.
Proof. intros s t (A & B & C). repeat split; auto; rewrite <- A; repeat intro; symmetry; auto. Qed.
Lemma ieq_trans : forall s t u, ieq s t -> ieq t u -> ieq s u.
Proof.
  intros s t u (A & B & C) (A' & B' & C'). rewrite <- A in *. repeat split; auto; repeat intro; [rewrite B, B' by auto|rewrite C, C' by auto]; auto.
Qed.
Lemma rot_ieq : forall s t m m', ieq s t -> meq (i_n s) m m' -> ieq (rot s m) (rot t m').
Proof.
  intros s t m m' (A & B & C) M. split; [auto|]. cbn [rot i_n i_one i_two]. rewrite <- A. split; [now apply rot1_meq|now apply rot2_teqn].
Qed.
Lemma rot_ident : forall t, ieq (rot t ident) t.
Proof. intros t. split; [auto|]. split; [apply rot1_ident|apply rot2_ident]. Qed.
Lemma rot_comp : forall t A B, ieq (rot (rot t A) B) (rot t (mdot (i_n t) A B)).
Proof. intros t A B. split; [auto|]. split; repeat intro; [apply rot1_comp|apply rot2_comp]. Qed.
Lemma mdot_meq : forall n (a a' b b' : mat), meq n a a' -> meq n b b' -> meq n (mdot n a b) (mdot n a' b').
Proof.
  intros n a a' b b' A B i j Li Lj. unfold mdot. rewrite !psum_sumf. apply sumf_ext. intros k Hk. apply in_seq in Hk. rewrite A, B by lia. reflexivity.
Qed.
Lemma mdot_ident_r : forall n (a : mat), meq n (mdot n a ident) a.
Proof. intros n a i j Li Lj. unfold mdot. rewrite psum_sumf. now apply ctr_ident. Qed.
Lemma mdot_ident_l : forall n (a : mat), meq n (mdot n ident a) a.
Proof.
  intros n a i j Li Lj. unfold mdot, ident. rewrite psum_sumf. rewrite (sumf_single _ _ i); [rewrite Nat.eqb_refl; ring|apply seq_NoDup|apply in_seq; lia|].
  intros y _ Hy. destruct (Nat.eqb_spec i y); [congruence|ring].
Qed.
Lemma mdot_assoc : forall n (a b c : mat) i j, mdot n (mdot n a b) c i j = mdot n a (mdot n b c) i j.
Proof.
  intros. unfold mdot. rewrite !psum_sumf.
  rewrite (sumf_ext (fun k => psum _ _ * c k j) (fun k => sumf (fun l => a i l * b l k * c k j) (seq 0 n))) by (intros; now rewrite psum_sumf, sumf_mul_r).
  rewrite sumf_swap. apply sumf_ext. intros l _. rewrite psum_sumf, <- sumf_mul_l. apply sumf_ext. intros k _. ring.
Qed.
Lemma meq_refl : forall n (a : mat), meq n a a.
Proof. repeat intro. auto. Qed.
Lemma meq_sym : forall n (a b : mat), meq n a b -> meq n b a.
Proof. repeat intro. symmetry. auto. Qed.
Lemma meq_trans : forall n (a b c : mat), meq n a b -> meq n b c -> meq n a c.
Proof. intros n a b c H1 H2 i j Li Lj. rewrite H1 by auto. auto. Qed.

(** the unitary matrix of valid parameters, as a total function *)
Definition U (n : nat) (el : list K) : mat := unitary_loop big huge expm n (antiherm n el) 99 1 ident (antiherm n el).
Lemma umat_ok : forall n el, (1 <= n)%nat -> (2 * length el = n * (n - 1))%nat -> umat el = Ok (n, U n el).
Proof. intros n el P L. unfold unitary_matrix. rewrite (dim_of_tri n) by auto. reflexivity. Qed.
Lemma fill_zero : forall n k, (forall x y, fill_triu n (repeat (0 : K) k) x y = 0).
Proof.
  intros n k x y. unfold fill_triu. assert (H : forall (l : list (nat * nat * K)) (m : mat), (forall p, In p l -> snd p = 0) -> (forall x y, m x y = 0) ->
    fold_left (fun m p => upd2 m (fst (fst p)) (snd (fst p)) (snd p)) l m x y = 0).
  { induction l as [|p l IH]; intros m Hl Hm; auto. cbn [fold_left]. apply IH; [intros; apply Hl; now right|].
    intros i j. unfold upd2. destruct (_ && _)%bool; auto. apply Hl. now left. }
  apply H; auto. intros [q v] I. apply in_combine_r in I. apply repeat_spec in I. auto.
Qed.
Lemma loop_stop : forall dim a fuel n u c, big dim c = false -> unitary_loop big huge expm dim a fuel n u c = u.
Proof. intros dim a [|fuel] n u c H; auto. cbn [unitary_loop]. now rewrite H. Qed.
Lemma U_zero : forall n k, U n (repeat (0 : K) k) = ident.
Proof.
  intros n k. unfold U. apply loop_stop. apply small_zero. intros i j _ _. unfold antiherm. rewrite !fill_zero. destruct (Nat.leb j i); ring.
Qed.
Lemma vsub_ok : forall a b : list K, length a = length b -> vsub a b = Ok (map (fun p => fst p - snd p) (combine a b)).
Proof. intros a b L. unfold vsub. now rewrite L, Nat.eqb_refl. Qed.
Lemma vsub_zero : forall a : list K, map (fun p => fst p - snd p) (combine a (repeat 0 (length a))) = a.
Proof. induction a as [|x a IH]; auto. cbn. rewrite IH. f_equal. ring. Qed.
Lemma vsub_self : forall a : list K, map (fun p => fst p - snd p) (combine a a) = repeat 0 (length a).
Proof. induction a as [|x a IH]; auto. cbn. rewrite IH. f_equal. ring. Qed.
Definition diff (a b : list K) : list K := map (fun p => fst p - snd p) (combine a b).
Lemma diff_length : forall a b, length a = length b -> length (diff a b) = length a.
Proof. intros a b L. unfold diff. rewrite map_length, combine_length. lia. Qed.

(** well-formed objects with n orbitals *)
Definition wf (n : nat) (o : hobj K) : Prop :=
  (1 <= n)%nat /\ i_n (o_ints o) = n /\ i_n (o_ref o) = n /\
  match o_prev o with None => True | Some (p, (d, w)) => (2 * length p = n * (n - 1))%nat /\ d = n end.
(** the rotation folded so far *)
Definition folded (n : nat) (o : hobj K) : list K * mat :=
  match o_prev o with None => (repeat 0 (n * (n - 1) / 2)%nat, ident) | Some (p, (_, w)) => (p, w) end.

Lemma tri_half : forall n k, (2 * k = n * (n - 1))%nat -> (n * (n - 1) / 2)%nat = k.
Proof. intros n k E. rewrite <- E, Nat.mul_comm. now apply Nat.div_mul. Qed.
Lemma half_tri : forall n, (2 * (n * (n - 1) / 2) = n * (n - 1))%nat.
Proof. intros n. rewrite <- (triu_length n). rewrite (Nat.mul_comm 2 (length _)), Nat.div_mul by lia. lia. Qed.

Lemma assign_ok : forall n o p, wf n o -> (2 * length p = n * (n - 1))%nat ->
  let '(fp, fw) := folded n o in
  let v := mdot n fw (U n (diff p fp)) in
  exists o', assign_params big huge expm o (Some p) = (o', Ok tt) /\ wf n o' /\
    o_ints o' = rot (o_ref o) v /\ o_ref o' = o_ref o /\ o_params o' = p /\ o_upd o' = o_upd o /\
    folded n o' = (if o_upd o then (p, v) else (fp, fw)) /\
    (forall i j, o_ijij o' i j = i_two (o_ints o') i j i j) /\ (forall i j, o_ijji o' i j = i_two (o_ints o') i j j i).
Proof.
  intros n o p (P & N1 & N2 & W) L. destruct (folded n o) as [fp fw] eqn:F. cbn zeta.
  unfold assign_params. rewrite N1. rewrite (tri_half n (length p) L), Nat.eqb_refl. cbn [negb].
  assert (X : (match o_prev o with Some q => Ok q | None => (do u <- umat (repeat 0 (length p)); Ok (repeat 0 (length p), u)) end)
              = Ok (fp, (n, fw)) /\ length p = length fp).
  { unfold folded in F. destruct (o_prev o) as [[q [d w]]|].
    - destruct W as [W ->]. injection F as -> ->. split; auto. lia.
    - rewrite (umat_ok n) by (auto; rewrite repeat_length; auto). rewrite U_zero. cbn [bind]. rewrite (tri_half n (length p) L) in F.
      injection F as <- <-. split; auto. now rewrite repeat_length. }
  destruct X as [X LF]. cbn [o_prev o_ints o_ref o_upd o_ijij o_ijji o_params]. 
  match goal with |- context [match ?M with Ok _ => _ | Err _ => _ end] => change M with
    (match o_prev o with Some q => Ok q | None => (do u <- umat (repeat 0 (length p)); Ok (repeat 0 (length p), u)) end) end.
  rewrite X. rewrite vsub_ok by auto. fold (diff p fp). cbn [o_prev o_ints o_ref o_upd o_ijij o_ijji o_params set_ints].
  rewrite (umat_ok n) by (auto; rewrite diff_length by auto; auto). cbn [bind].
  unfold dotc. cbn [fst snd]. rewrite Nat.eqb_refl. cbn [bind fst snd]. unfold orb_rotate_matrix. rewrite N2, Nat.eqb_refl. cbn [negb bind].
  eexists. split; [reflexivity|]. unfold set_ints. cbn [o_prev o_ints o_ref o_upd o_ijij o_ijji o_params].
  unfold rot, folded, wf. rewrite N2.
  destruct (o_upd o); cbn [obj_cache o_prev o_ints o_ref o_upd o_ijij o_ijji o_params i_n]; repeat split; auto; try lia.
Qed.
Lemma assign_none : forall n o, wf n o -> assign_params big huge expm o None = assign_params big huge expm o (Some (repeat 0 (n * (n - 1) / 2)%nat)).
Proof. intros n o (P & N1 & _). unfold assign_params. now rewrite N1. Qed.
Lemma assign_bad : forall n o p, wf n o -> (2 * length p <> n * (n - 1))%nat -> assign_params big huge expm o (Some p) = (o, Err ValueError).
Proof.
  intros n o p (P & N1 & _) L. unfold assign_params. rewrite N1. destruct (Nat.eqb_spec (length p) (n * (n - 1) / 2)) as [E|E]; auto.
  exfalso. apply L. rewrite E. apply half_tri.
Qed.
End Assign.

(** ** The unrestricted class *)
Section UAssign.
Context {K : CField}.
Local Open Scope cr_scope.
Add Ring K_ring25 : (rth K).
Notation mat := (nat -> nat -> K).
Variables (big huge : nat -> mat -> bool) (expm : nat -> mat -> mat).
Hypothesis small_zero : forall n m, meq n m (fun _ _ => 0) -> big n m = false.
Notation umat := (unitary_matrix big huge expm).
Notation U := (U big huge expm).

Definition uieq (s t : uints K) : Prop :=
  ui_n s = ui_n t /\ meq (ui_n s) (ui_one0 s) (ui_one0 t) /\ meq (ui_n s) (ui_one1 s) (ui_one1 t) /\
  teqn (ui_n s) (ui_two0 s) (ui_two0 t) /\ teqn (ui_n s) (ui_two1 s) (ui_two1 t) /\ teqn (ui_n s) (ui_two2 s) (ui_two2 t).
(** rotation of the alpha and beta orbitals *)
Definition urot (t : uints K) (a b : mat) : uints K :=
  mkuints (ui_n t) (rot1 (ui_n t) (ui_one0 t) a a) (rot1 (ui_n t) (ui_one1 t) b b)
    (rot2 (ui_n t) (ui_two0 t) a a a a) (rot2 (ui_n t) (ui_two1 t) a b a b) (rot2 (ui_n t) (ui_two2 t) b b b b).
Lemma uieq_refl : forall t, uieq t t.
Proof. intros t. repeat split; repeat intro; reflexivity. Qed.
Lemma uieq_sym : forall s t, uieq s t -> uieq t s.
Proof. intros s t (A & B & C & D & E & F). repeat split; auto; rewrite <- A; repeat intro; symmetry; auto. Qed.
Lemma uieq_trans : forall s t u, uieq s t -> uieq t u -> uieq s u.
Proof.
  intros s t u (A & B & C & D & E & F) (A' & B' & C' & D' & E' & F'). rewrite <- A in *.
  repeat split; auto; repeat intro; [rewrite B, B'|rewrite C, C'|rewrite D, D'|rewrite E, E'|rewrite F, F']; auto.
Qed.
Lemma urot_ieq : forall s t a a' b b', uieq s t -> meq (ui_n s) a a' -> meq (ui_n s) b b' -> uieq (urot s a b) (urot t a' b').
Proof.
  intros s t a a' b b' (A & B & C & D & E & F) Ma Mb. split; [auto|]. cbn [urot ui_n ui_one0 ui_one1 ui_two0 ui_two1 ui_two2]. rewrite <- A.
  split; [now apply rot1_meq|]. split; [now apply rot1_meq|]. repeat split; now apply rot2_teqn.
Qed.
Lemma urot_ident : forall t, uieq (urot t ident ident) t.
Proof. intros t. split; [auto|]. split; [apply rot1_ident|]. split; [apply rot1_ident|]. repeat split; apply rot2_ident. Qed.
Lemma urot_comp : forall t a b a' b', uieq (urot (urot t a b) a' b') (urot t (mdot (ui_n t) a a') (mdot (ui_n t) b b')).
Proof.
  intros. split; [auto|]. split; [repeat intro; apply rot1_comp|]. split; [repeat intro; apply rot1_comp|].
  split; [repeat intro; apply rot2_comp|]. split; repeat intro; apply rot2_comp.
Qed.

Definition uwf (n : nat) (o : uobj K) : Prop :=
  (1 <= n)%nat /\ ui_n (uo_ints o) = n /\ ui_n (uo_ref o) = n /\
  match uo_prev o with None => True | Some (p, (d, _), (d', _)) => length p = (n * (n - 1))%nat /\ d = n /\ d' = n end.
Definition ufolded (n : nat) (o : uobj K) : list K * mat * mat :=
  match uo_prev o with None => (repeat 0 (n * (n - 1))%nat, ident, ident) | Some (p, (_, a), (_, b)) => (p, a, b) end.
(** parameters of the alpha and beta orbitals *)
Definition pa (n : nat) (p : list K) : list K := firstn (n * (n - 1) / 2) p.
Definition pb (n : nat) (p : list K) : list K := skipn (n * (n - 1) / 2) p.

Lemma firstn_rep : forall a b (x : K), firstn a (repeat x b) = repeat x (Nat.min a b).
Proof. induction a as [|a IH]; intros [|b] x; auto. cbn. now rewrite IH. Qed.
Lemma skipn_rep : forall a b (x : K), skipn a (repeat x b) = repeat x (b - a).
Proof. induction a as [|a IH]; intros [|b] x; auto. cbn [skipn repeat]. rewrite IH. f_equal. Qed.
Lemma pa_len : forall n p, length p = (n * (n - 1))%nat -> (2 * length (pa n p) = n * (n - 1))%nat.
Proof. intros n p L. unfold pa. rewrite firstn_length. assert (H := half_tri n). lia. Qed.
Lemma pb_len : forall n p, length p = (n * (n - 1))%nat -> (2 * length (pb n p) = n * (n - 1))%nat.
Proof. intros n p L. unfold pb. rewrite skipn_length. assert (H := half_tri n). lia. Qed.

Lemma u_assign_ok : forall n o p, uwf n o -> length p = (n * (n - 1))%nat ->
  let '(fp, fa, fb) := ufolded n o in
  let va := mdot n fa (U n (pa n (diff p fp))) in
  let vb := mdot n fb (U n (pb n (diff p fp))) in
  exists o', u_assign_params big huge expm o (Some p) = (o', Ok tt) /\ uwf n o' /\
    uo_ints o' = urot (uo_ref o) va vb /\ uo_ref o' = uo_ref o /\ uo_params o' = p /\ uo_upd o' = uo_upd o /\
    ufolded n o' = (if uo_upd o then (p, va, vb) else (fp, fa, fb)) /\
    obj_uham o' = u_cache_two_ints (obj_uham o').
Proof.
  intros n o p (P & N1 & N2 & W) L. destruct (ufolded n o) as [[fp fa] fb] eqn:F. cbn zeta.
  unfold u_assign_params. rewrite N1, L, Nat.eqb_refl. cbn [negb].
  assert (X : (match uo_prev o with Some q => Ok q | None =>
       (do ua <- umat (firstn (n * (n - 1) / 2) (repeat 0 (n * (n - 1))%nat)); do ub <- umat (skipn (n * (n - 1) / 2) (repeat 0 (n * (n - 1))%nat));
          Ok (repeat 0 (n * (n - 1))%nat, ua, ub)) end)
              = Ok (fp, (n, fa), (n, fb)) /\ length p = length fp).
  { unfold ufolded in F. destruct (uo_prev o) as [[[q [d w]] [d' w']]|].
    - destruct W as (W & -> & ->). injection F as -> -> ->. split; auto. lia.
    - rewrite firstn_rep, skipn_rep. rewrite !(umat_ok big huge expm n).
      + rewrite !U_zero by auto. cbn [bind]. injection F as <- <- <-. split; auto. now rewrite repeat_length.
      + auto.
      + rewrite repeat_length. assert (H := half_tri n). lia.
      + auto.
      + rewrite repeat_length. assert (H := half_tri n). lia. }
  destruct X as [X LF]. cbn [uo_prev uo_ints uo_ref uo_upd uo_cache uo_params]. 
  match goal with |- context [match ?M with Ok _ => _ | Err _ => _ end] => change M with
    (match uo_prev o with Some q => Ok q | None =>
       (do ua <- umat (firstn (n * (n - 1) / 2) (repeat 0 (n * (n - 1))%nat)); do ub <- umat (skipn (n * (n - 1) / 2) (repeat 0 (n * (n - 1))%nat));
          Ok (repeat 0 (n * (n - 1))%nat, ua, ub)) end) end.
  rewrite X. rewrite vsub_ok by auto. fold (diff p fp). cbn [uo_prev uo_ints uo_ref uo_upd uo_cache uo_params u_set_ints].
  assert (LD : length (diff p fp) = (n * (n - 1))%nat) by (rewrite diff_length; auto).
  fold (pa n (diff p fp)). fold (pb n (diff p fp)).
  rewrite (umat_ok big huge expm n (pa n (diff p fp))) by (auto using pa_len). cbn [bind].
  unfold dotc. cbn [fst snd]. rewrite Nat.eqb_refl. cbn [bind fst snd].
  rewrite (umat_ok big huge expm n (pb n (diff p fp))) by (auto using pb_len). cbn [bind fst snd]. rewrite Nat.eqb_refl. cbn [bind fst snd].
  unfold u_orb_rotate_matrix. rewrite N2, Nat.eqb_refl. cbn [andb negb bind].
  eexists. split; [reflexivity|]. unfold u_set_ints. cbn [uo_prev uo_ints uo_ref uo_upd uo_cache uo_params].
  unfold urot, ufolded, uwf. rewrite N2.
  destruct (uo_upd o); cbn [u_obj_cache uo_prev uo_ints uo_ref uo_upd uo_cache uo_params ui_n]; repeat split; auto; try lia.
Qed.
Lemma u_assign_none : forall n o, uwf n o ->
  u_assign_params big huge expm o None = u_assign_params big huge expm o (Some (repeat 0 (n * (n - 1))%nat)).
Proof. intros n o (P & N1 & _). unfold u_assign_params. now rewrite N1. Qed.
Lemma u_assign_bad : forall n o p, uwf n o -> length p <> (n * (n - 1))%nat -> u_assign_params big huge expm o (Some p) = (o, Err ValueError).
Proof.
  intros n o p (P & N1 & _) L. unfold u_assign_params. rewrite N1. destruct (Nat.eqb_spec (length p) (n * (n - 1))) as [E|E]; auto. contradiction.
Qed.
End UAssign.
