(** Histories of calls on a chemical Hamiltonian, and the rotation they amount to. *)
From Coq Require Import Ring_theory List ZArith NArith Bool Lia Arith.
From Verif Require Import Py Slater Alg PermLemmas HamSpec HamGen HamRes HamRot HamRotLemmas HamRotMat HamRotAssign.
Import ListNotations.

Section Hist.
Context {K : CField}.
Local Open Scope cr_scope.
Add Ring K_ring26 : (rth K).
Notation mat := (nat -> nat -> K).
Variables (big huge : nat -> mat -> bool) (expm : nat -> mat -> mat).

(** calls by a client: assign_params, set_ref_ints, assignment to the attribute update_prev_params *)
Inductive hop := HAssign (p : option (list K)) | HSetRef | HUpdate (b : bool).
Definition set_upd (o : hobj K) (b : bool) : hobj K :=
  mkhobj (o_ints o) (o_ijij o) (o_ijji o) (o_ref o) (o_params o) (o_prev o) b.
Definition hstep (o : hobj K) (op : hop) : hobj K :=
  match op with
  | HAssign p => fst (assign_params big huge expm o p)
  | HSetRef => set_ref_ints o
  | HUpdate b => set_upd o b
  end.
Definition hrun (o : hobj K) (ops : list hop) : hobj K := fold_left hstep ops o.
(** the object before the first assignment in __init__ *)
Definition init (t : ints K) (b : bool) : hobj K := obj_cache (mkhobj t (fun _ _ => 0) (fun _ _ => 0) t [] None b).

(** specification: the reference and the current integrals as rotations of the integrals given at construction, the
    parameters and the rotation folded in, and the flag *)
Record rotspec := mkrs { s_ref : mat; s_cur : mat; s_fp : list K; s_fw : mat; s_upd : bool }.
Definition uni (p : list K) : mat := match unitary_matrix big huge expm p with Ok (_, u) => u | Err _ => ident end.
Definition sub (a b : list K) : list K := map (fun p => fst p - snd p) (combine a b).
Definition valid (n : nat) (p : list K) : bool := Nat.eqb (2 * length p) (n * (n - 1)).
Definition zeros (n : nat) : list K := repeat 0 (n * (n - 1) / 2).
Definition given (n : nat) (p : option (list K)) : list K := match p with None => zeros n | Some p => p end.
Definition sstep (n : nat) (s : rotspec) (op : hop) : rotspec :=
  match op with
  | HAssign p =>
      let p := given n p in
      if valid n p then
        let v := mdot n (s_fw s) (uni (sub p (s_fp s))) in
        if s_upd s then mkrs (s_ref s) (mdot n (s_ref s) v) p v true
        else mkrs (s_ref s) (mdot n (s_ref s) v) (s_fp s) (s_fw s) false
      else s
  | HSetRef => mkrs (s_cur s) (s_cur s) (s_fp s) (s_fw s) (s_upd s)
  | HUpdate b => mkrs (s_ref s) (s_cur s) (s_fp s) (s_fw s) b
  end.
Definition srun (n : nat) (s : rotspec) (ops : list hop) : rotspec := fold_left (sstep n) ops s.
Definition sinit (n : nat) (b : bool) : rotspec := mkrs ident ident (zeros n) ident b.

Hypothesis small_zero : forall n m, meq n m (fun _ _ => 0) -> big n m = false.

Lemma zeros_valid : forall n, valid n (zeros n) = true.
Proof. intros n. unfold valid, zeros. rewrite repeat_length, half_tri. apply Nat.eqb_refl. Qed.
Lemma uni_U : forall n p, (1 <= n)%nat -> (2 * length p = n * (n - 1))%nat -> uni p = U big huge expm n p.
Proof. intros n p P L. unfold uni. now rewrite (umat_ok big huge expm n). Qed.
Lemma given_ok : forall n o p, wf n o -> assign_params big huge expm o p = assign_params big huge expm o (Some (given n p)).
Proof. intros n o [p|] W; auto. cbn [given]. now rewrite (assign_none big huge expm n). Qed.

Definition cached_o (o : hobj K) : Prop :=
  (forall i j, o_ijij o i j = i_two (o_ints o) i j i j) /\ (forall i j, o_ijji o i j = i_two (o_ints o) i j j i).
Definition sim (t : ints K) (n : nat) (o : hobj K) (s : rotspec) : Prop :=
  wf n o /\ ieq (o_ints o) (rot t (s_cur s)) /\ ieq (o_ref o) (rot t (s_ref s)) /\
  folded n o = (s_fp s, s_fw s) /\ (2 * length (s_fp s) = n * (n - 1))%nat /\ o_upd o = s_upd s /\ cached_o o.

Lemma sim_init : forall t b, (1 <= i_n t)%nat -> sim t (i_n t) (init t b) (sinit (i_n t) b).
Proof.
  intros t b P. unfold sim, init, sinit. cbn [o_ints o_ref o_upd obj_cache s_cur s_ref s_fp s_fw s_upd].
  repeat split; auto; try (apply ieq_sym, rot_ident). unfold zeros. now rewrite repeat_length, half_tri.
Qed.
Lemma sim_step : forall t n o s op, i_n t = n -> sim t n o s -> sim t n (hstep o op) (sstep n s op).
Proof.
  intros t n o s op Nt (W & I & R & F & L & Up & C). destruct op as [p| |b].
  - cbn [hstep sstep]. rewrite (given_ok n) by auto. unfold valid. destruct (Nat.eqb_spec (2 * length (given n p)) (n * (n - 1))) as [E|E].
    + assert (X := assign_ok big huge expm small_zero n o (given n p) W E). rewrite F in X. cbn zeta in X.
      destruct X as (o' & -> & W' & I' & R' & P' & U' & F' & C1 & C2). cbn [fst].
      assert (G : U big huge expm n (diff (given n p) (s_fp s)) = uni (sub (given n p) (s_fp s))).
      { symmetry. change (sub (given n p) (s_fp s)) with (diff (given n p) (s_fp s)).
        apply uni_U; [apply W|]. rewrite diff_length; lia. }
      rewrite G in *. cbn zeta. set (v := mdot n (s_fw s) (uni (sub (given n p) (s_fp s)))) in *.
      assert (Y : ieq (o_ints o') (rot t (mdot n (s_ref s) v))).
      { rewrite I'. eapply ieq_trans; [apply rot_ieq; [exact R|apply meq_refl]|].
        eapply ieq_trans; [apply rot_comp|]. rewrite Nt. apply ieq_refl. }
      rewrite Up in *. revert U' F'. destruct (s_upd s); intros U' F'; (split; [auto|]); cbn [s_cur s_ref s_fp s_fw s_upd]; rewrite ?R'; repeat (split; auto).
    + rewrite (assign_bad big huge expm n) by auto. cbn [fst]. repeat (split; auto).
  - cbn [hstep sstep]. unfold sim in *. cbn [s_cur s_ref s_fp s_fw s_upd o_ints o_ref o_upd set_ref_ints].
    destruct W as (A & B & D & E). split; [exact (conj A (conj B (conj B E)))|]. repeat (split; auto).
  - cbn [hstep sstep]. unfold sim in *. cbn [s_cur s_ref s_fp s_fw s_upd o_ints o_ref o_upd set_upd]. split; [exact W|]. repeat (split; auto).
Qed.
Lemma sim_run : forall t n ops o s, i_n t = n -> sim t n o s -> sim t n (hrun o ops) (srun n s ops).
Proof.
  intros t n. induction ops as [|op ops IH]; intros o s N S; auto. cbn. apply IH; auto. now apply sim_step.
Qed.

(** the last valid parameters of a list of assignments *)
Definition last_valid (n : nat) (ps : list (option (list K))) : list K :=
  fold_left (fun acc p => if valid n (given n p) then given n p else acc) ps (zeros n).
(** the product of the rotations by the successive differences *)
Fixpoint chain (n : nat) (prev : list K) (ps : list (list K)) : mat :=
  match ps with [] => ident | p :: t => mdot n (uni (sub p prev)) (chain n p t) end.

Lemma sub_zeros : forall n p, (2 * length p = n * (n - 1))%nat -> sub p (zeros n) = p.
Proof. intros n p L. unfold sub, zeros. rewrite (tri_half n (length p)) by auto. apply vsub_zero. Qed.

Lemma srun_keep : forall n ps s acc, s_upd s = false -> s_fp s = zeros n -> s_fw s = ident -> s_ref s = ident ->
  meq n (s_cur s) (uni acc) ->
  let s' := srun n s (map HAssign ps) in
  meq n (s_cur s') (uni (fold_left (fun acc p => if valid n (given n p) then given n p else acc) ps acc)) /\
  s_ref s' = ident /\ s_fw s' = ident.
Proof.
  intros n. induction ps as [|p ps IH]; intros s acc A B C D E; cbn zeta; auto.
  cbn [map srun fold_left]. fold (srun n (sstep n s (HAssign p)) (map HAssign ps)). cbn [sstep].
  destruct (valid n (given n p)) eqn:V.
  - rewrite A. apply IH; auto. cbn [s_cur]. rewrite B, C, D. apply Nat.eqb_eq in V. rewrite sub_zeros by auto.
    eapply meq_trans; [apply mdot_ident_l|]. apply mdot_ident_l.
  - now apply IH.
Qed.
Lemma srun_chain : forall n ps s, s_upd s = true -> s_ref s = ident -> forallb (valid n) ps = true -> ps <> [] ->
  let s' := srun n s (map (fun p => HAssign (Some p)) ps) in
  meq n (s_cur s') (mdot n (s_fw s) (chain n (s_fp s) ps)) /\ s_upd s' = true.
Proof.
  intros n. induction ps as [|p ps IH]; intros s A B V N; [congruence|]. cbn zeta. cbn [map srun fold_left].
  fold (srun n (sstep n s (HAssign (Some p))) (map (fun p => HAssign (Some p)) ps)). cbn [sstep given].
  apply andb_prop in V. destruct V as [V1 V2]. rewrite V1, A. destruct ps as [|p2 ps].
  - cbn [map srun fold_left s_cur s_upd chain]. rewrite B. split; auto. eapply meq_trans; [apply mdot_ident_l|].
    apply mdot_meq; [apply meq_refl|]. apply meq_sym, mdot_ident_r.
  - match goal with |- context [srun n ?s1 _] => destruct (IH s1) as [Q1 Q2]; auto; [discriminate|] end.
    split; auto. eapply meq_trans; [exact Q1|]. cbn [s_fw s_fp]. intros i j Hi Hj. cbn [chain]. apply mdot_assoc.
Qed.
End Hist.
Arguments hop K : clear implicits.

(** ** The same for the unrestricted class *)
Section UHist.
Context {K : CField}.
Local Open Scope cr_scope.
Notation mat := (nat -> nat -> K).
Variables (big huge : nat -> mat -> bool) (expm : nat -> mat -> mat).

Definition u_set_upd (o : uobj K) (b : bool) : uobj K :=
  mkuobj (uo_ints o) (uo_cache o) (uo_ref o) (uo_params o) (uo_prev o) b.
Definition u_hstep (o : uobj K) (op : hop K) : uobj K :=
  match op with
  | HAssign p => fst (u_assign_params big huge expm o p)
  | HSetRef => u_set_ref_ints o
  | HUpdate b => u_set_upd o b
  end.
Definition u_hrun (o : uobj K) (ops : list (hop K)) : uobj K := fold_left u_hstep ops o.
Definition u_init (t : uints K) (b : bool) : uobj K :=
  let z := fun _ _ => 0 : K in u_obj_cache (mkuobj t (z, z, z, z, z) t [] None b).

(** rotations of the alpha and of the beta orbitals *)
Record urotspec := mkurs { su_ref : mat * mat; su_cur : mat * mat; su_fp : list K; su_fw : mat * mat; su_upd : bool }.
Definition u_valid (n : nat) (p : list K) : bool := Nat.eqb (length p) (n * (n - 1)).
Definition u_zeros (n : nat) : list K := repeat 0 (n * (n - 1)).
Definition u_given (n : nat) (p : option (list K)) : list K := match p with None => u_zeros n | Some p => p end.
Definition mdot2 (n : nat) (a b : mat * mat) : mat * mat := (mdot n (fst a) (fst b), mdot n (snd a) (snd b)).
(** the first half of the parameters is for the alpha orbitals *)
Definition uni2 (n : nat) (p : list K) : mat * mat :=
  (uni big huge expm (firstn (n * (n - 1) / 2) p), uni big huge expm (skipn (n * (n - 1) / 2) p)).
Definition u_sstep (n : nat) (s : urotspec) (op : hop K) : urotspec :=
  match op with
  | HAssign p =>
      let p := u_given n p in
      if u_valid n p then
        let v := mdot2 n (su_fw s) (uni2 n (sub p (su_fp s))) in
        if su_upd s then mkurs (su_ref s) (mdot2 n (su_ref s) v) p v true
        else mkurs (su_ref s) (mdot2 n (su_ref s) v) (su_fp s) (su_fw s) false
      else s
  | HSetRef => mkurs (su_cur s) (su_cur s) (su_fp s) (su_fw s) (su_upd s)
  | HUpdate b => mkurs (su_ref s) (su_cur s) (su_fp s) (su_fw s) b
  end.
Definition u_srun (n : nat) (s : urotspec) (ops : list (hop K)) : urotspec := fold_left (u_sstep n) ops s.
Definition u_sinit (n : nat) (b : bool) : urotspec := mkurs (ident, ident) (ident, ident) (u_zeros n) (ident, ident) b.

Hypothesis small_zero : forall n m, meq n m (fun _ _ => 0) -> big n m = false.

Lemma u_given_ok : forall n o p, uwf n o -> u_assign_params big huge expm o p = u_assign_params big huge expm o (Some (u_given n p)).
Proof. intros n o [p|] W; auto. cbn [u_given]. now rewrite (u_assign_none big huge expm n). Qed.
Definition u_cached_o (o : uobj K) : Prop := obj_uham o = u_cache_two_ints (obj_uham o).
Definition u_sim (t : uints K) (n : nat) (o : uobj K) (s : urotspec) : Prop :=
  uwf n o /\ uieq (uo_ints o) (urot t (fst (su_cur s)) (snd (su_cur s))) /\
  uieq (uo_ref o) (urot t (fst (su_ref s)) (snd (su_ref s))) /\
  ufolded n o = (su_fp s, fst (su_fw s), snd (su_fw s)) /\ (length (su_fp s) = n * (n - 1))%nat /\ uo_upd o = su_upd s /\ u_cached_o o.

Lemma u_sim_init : forall t b, (1 <= ui_n t)%nat -> u_sim t (ui_n t) (u_init t b) (u_sinit (ui_n t) b).
Proof.
  intros t b P. unfold u_sim, u_init, u_sinit. cbn [uo_ints uo_ref uo_upd u_obj_cache su_cur su_ref su_fp su_fw su_upd fst snd].
  split; [repeat split; auto|]. split; [apply uieq_sym, urot_ident|]. split; [apply uieq_sym, urot_ident|]. split; [reflexivity|].
  split; [unfold u_zeros; now rewrite repeat_length|]. split; reflexivity.
Qed.
Lemma u_sim_step : forall t n o s op, ui_n t = n -> u_sim t n o s -> u_sim t n (u_hstep o op) (u_sstep n s op).
Proof.
  intros t n o s op Nt (W & I & R & F & L & Up & C). destruct op as [p| |b].
  - cbn [u_hstep u_sstep]. rewrite (u_given_ok n) by auto. unfold u_valid. destruct (Nat.eqb_spec (length (u_given n p)) (n * (n - 1))) as [E|E].
    + assert (X := u_assign_ok big huge expm small_zero n o (u_given n p) W E). rewrite F in X. cbn zeta in X.
      destruct X as (o' & -> & W' & I' & R' & P' & U' & F' & C1). cbn [fst].
      assert (LD : length (sub (u_given n p) (su_fp s)) = (n * (n - 1))%nat).
      { change (sub (u_given n p) (su_fp s)) with (diff (u_given n p) (su_fp s)). rewrite diff_length; lia. }
      assert (Ga : U big huge expm n (pa n (diff (u_given n p) (su_fp s))) = fst (uni2 n (sub (u_given n p) (su_fp s)))).
      { symmetry. unfold uni2. cbn [fst]. apply uni_U; [apply W|]. now apply pa_len. }
      assert (Gb : U big huge expm n (pb n (diff (u_given n p) (su_fp s))) = snd (uni2 n (sub (u_given n p) (su_fp s)))).
      { symmetry. unfold uni2. cbn [snd]. apply uni_U; [apply W|]. now apply pb_len. }
      rewrite Ga, Gb in *. cbn zeta. set (d := uni2 n (sub (u_given n p) (su_fp s))) in *.
      assert (Y : uieq (uo_ints o') (urot t (fst (mdot2 n (su_ref s) (mdot2 n (su_fw s) d))) (snd (mdot2 n (su_ref s) (mdot2 n (su_fw s) d))))).
      { rewrite I'. eapply uieq_trans; [apply urot_ieq; [exact R|apply meq_refl|apply meq_refl]|].
        eapply uieq_trans; [apply urot_comp|]. rewrite Nt. apply uieq_refl. }
      rewrite Up in *. revert U' F'. destruct (su_upd s); intros U' F'; (split; [auto|]); cbn [su_cur su_ref su_fp su_fw su_upd];
        rewrite ?R'; repeat (split; auto).
    + rewrite (u_assign_bad big huge expm n) by auto. cbn [fst]. repeat (split; auto).
  - cbn [u_hstep u_sstep]. unfold u_sim in *. cbn [su_cur su_ref su_fp su_fw su_upd uo_ints uo_ref uo_upd u_set_ref_ints].
    destruct W as (A & B & D & E). split; [exact (conj A (conj B (conj B E)))|]. repeat (split; auto).
  - cbn [u_hstep u_sstep]. unfold u_sim in *. cbn [su_cur su_ref su_fp su_fw su_upd uo_ints uo_ref uo_upd u_set_upd].
    split; [exact W|]. repeat (split; auto).
Qed.
Lemma u_sim_run : forall t n ops o s, ui_n t = n -> u_sim t n o s -> u_sim t n (u_hrun o ops) (u_srun n s ops).
Proof.
  intros t n. induction ops as [|op ops IH]; intros o s N S; auto. cbn. apply IH; auto. now apply u_sim_step.
Qed.

Lemma u_sub_zeros : forall n p, (length p = n * (n - 1))%nat -> sub p (u_zeros n) = p.
Proof. intros n p L. unfold sub, u_zeros. rewrite <- L. apply vsub_zero. Qed.
Definition u_last_valid (n : nat) (ps : list (option (list K))) : list K :=
  fold_left (fun acc p => if u_valid n (u_given n p) then u_given n p else acc) ps (u_zeros n).
Lemma u_srun_keep : forall n ps s acc, su_upd s = false -> su_fp s = u_zeros n -> su_fw s = (ident, ident) -> su_ref s = (ident, ident) ->
  meq n (fst (su_cur s)) (fst (uni2 n acc)) /\ meq n (snd (su_cur s)) (snd (uni2 n acc)) ->
  let s' := u_srun n s (map HAssign ps) in
  let q := fold_left (fun acc p => if u_valid n (u_given n p) then u_given n p else acc) ps acc in
  meq n (fst (su_cur s')) (fst (uni2 n q)) /\ meq n (snd (su_cur s')) (snd (uni2 n q)).
Proof.
  intros n. induction ps as [|p ps IH]; intros s acc A B C D E; cbn zeta; auto.
  cbn [map u_srun fold_left]. fold (u_srun n (u_sstep n s (HAssign p)) (map HAssign ps)). cbn [u_sstep].
  destruct (u_valid n (u_given n p)) eqn:V.
  - rewrite A. apply IH; auto. cbn [su_cur]. rewrite B, C, D. apply Nat.eqb_eq in V. rewrite u_sub_zeros by auto.
    split; (eapply meq_trans; [apply mdot_ident_l|]; apply mdot_ident_l).
  - now apply IH.
Qed.
End UHist.
