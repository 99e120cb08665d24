(** C70: the solver for CI wavefunctions. *)
From Coq Require Import List ZArith NArith Arith Bool Lia Ring.
From Verif Require Import Py Slater BitSpec Alg WfnCI CILemmas P_CI ParamSel EqnBase EqnSpec EqnLemmas EqnObj ProjSpec Solver SolverSpec.
Import ListNotations.
Local Open Scope nat_scope.

Section P.
Context {K : CField}.
Local Open Scope cr_scope.
Add Ring K_ring122 : (rth K).
Variable eigh : nat -> (nat -> nat -> K) -> res (list K * list (list K)).

Lemma inner_index : forall n (a b : list K), length a = n -> length b = n -> inner a b = sumf (fun i => nth i a 0 * nth i b 0) (seq 0 n).
Proof.
  intros n a. revert n. unfold inner. induction a as [|x a IH]; intros n [|y b] La Lb; simpl in *; subst n; try discriminate Lb; [reflexivity|].
  injection Lb as Lb. cbn [seq]. rewrite !sumf_cons. cbn [fst snd nth]. rewrite <- seq_shift, sumf_map. f_equal. apply (IH (length a)); auto.
Qed.
Lemma mapM_at : forall {A B} (f : A -> res B) l r i d d', mapM f l = Ok r -> (i < length l)%nat -> f (nth i l d) = Ok (nth i r d').
Proof.
  intros A B f l. induction l as [|a l IH]; intros r i d d' H L; simpl in *; [lia|].
  destruct (f a) as [y|] eqn:E; [|discriminate H]. cbn [bind] in H. destruct (mapM f l) as [t|] eqn:E2; [|discriminate H]. cbn [bind] in H. injection H as <-.
  destruct i; [exact E|]. apply (IH t i d d'); auto. lia.
Qed.
Lemma mapM_from : forall {A B} (f : A -> res B) (g : nat -> B) l d, (forall i, (i < length l)%nat -> f (nth i l d) = Ok (g i)) -> mapM f l = Ok (map g (seq 0 (length l))).
Proof.
  intros A B f g l. revert g. induction l as [|a l IH]; intros g d H; [reflexivity|]. cbn [mapM length seq map].
  assert (X := H 0%nat ltac:(simpl; lia)). cbn [nth] in X. rewrite X. cbn [bind]. rewrite (IH (fun i => g (S i)) d) by (intros i L; apply (H (S i)); simpl; lia).
  cbn [bind]. rewrite <- seq_shift, map_map. reflexivity.
Qed.
Lemma nth_skip : forall {A} i k (l : list A) d, nth k (skipn i l) d = nth (i + k) l d.
Proof. intros A i. induction i; intros k [|a l] d; simpl; auto. destruct k; reflexivity. Qed.

(** the matrix that is filled *)
Lemma matrix_entries : forall (h : bham K) sds m, ci_matrix h sds = Ok m -> forall i j, (i <= j < length sds)%nat ->
  bh_ss h (nth i sds 0%N) (nth j sds 0%N) = Ok (m i j).
Proof.
  intros h sds m H i j L. unfold ci_matrix in H. destruct (mapM (ci_row h sds) (seq 0 (length sds))) as [rows|] eqn:E; [|discriminate H].
  cbn [bind] in H. injection H as <-. rewrite (proj2 (Nat.leb_le i j)) by lia.
  assert (X := mapM_at _ _ _ i 0%nat [] E ltac:(rewrite seq_length; lia)). rewrite seq_nth in X by lia. cbn [plus Nat.add] in X.
  unfold ci_row in X. assert (Y := mapM_at _ _ _ (j - i) 0%N 0 X ltac:(rewrite skipn_length; lia)). rewrite nth_skip in Y.
  replace (i + (j - i))%nat with j in Y by lia. exact Y.
Qed.
Lemma brute_inv : forall (w : ciwfn K) (h : bham K) save out, brute eigh w h save = Ok out -> ci_nspin w = bh_nspin h /\ exists m,
  ci_matrix h (ci_sds w) = Ok m /\ eigh (length (ci_sds w)) m = Ok (b_eigval out, b_eigvec out)
  /\ b_success out = true /\ nth_error (b_eigval out) 0 = Some (b_energy out) /\ nth_error (b_eigvec out) 0 = Some (b_params out)
  /\ b_saved out = if save then Some (ci_params w, bh_params h) else None.
Proof.
  intros w h save out H. unfold brute in H. destruct (Z.eqb_spec (ci_nspin w) (bh_nspin h)) as [E|E]; [|discriminate H]. cbn [negb] in H.
  split; auto. destruct (ci_matrix h (ci_sds w)) as [m|]; [|discriminate H]. cbn [bind] in H. exists m.
  destruct (eigh (length (ci_sds w)) m) as [[vals vecs]|] eqn:F; [|discriminate H]. cbn [bind fst snd] in H.
  destruct vals as [|x vals]; [discriminate H|]. destruct vecs as [|v vecs]; [discriminate H|]. injection H as <-. cbn. repeat split; auto.
Qed.
Lemma ov_at : forall (w : ciwfn K) v i, NoDup (ci_sds w) -> length v = length (ci_sds w) -> (i < length (ci_sds w))%nat ->
  ci_overlap (ci_with w v) (nth i (ci_sds w) 0%N) = Ok (nth i v 0).
Proof.
  intros w v i N L H. rewrite (proj1 (C39_overlap (ci_with w v) _) i).
  - cbn [ci_with ci_params]. rewrite (nth_error_nth' v 0) by lia. reflexivity.
  - apply NoDup_last; auto. cbn [ci_with ci_sds]. apply nth_error_nth'. auto.
Qed.
Lemma map_nth_seq : forall {A} (l : list A) d, map (fun i => nth i l d) (seq 0 (length l)) = l.
Proof. intros A l d. induction l as [|a l IH]; simpl; auto. f_equal. rewrite <- seq_shift, map_map. exact IH. Qed.
Lemma ovs : forall (w : ciwfn K) v, NoDup (ci_sds w) -> length v = length (ci_sds w) -> mapM (ci_overlap (ci_with w v)) (ci_sds w) = Ok v.
Proof.
  intros w v N L. rewrite (mapM_from _ (fun i => nth i v 0) _ 0%N).
  - rewrite <- L, map_nth_seq. reflexivity.
  - intros i H. apply ov_at; auto.
Qed.
Definition symmetric (h : bham K) (sds : list N) : Prop := forall a b, In a sds -> In b sds -> bh_ss h a b = bh_ss h b a.
Lemma full_entries : forall (h : bham K) sds m, ci_matrix h sds = Ok m -> symmetric h sds -> forall i j, (i < length sds)%nat -> (j < length sds)%nat ->
  bh_ss h (nth i sds 0%N) (nth j sds 0%N) = Ok (sym_of m i j).
Proof.
  intros h sds m H S i j Li Lj. unfold sym_of. destruct (Nat.leb_spec i j) as [L|L].
  - apply matrix_entries; auto.
  - rewrite S by (apply nth_In; auto). apply matrix_entries; auto. lia.
Qed.
Lemma rows_of : forall (h : bham K) sds m i, ci_matrix h sds = Ok m -> symmetric h sds -> (i < length sds)%nat ->
  mapM (bh_ss h (nth i sds 0%N)) sds = Ok (map (sym_of m i) (seq 0 (length sds))).
Proof. intros h sds m i H S L. apply (mapM_from _ (sym_of m i) _ 0%N). intros j Lj. apply full_entries; auto. Qed.

(** The lists that are returned are the eigenvalues and the coefficients of orthonormal eigenstates of the Hamiltonian in the space
    of the determinants of the wavefunction; params and energy are the first of them. *)
Theorem C70_brute : forall (w : ciwfn K) (h : bham K) save out, good_eigh eigh -> brute eigh w h save = Ok out -> NoDup (ci_sds w) -> symmetric h (ci_sds w) ->
  b_success out = true /\ length (b_eigval out) = length (ci_sds w) /\ length (b_eigvec out) = length (ci_sds w)
  /\ nth_error (b_eigval out) 0 = Some (b_energy out) /\ nth_error (b_eigvec out) 0 = Some (b_params out)
  /\ (forall k E v, nth_error (b_eigval out) k = Some E -> nth_error (b_eigvec out) k = Some v -> eigenstate h w E v)
  /\ (forall k l u v, nth_error (b_eigvec out) k = Some u -> nth_error (b_eigvec out) l = Some v -> inner u v = if Nat.eqb k l then 1 else 0).
Proof.
  intros w h save out G B N S. destruct (brute_inv _ _ _ _ B) as (_ & m & M & E & Su & E0 & V0 & _). destruct (G _ _ _ _ E) as [L1 L2 L3 Eq Or _].
  repeat split; auto.
  - apply nth_error_In in H0. rewrite Forall_forall in L3. auto.
  - intros sd I. assert (Lv : length v = length (ci_sds w)) by (apply nth_error_In in H0; rewrite Forall_forall in L3; auto).
    destruct (In_nth _ _ 0%N I) as (i & Li & Ei). subst sd.
    exists (nth i v 0), v, (map (sym_of m i) (seq 0 (length (ci_sds w)))).
    split; [apply ov_at; auto|]. split; [apply ovs; auto|]. split; [apply rows_of; auto|].
    rewrite (inner_index (length (ci_sds w))) by (auto; rewrite map_length; apply seq_length).
    assert (Lk : (k < length (ci_sds w))%nat) by (rewrite <- L1; apply nth_error_Some; congruence).
    assert (X := Eq k i Lk Li). rewrite (nth_error_nth _ _ [] H0), (nth_error_nth _ _ 0 H) in X. rewrite <- X. apply sumf_ext. intros j Ij. apply in_seq in Ij.
    f_equal. rewrite (nth_indep _ 0 (sym_of m i 0%nat)) by (rewrite map_length, seq_length; lia). rewrite map_nth, seq_nth by lia. reflexivity.
  - intros k l u v Hu Hv. rewrite <- (Or k l); [|rewrite <- L2; apply nth_error_Some; congruence|rewrite <- L2; apply nth_error_Some; congruence].
    rewrite (nth_error_nth _ _ [] Hu), (nth_error_nth _ _ [] Hv). reflexivity.
Qed.

(** Hence the projected equations hold for every eigenstate, with its eigenvalue as the energy, and the energies that the objectives
    compute in this space are the eigenvalue. *)
Lemma in_at : forall {A} (l : list A) x d, In x l -> exists i, (i < length l)%nat /\ nth i l d = x.
Proof. intros A l x d H. destruct (In_nth _ _ d H) as (i & ? & ?). eauto. Qed.
Lemma eigen_int : forall (y : sys K) W h w (E : K) v, shows y W h w v -> NoDup (ci_sds w) -> eigenstate h w E v -> forall sd, In sd (ci_sds w) ->
  exists o, y_ov y W sd = Ok o /\ ci_overlap (ci_with w v) sd = Ok o /\ y_int y W sd = Ok (E * o).
Proof.
  intros y W h w E v (S1 & S2 & S3) N (L & Eg) sd I. destruct (Eg sd I) as (o & os & hs & E1 & E2 & E3 & E4). exists o.
  rewrite (S1 sd I), (S3 sd I), E1, E2, E3. cbn [bind]. rewrite E4. auto.
Qed.
Lemma mapM_in_ext : forall {A B} (f g : A -> res B) l, (forall x, In x l -> f x = g x) -> mapM f l = mapM g l.
Proof. intros A B f g l. induction l as [|a l IH]; intros H; simpl; auto. rewrite H by (simpl; auto). rewrite IH by (intros; apply H; simpl; auto). reflexivity. Qed.
Lemma finv_one : finv (1 : K) = 1.
Proof. transitivity (finv (1 : K) * 1); [ring|]. apply f_inv. apply f_one. Qed.
Lemma combine_index : forall {B} (f : nat -> B) (v : list K), combine v (map f (seq 0 (length v))) = map (fun i => (nth i v 0, f i)) (seq 0 (length v)).
Proof.
  intros B f v. revert f. induction v as [|x v IH]; intros f; [reflexivity|]. cbn [length seq map combine nth]. f_equal.
  rewrite <- seq_shift, !map_map. rewrite (IH (fun i => f (S i))). reflexivity.
Qed.
Lemma grid_sum : forall n (v v' : list K) m, length v = n -> length v' = n ->
  psum (fun lrm : K * K * K => fst (fst lrm) * snd lrm * snd (fst lrm)) (grid v v' (map (fun i => map (m i) (seq 0 n)) (seq 0 n)))
  = sumf (fun i => nth i v 0 * sumf (fun j => m i j * nth j v' 0) (seq 0 n)) (seq 0 n).
Proof.
  intros n v v' m Lv Lv'. rewrite psum_sumf. unfold grid. rewrite sumf_flat_map.
  assert (C1 : forall B (f : nat -> B), combine v (map f (seq 0 n)) = map (fun i => (nth i v 0, f i)) (seq 0 n)) by (intros; rewrite <- Lv; apply combine_index).
  assert (C2 : forall B (f : nat -> B), combine v' (map f (seq 0 n)) = map (fun i => (nth i v' 0, f i)) (seq 0 n)) by (intros; rewrite <- Lv'; apply combine_index).
  rewrite C1, sumf_map. apply sumf_ext. intros i _. cbn [fst snd]. rewrite C2, map_map, sumf_map, <- sumf_mul_l.
  apply sumf_ext. intros j _. cbn [fst snd]. ring.
Qed.
Lemma shows_two : forall (y : sys K) W h w m v, shows y W h w v -> NoDup (ci_sds w) -> symmetric h (ci_sds w) -> ci_matrix h (ci_sds w) = Ok m -> length v = length (ci_sds w) ->
  two_energy y W (ci_sds w) None None
  = Ok (sumf (fun i => nth i v 0 * sumf (fun j => sym_of m i j * nth j v 0) (seq 0 (length (ci_sds w)))) (seq 0 (length (ci_sds w))) * finv (inner v v)).
Proof.
  intros y W h w m v (S1 & S2 & S3) N S M L. unfold two_energy. cbn [or_else].
  assert (O : mapM (wrapped_ov y W) (ci_sds w) = Ok v). { rewrite (mapM_in_ext _ (ci_overlap (ci_with w v))) by exact S1. apply ovs; auto. }
  rewrite O. cbn [bind].
  rewrite (mapM_from (fun i => mapM (fun j => wrapped_ss y W i j) (ci_sds w)) (fun i => map (sym_of m i) (seq 0 (length (ci_sds w)))) _ 0%N).
  - cbn [bind]. rewrite grid_sum by auto. do 3 f_equal. rewrite psum_sumf, (inner_index (length v)) by auto.
    rewrite <- (map_nth_seq v 0) at 1. rewrite sumf_map. reflexivity.
  - intros i Li. rewrite (mapM_in_ext _ (bh_ss h (nth i (ci_sds w) 0%N))).
    + apply rows_of; auto.
    + intros b Ib. apply S2; auto. apply nth_In; auto.
Qed.
Theorem C70_brute_projected : forall (w : ciwfn K) (h : bham K) save out k E v (y : sys K) W, good_eigh eigh -> brute eigh w h save = Ok out -> NoDup (ci_sds w) -> symmetric h (ci_sds w) ->
  nth_error (b_eigval out) k = Some E -> nth_error (b_eigvec out) k = Some v -> shows y W h w v ->
  residuals y (ci_sds w) E W = Ok (repeat 0 (length (ci_sds w))) /\ one_norm y W (RefSds (ci_sds w)) = Ok 1
  /\ one_energy y W (RefSds (ci_sds w)) = Ok E /\ two_energy y W (ci_sds w) None None = Ok E.
Proof.
  intros w h save out k E v y W G B N S Hk Hv Sh.
  destruct (C70_brute w h save out G B N S) as (_ & _ & _ & _ & _ & Eg & Or). assert (Ev := Eg k E v Hk Hv). assert (Nv := Or k k v v Hv Hv). rewrite Nat.eqb_refl in Nv.
  destruct (brute_inv _ _ _ _ B) as (_ & m & M & Ee & _). assert (X := eigen_int y W h w E v Sh N Ev).
  destruct Sh as (S1 & S2 & S3). destruct Ev as (L & Ev).
  assert (O : mapM (wrapped_ov y W) (ci_sds w) = Ok v). { rewrite (mapM_in_ext _ (ci_overlap (ci_with w v))) by exact S1. apply ovs; auto. }
  assert (I : mapM (wrapped_int y W) (ci_sds w) = Ok (vscale E v)).
  { unfold vscale. rewrite (mapM_from _ (fun i => E * nth i v 0) _ 0%N).
    - f_equal. rewrite <- (map_map (fun i => nth i v 0) (rmul E)), <- L, map_nth_seq. reflexivity.
    - intros i Li. destruct (X _ (nth_In _ 0%N Li)) as (o & _ & E1 & E2). rewrite ov_at in E1 by auto. injection E1 as <-. exact E2. }
  assert (Dv : inner v (vscale E v) = E).
  { transitivity (E * inner v v); [|rewrite Nv; ring]. unfold inner, vscale. rewrite <- sumf_mul_l. clear. induction v as [|x v IH]; [reflexivity|]. cbn [map combine]. rewrite !sumf_cons, IH. cbn [fst snd]. ring. }
  split; [|split; [|split]].
  - unfold residuals. rewrite O, I. cbn [bind]. rewrite <- L. clear. f_equal. unfold vsub, vscale. induction v as [|x v IH]; [reflexivity|]. cbn [map combine length repeat]. f_equal; [cbn [fst snd]; ring|exact IH].
  - unfold one_norm. cbn [ref_coeffs ref_sds]. rewrite O. cbn [bind]. unfold dot. rewrite Nat.eqb_refl, psum_sumf. fold (inner v v). rewrite Nv. reflexivity.
  - unfold one_energy. cbn [ref_coeffs ref_sds]. rewrite O, I. cbn [bind]. unfold dot. rewrite Nat.eqb_refl, !psum_sumf. unfold vscale at 1. rewrite map_length, Nat.eqb_refl. cbn [bind].
    fold (inner v v) (inner v (vscale E v)). rewrite Nv, Dv, finv_one. f_equal. ring.
  - rewrite (shows_two y W h w m v) by (repeat split; auto). rewrite Nv, finv_one. f_equal. destruct (G _ _ _ _ Ee) as [L1 L2 L3 Eq Oo _].
    assert (Lk : (k < length (ci_sds w))%nat) by (rewrite <- L1; apply nth_error_Some; congruence).
    rewrite (sumf_ext _ (fun i => E * (nth i v 0 * nth i v 0))).
    + rewrite sumf_mul_l, <- (inner_index (length (ci_sds w))) by auto. rewrite Nv. ring.
    + intros i Ii. apply in_seq in Ii. assert (Y := Eq k i Lk ltac:(lia)). rewrite (nth_error_nth _ _ [] Hv), (nth_error_nth _ _ 0 Hk) in Y. rewrite Y. ring.
Qed.

(** Only the integrals in the upper triangle are used, in this order: row by row. *)
Theorem C70_brute_upper : forall (w : ciwfn K) (h h' : bham K) save, bh_nspin h' = bh_nspin h -> bh_params h' = bh_params h ->
  (forall i j, (i <= j < length (ci_sds w))%nat -> bh_ss h' (nth i (ci_sds w) 0%N) (nth j (ci_sds w) 0%N) = bh_ss h (nth i (ci_sds w) 0%N) (nth j (ci_sds w) 0%N)) ->
  brute eigh w h' save = brute eigh w h save.
Proof.
  intros w h h' save E1 E2 H. unfold brute. rewrite E1, E2. replace (ci_matrix h' (ci_sds w)) with (ci_matrix h (ci_sds w)); [reflexivity|].
  unfold ci_matrix. rewrite (mapM_in_ext (ci_row h' (ci_sds w)) (ci_row h (ci_sds w))); [reflexivity|]. intros i Ii. apply in_seq in Ii. unfold ci_row. apply mapM_in_ext.
  intros b Ib. destruct (in_at _ b 0%N Ib) as (k & Lk & <-). rewrite skipn_length in Lk. rewrite nth_skip. apply H. lia.
Qed.
Theorem C70_brute_errors : forall (w : ciwfn K) (h : bham K) save,
  (ci_nspin w <> bh_nspin h -> brute eigh w h save = Err ValueError) /\ (forall i j x, ci_nspin w = bh_nspin h -> (i <= j < length (ci_sds w))%nat -> bh_ss h (nth i (ci_sds w) 0%N) (nth j (ci_sds w) 0%N) = Err x ->
     (forall a b, (a <= b < length (ci_sds w))%nat -> (a < i)%nat \/ (a = i /\ b < j)%nat -> exists y, bh_ss h (nth a (ci_sds w) 0%N) (nth b (ci_sds w) 0%N) = Ok y) ->
     brute eigh w h save = Err x).
Proof.
  assert (First : forall A B (f : A -> res B) l i d x, (i < length l)%nat -> f (nth i l d) = Err x -> (forall k, (k < i)%nat -> exists y, f (nth k l d) = Ok y) -> mapM f l = Err x).
  { intros A B f l. induction l as [|a l IH]; intros i d x Li E P; [simpl in Li; lia|]. cbn [mapM]. destruct i as [|i].
    - cbn [nth] in E. rewrite E. reflexivity.
    - destruct (P 0%nat ltac:(lia)) as [y Hy]. cbn [nth] in Hy. rewrite Hy. cbn [bind]. rewrite (IH i d x); auto; [simpl in Li; lia|]. intros k Hk. destruct (P (S k) ltac:(lia)) as [z Hz]. eauto. }
  intros w h save. split.
  - intros D. unfold brute. apply Z.eqb_neq in D. rewrite D. reflexivity.
  - intros i j x E L H P. unfold brute. rewrite E, Z.eqb_refl. cbn [negb]. unfold ci_matrix.
    rewrite (First _ _ (ci_row h (ci_sds w)) _ i 0%nat x); [reflexivity|rewrite seq_length; lia| |].
    + rewrite seq_nth by lia. cbn [plus Nat.add]. unfold ci_row. apply (First _ _ _ _ (j - i)%nat 0%N); [rewrite skipn_length; lia| |].
      * rewrite nth_skip. replace (i + (j - i))%nat with j by lia. exact H.
      * intros k Hk. rewrite nth_skip. apply P; lia.
    + intros k Hk. rewrite seq_nth by lia. cbn [plus Nat.add]. unfold ci_row.
      destruct (mapM (bh_ss h (nth k (ci_sds w) 0%N)) (skipn k (ci_sds w))) as [r|x'] eqn:Er; [eauto|]. exfalso.
      apply mapM_kind in Er as (b & Ib & Eb). destruct (in_at _ b 0%N Ib) as (t & Lt & <-). rewrite skipn_length in Lt. rewrite nth_skip in Eb.
      destruct (P k (k + t)%nat) as [z Hz]; [lia|lia|congruence].
Qed.
(** With save_file the parameters of the wavefunction are stored as they are; the solution is not assigned. *)
Theorem C70_brute_saved : forall (w : ciwfn K) (h : bham K) save out, brute eigh w h save = Ok out ->
  b_saved out = if save then Some (ci_params w, bh_params h) else None.
Proof. intros w h save out B. destruct (brute_inv _ _ _ _ B) as (_ & m & _ & _ & _ & _ & _ & X). exact X. Qed.
End P.
