(** C53: the names of the files of parameters. *)
From Coq Require Import Ascii String Arith Bool Lia List.
From Verif Require Import Py BicliqueLemmas SaveNames SaveNamesSpec SaveNamesEx SaveLemmas.
Import ListNotations.

Lemma zipf_combine : forall A B C (f : A -> B -> list C) ns l, flat_map (fun nt => f (fst nt) (snd nt)) (combine ns l) = zipf f ns l.
Proof. intros A B C f ns l. revert ns. induction l as [|b l IH]; intros [|a ns]; simpl; auto. rewrite IH. reflexivity. Qed.

(** No file is written twice. *)
Theorem C53_distinct : forall tmpfile comps, siblings (map tname comps) -> Forall tame_tree comps ->
  NoDup (save_files tmpfile comps).
Proof.
  intros tmpfile comps S F. unfold save_files. destruct tmpfile as [|c0 tmp]; [constructor|]. set (fn := c0 :: tmp).
  destruct (splitext fn) as [r e] eqn:H.
  rewrite (zipf_combine _ _ _ (fun n t => files (joined r n e) t)).
  set (ps := zipf (fun n t' => map (cons n) (paths t')) (numbered (map tname comps)) comps).
  assert (E : zipf (fun n t => files (joined r n e) t) (numbered (map tname comps)) comps = map (fun p => r ++ join p ++ e) ps).
  { unfold ps. rewrite zipf_map. assert (Tm := numbered_tame _ (proj1 S)). clear S ps. revert Tm. generalize (numbered (map tname comps)).
    induction comps as [|t l IH]; intros [|n ns] Tm; simpl; auto. inversion Tm; inversion F; subst. f_equal; [|apply IH; auto].
    rewrite (files_paths t (joined r n e) (r ++ "_"%char :: n) e); [|eapply splitext_joined; eauto|auto].
    rewrite map_map. apply map_ext. intros p. unfold join. simpl. rewrite <- !app_assoc. reflexivity. }
  assert (P1 : forall p, In p ps -> p <> [] /\ Forall tame p).
  { intros p I. split.
    - destruct (zipf_heads _ _ _ I) as (m & q & -> & _). discriminate.
    - assert (Fp : Forall (Forall tame) (paths (Comb [] comps))) by (apply paths_tame; constructor; auto).
      rewrite Forall_forall in Fp. apply Fp. simpl. right. exact I. }
  assert (P2 : NoDup ps).
  { assert (N : NoDup (paths (Comb [] comps))) by (apply paths_NoDup; constructor; auto). inversion N; subst. auto. }
  rewrite E, map_map. clear E F S. clearbody ps. induction P2 as [|p ps NI N IH]; simpl; constructor.
  - intros I. apply in_map_iff in I. destruct I as (q & Eq & Iq).
    destruct (P1 p (or_introl eq_refl)) as [Hp Tp]. destruct (P1 q (or_intror Iq)) as [Hq Tq].
    apply (npy_name_inj fn r e q p H) in Eq; auto. apply app_inv_head in Eq. apply app_inv_tail in Eq.
    apply join_inj in Eq; auto. subst. contradiction.
  - apply IH. intros q Iq. apply P1. right; auto.
Qed.

(** One file for every array of parameters and every unitary matrix. *)
Lemma files_count : forall t k, arrays t k -> forall fn, length (files fn t) = k.
Proof.
  induction t as [n|n|n t IH|n l IH] using ptree_ind'; intros k A fn; inversion A; subst; destruct (splitext fn) as [r e] eqn:H.
  - cbn [files]. rewrite H. reflexivity.
  - cbn [files]. rewrite H. reflexivity.
  - cbn [files]. rewrite H. simpl. f_equal. auto.
  - rewrite (files_comb fn r e) by auto. simpl. f_equal. clear A. rename H2 into H3.
    assert (L : length (numbered (map tname l)) = length l) by (rewrite numbered_length, map_length; auto).
    revert L. generalize (numbered (map tname l)). revert ks H3. induction l as [|t l IHl]; intros ks F ns L; inversion F; subst; destruct ns as [|m ns]; try discriminate; simpl; auto.
    inversion IH; subst. rewrite app_length. f_equal; auto.
Qed.

Theorem C53_count : forall tmpfile comps ks, tmpfile <> [] -> Forall2 arrays comps ks ->
  length (save_files tmpfile comps) = list_sum ks.
Proof.
  intros tmpfile comps ks NE F. unfold save_files. destruct tmpfile as [|c0 tmp]; [congruence|].
  destruct (splitext (c0 :: tmp)) as [r e]. rewrite map_length, (zipf_combine _ _ _ (fun n t => files (joined r n e) t)).
  assert (L : length (numbered (map tname comps)) = length comps) by (rewrite numbered_length, map_length; auto).
  revert L. generalize (numbered (map tname comps)). revert ks F. induction comps as [|t l IH]; intros ks F ns L; inversion F; subst; destruct ns as [|m ns]; try discriminate; simpl; auto.
  rewrite app_length. f_equal; auto. apply files_count; auto.
Qed.

Theorem C53_disabled : forall comps, save_files [] comps = [].
Proof. reflexivity. Qed.

(** The classes of fanpy satisfy the condition, whatever the list of components. *)
Lemma follows_spec : forall a b q, q <> [] -> Forall digit q -> a = b ++ q -> follows a b = true.
Proof.
  intros a b q NE D ->. unfold follows. assert (E : strip b (b ++ q) = Some q).
  { induction b as [|x b IH]; simpl; auto. destruct (ascii_dec x x); [auto|congruence]. }
  rewrite E. destruct q as [|c q]; [congruence|]. apply forallb_forall. intros x I. rewrite Forall_forall in D. specialize (D x I).
  unfold digit in D. unfold is_digit. apply andb_true_iff. split; apply Nat.leb_le; tauto.
Qed.

Lemma siblingsb_spec : forall l, siblingsb l = true -> siblings l.
Proof.
  intros l H. unfold siblingsb in H. apply andb_true_iff in H. destruct H as [H1 H2]. rewrite forallb_forall in H1, H2. split.
  - apply Forall_forall. intros n I. specialize (H1 n I). unfold tameb in H1. rewrite forallb_forall in H1.
    repeat split; intros J; specialize (H1 _ J); discriminate.
  - intros a b q Ia Ib NE D E. specialize (H2 a Ia). rewrite forallb_forall in H2. specialize (H2 b Ib).
    rewrite (follows_spec a b q NE D E) in H2. discriminate.
Qed.

Theorem C53_classes : forall names, incl names class_names -> siblings names.
Proof.
  assert (G : siblings class_names) by (apply siblingsb_spec; vm_compute; reflexivity).
  intros names I. destruct G as [F D]. split.
  - rewrite Forall_forall in *. auto.
  - intros a b q Ia Ib. apply D; auto.
Qed.

(** Without the condition a file can be overwritten: two components of class X and one of class X1. *)
Theorem C53_distinct_refuted : exists comps, Forall tame (map tname comps) /\ Forall tame_tree comps
  /\ ~ NoDup (save_files (s_ "tmp.npy") comps).
Proof.
  exists [Plain (s_ "X"); Plain (s_ "X"); Plain (s_ "X1")]. split; [|split].
  - repeat constructor; simpl; intuition discriminate.
  - repeat constructor.
  - intros N. vm_compute in N. inversion N; subst. apply H1. right. left. reflexivity.
Qed.

Example C53_example : map string_of_list_ascii (save_files (s_ "dir.d/run.npy")
    [Plain (s_ "CIWavefunction"); Rot (s_ "RestrictedMolecularHamiltonian");
     Comb (s_ "LinearCombinationWavefunction") [Plain (s_ "APIG"); Plain (s_ "CISD"); Plain (s_ "APIG")]; Plain (s_ "CIWavefunction")])
  = ["dir.d/run_CIWavefunction1.npy"; "dir.d/run_RestrictedMolecularHamiltonian.npy"; "dir.d/run_RestrictedMolecularHamiltonian_um.npy";
     "dir.d/run_LinearCombinationWavefunction.npy"; "dir.d/run_LinearCombinationWavefunction_APIG1.npy";
     "dir.d/run_LinearCombinationWavefunction_CISD.npy"; "dir.d/run_LinearCombinationWavefunction_APIG2.npy";
     "dir.d/run_CIWavefunction2.npy"]%string.
Proof. vm_compute. reflexivity. Qed.
Example C53_example_txt : map string_of_list_ascii (save_files (s_ ".x/...a") [Plain (s_ "CISD")]) = [".x/...a_CISD.npy"]%string
  /\ map string_of_list_ascii (save_files (s_ ".x/a.b.txt") [Plain (s_ "CISD")]) = [".x/a.b_CISD.txt.npy"]%string.
Proof. vm_compute. auto. Qed.

Print Assumptions C53_distinct.
Print Assumptions C53_count.
Print Assumptions C53_disabled.
Print Assumptions C53_classes.
Print Assumptions C53_distinct_refuted.
