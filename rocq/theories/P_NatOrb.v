(** Property C77: natural orbitals of CI wavefunctions. *)
From Coq Require Import List ZArith NArith Arith Bool Lia Permutation.
From Verif Require Import Py Slater BitSpec BitLemmas Fock FockLemmas FockInner Alg WfnCI CILemmas P_CI DensSpec P_Density SolverSpec P_SolverCI P_SolverReal MpsLemmas SolverEx NatOrb NatSpec NatEx.
From Coq Require Import QArith Qcanon Sorted.
Import ListNotations.
Local Open Scope nat_scope.

Section P.
Context {K : CField}.
Local Open Scope cr_scope.
Add Ring K_ring143 : (rth K).
Variable le : K -> K -> Prop.
Variables (eigh : nat -> (nat -> nat -> K) -> res (list K * list (list K))) (argsort : list K -> list nat).
Hypothesis Ge : eigh_sym eigh.
Hypothesis Ga : good_argsort le argsort.

Lemma inner_seq : forall n (a b : list K), length a = n -> length b = n -> SolverSpec.inner a b = sumf (fun p => nth p a 0 * nth p b 0) (seq 0 n).
Proof.
  intros n a b <- Lb. unfold SolverSpec.inner. rewrite (sumf_index _ (combine a b) (0, 0)), combine_length, Lb, Nat.min_id. apply sumf_ext. intros i _.
  rewrite combine_nth by auto. reflexivity.
Qed.
Lemma sorted_natural : forall k g, (forall i j, (i < k)%nat -> (j < k)%nat -> g i j = g j i) ->
  forall occ orbs, sorted_orbs eigh argsort k g = Ok (occ, orbs) -> natural_of le k g occ orbs.
Proof.
  intros k g S occ orbs H. unfold sorted_orbs in H. destruct (eigh k g) as [[vals vecs]|] eqn:E; [|discriminate]. pose proof (Ge k g vals vecs S E) as Es.
  cbn [bind fst snd] in H. injection H as <- <-.
  pose proof (spectral _ _ _ _ Es) as Sp. destruct Es as [L1 L2 L3 Eq Or Co]. destruct (Ga vals) as [Pm So]. rewrite L1 in *.
  set (idx := rev (argsort vals)). assert (P : Permutation idx (seq 0 k)) by (unfold idx; rewrite <- Pm; symmetry; apply Permutation_rev).
  assert (Li : length idx = k) by (rewrite (Permutation_length P); apply seq_length).
  assert (Lt : forall i, (i < k)%nat -> (nth i idx 0%nat < k)%nat). { intros i Hi. assert (H : In (nth i idx 0%nat) idx) by (apply nth_In; lia). apply (Permutation_in _ P) in H. apply in_seq in H. lia. }
  assert (Ino : forall i j, (i < k)%nat -> (j < k)%nat -> Nat.eqb (nth i idx 0%nat) (nth j idx 0%nat) = Nat.eqb i j).
  { intros i j Hi Hj. destruct (Nat.eqb_spec i j) as [->|D]; [apply Nat.eqb_refl|]. apply Nat.eqb_neq. intros X. apply D.
    apply (proj1 (NoDup_nth idx 0%nat)); try lia. apply (Permutation_NoDup (Permutation_sym P)). apply seq_NoDup. }
  assert (No : forall i, (i < k)%nat -> nth i (map (fun i => nth i vals 0) idx) 0 = nth (nth i idx 0%nat) vals 0).
  { intros i Hi. rewrite (nth_indep _ 0 (nth 0%nat vals 0)) by (rewrite map_length; lia). now rewrite (map_nth (fun i => nth i vals 0)). }
  assert (Nv : forall i, (i < k)%nat -> nth i (map (fun i => nth i vecs []) idx) [] = nth (nth i idx 0%nat) vecs []).
  { intros i Hi. rewrite (nth_indep _ [] (nth 0%nat vecs [])) by (rewrite map_length; lia). now rewrite (map_nth (fun i => nth i vecs [])). }
  assert (Lv : forall i, (i < k)%nat -> length (nth i vecs []) = k). { intros i Hi. rewrite Forall_forall in L3. apply L3. apply nth_In. lia. }
  assert (Ort : forall i j, (i < k)%nat -> (j < k)%nat -> sumf (fun p => nth p (nth i vecs []) 0 * nth p (nth j vecs []) 0) (seq 0 k) = if Nat.eqb i j then 1 else 0).
  { intros i j Hi Hj. rewrite <- Or by auto. symmetry. apply inner_seq; auto. }
  split.
  - now rewrite map_length.
  - now rewrite map_length.
  - apply Forall_forall. intros v Hv. apply in_map_iff in Hv as (i & <- & Hi). apply Lv. apply (Permutation_in _ P) in Hi. apply in_seq in Hi. lia.
  - intros i j Hi Hj. rewrite !Nv, Ort, Ino by auto. reflexivity.
  - intros i j Hi Hj. rewrite !Nv, No by auto.
    rewrite (sumf_ext _ (fun p => nth (nth j idx 0%nat) vals 0 * (nth p (nth (nth i idx 0%nat) vecs []) 0 * nth p (nth (nth j idx 0%nat) vecs []) 0)))
      by (intros p Hp; apply in_seq in Hp; rewrite Eq by (auto; lia); ring).
    rewrite sumf_mul_l, Ort, Ino by auto. destruct (Nat.eqb_spec i j) as [->|]; ring.
  - intros p q Hp Hq. rewrite Sp by auto. rewrite <- (sumf_perm _ _ _ P), (sumf_index _ idx 0%nat), Li. apply sumf_ext. intros i Hi. apply in_seq in Hi. rewrite No, Nv by lia. reflexivity.
  - intros i j Hij. rewrite !No by lia. unfold idx. assert (La : length (argsort vals) = k) by (unfold idx in Li; now rewrite rev_length in Li).
    rewrite !rev_nth by lia. rewrite La. apply So. lia.
Qed.

Lemma shift_seq : forall k n a, map (fun p => (k + p)%nat) (seq a n) = seq (k + a) n.
Proof. intros k n. induction n as [|n IH]; intros a; [reflexivity|]. cbn [seq map]. f_equal. rewrite IH. f_equal. lia. Qed.
Section W.
Variables (w : ciwfn (fring K)) (k : nat).
Hypothesis Hk : ci_nspin w = Z.of_nat (2 * k).
Hypothesis Nd : NoDup (ci_sds w).
Hypothesis Lw : (length (ci_sds w) <= length (ci_params w))%nat.
Hypothesis Fw : forall sd, In sd (ci_sds w) -> fits sd (2 * k).
Let psi := combine (ci_params w) (ci_sds w).
Lemma half : Z.to_nat (ci_nspin w / 2) = k.
Proof. rewrite Hk. rewrite Nat2Z.inj_mul, Z.mul_comm, Z.div_mul by lia. apply Nat2Z.id. Qed.
Lemma natural_ext : forall (g g' : nat -> nat -> K) occ orbs, (forall p q, (p < k)%nat -> (q < k)%nat -> g p q = g' p q) -> natural_of le k g occ orbs -> natural_of le k g' occ orbs.
Proof.
  intros g g' occ orbs E [A B C D F G H]. split; auto.
  - intros i j Hi Hj. rewrite <- F by auto. apply sumf_ext. intros p Hp. f_equal. apply sumf_ext. intros q Hq. apply in_seq in Hp, Hq. rewrite E by lia. reflexivity.
  - intros p q Hp Hq. rewrite <- E by auto. auto.
Qed.
(** the occupations and orbitals of both spins, in the basis of molecular orbitals and in that of atomic orbitals *)
Lemma both : forall mo occ orbs, natural_orbitals eigh argsort w mo = Ok (occ, orbs) ->
  exists occa orba occb orbb, natural_of le k (rdm1 psi) occa orba /\ natural_of le k (fun p q => rdm1 psi (k + p) (k + q)) occb orbb /\ occ = occa ++ occb /\
  forall mo', natural_orbitals eigh argsort w mo' = do na <- to_ao k mo' orba; do nb <- to_ao k mo' orbb; do ca <- put_cols k na; do cb <- put_cols k nb; Ok (occa ++ occb, ca ++ cb).
Proof.
  intros mo occ orbs H. destruct (C40_rdm w (2 * k) Hk Nd Lw Fw) as (g & E & V).
  assert (U : forall mo', natural_orbitals eigh argsort w mo' = do a <- sorted_orbs eigh argsort k g; do b <- sorted_orbs eigh argsort k (fun p q => g (k + p)%nat (k + q)%nat);
    do na <- to_ao k mo' (snd a); do nb <- to_ao k mo' (snd b); do ca <- put_cols k na; do cb <- put_cols k nb; Ok (fst a ++ fst b, ca ++ cb)).
  { intros mo'. unfold natural_orbitals. rewrite half, E. reflexivity. }
  rewrite U in H. pose proof (sorted_natural k g) as Na. pose proof (sorted_natural k (fun p q => g (k + p)%nat (k + q)%nat)) as Nb.
  destruct (sorted_orbs eigh argsort k g) as [[occa orba]|]; [|discriminate]. cbn [bind] in H, U.
  destruct (sorted_orbs eigh argsort k (fun p q => g (k + p)%nat (k + q)%nat)) as [[occb orbb]|]; [|discriminate]. cbn [bind fst snd] in H, U.
  exists occa, orba, occb, orbb. split; [|split; [|split; [|exact U]]].
  - apply (natural_ext g); [intros; apply V; lia|]. apply Na; auto. intros; apply V; lia.
  - apply (natural_ext (fun p q => g (k + p)%nat (k + q)%nat)); [intros; apply V; lia|]. apply Nb; auto. intros; apply V; lia.
  - destruct (to_ao k mo orba) as [na|]; [|discriminate]. cbn [bind] in H. destruct (to_ao k mo orbb) as [nb|]; [|discriminate]. cbn [bind] in H.
    destruct (put_cols k na) as [ca|]; [|discriminate]. cbn [bind] in H. destruct (put_cols k nb) as [cb|]; [|discriminate]. cbn [bind] in H. congruence.
Qed.
Lemma cut_app : forall {A} (a b : list A), length a = k -> firstn k (a ++ b) = a /\ skipn k (a ++ b) = b.
Proof. intros A a b <-. rewrite firstn_app, skipn_app, Nat.sub_diag, firstn_all, skipn_all, firstn_O, app_nil_r. auto. Qed.
Theorem C77_natural : forall occ orbs, natural_orbitals eigh argsort w None = Ok (occ, orbs) -> length occ = (2 * k)%nat /\ length orbs = (2 * k)%nat /\
  natural_of le k (rdm1 psi) (firstn k occ) (firstn k orbs) /\
  natural_of le k (fun p q => rdm1 psi (k + p) (k + q)) (skipn k occ) (skipn k orbs).
Proof.
  intros occ orbs H. destruct (both _ _ _ H) as (occa & orba & occb & orbb & Na & Nb & -> & E). rewrite E in H. unfold put_cols in H. cbn in H. rewrite Nat.eqb_refl in H. cbn [bind] in H. injection H as <-.
  rewrite !app_length, (no_occ _ _ _ _ _ Na), (no_occ _ _ _ _ _ Nb), (no_orbs _ _ _ _ _ Na), (no_orbs _ _ _ _ _ Nb). split; [lia|]. split; [lia|].
  destruct (cut_app occa occb (no_occ _ _ _ _ _ Na)) as [-> ->]. destruct (cut_app orba orbb (no_orbs _ _ _ _ _ Na)) as [-> ->]. auto.
Qed.
(** it raises only if eigh does *)
Theorem C77_runs : (forall n m, exists r, eigh n m = Ok r) -> exists occ orbs, natural_orbitals eigh argsort w None = Ok (occ, orbs).
Proof.
  intros T. destruct (C40_rdm w (2 * k) Hk Nd Lw Fw) as (g & E & _). unfold natural_orbitals. rewrite half, E. cbn [bind]. unfold sorted_orbs.
  destruct (T k g) as [ra ->]. destruct (T k (fun p q => g (k + p)%nat (k + q)%nat)) as [rb ->]. cbn [bind to_ao]. unfold put_cols. cbn [fst snd]. rewrite Nat.eqb_refl. cbn [bind]. eauto.
Qed.
(** the occupations sum to the number of electrons times the squared norm *)
Theorem C77_electrons : forall ne occ orbs mo, (forall sd, In sd (ci_sds w) -> has_electrons sd ne) -> natural_orbitals eigh argsort w mo = Ok (occ, orbs) ->
  sumf (fun x => x) occ = nat_r ne * sumf (fun a => fst a * fst a) psi.
Proof.
  intros ne occ orbs mo He H. destruct (both _ _ _ H) as (occa & orba & occb & orbb & Na & Nb & -> & E).
  rewrite sumf_app. unfold psi. rewrite <- (C38_trace (combine (ci_params w) (ci_sds w)) (2 * k) ne).
  - replace (2 * k)%nat with (k + k)%nat by lia. rewrite seq_app, sumf_app. cbn [Nat.add].
    assert (T : forall g occ orbs, natural_of le k g occ orbs -> sumf (fun x => x) occ = sumf (fun p => g p p) (seq 0 k)).
    { clear. intros g occ orbs [A B C D F G H]. rewrite (sumf_index _ occ 0), A.
      rewrite (sumf_ext (fun p => g p p) (fun p => sumf (fun i => nth i occ 0 * (nth p (nth i orbs []) 0 * nth p (nth i orbs []) 0)) (seq 0 k))) by (intros p Hp; apply in_seq in Hp; apply G; lia).
      rewrite sumf_swap. apply sumf_ext. intros i Hi. apply in_seq in Hi. rewrite sumf_mul_l, D, Nat.eqb_refl by lia. ring. }
    rewrite (T _ _ _ Na), (T _ _ _ Nb). fold psi. f_equal. cbn beta.
    transitivity (sumf (fun p => rdm1 psi p p) (map (fun p => (k + p)%nat) (seq 0 k))); [symmetry; apply sumf_map|]. now rewrite shift_seq, Nat.add_0_r.
  - now rewrite psi_sds.
  - rewrite psi_sds by auto. intros sd Hs. auto.
Qed.
(** in the basis of atomic orbitals the occupations are the same, and the orbitals give the transformed density matrices *)
Theorem C77_atomic : forall C occ orbs, natural_orbitals eigh argsort w (Some (k, k, C)) = Ok (occ, orbs) ->
  (exists orbs0, natural_orbitals eigh argsort w None = Ok (occ, orbs0)) /\ length orbs = (2 * k)%nat /\
  forall mu nu, (mu < k)%nat -> (nu < k)%nat ->
    sumf (fun i => nth i occ 0 * (nth mu (nth i orbs []) 0 * nth nu (nth i orbs []) 0)) (seq 0 k)
      = sumf (fun p => sumf (fun q => C mu p * rdm1 psi p q * C nu q) (seq 0 k)) (seq 0 k) /\
    sumf (fun i => nth i occ 0 * (nth mu (nth i orbs []) 0 * nth nu (nth i orbs []) 0)) (seq k k)
      = sumf (fun p => sumf (fun q => C mu p * rdm1 psi (k + p) (k + q) * C nu q) (seq 0 k)) (seq 0 k).
Proof.
  intros C occ orbs H. destruct (both _ _ _ H) as (occa & orba & occb & orbb & Na & Nb & -> & E). rewrite E in H. unfold put_cols in H. cbn [to_ao] in H. rewrite Nat.eqb_refl in H. cbn [bind fst snd] in H.
  rewrite Nat.eqb_refl in H. cbn [bind] in H. injection H as <-. split; [exists (orba ++ orbb); rewrite E; unfold put_cols; cbn; rewrite Nat.eqb_refl; reflexivity|].
  rewrite app_length, !map_length, (no_orbs _ _ _ _ _ Na), (no_orbs _ _ _ _ _ Nb). split; [lia|]. intros mu nu Hm Hn.
  set (tr := fun v : list K => map (fun i => sumf (fun j => C i j * nth j v 0) (seq 0 k)) (seq 0 k)).
  assert (Tr : forall g occ orbs, natural_of le k g occ orbs -> sumf (fun i => nth i occ 0 * (nth mu (nth i (map tr orbs) []) 0 * nth nu (nth i (map tr orbs) []) 0)) (seq 0 k)
    = sumf (fun p => sumf (fun q => C mu p * g p q * C nu q) (seq 0 k)) (seq 0 k)).
  { intros g occ orbs Hg. assert (Nt : forall i a, (i < k)%nat -> (a < k)%nat -> nth a (nth i (map tr orbs) []) 0 = sumf (fun j => C a j * nth j (nth i orbs []) 0) (seq 0 k)).
    { intros i a Hi Ha. rewrite (nth_indep _ [] (tr [])) by (rewrite map_length, (no_orbs _ _ _ _ _ Hg); auto). rewrite map_nth. unfold tr.
      now rewrite MpsLemmas.nth_map_seq. }
    rewrite (sumf_ext _ (fun i => sumf (fun p => sumf (fun q => C mu p * (nth i occ 0 * (nth p (nth i orbs []) 0 * nth q (nth i orbs []) 0)) * C nu q) (seq 0 k)) (seq 0 k))).
    - rewrite sumf_swap. apply sumf_ext. intros p Hp. rewrite sumf_swap. apply sumf_ext. intros q Hq. apply in_seq in Hp, Hq.
      rewrite sumf_mul_r, sumf_mul_l. rewrite <- (no_sum _ _ _ _ _ Hg) by lia. reflexivity.
    - intros i Hi. apply in_seq in Hi. rewrite !Nt by lia. rewrite <- sumf_mul_r, <- sumf_mul_l. apply sumf_ext. intros p _.
      rewrite <- sumf_mul_l, <- sumf_mul_l. apply sumf_ext. intros q _. ring. }
  split.
  - rewrite <- (Tr _ _ _ Na). apply sumf_ext. intros i Hi. apply in_seq in Hi. rewrite !app_nth1 by (rewrite ?map_length, ?(no_orbs _ _ _ _ _ Na), ?(no_occ _ _ _ _ _ Na); lia). reflexivity.
  - rewrite <- (Tr _ _ _ Nb). rewrite <- (Nat.add_0_r k) at 1. rewrite <- shift_seq, sumf_map. apply sumf_ext. intros i Hi. apply in_seq in Hi.
    rewrite !app_nth2 by (rewrite ?map_length, ?(no_orbs _ _ _ _ _ Na), ?(no_occ _ _ _ _ _ Na); lia). rewrite !map_length, (no_orbs _ _ _ _ _ Na), (no_occ _ _ _ _ _ Na).
    replace (k + i - k)%nat with i by lia. reflexivity.
Qed.
(** coefficients with another number of atomic than of molecular orbitals raise an error; a single row is repeated *)
Theorem C77_rectangular_refuted : forall r C occ orbs, natural_orbitals eigh argsort w None = Ok (occ, orbs) -> r <> k ->
  match natural_orbitals eigh argsort w (Some (r, k, C)) with
  | Err x => r <> 1%nat /\ x = ValueError
  | Ok (_, orbs') => r = 1%nat /\ Forall (fun v => exists x, v = repeat x k) orbs'
  end.
Proof.
  intros r C occ orbs H D. destruct (both _ _ _ H) as (occa & orba & occb & orbb & Na & Nb & -> & E). rewrite E. cbn [to_ao]. rewrite Nat.eqb_refl. cbn [bind]. unfold put_cols. cbn [fst snd].
  rewrite (proj2 (Nat.eqb_neq r k)) by auto. destruct (Nat.eqb_spec r 1) as [->|D1]; cbn [bind]; [|auto]. split; [reflexivity|].
  apply Forall_app. split; apply Forall_forall; intros v Hv; apply in_map_iff in Hv as (u & <- & _); eauto.
Qed.
Theorem C77_columns : forall r c C occ orbs, natural_orbitals eigh argsort w None = Ok (occ, orbs) -> c <> k ->
  natural_orbitals eigh argsort w (Some (r, c, C)) = Err ValueError.
Proof.
  intros r c C occ orbs H D. destruct (both _ _ _ H) as (occa & orba & occb & orbb & _ & _ & _ & E). rewrite E. cbn [to_ao]. now rewrite (proj2 (Nat.eqb_neq c k)) by auto.
Qed.
End W.
End P.
Print Assumptions C77_natural.
Print Assumptions C77_runs.
Print Assumptions C77_electrons.
Print Assumptions C77_atomic.
Print Assumptions C77_rectangular_refuted.
Print Assumptions C77_columns.

(** ** Examples; elements between the spins are ignored *)
Lemma eigh_q_good : eigh_sym eigh_q.
Proof.
  intros n m vals vecs S H. unfold eigh_q in H. destruct n as [|[|[|n]]]; try discriminate.
  - injection H as <- <-. split; [reflexivity|reflexivity|repeat constructor| | |]; intros i j Hi Hj; assert (i = 0) as -> by lia; assert (j = 0) as -> by lia; cbn; ring.
  - unfold qeq in H. destruct (Qc_eq_dec (m 0 1) 0%Qc) as [Z0|]; [|discriminate]. injection H as <- <-.
    assert (Z1 : m 1 0 = 0%Qc) by (rewrite <- S by lia; exact Z0). assert (Two : forall k, k < 2 -> k = 0 \/ k = 1) by lia.
    split; [reflexivity|reflexivity|repeat constructor| | |]; intros i j Hi Hj; destruct (Two _ Hi) as [->| ->]; destruct (Two _ Hj) as [->| ->]; cbn; rewrite ?Z0, ?Z1; ring.
Qed.
Lemma qleb_spec : forall a b, if qleb a b then (a <= b)%Qc else (b <= a)%Qc.
Proof. intros a b. unfold qleb. destruct (Qclt_le_dec b a) as [H|H]; [apply Qclt_le_weak; exact H|exact H]. Qed.
Lemma ins_perm : forall key i l, Permutation (ins key i l) (i :: l).
Proof. intros key i l. induction l as [|j t IH]; [reflexivity|]. cbn [ins]. destruct (qleb _ _); [reflexivity|]. rewrite IH. apply perm_swap. Qed.
Lemma ins_sorted : forall key i l, StronglySorted (fun a b => (key a <= key b)%Qc) l -> StronglySorted (fun a b => (key a <= key b)%Qc) (ins key i l).
Proof.
  intros key i l. induction l as [|j t IH]; intros S; cbn [ins]; [repeat constructor|]. inversion S as [|? ? S1 S2]; subst. pose proof (qleb_spec (key i) (key j)) as Q.
  destruct (qleb (key i) (key j)).
  - constructor; [exact S|]. constructor; [exact Q|]. rewrite Forall_forall in *. intros x Hx. apply (Qcle_trans _ (key j)); auto.
  - constructor; [auto|]. rewrite Forall_forall in *. intros x Hx. apply (Permutation_in _ (ins_perm key i t)) in Hx as [<-|Hx]; auto.
Qed.
Lemma sorted_nth : forall (key : nat -> Qc) s, StronglySorted (fun a b => (key a <= key b)%Qc) s -> forall i j, i < j < length s -> (key (nth i s 0%nat) <= key (nth j s 0%nat))%Qc.
Proof.
  intros key s S. induction S as [|a t S IH F]; intros i j H; [cbn in H; lia|]. destruct i as [|i], j as [|j]; cbn [length] in H; try lia; cbn [nth].
  - rewrite Forall_forall in F. apply F. apply nth_In. lia.
  - apply IH. lia.
Qed.
Lemma argsort_q_good : good_argsort (K := Qc_field) Qcle argsort_q.
Proof.
  intros l. unfold argsort_q. split.
  - induction (seq 0 (length l)) as [|i t IH]; [reflexivity|]. cbn [fold_right]. rewrite ins_perm. now constructor.
  - assert (P : Permutation (fold_right (ins (fun i => nth i l 0%Qc)) [] (seq 0 (length l))) (seq 0 (length l))).
    { induction (seq 0 (length l)) as [|i t IH]; [reflexivity|]. cbn [fold_right]. rewrite ins_perm. now constructor. }
    apply Permutation_length in P. rewrite seq_length in P.
    assert (S : StronglySorted (fun a b => (nth a l 0 <= nth b l 0)%Qc) (fold_right (ins (fun i => nth i l 0%Qc)) [] (seq 0 (length l)))).
    { clear P. induction (seq 0 (length l)) as [|i t IH]; [constructor|]. cbn [fold_right]. now apply ins_sorted. }
    intros i j H. apply (sorted_nth (fun i => nth i l 0%Qc) _ S). rewrite P. exact H.
Qed.
Theorem C77_mixed_refuted : exists (w : ciwfn Qc_field) occ orbs, new_ci (K := Qc_field) CIGeneral 1 2 (Some [1%Qc; 1%Qc]) (Some [1; 2]%N) None None = Ok w /\
  natural_orbitals eigh_q argsort_q w None = Ok (occ, orbs) /\ occ = [1%Qc; 1%Qc] /\
  forall p, p < 2 -> sumf (K := Qc_field) (fun q => rmul (rdm1 (combine (ci_params w) (ci_sds w)) p q) (1%Qc : Qc_field)) (seq 0 2) = (1 + 1)%Qc.
Proof.
  exists ci_mixed. do 2 eexists. split; [vm_compute; reflexivity|]. split; [vm_compute; reflexivity|]. split.
  - repeat (f_equal; try (apply Qc_is_canon; vm_compute; reflexivity)).
  - intros p Hp. assert (p = 0 \/ p = 1) as [->| ->] by lia; apply Qc_is_canon; vm_compute; reflexivity.
Qed.
Print Assumptions C77_mixed_refuted.
Example C77_ex : show_no (natural_orbitals eigh_q argsort_q ci_no None) = Ok ([16 # 25; 9 # 25; 16 # 25; 9 # 25]%Q, [[0 # 1; 1 # 1]; [1 # 1; 0 # 1]; [0 # 1; 1 # 1]; [1 # 1; 0 # 1]]%Q).
Proof. vm_compute. reflexivity. Qed.
Example C77_ex_atomic : show_no (natural_orbitals eigh_q argsort_q ci_no (Some (2, 2, fun i j => zc (Z.of_nat (1 + i + 2 * j)))))
  = Ok ([16 # 25; 9 # 25; 16 # 25; 9 # 25]%Q, [[3 # 1; 4 # 1]; [1 # 1; 2 # 1]; [3 # 1; 4 # 1]; [1 # 1; 2 # 1]]%Q) /\
  natural_orbitals eigh_q argsort_q ci_no (Some (3, 2, fun i j => zc 1)) = Err ValueError /\
  natural_orbitals eigh_q argsort_q ci_no (Some (2, 3, fun i j => zc 1)) = Err ValueError /\
  show_no (natural_orbitals eigh_q argsort_q ci_no (Some (1, 2, fun i j => zc (Z.of_nat (1 + j))))) = Ok ([16 # 25; 9 # 25; 16 # 25; 9 # 25]%Q, [[2 # 1; 2 # 1]; [1 # 1; 1 # 1]; [2 # 1; 2 # 1]; [1 # 1; 1 # 1]]%Q).
Proof. vm_compute. auto. Qed.
Example C77_ex_hyps : ci_nspin ci_no = Z.of_nat (2 * 2) /\ NoDup (ci_sds ci_no) /\ length (ci_sds ci_no) <= length (ci_params ci_no) /\ forall sd, In sd (ci_sds ci_no) -> fits sd (2 * 2).
Proof.
  split; [reflexivity|]. split; [repeat constructor; cbn; intuition discriminate|]. split; [cbn; lia|]. intros sd [<-|[<-|[]]]; apply fits_pow2; reflexivity.
Qed.
