(** C68: products of quasiparticles (fanpy/wfn/quasiparticle/base.py) and of tetrets (tetret.py) *)
From Coq Require Import List ZArith NArith Arith Bool Lia Permutation Sorted.
From Verif Require Import Py BitSpec BitLemmas Fock Slater SlaterBits SlaterBits2 Combos Alg SignSpec SignLemmas MatchSpec MatchLemmas GeneralLemmas MathTools SdLemmas PermLemmas DetLemmas BicliqueLemmas
  JacobiSpec CreSpec CreLemmas CILemmas CompLemmas Graphs GraphSpec PartLemmas PartMain P_Graphs CCRows WfnCI Geminal GemWf GemOlp Nonorth NonorthLemmas Cache CacheSpec P_Cache WfnCached P_CI P_Creation DetRatioLemmas
  Quasi QuasiSpec QuasiLemmas QuasiMain QuasiTet QuasiEx.
Import ListNotations.
Local Open Scope nat_scope.

Section C68.
Context {K : CField}.
Local Open Scope cr_scope.
Add Ring K_ring115 : (rth K).

(** ** construction *)
Lemma t_nelec_spec : forall ne n, t_assign_nelec ne = Ok n <-> n = ne /\ (0 < ne)%Z /\ exists h, ne = (4 * Z.of_nat h)%Z /\ (0 < h)%nat.
Proof.
  intros ne n. unfold t_assign_nelec, assign_nelec. destruct (Z.leb_spec ne 0); [split; [discriminate|intros (_ & ? & _); lia]|]. cbn [bind].
  destruct (Z.eqb_spec (ne mod 4) 0) as [E|E]; cbn [negb].
  - split; [intros X; apply Ok_inj in X; subst; split; auto; split; auto|intros (-> & _); reflexivity]. exists (Z.to_nat (n / 4)). pose proof (Z.div_mod n 4). split; lia.
  - split; [discriminate|]. intros (_ & _ & h & -> & _). exfalso. apply E. rewrite Z.mul_comm. now apply Z.mod_mul.
Qed.
Lemma t_nelec_err : forall ne e, t_assign_nelec ne = Err e -> e = ValueError /\ ((ne <= 0)%Z \/ ~ (4 | ne)%Z).
Proof.
  intros ne e. unfold t_assign_nelec, assign_nelec. destruct (Z.leb_spec ne 0); [intros E; inversion E; auto|]. cbn [bind]. destruct (Z.eqb_spec (ne mod 4) 0) as [E|E]; cbn [negb]; [discriminate|]. intros X. inversion X. split; auto.
  right. intros D. apply E. apply Z.mod_divide; [lia|auto].
Qed.
Lemma t_num_spec : forall h num n, (0 < h)%nat -> t_assign_num (4 * Z.of_nat h) num = Ok n <-> n = Z.of_nat h /\ (num = None \/ num = Some (Z.of_nat h)).
Proof.
  intros h num n H. unfold t_assign_num, q_assign_num. rewrite (Z.mul_comm 4). rewrite Z.div_mul by lia. destruct num as [m|]; [destruct (Z.leb_spec m 0); cbn [bind]|destruct (Z.leb_spec (Z.of_nat h) 0); [lia|]; cbn [bind]].
  - split; [discriminate|]. intros (_ & [X|X]); [discriminate|]. injection X as ->. lia.
  - destruct (Z.eqb_spec (m * 4) (Z.of_nat h * 4)) as [E|E]; cbn [negb].
    + assert (m = Z.of_nat h) by lia. subst m. split; [intros X; apply Ok_inj in X; auto|intros (-> & _); reflexivity].
    + split; [discriminate|]. intros (_ & [X|X]); [discriminate|]. injection X as ->. lia.
  - rewrite Z.eqb_refl. cbn [negb]. split; [intros X; apply Ok_inj in X; auto|intros (-> & _); reflexivity].
Qed.
Lemma nspin_spec : forall ns n, assign_nspin ns = Ok n <-> n = ns /\ (0 < ns)%Z /\ Z.Even ns.
Proof.
  intros ns n. split.
  - intros E. destruct (assign_nspin_inv _ _ E) as (-> & H & k & Ek). split; auto. split; auto. exists (Z.of_nat k). lia.
  - intros (-> & H & k & Ek). unfold assign_nspin. rewrite (proj2 (Z.leb_gt _ _)) by lia. rewrite Ek, Z.mul_comm, Z.mod_mul by lia. reflexivity.
Qed.
(** Tetrets are made for a positive multiple of four electrons, with a quarter as many quasiparticles, over all the
    quadruples of spin orbitals; the parameters are a matrix of that size. *)
Theorem C68_constructor : forall ne ns num subs l (w : quasi K), new_tetret ne ns num subs (QArray l) = Ok w <->
  exists h, (0 < h)%nat /\ ne = (4 * Z.of_nat h)%Z /\ (0 < ns)%Z /\ Z.Even ns /\ (num = None \/ num = Some (Z.of_nat h)) /\ subs = None /\
    length l = (h * binom (Z.to_nat ns) 4)%nat /\ w = mkqp ne ns h (quadruples (Z.to_nat ns)) l.
Proof.
  intros ne ns num subs l w. unfold new_tetret. split.
  - destruct (t_assign_nelec ne) as [n|] eqn:E1; [|discriminate]. apply t_nelec_spec in E1 as (-> & H1 & h & Eh & Hh). cbn [bind].
    destruct (assign_nspin ns) as [n|] eqn:E2; [|discriminate]. apply nspin_spec in E2 as (-> & H2 & H3). cbn [bind]. rewrite Eh.
    destruct (t_assign_num _ num) as [n|] eqn:E3; [|discriminate]. apply t_num_spec in E3 as (-> & H4); auto. cbn [bind].
    destruct subs as [x|]; [discriminate|]. unfold t_assign_subsets, q_assign_subsets. rewrite quadruples_assigned. cbn [bind]. unfold q_assign_params, qp_cols. cbn [bind qp_num qp_subsets qp_nelec qp_nspin]. rewrite Nat2Z.id, quadruples_length.
    destruct (Nat.eqb_spec (length l) (h * binom (Z.to_nat ns) 4)); cbn [negb]; [|discriminate]. intros X. apply Ok_inj in X. exists h. repeat split; auto.
  - intros (h & H1 & H2 & H3 & H4 & H5 & H6 & H7 & H8). subst subs. rewrite (proj2 (t_nelec_spec ne ne)) by (split; auto; split; [lia|exists h; auto]). cbn [bind]. rewrite (proj2 (nspin_spec ns ns)) by auto. cbn [bind].
    rewrite H2, (proj2 (t_num_spec h num (Z.of_nat h) H1)) by auto. cbn [bind]. unfold t_assign_subsets, q_assign_subsets. rewrite quadruples_assigned. cbn [bind]. unfold q_assign_params, qp_cols. cbn [bind qp_num qp_subsets qp_nelec qp_nspin].
    rewrite Nat2Z.id, quadruples_length, H7, Nat.eqb_refl. cbn [negb]. now rewrite H8, H2.
Qed.
(** Whatever the parameters, a wavefunction made has that shape. *)
Lemma new_inv : forall ne ns num subs ps (w : quasi K), new_tetret ne ns num subs ps = Ok w ->
  exists h l, (0 < h)%nat /\ ne = (4 * Z.of_nat h)%Z /\ (0 < ns)%Z /\ Z.Even ns /\ (num = None \/ num = Some (Z.of_nat h)) /\ subs = None /\
    length l = (h * binom (Z.to_nat ns) 4)%nat /\ w = mkqp ne ns h (quadruples (Z.to_nat ns)) l /\ q_assign_params t_partitions (mkqp (K := K) ne ns h (quadruples (Z.to_nat ns)) []) ps = Ok w.
Proof.
  intros ne ns num subs ps w. unfold new_tetret.
  destruct (t_assign_nelec ne) as [n|] eqn:E1; [|discriminate]. apply t_nelec_spec in E1 as (-> & H1 & h & Eh & Hh). cbn [bind].
  destruct (assign_nspin ns) as [n|] eqn:E2; [|discriminate]. apply nspin_spec in E2 as (-> & H2 & H3). cbn [bind]. rewrite Eh.
  destruct (t_assign_num _ num) as [n|] eqn:E3; [|discriminate]. apply t_num_spec in E3 as (-> & H4); auto. cbn [bind].
  destruct subs as [x|]; [discriminate|]. unfold t_assign_subsets, q_assign_subsets. rewrite quadruples_assigned. cbn [bind]. rewrite Nat2Z.id. intros X. pose proof X as X'. unfold q_assign_params in X.
  destruct (match ps with QDefault => _ | QArray l => _ | QOther o => _ end) as [l|]; [|discriminate]. cbn [bind qp_num qp_cols qp_subsets qp_nelec qp_nspin] in X. unfold qp_cols in X. cbn [qp_subsets] in X. rewrite quadruples_length in X.
  destruct (Nat.eqb_spec (length l) (h * binom (Z.to_nat ns) 4)); cbn [negb] in X; [|discriminate]. apply Ok_inj in X. exists h, l. repeat split; auto.
Qed.
Lemma default_loop_same : forall (w : quasi K) ps l params, q_default_loop (mkqp (qp_nelec w) (qp_nspin w) (qp_num w) (qp_subsets w) ps) l params = q_default_loop w l params.
Proof. intros w ps. induction l as [|[i s] l IH]; intros params; [reflexivity|]. cbn [q_default_loop qp_subsets qp_num]. destruct (q_col_ind (qp_subsets w) s); [|reflexivity]. cbn [bind]. destruct (negb _); [reflexivity|]. cbv zeta. rewrite IH. reflexivity. Qed.
Lemma assign_same : forall gen (w : quasi K) l ps, q_assign_params gen (mkqp (qp_nelec w) (qp_nspin w) (qp_num w) (qp_subsets w) l) ps = q_assign_params gen w ps.
Proof.
  intros gen w l ps. unfold q_assign_params. destruct ps as [|x|o]; try reflexivity. unfold q_default. cbn [qp_nelec qp_nspin qp_num qp_subsets]. destruct (ground _ _) as [g|]; [|reflexivity]. cbn [bind]. destruct (gen (zocc g)) as [[|p t]|]; try reflexivity. cbn [bind].
  rewrite default_loop_same. reflexivity.
Qed.
Lemma copy_length : forall (w o : quasi K), length (q_copy_loop w o) = (qp_num w * qp_cols w)%nat.
Proof.
  intros w o. unfold q_copy_loop. assert (G : forall (L : list (nat * list Z)) (init : list K), length (fold_left (fun params is => match q_col_ind (qp_subsets w) (snd is) with Ok c => fold_left (fun l r => upd l (r * qp_cols w + c)%nat (nth (r * qp_cols o + fst is)%nat (qp_params o) 0)) (seq 0 (qp_num o)) params | Err _ => params end) L init) = length init).
  { induction L as [|x L IH]; intros init; [reflexivity|]. cbn [fold_left]. rewrite IH. destruct (q_col_ind (qp_subsets w) (snd x)) as [c|]; [|reflexivity]. generalize (seq 0 (qp_num o)). clear IH. intros rs. revert init. induction rs as [|r rs IHr]; intros init; [reflexivity|]. cbn [fold_left]. rewrite IHr. apply upd_length. }
  rewrite G. unfold zeros. apply repeat_length.
Qed.
(** Assigning parameters leaves the wavefunction that the constructor makes of them. *)
Theorem C68_assign : forall ne ns num subs ps ps' (w : quasi K), new_tetret ne ns num subs ps = Ok w -> q_assign_params t_partitions w ps' = new_tetret ne ns num subs ps'.
Proof.
  intros ne ns num subs ps ps' w H. apply new_inv in H as (h & l & H1 & H2 & H3 & H4 & H5 & H6 & H7 & Ew & _). subst subs. unfold new_tetret.
  rewrite (proj2 (t_nelec_spec ne ne)) by (split; auto; split; [lia|exists h; auto]). cbn [bind]. rewrite (proj2 (nspin_spec ns ns)) by auto. cbn [bind].
  rewrite H2, (proj2 (t_num_spec h num (Z.of_nat h) H1)) by auto. cbn [bind]. unfold t_assign_subsets, q_assign_subsets. rewrite quadruples_assigned. cbn [bind]. rewrite Nat2Z.id, <- H2, Ew. symmetry. exact (assign_same t_partitions (mkqp ne ns h (quadruples (Z.to_nat ns)) l) [] ps').
Qed.

(** ** copies *)
Lemma copied : forall (v : nat -> K) (f : nat * list Z -> list nat) (L : list (nat * list Z)) init, (forall x p, In x L -> In p (f x) -> (p < length init)%nat) ->
  let out := fold_left (fun l x => fold_left (fun l p => upd l p (v p)) (f x) l) L init in
  length out = length init /\ forall p, ((exists x, In x L /\ In p (f x)) \/ nth p init 0 = v p) -> nth p out 0 = v p.
Proof.
  intros v f L.
  assert (G : forall ps (init : list K), (forall p, In p ps -> (p < length init)%nat) -> let out := fold_left (fun l p => upd l p (v p)) ps init in
    length out = length init /\ forall p, (In p ps \/ nth p init 0 = v p) -> nth p out 0 = v p).
  { induction ps as [|q ps IH]; intros init B; cbn [fold_left].
    - split; auto. intros p [[]|H]; auto.
    - destruct (IH (upd init q (v q))) as [L1 V1]; [intros p Hp; rewrite upd_length; apply B; now right|]. rewrite upd_length in L1. split; auto. intros p Hp. apply V1.
      destruct (Nat.eq_dec q p) as [->|D]; [right; apply nth_upd_eq; apply B; now left|]. destruct Hp as [[Hp|Hp]|Hp]; [contradiction|auto|]. right. now rewrite nth_upd_neq. }
  induction L as [|x L IH]; intros init B; cbn [fold_left].
  - split; auto. intros p [(x & [] & _)|H]; auto.
  - destruct (G (f x) init) as [L1 V1]; [intros p Hp; apply (B x); [now left|auto]|]. destruct (IH (fold_left (fun l p => upd l p (v p)) (f x) init)) as [L2 V2].
    { intros y p Hy Hp. rewrite L1. apply (B y); [now right|auto]. }
    split; [congruence|]. intros p Hp. apply V2. destruct Hp as [(y & [->|Hy] & Hp)|Hp]; [right; apply V1; now left|left; eauto|right; apply V1; now right].
Qed.
Lemma fold_left_map : forall {A B C} (f : A -> B -> A) (g : C -> B) l a, fold_left f (map g l) a = fold_left (fun a x => f a (g x)) l a.
Proof. intros A B C f g. induction l as [|x l IH]; intros a; [reflexivity|]. cbn [map fold_left]. apply IH. Qed.
Lemma fold_left_ext_in : forall {A B} (f g : A -> B -> A) l, (forall a x, In x l -> f a x = g a x) -> forall a, fold_left f l a = fold_left g l a.
Proof. intros A B f g. induction l as [|x l IH]; intros H a; [reflexivity|]. cbn [fold_left]. rewrite H by now left. apply IH. intros b y Hy. apply H. now right. Qed.
(** The parameters of another wavefunction of the same electrons and spin orbitals are its parameters; of any other they are refused. *)
Theorem C68_copy : forall ne ns num ne' ns' num' subs' ps' (o : quasi K), (exists ps, exists w : quasi K, new_tetret ne ns num None ps = Ok w) -> new_tetret ne' ns' num' subs' ps' = Ok o ->
  new_tetret ne ns num None (QOther o) = if ((ne =? ne') && (ns =? ns'))%Z%bool then new_tetret ne ns num None (QArray (qp_params o)) else Err ValueError.
Proof.
  intros ne ns num ne' ns' num' subs' ps' o (ps & w & H) Ho. rewrite <- !(C68_assign _ _ _ _ _ _ _ H). apply new_inv in H as (h & l & H1 & H2 & H3 & H4 & H5 & H6 & H7 & Ew & _). apply new_inv in Ho as (h' & l' & H1' & H2' & _ & _ & _ & _ & H7' & Eo & _).
  subst w o. unfold q_assign_params. cbn [qp_nelec qp_nspin qp_num qp_subsets qp_params]. destruct (Z.eqb_spec ne ne') as [E|E]; cbn [negb andb]; [|reflexivity]. destruct (Z.eqb_spec ns ns') as [E'|E']; cbn [negb]; [|reflexivity].
  assert (h' = h) by lia. subst h' ne' ns'. rewrite Nat.ltb_irrefl. cbn [bind]. unfold q_copy_loop. cbn [qp_subsets qp_num]. unfold qp_cols. cbn [qp_subsets qp_params]. set (S := quadruples (Z.to_nat ns)).
  pose proof (quadruples_length (Z.to_nat ns)) as LS. fold S in LS. rewrite <- LS in *.
  assert (Ef : fold_left (fun params is => match q_col_ind S (snd is) with Ok c => fold_left (fun l r => upd l (r * length S + c) (nth (r * length S + fst is) l' 0)) (seq 0 h) params | Err _ => params end) (enumerate S) (zeros (h * length S)) = l').
  { rewrite (fold_left_ext_in _ (fun l x => fold_left (fun l p => upd l p (nth p l' 0)) (map (fun r => r * length S + fst x)%nat (seq 0 h)) l)).
    2:{ intros a [i s] Hi. apply in_enumerate in Hi. cbn [snd fst]. unfold q_col_ind. rewrite (subset_index_nth S _ _ (quadruples_NoDup _) Hi), fold_left_map. reflexivity. }
    assert (Bd : forall (x : nat * list Z) p, In x (enumerate S) -> In p (map (fun r => r * length S + fst x)%nat (seq 0 h)) -> (p < h * length S)%nat).
    { intros [i s] p Hi Hp. apply in_enumerate in Hi. assert (i < length S)%nat by (apply nth_error_Some; congruence). apply in_map_iff in Hp as (r & <- & Hr). apply in_seq in Hr. cbn [fst]. nia. }
    destruct (copied (fun p => nth p l' 0) (fun x => map (fun r => r * length S + fst x)%nat (seq 0 h)) (enumerate S) (zeros (h * length S))) as [L1 V1].
    { intros x p Hx Hp. unfold zeros. rewrite repeat_length. eauto. }
    unfold zeros in L1 at 2. rewrite repeat_length in L1. apply (nth_ext _ _ 0 0); [congruence|]. intros p Hp. apply V1. left. rewrite L1 in Hp.
    assert (length S <> 0)%nat by nia. exists (p mod length S, nth (p mod length S) S [])%nat. split.
    - apply in_enumerate. apply nth_error_nth'. now apply Nat.mod_upper_bound.
    - apply in_map_iff. exists (p / length S)%nat. cbn [fst]. split; [rewrite (Nat.div_mod p (length S)) at 3 by auto; lia|]. apply in_seq. split; [lia|]. apply Nat.div_lt_upper_bound; auto. lia. }
  rewrite Ef. reflexivity.
Qed.

(** ** subsets *)
(** The columns of the matrix are the increasing quadruples of spin orbitals, each once; get_col_ind and get_orbsubset are inverse. *)
Theorem C68_subsets : forall ne ns num subs ps (w : quasi K), new_tetret ne ns num subs ps = Ok w ->
  (forall s, (exists i, nth_error (qp_subsets w) i = Some s) <-> StronglySorted Z.lt s /\ length s = 4%nat /\ forall i, In i s -> (0 <= i < ns)%Z) /\
  length (qp_subsets w) = binom (Z.to_nat ns) 4 /\
  (forall i s, nth_error (qp_subsets w) i = Some s <-> q_col_ind (qp_subsets w) s = Ok i) /\
  (forall s, q_col_ind (qp_subsets w) s = Err ValueError <-> forall i, nth_error (qp_subsets w) i <> Some s) /\
  (forall c s, q_orbsubset (qp_subsets w) c = Ok s <-> (0 <= c)%Z /\ nth_error (qp_subsets w) (Z.to_nat c) = Some s) /\
  (forall c, q_orbsubset (qp_subsets w) c = Err ValueError <-> ~ (0 <= c < Z.of_nat (length (qp_subsets w)))%Z).
Proof.
  intros ne ns num subs ps w H. apply new_inv in H as (h & l & H1 & H2 & H3 & H4 & H5 & H6 & H7 & Ew & _). subst w. cbn [qp_subsets]. set (S := quadruples (Z.to_nat ns)). pose proof (quadruples_NoDup (Z.to_nat ns)) as N. fold S in N.
  assert (Ex : forall s, (exists i, nth_error S i = Some s) <-> In s S) by (intros s; split; [intros [i Hi]; eapply nth_error_In; eauto|apply In_nth_error]).
  split; [|split; [|split; [|split; [|split]]]].
  - intros s. rewrite Ex. unfold S. rewrite quadruples_In. rewrite Z2Nat.id by lia. reflexivity.
  - apply quadruples_length.
  - intros i s. unfold q_col_ind. split; [intros Hi; now rewrite (subset_index_nth S i s N Hi)|]. destruct (subset_index s S) as [j|] eqn:E; [|discriminate]. intros X. apply Ok_inj in X. subst j. now apply subset_index_some.
  - intros s. unfold q_col_ind. destruct (subset_index s S) as [j|] eqn:E.
    + apply subset_index_some in E. split; [discriminate|]. intros X. now apply X in E.
    + apply subset_index_none in E. split; auto. intros _ i Hi. apply E. eapply nth_error_In; eauto.
  - intros c s. unfold q_orbsubset. destruct (Z.ltb_spec c 0) as [L|L]; [split; [discriminate|intros [? _]; lia]|]. destruct (nth_error S (Z.to_nat c)) as [t|]; split; try discriminate; [intros X; apply Ok_inj in X; subst; auto|intros [_ X]; congruence|intros [_ X]; discriminate].
  - intros c. unfold q_orbsubset. destruct (Z.ltb_spec c 0) as [L|L]; [split; auto; lia|]. destruct (nth_error S (Z.to_nat c)) as [t|] eqn:E; split; try discriminate; auto.
    + intros X. exfalso. apply X. assert (Z.to_nat c < length S)%nat by (apply nth_error_Some; congruence). lia.
    + intros _ X. apply nth_error_None in E. lia.
Qed.
(** The loop over given subsets refuses repeated orbitals and subsets given twice in any order, and keeps each sorted. *)
Theorem C68_given_subsets : forall l out, (q_assign_subsets (Some l) = Ok out <-> (forall s, In s l -> NoDup s) /\ NoDup (map sorted_Z l) /\ out = map sorted_Z l) /\
  (forall e, q_assign_subsets (Some l) = Err e -> e = ValueError).
Proof.
  intros l out. unfold q_assign_subsets. split; [|apply subsets_loop_err]. rewrite subsets_loop_spec. cbn [app]. split; [intros (H1 & _ & H2 & H3); auto|]. intros (H1 & H2 & H3). repeat split; auto.
Qed.

(** ** overlaps *)
(** For subsets of even size, and any way of listing the partitions of the occupied orbitals into [h] of them, the overlap
    is the coefficient in the product of the first [h] quasiparticles, up to a sign for the number of electrons. *)
Theorem C68_general : forall gen (w : quasi K) sd h L C, NoDup (qp_subsets w) -> (forall s, In s (qp_subsets w) -> s <> [] /\ Nat.even (length s) = true) ->
  gen (zocc sd) = Ok L -> lists_partitions (qp_subsets w) (zocc sd) h L -> (0 < h <= qp_num w)%nat -> holds_coefficients (qp_num w) (qp_subsets w) (qp_params w) C ->
  q_overlap gen w sd = Ok (sgnr (pow_m1 (length (zocc sd) / 2)) * quasi_product (qp_subsets w) (map C (seq 0 h)) sd).
Proof.
  intros gen w sd h L C N Ev Eg Lp Hh HC. apply (olp_product gen w sd h L C); auto; [|lia]. split; [lia|]. split; auto. split; auto. split; auto. intros P HP. now apply (proj1 Lp).
Qed.
Lemma occ_len : forall sd n, has_electrons sd n <-> length (zocc sd) = n.
Proof. intros sd n. unfold zocc. rewrite map_length. apply electrons_occ. Qed.
Lemma tetret_fine : forall ne ns num subs ps (w : quasi K) sd h, new_tetret ne ns num subs ps = Ok w -> (0 < h)%nat -> has_electrons sd (4 * h) -> within (Z.to_nat ns) sd ->
  exists L, fine t_partitions w sd h L /\ lists_partitions (qp_subsets w) (zocc sd) h L /\ L <> [].
Proof.
  intros ne ns num subs ps w sd h H Hh El W. apply new_inv in H as (h0 & l & H1 & H2 & H3 & H4 & H5 & H6 & H7 & Ew & _). subst w. cbn [qp_subsets]. apply occ_len in El.
  destruct (partitions_ok (Z.to_nat ns) sd h Hh El) as (L & E & Ne & A & B). specialize (B W). exists L. split; auto. split; auto. split; auto. split; [apply quadruples_NoDup|]. split; [|intros P HP; now apply (proj1 B)].
  intros s Hs. apply quadruples_In in Hs as (_ & L4 & _). destruct s; [discriminate|]. split; [discriminate|]. now rewrite L4.
Qed.
(** The overlap of tetrets is the coefficient of the determinant in the product of the quasiparticles; for fewer electrons, of the first quasiparticles. *)
Theorem C68_overlap : forall ne ns num subs ps (w : quasi K) C sd h, new_tetret ne ns num subs ps = Ok w -> holds_coefficients (qp_num w) (qp_subsets w) (qp_params w) C ->
  (0 < h <= qp_num w)%nat -> has_electrons sd (4 * h) -> within (Z.to_nat ns) sd ->
  q_overlap t_partitions w sd = Ok (quasi_product (qp_subsets w) (map C (seq 0 h)) sd).
Proof.
  intros ne ns num subs ps w C sd h H HC Hh El W. destruct (tetret_fine _ _ _ _ _ _ _ h H (proj1 Hh) El W) as (L & F & Lp & _). unfold q_overlap.
  rewrite (olp_product t_partitions w sd h L C F Lp (proj2 Hh) HC). apply occ_len in El. rewrite El. replace (4 * h)%nat with ((2 * h) * 2)%nat by lia. rewrite Nat.div_mul by lia.
  replace (pow_m1 (2 * h)) with 1%Z; [unfold sgnr; cbn; f_equal; ring|]. symmetry. rewrite <- (Nat.add_0_r (2 * h)), GemMain.pow_m1_even. reflexivity.
Qed.
Lemma sumM_first : forall {A} (f : A -> res K) x l e, f x = Err e -> sumM f (x :: l) = Err e.
Proof. intros A f x l e E. unfold sumM. cbn [mapM]. rewrite E. reflexivity. Qed.
(** What happens for other determinants. *)
Theorem C68_other : forall ne ns num subs ps (w : quasi K) sd n, new_tetret ne ns num subs ps = Ok w -> has_electrons sd n ->
  (n mod 4 <> 0 -> q_overlap t_partitions w sd = Err ValueError)%nat /\
  (n mod 4 = 0 -> n <> 0 -> ~ within (Z.to_nat ns) sd -> q_overlap t_partitions w sd = Err ValueError)%nat /\
  (n mod 4 = 0 -> 4 * qp_num w < n -> within (Z.to_nat ns) sd -> q_overlap t_partitions w sd = Err IndexError)%nat /\
  (n = 0%nat -> q_overlap t_partitions w sd = Err IndexError).
Proof.
  intros ne ns num subs ps w sd n H El. pose proof H as Hn. apply new_inv in H as (h0 & l & H1 & H2 & H3 & H4 & H5 & H6 & H7 & Ew & _). pose proof El as El'. apply occ_len in El. unfold q_overlap, q_olp. split; [|split; [|split]].
  - intros M. unfold t_partitions. rewrite El. destruct (Nat.eqb_spec (n mod 4) 0); [lia|]. reflexivity.
  - intros M N W. pose proof (Nat.div_mod n 4) as D. destruct (partitions_ok 0 sd (n / 4)) as (L & E & Ne & A & _); [lia|lia|]. rewrite E. cbn [bind]. destruct L as [|P L]; [congruence|]. apply sumM_first.
    destruct (A P) as (Pm & Ln & Fb); [now left|]. assert (X : exists b, In b P /\ ~ In b (qp_subsets w)).
    { assert (Ex : exists i, In i (zocc sd) /\ (ns <= i)%Z).
      { destruct (existsb (fun i => ns <=? i)%Z (zocc sd)) eqn:Q; [apply existsb_exists in Q as (i & Hi & Q); apply Z.leb_le in Q; eauto|]. exfalso. apply W. intros i Hi.
        assert (I : In (Z.of_nat i) (zocc sd)) by (apply occZ_In; split; [lia|now rewrite Nat2Z.id]). destruct (Z.ltb_spec (Z.of_nat i) ns); [lia|]. assert (Y : existsb (fun i => ns <=? i)%Z (zocc sd) = true); [|congruence]. apply existsb_exists. exists (Z.of_nat i). split; auto. apply Z.leb_le. lia. }
      destruct Ex as (i & Hi & Li). apply (Permutation_in _ (Permutation_sym Pm)) in Hi. apply in_concat in Hi as (b & Hb & Hi). exists b. split; auto. intros Y. subst w. cbn [qp_subsets] in Y. apply quadruples_In in Y as (_ & _ & Y). apply Y in Hi. lia. }
    unfold process_subsets. destruct X as (b & Hb & Nb). rewrite (mapM_error _ ValueError P b); auto.
    + intros s _. unfold q_col_ind. destruct (subset_index s (qp_subsets w)); eauto.
    + unfold q_col_ind. now rewrite (proj2 (subset_index_none b (qp_subsets w))).
  - intros M N W. pose proof (Nat.div_mod n 4) as D. assert (Hh : (0 < n / 4)%nat) by lia. destruct (tetret_fine _ _ _ _ _ w sd (n / 4)%nat Hn Hh) as (L & F & _ & Ne); auto; [now replace (4 * (n / 4))%nat with n by lia|].
    pose proof F as (_ & Eg & Nd & Ev & FP). rewrite Eg. cbn [bind]. destruct L as [|P L]; [congruence|]. apply sumM_first. assert (HP : In P (P :: L)) by now left. destruct (FP P HP) as (I & Pm & Ln).
    destruct (fine_cols t_partitions w sd _ _ P F HP) as (Nc & Bc & Lc & EP). destruct (fine_sign t_partitions w sd _ _ P F HP) as (Es & _). rewrite process_even by auto. cbn [bind]. rewrite app_nil_r, Es. cbn [bind].
    replace (length P) with (length (map (cidx (qp_subsets w)) P)) by apply map_length. rewrite permsum_many; auto.
    + intros X. apply (f_equal (@length nat)) in X. rewrite seq_length in X. subst w. cbn in X. lia.
    + rewrite seq_length. lia.
    + intros r Hr. apply in_seq in Hr. lia.
  - intros ->. destruct (zocc sd); [|discriminate]. reflexivity.
Qed.

(** ** derivatives *)
(** The derivatives returned are the slopes of the overlap in each coefficient, for the determinants of the theorem above
    other than those of one quasiparticle out of several. *)
Theorem C68_derivative : forall ne ns num subs ps (w : quasi K) sd h ds is, new_tetret ne ns num subs ps = Ok w -> (0 < h <= qp_num w)%nat -> (h = 1 -> qp_num w = 1)%nat ->
  has_electrons sd (4 * h) -> within (Z.to_nat ns) sd -> Forall2 (selects (length (qp_params w))) ds is ->
  exists v g, q_overlap t_partitions w sd = Ok v /\ q_overlap_deriv t_partitions w sd ds = Ok g /\
    Forall2 (fun i d => forall t, q_overlap t_partitions (mkqp (qp_nelec w) (qp_nspin w) (qp_num w) (qp_subsets w) (upd (qp_params w) i (nth i (qp_params w) 0 + t))) sd = Ok (v + t * d)) is g.
Proof.
  intros ne ns num subs ps w sd h ds is H Hh H1 El W Sel. destruct (tetret_fine _ _ _ _ _ w sd h H (proj1 Hh) El W) as (L & F & _ & _). apply new_inv in H as (h0 & l & _ & _ & _ & _ & _ & _ & Ll & Ew & _).
  assert (Len : length (qp_params w) = (qp_num w * qp_cols w)%nat) by (subst w; unfold qp_cols; cbn [qp_params qp_num qp_subsets]; rewrite quadruples_length; auto).
  assert (H1' : ~ (h = 1 /\ 1 < qp_num w)%nat) by lia.
  destruct (dolp_terms t_partitions w sd h L F (proj2 Hh) H1' Len) as (D & ED & LD & _).
  exists (sumf (qterm w (zocc sd)) L), (map (fun i => nth i D 0) is). split; [apply (olp_terms t_partitions w sd h L F (proj2 Hh))|]. split.
  - unfold q_overlap_deriv. rewrite ED. cbn [bind]. unfold q_select. rewrite LD. clear -Sel. induction Sel as [|d i ds is S Sel IH]; [reflexivity|]. cbn [mapM map]. apply np_index_ok in S. rewrite S. cbn [bind]. rewrite IH. reflexivity.
  - assert (Bi : forall i, In i is -> (i < length (qp_params w))%nat). { clear -Sel. induction Sel as [|d i ds is S Sel IH]; intros j Hj; [destruct Hj|]. destruct Hj as [<-|Hj]; auto. unfold selects in S. lia. }
    clear Sel. induction is as [|i is IH]; cbn [map]; constructor; [|apply IH; intros j Hj; apply Bi; now right]. intros t. assert (Hi := Bi i (or_introl eq_refl)). rewrite Len in Hi. assert (Hc : (0 < qp_cols w)%nat) by nia.
    assert (Ei : i = (i / qp_cols w * qp_cols w + i mod qp_cols w)%nat) by (rewrite (Nat.div_mod i (qp_cols w)) at 1 by lia; lia). set (r := (i / qp_cols w)%nat) in *. set (c := (i mod qp_cols w)%nat) in *.
    assert (Hr : (r < qp_num w)%nat) by (unfold r; apply Nat.div_lt_upper_bound; lia). assert (Hc' : (c < qp_cols w)%nat) by (unfold c; apply Nat.mod_upper_bound; lia).
    rewrite Ei. pose proof (olp_affine t_partitions w sd h L D r c t F (proj2 Hh) H1' Len ED Hr Hc') as A. rewrite (olp_terms t_partitions w sd h L F (proj2 Hh)) in A. cbn [bind] in A. exact A.
Qed.
(** For four electrons and several quasiparticles the derivatives cannot be evaluated. *)
Theorem C68_single_refuted : forall ne ns num subs ps (w : quasi K) sd ds, new_tetret ne ns num subs ps = Ok w -> (1 < qp_num w)%nat -> has_electrons sd 4 -> within (Z.to_nat ns) sd ->
  q_overlap_deriv t_partitions w sd ds = Err IndexError.
Proof.
  intros ne ns num subs ps w sd ds H Hn El W. destruct (tetret_fine _ _ _ _ _ w sd 1 H) as (L & F & _ & Ne); auto. pose proof F as (_ & Eg & Nd & Ev & FP). unfold q_overlap_deriv, q_dolp. rewrite Eg. cbn [bind].
  destruct L as [|P L]; [congruence|]. assert (HP : In P (P :: L)) by now left. destruct (FP P HP) as (I & Pm & Ln). destruct (fine_cols t_partitions w sd _ _ P F HP) as (Nc & Bc & Lc & EP). destruct (fine_sign t_partitions w sd _ _ P F HP) as (Es & _).
  cbn [q_deriv_loop]. rewrite process_even by auto. cbn [bind]. rewrite app_nil_r, Es. cbn [bind]. destruct (map (cidx (qp_subsets w)) P) as [|c [|c' cols]]; try discriminate. assert (Hc := Bc c (or_introl eq_refl)).
  assert (E : exists n, qp_num w = S (S n)) by (exists (qp_num w - 2)%nat; lia). destruct E as [n En]. rewrite Ln.
  assert (PD : permsum_deriv w 1 [c] (seq 0 (qp_num w)) (Z.of_nat (0 * qp_cols w + c)) = Err IndexError).
  { unfold permsum_deriv. rewrite in_range; [|intros r Hr; apply in_seq in Hr; lia|auto]. rewrite En. cbn [seq]. cbn [negb]. cbv zeta. cbn [Nat.mul Nat.add].
    rewrite Z.div_small, Z.mod_small by lia. cbn [filter]. rewrite (Z.eqb_refl (Z.of_nat c)). change (Z.of_nat 0 =? 0)%Z with true. change (Z.of_nat 1 =? 0)%Z with false. cbn [negb length Nat.eqb orb andb].
    match goal with |- context [Nat.eqb ?a ?b] => destruct (Nat.eqb_spec a b) as [X|_] end.
    - exfalso. pose proof (BicliqueMain.filter_len_le (fun r => negb (Z.of_nat r =? 0)%Z) (seq 2 n)). lia.
    - reflexivity. }
  replace (list_prod (seq 0 (qp_num w)) [c]) with ((0%nat, c) :: list_prod (seq 1 (S n)) [c]) by (rewrite En; reflexivity). cbn [q_deriv_inner]. cbv zeta. rewrite PD. reflexivity.
Qed.

(** ** default parameters *)
Lemma default_loop_ok : forall (w : quasi K) l params, length params = (qp_num w * qp_cols w)%nat -> (forall i s, In (i, s) l -> (i < qp_num w)%nat /\ In s (qp_subsets w)) ->
  exists o, q_default_loop w l params = Ok o /\ length o = length params /\ forall r c, (r < qp_num w)%nat -> (c < qp_cols w)%nat ->
    nth (r * qp_cols w + c)%nat o 0 = nth (r * qp_cols w + c)%nat params 0 + sumf (fun is => if (Nat.eqb (fst is) r && Nat.eqb (cidx (qp_subsets w) (snd is)) c)%bool then 1 else 0) l.
Proof.
  intros w. induction l as [|[i s] l IH]; intros params Lp H.
  - exists params. split; [reflexivity|]. split; [reflexivity|]. intros r c _ _. unfold sumf. cbn [fold_right]. ring.
  - destruct (H i s) as (Hi & Hs); [now left|]. cbn [q_default_loop]. rewrite (proj1 (cidx_ok _ _ Hs)). cbn [bind]. destruct (Nat.ltb_spec i (qp_num w)); [|lia]. cbn [negb]. cbv zeta.
    pose proof (cidx_lt _ _ Hs) as Hc. change (length (qp_subsets w)) with (qp_cols w) in Hc. set (ci := cidx (qp_subsets w) s) in *.
    destruct (IH (upd params (i * qp_cols w + ci) (nth (i * qp_cols w + ci) params 0 + 1))) as (o & Eo & Lo & Vo); [now rewrite upd_length|intros; apply H; now right|].
    exists o. split; [exact Eo|]. split; [now rewrite Lo, upd_length|]. intros r c Hr Hc'. rewrite Vo by auto. rewrite sumf_cons. cbn [fst snd]. fold ci.
    destruct (Nat.eqb_spec i r) as [->|D], (Nat.eqb_spec ci c) as [E|D']; cbn [andb].
    + rewrite <- E. rewrite nth_upd_eq; [ring|]. rewrite Lp. nia.
    + rewrite nth_upd_neq; [ring|]. intros X. apply two_digits in X; lia.
    + rewrite nth_upd_neq; [ring|]. intros X. apply two_digits in X; lia.
    + rewrite nth_upd_neq; [ring|]. intros X. apply two_digits in X; lia.
Qed.
Lemma product_single : forall subsets (cs : list (list Z -> K)) P m, NoDup subsets -> Forall2 (fun c s => In s subsets /\ forall t, In t subsets -> c t = if list_eq_dec Z.eq_dec t s then 1 else 0) cs P ->
  quasi_product subsets cs m = cres (concat P) vacuum m.
Proof.
  intros subsets cs P m N H. revert m. induction H as [|c s cs P (Hs & Hc) H IH]; intros m; [reflexivity|]. cbn [quasi_product fold_right concat]. unfold quasi_op at 1. rewrite cres_app.
  rewrite (sumf_single _ _ s N Hs).
  - rewrite Hc by auto. destruct (list_eq_dec Z.eq_dec s s); [|congruence]. rewrite fold_cres. rewrite (cres_ext s _ (cres (concat P) vacuum)) by (intros; apply IH). ring.
  - intros t Ht D. rewrite Hc by auto. destruct (list_eq_dec Z.eq_dec t s); [contradiction|]. ring.
Qed.
(** The default wavefunction is the ground state determinant. *)
Theorem C68_default : forall ne ns num, (exists h, (0 < h)%nat /\ ne = (4 * Z.of_nat h)%Z /\ (num = None \/ num = Some (Z.of_nat h))) -> Z.Even ns -> (ne <= ns)%Z ->
  exists (w : quasi K) g, new_tetret ne ns num None QDefault = Ok w /\ ground ne ns = Ok g /\
    forall sd, has_electrons sd (Z.to_nat ne) -> within (Z.to_nat ns) sd -> q_overlap t_partitions w sd = Ok (if N.eqb sd g then 1 else 0).
Proof.
  intros ne ns num (h & Hh & Ene & Hnum) Ev Le. destruct (ground_defined ne ns) as [g Eg]; [lia|auto|]. pose proof (ground_electrons _ _ _ Eg) as (Elg & Fg).
  assert (Wg : within (Z.to_nat ns) g). { intros i Hi. destruct (Nat.lt_ge_cases i (Z.to_nat ns)) as [|X]; auto. apply Fg in X. congruence. }
  assert (Lg : length (zocc g) = (4 * h)%nat) by (apply occ_len in Elg; lia).
  set (S := quadruples (Z.to_nat ns)). pose (w0 := mkqp (K := K) ne ns h S []).
  destruct (partitions_ok (Z.to_nat ns) g h Hh Lg) as (L & EL & _ & A & B). specialize (B Wg). destruct B as (B & _).
  destruct (first_filled 4 h (rev (zocc g))) as (P & t & EP & FP); [lia|lia|rewrite rev_involutive; apply occZ_sorted|rewrite rev_length; lia|].
  assert (EL' : L = P :: t). { unfold t_partitions in EL. rewrite Lg, (Nat.mul_comm 4 h), Nat.mod_mul, Nat.div_mul in EL by lia. cbn [Nat.eqb negb] in EL. unfold generate_unordered_partition in EL. rewrite EP in EL. now apply Ok_inj in EL. }
  subst L. destruct FP as (Ec & LP & _). rewrite rev_involutive in Ec. destruct (B P) as (IP & _ & _); [now left|].
  destruct (default_loop_ok w0 (enumerate P) (zeros (h * qp_cols w0))) as (o & Eo & Lo & Vo).
  { unfold zeros. apply repeat_length. }
  { intros i s Hi. apply in_enumerate in Hi. split; [|apply IP; eapply nth_error_In; eauto]. cbn [qp_num w0]. rewrite <- LP. apply nth_error_Some. congruence. }
  unfold zeros in Lo at 1. rewrite repeat_length in Lo. unfold qp_cols in Lo. cbn [qp_subsets w0] in Lo.
  assert (Ew : q_assign_params t_partitions w0 QDefault = Ok (mkqp ne ns h S o)).
  { unfold q_assign_params, q_default. cbn [qp_nelec qp_nspin w0]. rewrite Eg. cbn [bind]. rewrite EL. cbn [bind]. cbn [qp_num w0]. rewrite Eo. cbn [bind]. unfold qp_cols. cbn [qp_subsets w0]. rewrite Lo, Nat.eqb_refl. reflexivity. }
  set (w := mkqp ne ns h S o) in *. assert (Ew' : new_tetret ne ns num None QDefault = Ok w).
  { rewrite <- Ew. assert (E0 : new_tetret (K := K) ne ns num None (QArray o) = Ok w).
    { apply C68_constructor. exists h. repeat split; auto; [lia|]. rewrite Lo. f_equal. apply quadruples_length. }
    rewrite <- (C68_assign _ _ _ _ _ QDefault _ E0). symmetry. exact (assign_same t_partitions w [] QDefault). }
  exists w, g. split; auto. split; auto. intros sd El W.
  assert (HC : holds_coefficients (qp_num w) (qp_subsets w) (qp_params w) (fun r s => if list_eq_dec Z.eq_dec s (nth r P []) then 1 else 0)).
  { intros r i s Hr Hi. cbn [qp_num qp_subsets qp_params w] in *. assert (Hrl : (r < length P)%nat) by (rewrite LP; exact Hr). assert (Hi' : (i < length S)%nat) by (apply nth_error_Some; congruence). specialize (Vo r i Hr Hi'). unfold qp_cols in Vo. cbn [qp_subsets w0] in Vo. rewrite Vo.
    replace (nth (r * length S + i) (zeros (h * length S)) 0) with (0 : K) by (unfold zeros; symmetry; apply nth_repeat).
    assert (Hr' : In (r, nth r P []) (enumerate P)) by (apply in_enumerate, nth_error_nth'; lia). rewrite (sumf_single _ _ (r, nth r P [])); [|apply enumerate_NoDup|auto|].
    - cbn [fst snd]. rewrite Nat.eqb_refl. cbn [andb]. assert (Is : In (nth r P []) S) by (apply IP; apply nth_In; lia). destruct (list_eq_dec Z.eq_dec s (nth r P [])) as [->|D].
      + destruct (Nat.eqb_spec (cidx S (nth r P [])) i) as [_|X]; [ring|]. exfalso. apply X. unfold cidx. now rewrite (subset_index_nth S _ _ (quadruples_NoDup _) Hi).
      + destruct (Nat.eqb_spec (cidx S (nth r P [])) i) as [X|_]; [|ring]. exfalso. apply D. pose proof (proj2 (cidx_ok _ _ Is)) as Y. rewrite X in Y. congruence.
    - intros [r' s'] Hx D. cbn [fst snd]. destruct (Nat.eqb_spec r' r) as [->|]; [|reflexivity]. exfalso. apply D. f_equal. apply in_enumerate in Hx. symmetry. now apply nth_error_nth. }
  assert (Hw : (0 < h <= qp_num w)%nat) by (split; [exact Hh|apply le_n]). assert (El4 : has_electrons sd (4 * h)) by (replace (4 * h)%nat with (Z.to_nat ne) by lia; exact El).
  rewrite (C68_overlap ne ns num None QDefault w _ sd h Ew' HC Hw El4 W). f_equal.
  rewrite (product_single (qp_subsets w) _ P); [|apply quadruples_NoDup|].
  - rewrite Ec. destruct (N.eqb_spec sd g) as [->|D]; [apply cres_occ|]. apply cres_zero. intros X. apply D. apply N.bits_inj. intros i.
    assert (Q : zocc g = zocc sd) by (apply sorted_perm_eq; auto; apply occZ_sorted). rewrite <- (N2Nat.id i). change (bit sd (N.to_nat i) = bit g (N.to_nat i)).
    assert (Q1 : In (Z.of_nat (N.to_nat i)) (zocc g) <-> In (Z.of_nat (N.to_nat i)) (zocc sd)) by (rewrite Q; tauto). rewrite !occZ_In, !Nat2Z.id in Q1. destruct (bit sd (N.to_nat i)), (bit g (N.to_nat i)); auto; exfalso; intuition; try lia; discriminate.
  - replace (seq 0 h) with (seq 0 (length P)) by (f_equal; exact LP). clear -IP. assert (G : forall pre Q, P = pre ++ Q -> Forall2 (fun (c : list Z -> K) s => In s (qp_subsets w) /\ forall t, In t (qp_subsets w) -> c t = if list_eq_dec Z.eq_dec t s then 1 else 0) (map (fun r s => if list_eq_dec Z.eq_dec s (nth r P []) then 1 else 0) (seq (length pre) (length Q))) Q).
    { intros pre Q. revert pre. induction Q as [|s Q IH]; intros pre E; cbn [length seq map]; constructor.
      - split; [apply IP; rewrite E; apply in_or_app; right; now left|]. intros t _. rewrite E, app_nth2, Nat.sub_diag by lia. reflexivity.
      - replace (Datatypes.S (length pre)) with (length (pre ++ [s])) by (rewrite app_length; cbn [length]; lia). apply IH. now rewrite <- app_assoc. }
    exact (G [] P eq_refl).
Qed.

(** What is refused with which exception, for every kind of parameters. *)
Theorem C68_errors : forall ne ns num subs ps (e : exn), new_tetret (K := K) ne ns num subs ps = Err e ->
  (e = NotImplementedError /\ subs <> None) \/
  (e = ValueError /\ ((ne <= 0)%Z \/ ~ (4 | ne)%Z \/ (ns <= 0)%Z \/ ~ Z.Even ns \/ (exists n, num = Some n /\ (n * 4)%Z <> ne) \/
     (exists l, ps = QArray l /\ length l <> (Z.to_nat (ne / 4) * binom (Z.to_nat ns) 4)%nat) \/ (ps = QDefault /\ (ns < ne)%Z) \/
     (exists o, ps = QOther o /\ (qp_nelec o <> ne \/ qp_nspin o <> ns \/ (ne < 4 * Z.of_nat (qp_num o))%Z)))).
Proof.
  intros ne ns num subs ps e H. unfold new_tetret in H. destruct (t_assign_nelec ne) as [n|x] eqn:E1.
  2:{ cbn [bind] in H. inversion H; subst. apply t_nelec_err in E1 as (-> & [E1|E1]); right; split; auto. }
  apply t_nelec_spec in E1 as (-> & H1 & h & Eh & Hh). cbn [bind] in H. destruct (assign_nspin ns) as [n|x] eqn:E2.
  2:{ cbn [bind] in H. inversion H; subst. right. unfold assign_nspin in E2. destruct (Z.leb_spec ns 0); [split; [now inversion E2|auto]|]. destruct (Z.eqb_spec (ns mod 2) 1) as [Eo|]; [|discriminate]. split; [now inversion E2|]. do 3 right. left. intros [k Hk]. rewrite Hk, Z.mul_comm, Z.mod_mul in Eo by lia. discriminate. }
  apply nspin_spec in E2 as (-> & H2 & H3). cbn [bind] in H. rewrite Eh in H. destruct (t_assign_num (4 * Z.of_nat h) num) as [n|x] eqn:E3.
  2:{ cbn [bind] in H. inversion H; subst x. right. unfold t_assign_num, q_assign_num in E3. destruct num as [n|].
      - destruct (Z.leb_spec n 0); cbn [bind] in E3; [split; [now inversion E3|]; do 4 right; left; exists n; split; auto; lia|]. destruct (Z.eqb_spec (n * 4) (4 * Z.of_nat h)); cbn [negb] in E3; [discriminate|]. split; [now inversion E3|]. do 4 right. left. exists n. split; auto. lia.
      - rewrite Z.mul_comm, Z.div_mul in E3 by lia. destruct (Z.leb_spec (Z.of_nat h) 0); [lia|]. cbn [bind] in E3. rewrite Z.eqb_refl in E3. discriminate. }
  pose proof E3 as E3'. apply t_num_spec in E3 as (-> & H4); auto. cbn [bind] in H. destruct subs as [l|]; [cbn in H; inversion H; left; split; auto; discriminate|].
  unfold t_assign_subsets, q_assign_subsets in H. rewrite quadruples_assigned in H. cbn [bind] in H. rewrite Nat2Z.id in H. right.
  assert (Hq : Z.to_nat (ne / 4) = h) by (rewrite Eh, Z.mul_comm, Z.div_mul by lia; lia). rewrite Hq. unfold q_assign_params in H. destruct ps as [|l|o].
  - destruct (Z.lt_ge_cases ns ne) as [Lt|Ge].
    + destruct (q_default t_partitions (mkqp (K := K) (4 * Z.of_nat h) ns h (quadruples (Z.to_nat ns)) [])) as [l|x] eqn:Ed.
      * exfalso. unfold q_default in Ed. cbn [qp_nelec qp_nspin] in Ed. destruct (ground (4 * Z.of_nat h) ns) as [g|] eqn:G; [|discriminate]. apply ground_value in G as ((_ & G) & _). lia.
      * cbn [bind] in H. inversion H; subst x. unfold q_default in Ed. cbn [qp_nelec qp_nspin] in Ed. destruct (ground (4 * Z.of_nat h) ns) as [g|x] eqn:G; [apply ground_value in G as ((_ & G) & _); lia|]. cbn [bind] in Ed. apply ground_error in G. inversion Ed; subst. split; auto 10.
    + exfalso. destruct (C68_default ne ns num) as (w & g & Ew & _); auto; [exists h; auto|]. unfold new_tetret in Ew. rewrite (proj2 (t_nelec_spec ne ne)) in Ew by (split; auto; split; [lia|exists h; auto]). cbn [bind] in Ew. rewrite (proj2 (nspin_spec ns ns)) in Ew by auto. cbn [bind] in Ew.
      rewrite Eh, E3' in Ew. cbn [bind] in Ew. unfold t_assign_subsets, q_assign_subsets in Ew. rewrite quadruples_assigned in Ew. cbn [bind] in Ew. rewrite Nat2Z.id in Ew. unfold q_assign_params in Ew. rewrite H in Ew. discriminate.
  - cbn [bind] in H. unfold qp_cols in H. cbn [qp_num qp_subsets] in H. rewrite quadruples_length in H. destruct (Nat.eqb_spec (length l) (h * binom (Z.to_nat ns) 4)); cbn [negb] in H; [discriminate|]. inversion H. split; auto. do 5 right. left. exists l. auto.
  - cbn [qp_nelec qp_nspin qp_num] in H. rewrite <- Eh in H. destruct (Z.eqb_spec ne (qp_nelec o)); cbn [negb] in H; [|cbn [bind] in H; inversion H; split; auto; do 7 right; exists o; split; auto].
    destruct (Z.eqb_spec ns (qp_nspin o)); cbn [negb] in H; [|cbn [bind] in H; inversion H; split; auto; do 7 right; exists o; split; auto].
    destruct (Nat.ltb_spec h (qp_num o)); [cbn [bind] in H; inversion H; split; auto; do 7 right; exists o; split; auto; right; right; lia|]. cbn [bind] in H. rewrite copy_length in H. unfold qp_cols in H. cbn [qp_num qp_subsets] in H. rewrite Nat.eqb_refl in H. discriminate.
Qed.

(** ** compute_permsum without even subsets: the determinant *)
Theorem C68_fermions : forall (w : quasi K) cols rows, cols <> [] -> length rows = length cols -> (forall r, In r rows -> (r < qp_num w)%nat) -> (forall c, In c cols -> (c < qp_cols w)%nat) ->
  permsum w 0 cols rows = Ok (detR (map (fun r c => nth (r * qp_cols w + c)%nat (qp_params w) 0) rows) cols).
Proof.
  intros w cols rows Ne L Hr Hc. unfold permsum. destruct cols as [|c0 cs] eqn:Ec; [congruence|]. rewrite <- Ec in *. destruct rows as [|r0 rs] eqn:Er; [rewrite Ec in L; discriminate|]. rewrite <- Er in *.
  rewrite in_range by auto. cbn [negb]. cbv zeta. rewrite combinations_0. unfold sumM. cbn [mapM]. cbn [Nat.eqb existsb negb]. rewrite (filter_all (fun c => true)) by auto. rewrite Nat.sub_0_r, L.
  replace (permanent_ryser 1 1 (fun _ _ : nat => 1)) with (Ok (1 : K)).
  2:{ rewrite P_Permanent.C25_agrees by congruence. rewrite P_Permanent.comb_value by lia. cbn. unfold sumf. cbn. f_equal. ring. }
  cbn [bind]. assert (LS : length cols = S (length cs)) by (rewrite Ec; reflexivity). rewrite Ec. cbn [length seq]. rewrite <- Ec. set (m := mkmat _ _ _). change (0%nat :: seq 1 (length cs)) with (seq 0 (S (length cs))). replace (S (length cs)) with (length cols) by (rewrite Ec; reflexivity).
  rewrite minor_ok; [|intros i Hi; apply in_seq in Hi; unfold m; cbn [m_rows m_cols]; lia|intros i Hi; apply in_seq in Hi; unfold m; cbn [m_rows m_cols]; lia|reflexivity]. cbn [bind]. unfold sumf at 1. cbn [fold_right]. f_equal. rewrite <- L at 1.
  transitivity (detR (map (m_at m) (seq 0 (length rows))) (seq 0 (length cols))); [ring|].
  transitivity (detR (map (fun r c => nth (r * qp_cols w + c)%nat (qp_params w) 0) (map (fun i => nth i rows 0%nat) (seq 0 (length rows)))) (map (fun i => nth i cols 0%nat) (seq 0 (length cols)))).
  - rewrite detR_map, !map_map. reflexivity.
  - f_equal; [f_equal|]; apply map_nth_seq.
Qed.
(** The derivative of that determinant with respect to an entry lacks the sign of the cofactor: for two quasiparticles of two
    single orbitals the derivative of a d - b c with respect to b is given as c. *)
Theorem C68_fermion_sign_refuted : forall a b c d : K, let w := mkqp (K := K) 2 2 2 [[0%Z]; [1%Z]] [a; b; c; d] in
  permsum w 0 [0; 1]%nat [0; 1]%nat = Ok (a * d - b * c) /\ permsum_deriv w 0 [0; 1]%nat [0; 1]%nat 1 = Ok c.
Proof.
  intros a b c d w. split.
  - rewrite C68_fermions; [|discriminate|reflexivity|intros r [<-|[<-|[]]]; cbn; lia|intros r [<-|[<-|[]]]; cbn; lia]. f_equal. cbn. unfold sumf. cbn. ring.
  - change (permsum_deriv w 0 [0; 1]%nat [0; 1]%nat 1) with (permsum w 0 [0%nat] [1%nat]). rewrite C68_fermions; [|discriminate|reflexivity|intros r [<-|[]]; cbn; lia|intros r [<-|[]]; cbn; lia]. f_equal. cbn. unfold sumf. cbn. ring.
Qed.

(** ** calls *)
Theorem C68_program : forall gen (w : quasi K) sd ds,
  value (q_olp gen) (q_dolp gen) w (q_get w (sd, None)) = (do v <- q_overlap gen w sd; Ok (Scalar v)) /\
  value (q_olp gen) (q_dolp gen) w (q_get w (sd, Some ds)) = (do l <- q_overlap_deriv gen w sd ds; Ok (Array l)).
Proof.
  intros gen w sd ds. split; unfold q_get, q_overlap, q_overlap_deriv; cbn [fst snd value]; [reflexivity|]. destruct (q_dolp gen w sd); reflexivity.
Qed.
(** All answers are those of the parameters at that time, as long as the caches are not enabled again and no attribute is set by hand. *)
Theorem C68_history : forall gen (w : quasi K) memory h, (forall d, ~ In (EEnable d) h) -> (forall q, ~ In (ESet q) h) ->
  agrees (q_olp gen) (q_dolp gen) q_get (q_assign_params gen) set_any w h (q_run gen (constructed q_nparams w memory true) h).
Proof.
  intros gen w memory h He Hs. unfold constructed.
  assert (C : forall n, (n <= 1)%nat -> careful n h).
  { intros n Hn. clear w. induction h as [|e h IH]; [exact I|]. assert (X : careful n h) by (apply IH; intros ? ?; [eapply He|eapply Hs]; right; eassumption).
    destruct e; cbn [careful]; auto; exfalso; [eapply Hs|eapply He]; left; reflexivity. }
  pose proof (C48_transparent N.eqb N.eqb N.eqb_eq N.eqb_eq (q_olp gen) (q_dolp gen) q_get (q_assign_params gen) set_any q_nparams w memory (EEnable true :: h)) as T.
  cbn [run step agrees] in T. apply T. cbn [careful]. apply C. lia.
Qed.
End C68.
Print Assumptions C68_constructor.
Print Assumptions C68_assign.
Print Assumptions C68_copy.
Print Assumptions C68_subsets.
Print Assumptions C68_given_subsets.
Print Assumptions C68_general.
Print Assumptions C68_overlap.
Print Assumptions C68_other.
Print Assumptions C68_derivative.
Print Assumptions C68_single_refuted.
Print Assumptions C68_default.
Print Assumptions C68_errors.
Print Assumptions C68_fermions.
Print Assumptions C68_fermion_sign_refuted.
Print Assumptions C68_program.
Print Assumptions C68_history.

(** With subsets of odd and of even size together the overlap is not the coefficient in the product of the quasiparticles, up to any sign. *)
Theorem C68_mixed_refuted : exists (l : list Z) sd L, mixed_gen (zocc sd) = Ok L /\ lists_partitions mixed_subsets (zocc sd) 3 L /\
  holds_coefficients (qp_num (mixed l)) mixed_subsets (qp_params (mixed l)) (mixed_coef l) /\
  forall v, q_overlap mixed_gen (mixed l) sd = Ok v -> v <> quasi_product (K := Alg.Qc_field) mixed_subsets (map (mixed_coef l) (seq 0 3)) sd /\
    v <> ropp (quasi_product (K := Alg.Qc_field) mixed_subsets (map (mixed_coef l) (seq 0 3)) sd).
Proof.
  exists [1; 2; 3; 4; 5; 6; 7; 8; 10]%Z, 15%N, [mixed_subsets]. split; [reflexivity|]. split; [|split].
  - split; [|split].
    + intros P [<-|[]]. split; [intros x; auto|]. split; [vm_compute; reflexivity|reflexivity].
    + intros Q I Pm Ln. exists mixed_subsets. split; [now left|]. apply NoDup_Permutation_bis.
      * assert (F : NoDup (concat Q)) by (eapply Permutation_NoDup; [symmetry; exact Pm|apply occZ_NoDup]). assert (Ne : forall b, In b Q -> b <> []) by (intros b Hb; apply I in Hb; destruct Hb as [<-|[<-|[<-|[]]]]; discriminate).
        clear -F Ne. induction Q as [|b Q IH]; [constructor|]. cbn [concat] in F. apply NoDup_app_iff in F as (F1 & F2 & F3). constructor; [|apply IH; auto; intros; apply Ne; now right].
        intros X. assert (N0 := Ne b (or_introl eq_refl)). destruct b as [|i b]; [congruence|]. apply (F3 i); [now left|]. apply in_concat. exists (i :: b). split; auto. now left.
      * rewrite Ln. cbn. lia.
      * exact I.
    + repeat constructor.
  - intros r i s Hr Hi. unfold mixed_coef. assert (N : NoDup mixed_subsets) by (repeat constructor; cbn; intuition discriminate). rewrite (subset_index_nth mixed_subsets i s N Hi). reflexivity.
  - intros v Hv.
    assert (A : Rank2Ex.show_res (q_overlap mixed_gen (mixed [1; 2; 3; 4; 5; 6; 7; 8; 10]%Z) 15) = Ok (-11, 1%positive)%Z) by (vm_compute; reflexivity).
    rewrite Hv in A. cbn [Rank2Ex.show_res bind] in A. apply Ok_inj in A. split; intros ->.
    + assert (B : mixed_spec [1; 2; 3; 4; 5; 6; 7; 8; 10]%Z 15 = (-35, 1%positive)%Z) by (vm_compute; reflexivity). unfold mixed_spec in B. rewrite B in A. discriminate A.
    + assert (B : Rank2Ex.shown (ropp (quasi_product (K := Alg.Qc_field) mixed_subsets (map (mixed_coef [1; 2; 3; 4; 5; 6; 7; 8; 10]%Z) (seq 0 3)) 15%N)) = (35, 1%positive)%Z) by (vm_compute; reflexivity). rewrite B in A. discriminate A.
Qed.
Print Assumptions C68_mixed_refuted.
(** The overlap with a determinant of fewer electrons is not zero. *)
Theorem C68_electrons_refuted : exists (w : quasi Alg.Qc_field) v, new_tetret 8 8 None None (QArray (qp_params w)) = Ok w /\ has_electrons 15 4 /\ q_overlap t_partitions w 15 = Ok v /\ v <> rO.
Proof.
  assert (A : tt_val 8 8 15 = Ok (1, 1%positive)%Z) by (vm_compute; reflexivity). unfold tt_val in A. destruct (tt_new 8 8) as [w|] eqn:E; [|discriminate A]. cbn [bind] in A.
  destruct (q_overlap t_partitions w 15) as [v|] eqn:Ev; [|discriminate A]. exists w, v. split.
  - unfold tt_new in E. pose proof E as E'. apply new_inv in E' as (h & l & H1 & H2 & H3 & H4 & H5 & H6 & H7 & Ew & _). rewrite Ew. cbn [qp_params]. apply C68_constructor. exists h. repeat split; auto.
  - split; [apply occ_len; reflexivity|]. split; auto. intros ->. discriminate A.
Qed.
Print Assumptions C68_electrons_refuted.

Example C68_ex : tt_val 8 8 255 = Ok (126, 1%positive)%Z /\ tt_spec 8 8 2 255 = Ok (126, 1%positive)%Z /\ tt_val 8 8 15 = Ok (1, 1%positive)%Z /\ tt_spec 8 8 1 15 = Ok (1, 1%positive)%Z /\
  tt_val 4 6 30 = Ok (3, 1%positive)%Z /\ tt_spec 4 6 1 30 = Ok (3, 1%positive)%Z /\ tt_val 8 10 511 = Err ValueError /\ tt_val 4 8 255 = Err IndexError /\ tt_val 4 6 0 = Err IndexError /\ tt_val 4 6 112 = Err ValueError /\ tt_val 4 6 120 = Err ValueError.
Proof. vm_compute. repeat split. Qed.
Example C68_ex_deriv : tt_grad 8 8 255 [0; 69; 70; -1]%Z = Ok [(3, 1%positive); (2, 1%positive); (2, 1%positive); (1, 1%positive)]%Z /\ tt_grad 8 8 15 [0]%Z = Err IndexError /\ tt_grad 4 6 30 [5; 9; 10; 14; -15]%Z = Ok [(0, 1%positive); (0, 1%positive); (1, 1%positive); (0, 1%positive); (0, 1%positive)]%Z.
Proof. vm_compute. repeat split. Qed.
Example C68_ex_default : ground 8 10 = Ok 495%N /\ tt_first 8 10 495 = Ok (1, 1%positive)%Z /\ tt_first 8 10 1005 = Ok (0, 1%positive)%Z.
Proof. vm_compute. repeat split. Qed.
Example C68_ex_subsets : quadruples 5 = [[0; 1; 2; 3]; [0; 1; 2; 4]; [0; 1; 3; 4]; [0; 2; 3; 4]; [1; 2; 3; 4]]%Z /\ q_col_ind (quadruples 6) [1; 2; 3; 4]%Z = Ok 10%nat /\ q_orbsubset (quadruples 6) 14 = Ok [2; 3; 4; 5]%Z /\ q_orbsubset (quadruples 6) 15 = Err ValueError /\
  q_col_ind (quadruples 6) [2; 1; 3; 4]%Z = Err ValueError /\ q_assign_subsets (Some [[3; 1]; [0; 2; 5]]%Z) = Ok [[1; 3]; [0; 2; 5]]%Z /\ q_assign_subsets (Some [[3; 1]; [1; 3]]%Z) = Err ValueError.
Proof. vm_compute. repeat split. Qed.
Example C68_ex_calls : tt_calls [EGet (30%N, None); EAssign QDefault; EGet (30%N, None); EGet (27%N, None); EGet (30%N, Some [10%Z])] =
  Ok [Ok [(3, 1%positive)]; Ok []; Ok [(0, 1%positive)]; Ok [(1, 1%positive)]; Ok [(1, 1%positive)]]%Z.
Proof. vm_compute. reflexivity. Qed.
