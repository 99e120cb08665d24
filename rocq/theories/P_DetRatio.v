(** C67: ratios of products of determinants (fanpy/wfn/quasiparticle/det_ratio.py) *)
From Coq Require Import List ZArith NArith Arith Bool Lia Permutation Sorted.
From Verif Require Import Py BitSpec BitLemmas Fock FockLemmas Slater SlaterBits SlaterBits2 Combos Alg MathTools PermLemmas DetLemmas BicliqueLemmas CILemmas OrbSpec OrbLemmas OrbMain WedgeLemmas
  JacobiSpec WfnCI Geminal GemWf Composite Nonorth NonorthLemmas NonorthMain NonorthValues EqnSpec EqnLemmas Cache CacheSpec P_Cache WfnCached P_CI P_Creation DetRatio DetRatioSpec DetRatioLemmas DetRatioMain DetRatioEx.
Import ListNotations.
Local Open Scope nat_scope.

Section C67.
Context {K : CField}.
Local Open Scope cr_scope.
Add Ring K_ring112 : (rth K).

(** ** construction *)
(** The constructor takes any array, of any length. *)
Theorem C67_constructor : forall rnd ne ns mask l (w : dratio K), new_dratio rnd ne ns mask (DRArray l) = Ok w <->
  (0 < ne)%Z /\ (0 < ns)%Z /\ Z.Even ns /\ mask <> Some [] /\ w = mkdr ne ns (match mask with None => [true; false] | Some m => m end) l.
Proof.
  intros rnd ne ns mask l w. unfold new_dratio, assign_nelec. destruct (Z.leb_spec ne 0); [split; [discriminate|intros (? & _); lia]|]. cbn [bind].
  destruct (assign_nspin ns) as [n|] eqn:E.
  - destruct (assign_nspin_inv _ _ E) as (-> & H1 & k & Ek). cbn [bind]. destruct mask as [[|b m]|]; cbn [dr_assign_mask bind]; [split; [discriminate|intros (_ & _ & _ & X & _); congruence]| |];
      (split; [intros X; apply Ok_inj in X; subst w; repeat split; auto; [exists (Z.of_nat k); lia|discriminate]|intros (_ & _ & _ & _ & ->); reflexivity]).
  - cbn [bind]. split; [discriminate|]. intros (_ & H1 & [k Hk] & _). unfold assign_nspin in E. rewrite (proj2 (Z.leb_gt _ _)) in E by lia. rewrite Hk, Z.mul_comm, Z.mod_mul in E by lia. discriminate.
Qed.
(** What is refused with which exception, for every kind of parameters. *)
Theorem C67_errors : forall rnd ne ns mask ps (e : exn), new_dratio (K := K) rnd ne ns mask ps = Err e ->
  (e = TypeError /\ mask = Some []) \/ (e = ValueError /\ ((ne <= 0)%Z \/ (ns <= 0)%Z \/ ~ Z.Even ns \/ (ps = DRDefault /\ (ns < ne)%Z))).
Proof.
  intros rnd ne ns mask ps e. unfold new_dratio, assign_nelec. destruct (Z.leb_spec ne 0); [intros E; inversion E; auto|]. cbn [bind]. unfold assign_nspin. destruct (Z.leb_spec ns 0); [intros E; inversion E; auto|].
  destruct (Z.eqb_spec (ns mod 2) 1) as [Eo|Eo]; [intros E; inversion E; right; split; auto; do 2 right; left; intros [k Hk]; rewrite Hk, Z.mul_comm, Z.mod_mul in Eo by lia; discriminate|]. cbn [bind].
  destruct mask as [[|b m]|]; cbn [dr_assign_mask bind]; [intros E; inversion E; auto| |]; unfold dr_assign_params; destruct ps as [|l|o]; try discriminate; unfold dr_default; cbn [dr_nelec dr_nspin].
  all: destruct (ground ne ns) as [g|x] eqn:G; [discriminate|]; intros E; cbn [bind] in E; inversion E; subst; right; split; [now apply ground_error in G|].
  all: do 3 right; split; [reflexivity|]; destruct (Z.lt_ge_cases ns ne); auto; exfalso; destruct (ground_defined ne ns) as [g G']; [lia| |congruence].
  all: exists (ns / 2)%Z; pose proof (Z.div_mod ns 2); pose proof (Z.mod_pos_bound ns 2); lia.
Qed.
(** Parameters of another instance are its array. *)
Theorem C67_copy : forall rnd ne ns mask (o : dratio K), new_dratio rnd ne ns mask (DROther o) = new_dratio rnd ne ns mask (DRArray (dr_params o)).
Proof. reflexivity. Qed.
(** Assigning parameters leaves the wavefunction that the constructor makes of them. *)
Theorem C67_assign : forall rnd ne ns mask ps ps' (w : dratio K), new_dratio rnd ne ns mask ps = Ok w -> dr_assign_params rnd w ps' = new_dratio rnd ne ns mask ps'.
Proof.
  intros rnd ne ns mask ps ps' w. unfold new_dratio. destruct (assign_nelec _ _) as [n|]; [|discriminate]. destruct (assign_nspin _) as [s|]; [|discriminate]. destruct (dr_assign_mask mask) as [m|]; [|discriminate]. cbn [bind].
  unfold dr_assign_params at 1. cbn [dr_nelec dr_nspin dr_mask]. intros H. destruct (match ps with DRDefault => _ | DRArray l => _ | DROther o => _ end) as [l|]; [|discriminate]. apply Ok_inj in H. subst w. reflexivity.
Qed.
Lemma new_inv : forall rnd ne ns mask ps (w : dratio K), new_dratio rnd ne ns mask ps = Ok w ->
  (0 < ne)%Z /\ (0 < ns)%Z /\ dr_nelec w = ne /\ dr_nspin w = ns /\ dr_mask w = match mask with None => [true; false] | Some m => m end.
Proof.
  intros rnd ne ns mask ps w H. unfold new_dratio, assign_nelec in H. destruct (Z.leb_spec ne 0); [discriminate|]. cbn [bind] in H. destruct (assign_nspin ns) as [n|] eqn:E; [|discriminate].
  destruct (assign_nspin_inv _ _ E) as (-> & H1 & _). cbn [bind] in H. destruct (dr_assign_mask mask) as [m|] eqn:M; [|discriminate]. cbn [bind] in H. unfold dr_assign_params in H.
  destruct (match ps with DRDefault => _ | DRArray l => _ | DROther o => _ end) as [l|] in H; [|discriminate]. apply Ok_inj in H. subst w. cbn. repeat split; auto. destruct mask as [[|b t]|]; inversion M; reflexivity.
Qed.

(** ** matrices *)
(** The matrices follow each other in the array, each by rows; decompose_index inverts the numbering. *)
Theorem C67_matrix : forall rnd ne ns mask ps (w : dratio K) i, new_dratio rnd ne ns mask ps = Ok w -> (length (dr_mask w) * (Z.to_nat ne * Z.to_nat ns) <= length (dr_params w))%nat ->
  (dr_matrix w i = Err ValueError <-> ~ (0 <= i < Z.of_nat (length (dr_mask w)))%Z) /\
  ((0 <= i < Z.of_nat (length (dr_mask w)))%Z -> exists m, dr_matrix w i = Ok m /\ m_rows m = Z.to_nat ne /\ m_cols m = Z.to_nat ns /\
     forall r c, (r < Z.to_nat ne)%nat -> (c < Z.to_nat ns)%nat -> m_at m r c = entry_at (Z.to_nat ne) (Z.to_nat ns) (dr_params w) (Z.to_nat i) r c /\
       dr_decompose w (i * (ne * ns) + Z.of_nat r * ns + Z.of_nat c)%Z = (i, Z.of_nat r, Z.of_nat c)).
Proof.
  intros rnd ne ns mask ps w i H Len. destruct (new_inv _ _ _ _ _ _ H) as (H1 & H2 & F1 & F2 & F3).
  assert (G : (0 <= i < Z.of_nat (length (dr_mask w)))%Z -> exists m, dr_matrix w i = Ok m /\ m_rows m = Z.to_nat ne /\ m_cols m = Z.to_nat ns /\
     forall r c, (r < Z.to_nat ne)%nat -> (c < Z.to_nat ns)%nat -> m_at m r c = entry_at (Z.to_nat ne) (Z.to_nat ns) (dr_params w) (Z.to_nat i) r c /\
       dr_decompose w (i * (ne * ns) + Z.of_nat r * ns + Z.of_nat c)%Z = (i, Z.of_nat r, Z.of_nat c)).
  { intros B. destruct (matrix_ok w (Z.to_nat i)) as (m & E & R & C & M).
    - unfold enough, dr_num, dr_size, dr_rows, dr_cols. now rewrite F1, F2.
    - unfold dr_num. lia.
    - rewrite Z2Nat.id in E by lia. exists m. unfold dr_rows, dr_cols in *. rewrite F1, F2 in *. repeat split; auto; [rewrite M by auto; unfold E_, dr_rows, dr_cols; now rewrite F1, F2|].
      unfold dr_decompose. rewrite F1, F2. assert (B2 : (0 <= Z.of_nat r * ns + Z.of_nat c < ne * ns)%Z) by (split; [nia|]; assert (Z.of_nat r <= ne - 1)%Z by lia; assert (Z.of_nat c <= ns - 1)%Z by lia; nia).
      replace (i * (ne * ns) + Z.of_nat r * ns + Z.of_nat c)%Z with ((Z.of_nat r * ns + Z.of_nat c) + i * (ne * ns))%Z by ring.
      assert (Q1 : ((Z.of_nat r * ns + Z.of_nat c + i * (ne * ns)) / (ne * ns) = i)%Z) by (rewrite Z.div_add, Z.div_small by nia; reflexivity).
      assert (Q2 : ((Z.of_nat r * ns + Z.of_nat c + i * (ne * ns)) mod (ne * ns) = Z.of_nat r * ns + Z.of_nat c)%Z) by (rewrite Z.mod_add, Z.mod_small by nia; reflexivity).
      rewrite Q1, Q2. apply f_equal2; [apply f_equal2; [reflexivity|]|].
      + rewrite Z.add_comm, Z.div_add, Z.div_small by lia. reflexivity.
      + rewrite Z.add_comm, Z.mod_add, Z.mod_small by lia. reflexivity. }
  split; [|exact G]. split.
  - intros E B. destruct (G B) as (m & E' & _). congruence.
  - intros B. unfold dr_matrix, dr_num. destruct (Z.ltb_spec i 0); [reflexivity|]. rewrite (proj2 (Z.leb_le _ _)) by lia. reflexivity.
Qed.

(** ** overlaps *)
Lemma new_proper : forall rnd ne ns mask ps (w : dratio K) sd, new_dratio rnd ne ns mask ps = Ok w -> has_electrons sd (Z.to_nat ne) -> within (Z.to_nat ns) sd -> proper w sd.
Proof.
  intros rnd ne ns mask ps w sd H El W. destruct (new_inv _ _ _ _ _ _ H) as (_ & _ & F1 & F2 & _). unfold proper, dr_cols, dr_rows, dr_columns. rewrite F1, F2. split; auto. now apply electrons_occ.
Qed.
Lemma new_enough : forall rnd ne ns mask ps (w : dratio K), new_dratio rnd ne ns mask ps = Ok w -> (length (dr_mask w) * (Z.to_nat ne * Z.to_nat ns) <= length (dr_params w))%nat -> enough w.
Proof. intros rnd ne ns mask ps w H L. destruct (new_inv _ _ _ _ _ _ H) as (_ & _ & F1 & F2 & _). unfold enough, dr_num, dr_size, dr_rows, dr_cols. now rewrite F1, F2. Qed.
Lemma new_other : forall rnd ne ns mask ps (w : dratio K) sd, new_dratio rnd ne ns mask ps = Ok w -> (dr_other w sd = false <-> has_electrons sd (Z.to_nat ne)).
Proof.
  intros rnd ne ns mask ps w sd H. destruct (new_inv _ _ _ _ _ _ H) as (H1 & _ & F1 & _). unfold dr_other. rewrite F1, total_occ_length, electrons_occ. destruct (Z.eqb_spec (Z.of_nat (length (occ_indices (Some sd)))) ne); cbn [negb]; split; intros; try lia; try discriminate; reflexivity.
Qed.
Lemma D_slater : forall (w : dratio K) sd i, proper w sd -> D_ w sd i = slater_overlap (dr_rows w) (dr_cols w) (E_ w i) sd.
Proof. intros w sd i [W L]. rewrite slater_det; auto. now apply electrons_occ. Qed.
Lemma product_ext : forall mask b (f g : nat -> K), (forall i, (i < length mask)%nat -> f i = g i) -> product_over mask b f = product_over mask b g.
Proof. intros mask b f g H. unfold product_over. apply prodf_ext. intros i Hi. apply filter_In in Hi as [Hi _]. apply in_seq in Hi. apply H. lia. Qed.
(** The overlap is the product of the overlaps of the determinants of the numerator, divided by that of the
    denominator. *)
Theorem C67_overlap : forall rnd ne ns mask ps (w : dratio K) sd, new_dratio rnd ne ns mask ps = Ok w -> (length (dr_mask w) * (Z.to_nat ne * Z.to_nat ns) <= length (dr_params w))%nat ->
  has_electrons sd (Z.to_nat ne) -> within (Z.to_nat ns) sd ->
  let overlap i := slater_overlap (Z.to_nat ne) (Z.to_nat ns) (entry_at (Z.to_nat ne) (Z.to_nat ns) (dr_params w) i) sd in
  dr_overlap w sd = Ok (product_over (dr_mask w) true overlap * finv (product_over (dr_mask w) false overlap)).
Proof.
  intros rnd ne ns mask ps w sd H Len El W overlap. pose proof (new_proper _ _ _ _ _ _ _ H El W) as P. pose proof (new_enough _ _ _ _ _ _ H Len) as En. unfold dr_overlap. rewrite (proj2 (new_other _ _ _ _ _ _ sd H) El).
  rewrite olp_ok by auto. destruct (new_inv _ _ _ _ _ _ H) as (_ & _ & F1 & F2 & _).
  assert (X : forall i, D_ w sd i = overlap i) by (intros i; rewrite D_slater by auto; unfold overlap, E_, dr_rows, dr_cols; now rewrite F1, F2).
  f_equal. apply f_equal2; [|apply f_equal]; apply product_ext; intros i _; apply X.
Qed.
(** Determinants with another number of electrons have overlap zero; so have the derivatives, but they are then one
    number instead of an array. *)
Theorem C67_electrons_refuted : forall rnd ne ns mask ps (w : dratio K) sd ds, new_dratio rnd ne ns mask ps = Ok w -> ~ has_electrons sd (Z.to_nat ne) ->
  dr_overlap w sd = Ok 0 /\ dr_overlap_deriv w sd ds = Ok (Scalar 0).
Proof.
  intros rnd ne ns mask ps w sd ds H El. unfold dr_overlap, dr_overlap_deriv. destruct (dr_other w sd) eqn:E; [auto|]. apply (new_other _ _ _ _ _ _ sd H) in E. contradiction.
Qed.
(** Orbitals outside of the basis are refused. *)
Theorem C67_outside : forall rnd ne ns mask ps (w : dratio K) sd ds, new_dratio rnd ne ns mask ps = Ok w -> (length (dr_mask w) * (Z.to_nat ne * Z.to_nat ns) <= length (dr_params w))%nat ->
  mask <> Some [] -> has_electrons sd (Z.to_nat ne) -> ~ within (Z.to_nat ns) sd -> dr_overlap w sd = Err IndexError /\ (1 < length (dr_mask w) -> dr_overlap_deriv w sd ds = Err IndexError)%nat.
Proof.
  intros rnd ne ns mask ps w sd ds H Len Nm El W. pose proof (new_enough _ _ _ _ _ _ H Len) as En. unfold dr_overlap, dr_overlap_deriv. rewrite (proj2 (new_other _ _ _ _ _ _ sd H) El).
  destruct (new_inv _ _ _ _ _ _ H) as (H1 & H2 & F1 & F2 & F3).
  assert (B : forall i, (i < dr_num w)%nat -> dr_det w sd i = Err IndexError).
  { intros i Hi. unfold dr_det. destruct (matrix_ok w i En Hi) as (m & -> & R & C & _). cbn [bind]. unfold minor. rewrite R, C.
    rewrite (proj2 (forallb_forall (fun i => Nat.ltb i (dr_rows w)) _)) by (intros x Hx; apply in_seq in Hx; apply Nat.ltb_lt; lia). cbn [negb].
    destruct (forallb (fun j => Nat.ltb j (dr_cols w)) (dr_columns sd)) eqn:E; [|reflexivity]. exfalso. apply W. intros j Hj. rewrite forallb_forall in E. apply occ_indices_In in Hj. apply E in Hj. apply Nat.ltb_lt in Hj. unfold dr_cols in Hj. now rewrite F2 in Hj. }
  assert (Hn : (0 < dr_num w)%nat) by (unfold dr_num; rewrite F3; destruct mask as [[|b m]|]; cbn; [congruence|lia|lia]). split.
  - unfold dr_olp. destruct (dr_num w) as [|n] eqn:En'; [lia|]. cbn [seq mapM]. rewrite B by lia. reflexivity.
  - intros Ln. unfold dr_dolp. fold (dr_num w) in Ln. destruct (dr_num w) as [|[|n]] eqn:En'; [lia|lia|]. cbn [seq loop]. unfold dr_block. rewrite En'. cbn [seq]. unfold without at 1. cbn [filter Nat.eqb negb mapM]. rewrite B by lia. reflexivity.
Qed.
(** The number of parameters is not checked: with too few of them every overlap with a proper determinant fails. *)
Theorem C67_short_refuted : forall rnd ne ns mask l (w : dratio K) sd, new_dratio rnd ne ns mask (DRArray l) = Ok w -> (length l < length (dr_mask w) * (Z.to_nat ne * Z.to_nat ns))%nat ->
  has_electrons sd (Z.to_nat ne) -> within (Z.to_nat ns) sd -> dr_overlap w sd = Err ValueError.
Proof.
  intros rnd ne ns mask l w sd H Len El W. pose proof (new_proper _ _ _ _ _ _ _ H El W) as P. unfold dr_overlap. rewrite (proj2 (new_other _ _ _ _ _ _ sd H) El). destruct (new_inv _ _ _ _ _ _ H) as (H1 & H2 & F1 & F2 & F3).
  assert (El' : dr_params w = l) by (apply C67_constructor in H as (_ & _ & _ & _ & ->); reflexivity).
  assert (S0 : dr_size w = (Z.to_nat ne * Z.to_nat ns)%nat) by (unfold dr_size, dr_rows, dr_cols; now rewrite F1, F2). fold (dr_num w) in Len. rewrite <- S0 in Len.
  assert (B : forall i, (i < dr_num w)%nat -> (exists y, dr_det w sd i = Ok y) \/ dr_det w sd i = Err ValueError).
  { intros i Hi. unfold dr_det, dr_matrix. rewrite (proj2 (Z.ltb_ge _ _)), (proj2 (Z.leb_gt _ _)) by lia. cbn [orb]. destruct (Nat.eqb _ _); [|now right]. left. cbn [bind]. eexists. apply minor_ok; cbn [m_rows m_cols].
    - intros x Hx. apply in_seq in Hx. lia.
    - intros j Hj. now apply (columns_bound w sd).
    - rewrite seq_length. symmetry. apply P. }
  unfold dr_olp. rewrite (mapM_error _ ValueError _ (dr_num w - 1)%nat); [reflexivity|intros i Hi; apply in_seq in Hi; apply B; lia| |].
  - apply in_seq. destruct (dr_num w) as [|n]; [cbn in Len; lia|lia].
  - unfold dr_det, dr_matrix. assert (0 < dr_num w)%nat by (destruct (dr_num w); [cbn in Len; lia|lia]). rewrite (proj2 (Z.ltb_ge _ _)), (proj2 (Z.leb_gt _ _)) by lia. cbn [orb]. rewrite Nat2Z.id, El'.
    replace (dr_num w - 1 + 1)%nat with (dr_num w) by lia. unfold slice. rewrite firstn_length, skipn_length. rewrite (proj2 (Nat.eqb_neq _ _)); [reflexivity|]. nia.
Qed.

(** ** default parameters *)
Lemma flat_nth : forall {A B} (f : A -> list B) k (l : list A) i j a b, (forall x, In x l -> length (f x) = k) -> (i < length l)%nat -> (j < k)%nat -> nth (i * k + j) (flat_map f l) b = nth j (f (nth i l a)) b.
Proof.
  intros A B f k l. induction l as [|x l IH]; intros i j a b H Hi Hj; [cbn in Hi; lia|]. cbn [flat_map]. assert (Lx : length (f x) = k) by (apply H; now left). destruct i as [|i].
  - cbn [Nat.mul nth]. rewrite app_nth1 by lia. reflexivity.
  - rewrite app_nth2 by (rewrite Lx; cbn [Nat.mul]; lia). rewrite Lx. replace (S i * k + j - k)%nat with (i * k + j)%nat by (cbn [Nat.mul]; lia). cbn [nth]. apply IH; auto; [|cbn in Hi; lia]. intros y Hy. apply H. now right.
Qed.
Lemma flat_length : forall {A B} (f : A -> list B) k (l : list A), (forall x, In x l -> length (f x) = k) -> length (flat_map f l) = (length l * k)%nat.
Proof. intros A B f k l. induction l as [|x l IH]; intros H; [reflexivity|]. cbn [flat_map length Nat.mul]. rewrite app_length, H, IH; [lia| |now left]. intros y Hy. apply H. now right. Qed.
Lemma nth_map_seq : forall (f : nat -> K) n c, (c < n)%nat -> nth c (map f (seq 0 n)) 0 = f c.
Proof. intros f n c H. rewrite (nth_indep _ 0 (f 0%nat)) by (now rewrite map_length, seq_length). rewrite map_nth, seq_nth by auto. reflexivity. Qed.
Lemma detR_unit : forall cs : list nat, NoDup cs -> detR (map (fun j c : nat => if Nat.eqb j c then (1 : K) else 0) cs) cs = 1.
Proof.
  induction cs as [|j cs IH]; intros N; [reflexivity|]. inversion N as [|? ? N1 N2]; subst. cbn [map detR].
  rewrite (sumf_ext _ (fun p => fst p * ((if Nat.eqb (fst (snd p)) j then 1 else 0) * detR (map (fun j c : nat => if Nat.eqb j c then (1 : K) else 0) cs) (snd (snd p))))) by (intros p _; now rewrite (Nat.eqb_sym j)).
  pose proof (spicks_at (K := K) [] j cs (fun _ l => detR (map (fun j c : nat => if Nat.eqb j c then (1 : K) else 0) cs) l) (fun x => x) N1) as X. cbn [length app] in X. rewrite X, IH by auto. replace (m1pow 0) with (1 : K) by reflexivity. ring.
Qed.
Definition at_one (cs : list nat) (r c : nat) : K := if match nth_error cs r with Some j => Nat.eqb j c | None => false end then 1 else 0.
Lemma default_entries : forall rnd ne ns mask l (g : N) i r c, dr_default (K := K) rnd ne ns mask = Ok l -> ground ne ns = Ok g -> (i < length mask)%nat -> (r < Z.to_nat ne)%nat -> (c < Z.to_nat ns)%nat ->
  length l = (length mask * (Z.to_nat ne * Z.to_nat ns))%nat /\
  ((nth i mask false = true \/ In c (occ_indices (Some g))) -> entry_at (Z.to_nat ne) (Z.to_nat ns) l i r c = at_one (occ_indices (Some g)) r c).
Proof.
  intros rnd ne ns mask l g i r c H G Hi Hr Hc. unfold dr_default in H. rewrite G in H. cbn [bind] in H. apply Ok_inj in H.
  assert (Lf : forall m : nat -> nat -> K, length (flat_map (fun r => map (m r) (seq 0 (Z.to_nat ns))) (seq 0 (Z.to_nat ne))) = (Z.to_nat ne * Z.to_nat ns)%nat).
  { intros m. rewrite (flat_length _ (Z.to_nat ns)); [now rewrite seq_length|]. intros x _. now rewrite map_length, seq_length. }
  subst l. split; [apply flat_length; intros b _; apply Lf|]. intros Hm. unfold entry_at. rewrite <- Nat.add_assoc. rewrite (flat_nth _ (Z.to_nat ne * Z.to_nat ns) mask i _ false); auto; [|nia].
  rewrite (flat_nth _ (Z.to_nat ns) (seq 0 (Z.to_nat ne)) r c 0%nat); [|intros x _; now rewrite map_length, seq_length|now rewrite seq_length|auto].
  rewrite nth_map_seq, seq_nth by auto. cbn [Nat.add].
  destruct (nth i mask false); [reflexivity|]. destruct Hm as [?|Hm]; [discriminate|]. unfold dr_columns. rewrite (proj2 (existsb_In c _) Hm). reflexivity.
Qed.
(** The default parameters exist if and only if the electrons fit. The overlap of the ground state determinant is then one and,
    unless all matrices are in the denominator, all the others are zero. *)
Theorem C67_default : forall rnd ne ns mask, (0 < ne)%Z -> (0 < ns)%Z -> Z.Even ns -> mask <> Some [] ->
  ((exists w : dratio K, new_dratio rnd ne ns mask DRDefault = Ok w) <-> (ne <= ns)%Z) /\
  forall w : dratio K, new_dratio rnd ne ns mask DRDefault = Ok w -> exists g, ground ne ns = Ok g /\ length (dr_params w) = (length (dr_mask w) * (Z.to_nat ne * Z.to_nat ns))%nat /\ dr_overlap w g = Ok 1 /\
    (In true (dr_mask w) -> forall sd, within (Z.to_nat ns) sd -> sd <> g -> dr_overlap w sd = Ok 0).
Proof.
  intros rnd ne ns mask H1 H2 H3 H4. split.
  - split.
    + intros [w H]. destruct (Z.le_gt_cases ne ns) as [|L]; auto. exfalso. unfold new_dratio in H. destruct (assign_nelec _ _) as [n|] eqn:E; [|discriminate]. unfold assign_nelec in E. destruct (_ <=? _)%Z; [discriminate|]. apply Ok_inj in E. subst n.
      destruct (assign_nspin ns) as [n|] eqn:E; [|discriminate]. destruct (assign_nspin_inv _ _ E) as (-> & _). destruct (dr_assign_mask mask); [|discriminate]. cbn [bind] in H. unfold dr_assign_params, dr_default in H. cbn [dr_nelec dr_nspin dr_mask] in H.
      destruct (ground ne ns) as [g|] eqn:G; [|discriminate]. apply ground_value in G. lia.
    + intros L. destruct (ground_defined ne ns) as [g G]; [lia|auto|]. unfold new_dratio, assign_nelec. rewrite (proj2 (Z.leb_gt _ _)) by lia. cbn [bind]. unfold assign_nspin. rewrite (proj2 (Z.leb_gt _ _)) by lia.
      destruct H3 as [k ->]. rewrite Z.mul_comm, Z.mod_mul by lia. rewrite Z.mul_comm. cbn [Z.eqb bind]. destruct mask as [[|b m]|]; cbn [dr_assign_mask bind]; [congruence| |]; unfold dr_assign_params, dr_default; cbn [dr_nelec dr_nspin]; rewrite G; cbn [bind]; eexists; reflexivity.
  - intros w H. destruct (new_inv _ _ _ _ _ _ H) as (_ & _ & F1 & F2 & F3).
    assert (Ed : dr_default rnd ne ns (dr_mask w) = Ok (dr_params w)).
    { pose proof H as H'. unfold new_dratio in H'. destruct (assign_nelec _ _) as [n|] eqn:E; [|discriminate]. unfold assign_nelec in E. destruct (_ <=? _)%Z; [discriminate|]. apply Ok_inj in E. subst n.
      destruct (assign_nspin ns) as [n|] eqn:E; [|discriminate]. destruct (assign_nspin_inv _ _ E) as (-> & _). destruct (dr_assign_mask mask) as [m|]; [|discriminate]. cbn [bind] in H'. unfold dr_assign_params in H'. cbn [dr_nelec dr_nspin dr_mask] in H'.
      destruct (dr_default rnd ne ns m) as [l|] eqn:D; [|discriminate]. apply Ok_inj in H'. subst w. exact D. }
    pose proof Ed as Ed'. unfold dr_default in Ed'. destruct (ground ne ns) as [g|] eqn:G; [|discriminate]. clear Ed'. exists g. split; [reflexivity|].
    assert (Ln : (0 < length (dr_mask w))%nat) by (rewrite F3; destruct mask as [[|b m]|]; cbn; [congruence|lia|lia]).
    assert (Len : length (dr_params w) = (length (dr_mask w) * (Z.to_nat ne * Z.to_nat ns))%nat) by (apply (default_entries rnd ne ns (dr_mask w) (dr_params w) g 0%nat 0%nat 0%nat); auto; lia). split; [exact Len|].
    destruct (ground_electrons _ _ _ G) as [Eg Wg].
    pose proof (new_enough _ _ _ _ _ _ H (Nat.eq_le_incl _ _ (eq_sym Len))) as En. split.
    + assert (W : within (Z.to_nat ns) g) by (intros i Hi; destruct (Nat.lt_ge_cases i (Z.to_nat ns)); auto; rewrite Wg in Hi by auto; discriminate).
      pose proof (new_proper _ _ _ _ _ _ _ H Eg W) as P. unfold dr_overlap. rewrite (proj2 (new_other _ _ _ _ _ _ g H) Eg), olp_ok by auto. f_equal.
      assert (D1 : forall i, (i < dr_num w)%nat -> D_ w g i = 1).
      { intros i Hi. rewrite <- (detR_unit (occ_indices (Some g))) by (apply increasing_NoDup, occ_indices_increasing). unfold D_. replace (occ_indices (Some g)) with (map (fun r => nth r (occ_indices (Some g)) 0%nat) (seq 0 (length (occ_indices (Some g))))) at 1 by apply map_nth_seq.
        rewrite map_map. pose proof (proj2 P) as L. unfold dr_columns in *. rewrite L. apply detR_map_ext. intros r c Hr Hc. apply in_seq in Hr. unfold E_, dr_rows, dr_cols in *. rewrite F1, F2 in *.
        rewrite (proj2 (default_entries rnd ne ns (dr_mask w) (dr_params w) g i r c Ed G Hi ltac:(lia) (W c (proj1 (occ_indices_In _ _) Hc)))) by auto. unfold at_one. rewrite (nth_error_nth' _ 0%nat) by lia. reflexivity. }
      transitivity (prodf (fun _ => 1 : K) (filter (fun i => Bool.eqb (nth i (dr_mask w) false) true) (seq 0 (length (dr_mask w)))) * finv (prodf (fun _ => 1 : K) (filter (fun i => Bool.eqb (nth i (dr_mask w) false) false) (seq 0 (length (dr_mask w)))))).
      * apply f_equal2; [|apply f_equal]; apply product_ext; intros i Hi; now apply D1.
      * rewrite !prodf_one by auto. apply f_inv_r. apply f_one.
    + intros Ht sd W Ne. unfold dr_overlap. destruct (dr_other w sd) eqn:Eo; [reflexivity|]. apply (new_other _ _ _ _ _ _ sd H) in Eo. pose proof (new_proper _ _ _ _ _ _ _ H Eo W) as P. rewrite olp_ok by auto. f_equal.
      destruct (In_nth _ _ false Ht) as (i & Hi & Ei).
      assert (Ex : exists c, In c (occ_indices (Some sd)) /\ ~ In c (occ_indices (Some g))).
      { destruct (existsb (fun c => negb (existsb (Nat.eqb c) (occ_indices (Some g)))) (occ_indices (Some sd))) eqn:X.
        - apply existsb_exists in X as (c & Hc & X). exists c. split; auto. intros Y. rewrite (proj2 (existsb_In c _) Y) in X. discriminate.
        - exfalso. apply Ne. assert (I : incl (occ_indices (Some sd)) (occ_indices (Some g))).
          { intros c Hc. destruct (existsb (Nat.eqb c) (occ_indices (Some g))) eqn:Y; [now apply existsb_In|]. exfalso. assert (existsb (fun c => negb (existsb (Nat.eqb c) (occ_indices (Some g)))) (occ_indices (Some sd)) = true); [|congruence]. apply existsb_exists. exists c. now rewrite Y. }
          apply electrons_occ in Eo, Eg. assert (I' : incl (occ_indices (Some g)) (occ_indices (Some sd))) by (apply NoDup_length_incl; auto; [apply increasing_NoDup, occ_indices_increasing|lia]).
          apply N.bits_inj. intros k. rewrite <- (N2Nat.id k). fold (bit sd (N.to_nat k)). fold (bit g (N.to_nat k)). apply eq_true_iff_eq. rewrite <- !occ_indices_In. split; auto. }
      destruct Ex as (c & Hc & Nc).
      assert (D0 : D_ w sd i = 0).
      { unfold D_. rewrite detR_transpose by (rewrite seq_length; symmetry; apply P). destruct (in_split _ _ Hc) as (a & b & Es). unfold dr_columns. rewrite Es, map_app. cbn [map]. apply detR_row_zero. intros r Hr. apply in_seq in Hr. unfold E_, dr_rows, dr_cols in *. rewrite F1, F2 in *.
        rewrite (proj2 (default_entries rnd ne ns (dr_mask w) (dr_params w) g i r c Ed G Hi ltac:(lia) (W c (proj1 (occ_indices_In _ _) Hc)))) by auto. unfold at_one. destruct (nth_error (occ_indices (Some g)) r) as [j|] eqn:Ej; [|reflexivity].
        apply nth_error_In in Ej. destruct (Nat.eqb_spec j c) as [->|]; [contradiction|reflexivity]. }
      rewrite (product_split w sd true i Hi), Ei, D0. cbn [Bool.eqb]. ring.
Qed.

(** ** histories *)
Theorem C67_program : forall (w : dratio K) sd ds,
  value dr_olp dr_dolp w (dr_get w (sd, None)) = (do v <- dr_overlap w sd; Ok (Scalar v)) /\
  value dr_olp dr_dolp w (dr_get w (sd, Some ds)) = dr_overlap_deriv w sd ds.
Proof.
  intros w sd ds. split; unfold dr_get, dr_overlap, dr_overlap_deriv; cbn [fst snd]; destruct (dr_other w sd); cbn [value]; try reflexivity.
Qed.
(** All answers are those of the parameters at that time, as long as the mask is not changed and the caches are not enabled again. *)
Theorem C67_history : forall rnd (w : dratio K) memory h, (forall d, ~ In (EEnable d) h) -> (forall q, ~ In (ESet q) h) ->
  agrees dr_olp dr_dolp dr_get (dr_assign_params rnd) set_any w h (dr_run rnd (constructed dr_nparams w memory true) h).
Proof.
  intros rnd w memory h He Hs. unfold constructed.
  assert (C : forall n, (n <= 1)%nat -> careful n h).
  { intros n Hn. clear w. induction h as [|e h IH]; [exact I|]. assert (X : careful n h) by (apply IH; intros ? ?; [eapply He|eapply Hs]; right; eassumption).
    destruct e; cbn [careful]; auto; exfalso; [eapply Hs|eapply He]; left; reflexivity. }
  pose proof (C48_transparent N.eqb N.eqb N.eqb_eq N.eqb_eq dr_olp dr_dolp dr_get (dr_assign_params rnd) set_any dr_nparams w memory (EEnable true :: h)) as T.
  cbn [run step agrees] in T. apply T. cbn [careful]. apply C. lia.
Qed.
(** Changing the mask leaves the caches filled. *)
Theorem C67_stale_refuted : forall rnd (w w' : dratio K) m sd v, dr_other w sd = false -> dr_olp w sd = Ok v -> dr_set_mask m w = Ok w' ->
  dr_run rnd (constructed dr_nparams w None true) [EGet (sd, None); ESet (dr_set_mask m); EGet (sd, None)] = [AGet (Ok (Scalar v)); ADone; AGet (Ok (Scalar v))].
Proof.
  intros rnd w w' m sd v O E A. assert (O' : dr_other w' sd = false) by (unfold dr_set_mask in A; destruct (dr_assign_mask m); [|discriminate]; apply Ok_inj in A; subst w'; exact O).
  unfold dr_run, constructed. cbn -[dr_olp dr_other dr_set_mask]. unfold dr_get. cbn [fst snd]. rewrite O. cbn -[dr_olp dr_other dr_set_mask]. rewrite E. cbn -[dr_olp dr_other dr_set_mask]. unfold set_any at 1. rewrite A. cbn -[dr_olp dr_other dr_set_mask].
  rewrite O'. cbn -[dr_olp dr_other dr_set_mask]. rewrite N.eqb_refl. reflexivity.
Qed.

(** ** derivatives *)
Variable Der : (K -> K) -> K -> K -> Prop.
Variable Cal : calculus Der.
Lemma finv_mul : forall a b : K, a <> 0 -> b <> 0 -> finv (a * b) = finv a * finv b.
Proof.
  intros a b Ha Hb. symmetry. apply f_inv_unique; [now apply f_mul_nz|]. transitivity ((finv a * a) * (finv b * b)); [ring|]. rewrite !f_inv by auto. ring.
Qed.
Lemma digits : forall i n m, (0 < m)%nat -> (0 < n)%nat -> exists d r c, i = (d * (n * m) + r * m + c)%nat /\ (r < n)%nat /\ (c < m)%nat.
Proof.
  intros i n m Hm Hn. exists (i / (n * m))%nat, ((i mod (n * m)) / m)%nat, ((i mod (n * m)) mod m)%nat. assert (n * m <> 0)%nat by nia. split; [|split].
  - rewrite (Nat.div_mod i (n * m)) at 1 by auto. rewrite (Nat.div_mod (i mod (n * m)) m) at 1 by lia. nia.
  - apply Nat.div_lt_upper_bound; [lia|]. rewrite (Nat.mul_comm m n). now apply Nat.mod_upper_bound.
  - apply Nat.mod_upper_bound. lia.
Qed.
(** The derivatives returned are those of the overlap wherever it is defined: with respect to entries of numerators,
    of denominators, of columns that are not occupied, and of superfluous parameters. *)
Theorem C67_derivative : forall rnd ne ns mask ps (w : dratio K) sd ds is, new_dratio rnd ne ns mask ps = Ok w -> (length (dr_mask w) * (Z.to_nat ne * Z.to_nat ns) <= length (dr_params w))%nat ->
  has_electrons sd (Z.to_nat ne) -> within (Z.to_nat ns) sd ->
  product_over (dr_mask w) false (fun i => slater_overlap (Z.to_nat ne) (Z.to_nat ns) (entry_at (Z.to_nat ne) (Z.to_nat ns) (dr_params w) i) sd) <> 0 ->
  Forall2 (selects (length (dr_params w))) ds is ->
  exists g, dr_overlap_deriv w sd ds = Ok (Array g) /\
    Forall2 (fun i d => Der (fun y => okv (dr_overlap (mkdr ne ns (dr_mask w) (upd (dr_params w) i y)) sd)) (nth i (dr_params w) 0) d) is g.
Proof.
  intros rnd ne ns mask ps w sd ds is H Len El W Nz Sel. pose proof (new_proper _ _ _ _ _ _ _ H El W) as P. pose proof (new_enough _ _ _ _ _ _ H Len) as En. destruct (new_inv _ _ _ _ _ _ H) as (H1 & H2 & F1 & F2 & F3).
  destruct (dolp_ok w sd En P) as (g & Eg & Lg & Gs & Gz & Gx).
  assert (Nz' : product_over (dr_mask w) false (D_ w sd) <> 0).
  { intros E. apply Nz. rewrite <- E. apply product_ext. intros i _. rewrite D_slater by auto. unfold E_, dr_rows, dr_cols. now rewrite F1, F2. }
  assert (Pu : forall i y, mkdr ne ns (dr_mask w) (upd (dr_params w) i y) = put w i y) by (intros i y; unfold put; now rewrite F1, F2).
  assert (Ho : forall i y, dr_other (put w i y) sd = false) by (intros i y; unfold dr_other; cbn [dr_nelec put]; exact (proj2 (new_other _ _ _ _ _ _ sd H) El)).
  assert (Pp : forall i y, proper (put w i y) sd) by (intros i y; exact P).
  assert (V : forall i y, okv (dr_overlap (put w i y) sd) = product_over (dr_mask w) true (D_ (put w i y) sd) * finv (product_over (dr_mask w) false (D_ (put w i y) sd))).
  { intros i y. unfold dr_overlap. rewrite Ho, olp_ok by (auto using put_enough). reflexivity. }
  assert (Dr : forall i, (i < length (dr_params w))%nat -> Der (fun y => okv (dr_overlap (put w i y) sd)) (nth i (dr_params w) 0) (nth i g 0)).
  { intros i Hi.
    assert (Const : (forall y d, (d < dr_num w)%nat -> D_ (put w i y) sd d = D_ w sd d) -> nth i g 0 = 0 -> Der (fun y => okv (dr_overlap (put w i y) sd)) (nth i (dr_params w) 0) (nth i g 0)).
    { intros Eq ->. eapply (cal_ext Der Cal (fun _ => product_over (dr_mask w) true (D_ w sd) * finv (product_over (dr_mask w) false (D_ w sd)))); [|apply (cal_const Der Cal)].
      intros y. rewrite V. apply f_equal2; [|apply f_equal]; apply product_ext; intros d Hd; symmetry; now apply Eq. }
    destruct (digits i (dr_rows w) (dr_cols w)) as (d & r & c & Ei & Hr & Hc); [unfold dr_cols; lia|unfold dr_rows; lia|].
    assert (Ei' : i = index w d r c) by exact Ei. destruct (Nat.lt_ge_cases d (dr_num w)) as [Hd|Hd].
    - destruct (in_dec Nat.eq_dec c (dr_columns sd)) as [Ic|Nc].
      + assert (Aff : forall y, D_ (put w i y) sd d = D_ w sd d + (y - E_ w d r c) * cof w sd d r c) by (intros y; rewrite Ei'; now apply put_det).
        assert (Rest : forall y b, rest (put w i y) sd b d = rest w sd b d) by (intros y b; rewrite Ei'; now apply put_rest).
        assert (Ex : nth i (dr_params w) 0 = E_ w d r c) by (rewrite Ei; reflexivity). rewrite Ex. replace (nth i g 0) with (slope w sd d r c) by (rewrite Ei'; symmetry; now apply Gs).
        assert (DA : Der (fun y => D_ (put w i y) sd d) (E_ w d r c) (cof w sd d r c)).
        { eapply (cal_ext Der Cal (fun y => D_ w sd d + cof w sd d r c * (y - E_ w d r c))); [intros y; rewrite Aff; ring|]. eapply (der_eq Der); [apply (cal_add Der Cal); [apply (cal_const Der Cal)|apply (der_scale Der Cal); apply (der_sub Der Cal); [apply (cal_id Der Cal)|apply (cal_const Der Cal)]]|]. ring. }
        assert (AtX : D_ (put w i (E_ w d r c)) sd d = D_ w sd d) by (rewrite Aff; ring).
        assert (Sp : forall y b, product_over (dr_mask w) b (D_ (put w i y) sd) = (if Bool.eqb (nth d (dr_mask w) false) b then D_ (put w i y) sd d else 1) * rest w sd b d).
        { intros y b. rewrite <- (Rest y b). apply (product_split (put w i y) sd b d). exact Hd. }
        pose proof (product_split w sd false d Hd) as Sf. unfold slope. destruct (nth d (dr_mask w) false); cbn [Bool.eqb] in *.
        * eapply (cal_ext Der Cal (fun y => (rest w sd true d * finv (rest w sd false d)) * D_ (put w i y) sd d)).
          { intros y. rewrite V, !Sp. cbn [Bool.eqb]. replace (1 * rest w sd false d) with (rest w sd false d) by ring. ring. }
          eapply (der_eq Der); [apply (der_scale Der Cal); exact DA|]. ring.
        * assert (N1 : D_ w sd d <> 0) by (intros E; apply Nz'; rewrite Sf, E; ring). assert (N2 : rest w sd false d <> 0) by (intros E; apply Nz'; rewrite Sf, E; ring).
          eapply (cal_ext Der Cal (fun y => rest w sd true d * finv (rest w sd false d * D_ (put w i y) sd d))).
          { intros y. rewrite V, !Sp. cbn [Bool.eqb]. replace (D_ (put w i y) sd d * rest w sd false d) with (rest w sd false d * D_ (put w i y) sd d) by ring. ring. }
          eapply (der_eq Der).
          { apply (der_scale Der Cal). apply (cal_inv Der Cal (fun y => rest w sd false d * D_ (put w i y) sd d)); [rewrite AtX; now apply f_mul_nz|]. apply (der_scale Der Cal). exact DA. }
          cbv beta. rewrite AtX. rewrite !finv_mul by auto. set (fr := finv (rest w sd false d)). set (fd := finv (D_ w sd d)).
          transitivity (rest w sd true d * - (cof w sd d r c * (fr * rest w sd false d) * fr * fd * fd)); [ring|]. unfold fr at 1. rewrite f_inv by auto. ring.
      + apply Const; [|rewrite Ei'; apply Gz; auto]. intros y d' Hd'. rewrite Ei'. destruct (Nat.eq_dec d' d) as [->|Nd]; now apply put_det.
    - apply Const.
      + intros y d' Hd'. unfold D_. apply detR_map_ext. intros x j Hx Hj. apply in_seq in Hx. pose proof (columns_bound w sd j P Hj) as Bj. change (dr_rows (put w i y)) with (dr_rows w) in *. unfold E_, entry_at. cbn [dr_params put].
        change (dr_rows (put w i y)) with (dr_rows w). change (dr_cols (put w i y)) with (dr_cols w). apply upd_other. intros E.
        assert (d' * (dr_rows w * dr_cols w) + x * dr_cols w + j < dr_num w * (dr_rows w * dr_cols w))%nat by (apply index_bound; auto; lia). nia.
      + apply Gx. rewrite Ei. unfold dr_size. pose proof (Nat.mul_le_mono_r _ _ (dr_rows w * dr_cols w) Hd). lia. }
  assert (T : exists l, dr_select w g ds = Ok l /\ Forall2 (fun i d => d = nth i g 0) is l).
  { unfold dr_select. rewrite Lg. clear - Sel. induction Sel as [|d i ds is H Sel IH]; [exists []; split; [reflexivity|constructor]|]. destruct IH as (l & E & F). exists (nth i g 0 :: l). cbn [mapM]. apply np_index_ok in H. rewrite H. cbn [bind]. rewrite E. cbn [bind]. split; [reflexivity|]. constructor; auto. }
  destruct T as (l & E & F). exists l. split.
  - unfold dr_overlap_deriv. rewrite (proj2 (new_other _ _ _ _ _ _ sd H) El), Eg. cbn [bind]. rewrite E. reflexivity.
  - assert (Fi : Forall (fun i => (i < length (dr_params w))%nat) is) by (clear - Sel; induction Sel as [|d i ? ? H]; constructor; auto; apply H).
    clear - F Fi Dr Pu Cal. induction F as [|i d is l Hd F IH]; [constructor|]. inversion Fi; subst. constructor; [|now apply IH].
    eapply (cal_ext Der Cal); [|apply Dr; auto]. intros y. cbv beta. rewrite Pu. reflexivity.
Qed.
End C67.

From Coq Require Import QArith.
From Verif Require Import Rank2Ex.
Print Assumptions C67_constructor.
Print Assumptions C67_errors.
Print Assumptions C67_copy.
Print Assumptions C67_assign.
Print Assumptions C67_matrix.
Print Assumptions C67_overlap.
Print Assumptions C67_electrons_refuted.
Print Assumptions C67_outside.
Print Assumptions C67_short_refuted.
Print Assumptions C67_default.
Print Assumptions C67_program.
Print Assumptions C67_history.
Print Assumptions C67_stale_refuted.
Print Assumptions C67_derivative.

(** two matrices of two electrons in four spin orbitals, and three of them *)
Example C67_overlap_ex : dr_value None dr16 5 = Ok (2%Z, 7%positive) /\ dr_one dr16 0 5 = (2%Z, 1%positive) /\ dr_one dr16 1 5 = (7%Z, 1%positive) /\
  dr_value (Some [true; false; false]) dr24 6 = Ok (2%Z, 1%positive) /\ map (fun i => dr_one dr24 i 6) [0; 1; 2]%nat = [(4%Z, 1%positive); (1%Z, 1%positive); (2%Z, 1%positive)].
Proof. repeat split; vm_compute; reflexivity. Qed.
Example C67_derivative_ex : dr_grad None dr16 5 [0; 1; 2; 8; 14; -1]%Z =
  Ok [(2%Z, 7%positive); (0%Z, 1%positive); ((-4)%Z, 7%positive); ((-10)%Z, 49%positive); ((-4)%Z, 49%positive); (0%Z, 1%positive)].
Proof. vm_compute. reflexivity. Qed.
Example C67_derivative_denominator_ex : dr_grad (Some [true; false; false]) dr24 6 [1; 9; 18]%Z = Ok [(1%Z, 1%positive); ((-10)%Z, 1%positive); (1%Z, 1%positive)].
Proof. vm_compute. reflexivity. Qed.
Example C67_electrons_ex : dr_value None dr16 7 = Ok (0%Z, 1%positive) /\ dr_grad None dr16 7 [0; 1; 2]%Z = Ok [(0%Z, 1%positive)].
Proof. split; vm_compute; reflexivity. Qed.
Example C67_errors_ex : dr_value None dr16 17 = Err IndexError /\ dr_value (Some [true; false; false]) dr16 5 = Err ValueError /\ dr_value (Some []) dr16 5 = Err TypeError.
Proof. repeat split; vm_compute; reflexivity. Qed.
Example C67_matrix_ex : dr_entries None dr16 1 = Ok (map (fun z => (z, 1%positive)) [2; 1; 1; 0; 3; 4; 5; 1]%Z) /\ dr_entries None dr16 2 = Err ValueError /\ dr_entries None dr16 (-1) = Err ValueError.
Proof. repeat split; vm_compute; reflexivity. Qed.
(** without a numerator the default is not the ground state *)
Example C67_default_ex : map (dr_first None) [5; 6]%N = [Ok (1%Z, 1%positive); Ok (0%Z, 1%positive)] /\ map (dr_first (Some [false; false])) [5; 6]%N = [Ok (1%Z, 1%positive); Ok (1%Z, 4%positive)].
Proof. split; vm_compute; reflexivity. Qed.
(** the last call but one is answered with the old mask: 7/4 is right *)
Example C67_history_ex : dr_calls dr16 [EGet (5%N, None); EAssign (DRArray (map zq dr16')); EGet (5%N, None); EGet (5%N, Some [0; 8]%Z); ESet (dr_set_mask (Some [false; true])); EGet (5%N, None); EGet (6%N, None)] =
  Ok [Ok [(2%Z, 7%positive)]; Ok []; Ok [(4%Z, 7%positive)]; Ok [(2%Z, 7%positive); ((-20)%Z, 49%positive)]; Ok []; Ok [(4%Z, 7%positive)]; Ok [(1%Z, 4%positive)]] /\
  dr_value (Some [false; true]) dr16' 5 = Ok (7%Z, 4%positive).
Proof. split; vm_compute; reflexivity. Qed.
