(** Property C63: the wavefunction with two rotated orbitals (fanpy/wfn/composite/jacobi.py). *)
From Coq Require Import Reals List ZArith NArith Arith Bool Lia QArith Qcanon.
From Verif Require Import Py BitSpec BitLemmas Fock FockLemmas Slater SlaterBits SlaterBits2 SignLemmas PermSpec Alg WfnCI Composite Cache CacheSpec CacheLemmas WfnCached
  FockInner OrbSpec OrbLemmas OrbMain Jacobi JacobiSpec JacobiLemmas JacobiMain JacobiEx EqnSpec EqnLemmas EqnReal P_Cache.
Import ListNotations.
Local Open Scope nat_scope.

Section C63.
Context {K : CRing}.
Local Open Scope cr_scope.
Add Ring K_ring87 : (rth K).
(** The constructor accepts exactly the pairs of orbitals that can be rotated and stores them in increasing order. *)
Theorem C63_constructor : forall ne nspin c a o l (w : jac K), new_jacobi ne nspin c a o l = Ok w <->
  (0 < ne)%Z /\ (0 < nspin)%Z /\ Z.Even nspin /\ c_nelec c = ne /\
  exists t i j, (o = None /\ t = Restricted \/ o = Some (OWord t)) /\ l = Some [i; j] /\ rotatable nspin t i j /\
    w = mkjac ne nspin c (match a with None => 0 | Some x => x end) t (Z.to_nat (Z.min i j)) (Z.to_nat (Z.max i j)).
Proof.
  intros ne nspin c a o l w.
  assert (S : assign_nelec CIGeneral ne = if (ne <=? 0)%Z then Err ValueError else Ok ne) by reflexivity.
  assert (Ev : Z.Even nspin <-> (nspin mod 2)%Z <> 1%Z).
  { rewrite <- Z.even_spec, Zeven_mod. pose proof (Z.mod_pos_bound nspin 2). destruct (Zeq_bool (nspin mod 2) 0) eqn:B.
    - apply Zeq_bool_eq in B. split; auto; lia.
    - apply Zeq_bool_neq in B. split; [discriminate|lia]. }
  split.
  - intros E. unfold new_jacobi in E. rewrite S in E. destruct (Z.leb_spec ne 0); [discriminate|]. cbn [bind] in E.
    unfold assign_nspin in E. destruct (Z.leb_spec nspin 0); [discriminate|]. destruct (Z.eqb_spec (nspin mod 2) 1); [discriminate|]. cbn [bind] in E.
    unfold one_assign_wfn in E. destruct (Z.eqb_spec (c_nelec c) ne); [|discriminate]. cbn [negb bind] in E.
    destruct (j_assign_orbtype o) as [t|] eqn:T; [|discriminate]. cbn [bind] in E.
    destruct (j_assign_indices nspin t l) as [pq|] eqn:I; [|discriminate]. cbn [bind] in E. apply Ok_inj in E. subst w.
    apply assign_indices_ok in I as (i & j & -> & R & ->). repeat split; auto; [now apply Ev|]. exists t, i, j. split; [|auto].
    destruct o as [[t'|]|]; cbn in T; try discriminate; apply Ok_inj in T; subst; auto.
  - intros (H1 & H2 & H3 & H4 & t & i & j & Ho & -> & R & ->). unfold new_jacobi. rewrite S. destruct (Z.leb_spec ne 0); [lia|]. cbn [bind].
    unfold assign_nspin. destruct (Z.leb_spec nspin 0); [lia|]. destruct (Z.eqb_spec (nspin mod 2) 1); [exfalso; apply Ev in H3; auto|]. cbn [bind].
    unfold one_assign_wfn. rewrite H4, Z.eqb_refl. cbn [negb bind].
    replace (j_assign_orbtype o) with (@Ok orbtype t) by (destruct Ho as [[-> ->]| ->]; reflexivity). cbn [bind].
    rewrite (proj2 (assign_indices_ok nspin t (Some [i; j]) (Z.to_nat (Z.min i j), Z.to_nat (Z.max i j)))) by eauto. reflexivity.
Qed.

Ltac decide_row := rewrite ?entry_row by lia;
  repeat match goal with
  | |- context [Nat.ltb ?x ?y] => destruct (Nat.ltb_spec x y); try lia
  | |- context [Nat.eqb ?x ?y] => destruct (Nat.eqb_spec x y); try lia
  end; reflexivity.
Variable (cos sin : K -> K).
(** The overlap is that of the determinant on which the rotation of the two orbitals has acted. *)
Theorem C63_overlap : forall ne nspin c a o l (w : jac K) f sd, new_jacobi ne nspin c a o l = Ok w -> (forall m, get_olp c m = Ok (f m)) ->
  j_overlap cos sin w sd = Ok (through f (rotated_sd (j_orb w) (Z.to_nat (nspin / 2)) (j_p w) (j_q w) (cos (j_angle w)) (sin (j_angle w)) sd)).
Proof.
  intros ne nspin c a o l w f sd E F. pose proof (new_jacobi_ok _ _ _ _ _ _ _ E) as OK.
  apply C63_constructor in E as (_ & _ & _ & _ & t & i & j & _ & _ & _ & ->). unfold j_overlap.
  rewrite (j_olp_value cos sin _ f) by (cbn [j_wfn]; auto). rewrite through_rotated_sd. reflexivity.
Qed.
(** Which is the determinant made of the orbitals that jacobi_rotation gives. *)
Theorem C63_orbitals : forall ne nspin c a o l (w : jac K) ms f sd rows, new_jacobi ne nspin c a o l = Ok w -> (forall m, get_olp c m = Ok (f m)) ->
  cos (j_angle w) * cos (j_angle w) + sin (j_angle w) * sin (j_angle w) = 1 ->
  jacobi_rotation cos sin w = Ok ms -> occupies sd rows -> within (Z.to_nat nspin) sd ->
  j_overlap cos sin w sd = Ok (through f (det_of (spin_matrix (j_orb w) (Z.to_nat (nspin / 2)) (Z.to_nat (nspin / 2)) (map snd ms)) (seq 0 (Z.to_nat nspin)) rows)).
Proof.
  intros ne nspin c a o l w ms f sd rows E F U J Occ W. pose proof (new_jacobi_ok _ _ _ _ _ _ _ E) as OK.
  assert (En : j_nspin w = nspin) by (apply C63_constructor in E as (_ & _ & _ & _ & t & i & j & _ & _ & _ & ->); reflexivity).
  assert (Ec : j_wfn w = c) by (apply C63_constructor in E as (_ & _ & _ & _ & t & i & j & _ & _ & _ & ->); reflexivity).
  unfold j_overlap. rewrite (j_olp_value cos sin w f) by (rewrite ?Ec; auto). f_equal. unfold rot_sd.
  destruct OK as (H1 & H2 & H3 & R). unfold j_ns in *. rewrite En in *. set (ns := Z.to_nat (nspin / 2)) in *.
  assert (Nn : Z.to_nat nspin = (2 * ns)%nat) by lia. rewrite Nn in *.
  set (cc := cos (j_angle w)) in *. set (ss := sin (j_angle w)) in *. set (p := j_p w) in *. set (q := j_q w) in *.
  assert (As : ascending rows) by exact (proj2 Occ). assert (Er : ofrows rows = sd) by (now apply occupies_ofrows).
  assert (Hr : forall k, In k rows -> (k < 2 * ns)%nat) by (intros k Hk; apply W; now apply Occ).
  unfold jacobi_rotation in J. fold p q in J. unfold j_ns in J. rewrite En in J. fold ns in J. fold cc ss in J. unfold rotatable in R. destruct (j_orb w) eqn:O.
  - destruct (_ && _)%bool in J; [|discriminate]. apply Ok_inj in J. subst ms. cbn [map snd spin_matrix].
    rewrite (det_two _ _ p q (p + ns) (q + ns) cc ss f rows); auto; try lia; [now rewrite Er|].
    intros k Hk. apply Hr in Hk. split; [lia|]. split; intros Lk j Hj; unfold OrbSpec.blocks; decide_row.
  - assert (Hq : (q < 2 * ns)%nat /\ (ns <= p \/ q < ns)%nat).
    { destruct (_ && _)%bool eqn:B in J; [|discriminate]. apply andb_true_iff in B as [B1 B2]. apply Nat.ltb_lt in B1, B2.
      destruct (Nat.leb_spec ns p), (Nat.leb_spec ns q); cbn [andb] in B2; lia. }
    rewrite (det_plain _ _ p q cc ss f rows); auto; try lia; [now rewrite Er|].
    intros k Hk. apply Hr in Hk. split; [lia|]. intros j Hj. destruct Hq as [Hq [Hp|Hp]].
    + rewrite !(proj2 (Nat.leb_le _ _)) in J by lia. cbn [andb] in J. rewrite !(proj2 (Nat.ltb_lt _ ns)) in J by lia. cbn [andb] in J.
      rewrite !(proj2 (Nat.ltb_ge _ ns)) in J by lia. cbn [andb] in J. apply Ok_inj in J. subst ms. cbn [map snd spin_matrix]. unfold OrbSpec.blocks, identity. decide_row.
    + rewrite !(proj2 (Nat.leb_gt ns _)) in J by lia. cbn [andb] in J. rewrite !(proj2 (Nat.ltb_lt _ ns)) in J by lia. cbn [andb] in J.
      apply Ok_inj in J. subst ms. cbn [map snd spin_matrix]. unfold OrbSpec.blocks, identity. decide_row.
  - destruct (_ && _)%bool in J; [|discriminate]. apply Ok_inj in J. subst ms. cbn [map snd spin_matrix].
    rewrite (det_plain _ _ p q cc ss f rows); auto; try lia; [now rewrite Er|].
    intros k Hk. apply Hr in Hk. split; [lia|]. intros j Hj. rewrite entry_row by lia. reflexivity.
Qed.
Lemma entry_sum : forall p q n i c s (g : nat -> K), (p < q)%nat -> (q < n)%nat -> (i < n)%nat ->
  sumf (fun k => entry p q c s i k * g k) (seq 0 n) =
    if Nat.eqb i p then c * g p + s * g q else if Nat.eqb i q then - s * g p + c * g q else g i.
Proof.
  intros p q n i c s g L Q Hi.
  assert (T : forall x y, (forall k, entry p q c s i k = if Nat.eqb k p then x else if Nat.eqb k q then y else 0) ->
    sumf (fun k => entry p q c s i k * g k) (seq 0 n) = x * g p + y * g q).
  { intros x y E. rewrite (sumf_support _ [p; q]).
    - rewrite !sumf_cons, !E, !Nat.eqb_refl. rewrite (proj2 (Nat.eqb_neq q p)) by lia. cbn. ring.
    - apply seq_NoDup.
    - constructor; [cbn; intros [?|[]]; lia|]. repeat constructor. cbn. auto.
    - intros k [<-|[<-|[]]]; apply in_seq; lia.
    - intros k _. rewrite E. destruct (Nat.eqb_spec k p); [right; left; auto|]. destruct (Nat.eqb_spec k q); [right; right; left; auto|]. left. ring. }
  destruct (Nat.eqb_spec i p) as [->|Np].
  - apply T. intros k. rewrite entry_row, Nat.eqb_refl by lia. reflexivity.
  - destruct (Nat.eqb_spec i q) as [->|Nq].
    + apply T. intros k. rewrite entry_row, Nat.eqb_refl by lia. rewrite (proj2 (Nat.eqb_neq q p)) by lia. reflexivity.
    + rewrite (sumf_single _ _ i); [|apply seq_NoDup|apply in_seq; lia|].
      * rewrite entry_row by lia. rewrite (proj2 (Nat.eqb_neq i p)), (proj2 (Nat.eqb_neq i q)), Nat.eqb_refl by auto. ring.
      * intros k _ H. rewrite entry_row by lia. rewrite (proj2 (Nat.eqb_neq i p)), (proj2 (Nat.eqb_neq i q)), (proj2 (Nat.eqb_neq i k)) by auto. ring.
Qed.
(** The matrices are orthogonal. *)
Theorem C63_rotation : forall (w : jac K) ms n M i j, (j_p w < j_q w)%nat -> jacobi_rotation cos sin w = Ok ms -> In (n, M) ms ->
  cos (j_angle w) * cos (j_angle w) + sin (j_angle w) * sin (j_angle w) = 1 -> (i < n)%nat -> (j < n)%nat ->
  sumf (fun k => M i k * M j k) (seq 0 n) = if Nat.eqb i j then 1 else 0.
Proof.
  intros w ms n M i j L J H U Hi Hj. unfold jacobi_rotation in J.
  set (ns := Z.to_nat (j_ns w)) in *. set (cc := cos (j_angle w)) in *. set (ss := sin (j_angle w)) in *.
  assert (I : sumf (fun k => identity (K := K) i k * identity j k) (seq 0 n) = if Nat.eqb i j then 1 else 0).
  { rewrite (sumf_single _ _ i); [|apply seq_NoDup|apply in_seq; lia|].
    - unfold identity. rewrite Nat.eqb_refl, (Nat.eqb_sym j i). destruct (Nat.eqb i j); ring.
    - intros k _ Hk. unfold identity. rewrite (proj2 (Nat.eqb_neq i k)) by auto. ring. }
  assert (R : forall p q, (p < q)%nat -> (q < n)%nat -> sumf (fun k => entry p q cc ss i k * entry p q cc ss j k) (seq 0 n) = if Nat.eqb i j then 1 else 0).
  { intros p q Lp Lq. rewrite (entry_sum p q n i cc ss (entry p q cc ss j)) by auto. rewrite !entry_row by lia. rewrite !Nat.eqb_refl.
    rewrite (proj2 (Nat.eqb_neq q p)) by lia.
    destruct (Nat.eqb_spec i p), (Nat.eqb_spec i q), (Nat.eqb_spec j p), (Nat.eqb_spec j q), (Nat.eqb_spec i j); try lia; subst;
      rewrite ?Nat.eqb_refl in *; rewrite ?U; try ring;
      try (rewrite (proj2 (Nat.eqb_neq _ _)) by auto; rewrite ?(proj2 (Nat.eqb_neq _ _)) by auto; ring);
      rewrite <- U; ring. }
  destruct (j_orb w).
  - destruct (_ && _)%bool eqn:B in J; [|discriminate]. apply andb_true_iff in B as [_ B]. apply Nat.ltb_lt in B. apply Ok_inj in J. subst ms.
    destruct H as [E|[]]. injection E as <- <-. apply R; auto.
  - destruct (_ && _)%bool eqn:B in J; [|discriminate]. apply andb_true_iff in B as [_ B]. apply Nat.ltb_lt in B.
    assert (Q : (j_p w < ns -> j_q w < ns -> (if (ns <=? j_p w)%nat && (ns <=? j_q w)%nat then j_q w - ns else j_q w) = j_q w)%nat).
    { intros. rewrite (proj2 (Nat.leb_gt ns (j_p w))) by lia. reflexivity. }
    assert (L' : ((if (ns <=? j_p w) && (ns <=? j_q w) then j_p w - ns else j_p w) < (if (ns <=? j_p w) && (ns <=? j_q w) then j_q w - ns else j_q w))%nat).
    { destruct (Nat.leb_spec ns (j_p w)), (Nat.leb_spec ns (j_q w)); cbn [andb]; lia. }
    destruct (_ && _)%bool in J; apply Ok_inj in J; subst ms; destruct H as [E|[E|[]]]; injection E as <- <-; auto.
  - destruct (_ && _)%bool eqn:B in J; [|discriminate]. apply andb_true_iff in B as [_ B]. apply Nat.ltb_lt in B. apply Ok_inj in J. subst ms.
    destruct H as [E|[]]. injection E as <- <-. apply R; auto.
Qed.
(** Without an angle the overlaps are those of the wrapped wavefunction. *)
Theorem C63_zero : forall ne nspin c o l (w : jac K) sd v, new_jacobi ne nspin c None o l = Ok w -> cos 0 = 1 -> sin 0 = 0 ->
  (forall m, exists x, get_olp c m = Ok x) -> get_olp c sd = Ok v -> j_overlap cos sin w sd = Ok v.
Proof.
  intros ne nspin c o l w sd v E C S F Hv.
  set (f := fun m => match get_olp c m with Ok x => x | Err _ => 0 end).
  assert (F' : forall m, get_olp c m = Ok (f m)) by (intros m; unfold f; destruct (F m) as [x ->]; reflexivity).
  assert (V : v = f sd) by (unfold f; now rewrite Hv).
  rewrite (C63_overlap _ _ _ _ _ _ _ f sd E F'). rewrite through_rotated_sd, V. f_equal.
  assert (A : j_angle w = 0) by (apply C63_constructor in E as (_ & _ & _ & _ & t & i & j & _ & _ & _ & ->); reflexivity). rewrite A, C, S.
  assert (G : forall p q (g : N -> K) n, rotf p q 1 0 g n = g n) by (intros; unfold rotf; ring).
  unfold rot_sd. destruct (j_orb w); rewrite !G; reflexivity.
Qed.
(** Rotating twice the same orbitals rotates them by the sum of the angles. *)
Theorem C63_compose : forall ne nspin c a b o l i mem (w1 w2 w : jac K) f sd,
  (forall x y, cos (x + y) = cos x * cos y - sin x * sin y) -> (forall x y, sin (x + y) = sin x * cos y + cos x * sin y) ->
  (forall m, get_olp c m = Ok (f m)) ->
  new_jacobi ne nspin c (Some a) o l = Ok w1 -> new_jacobi ne nspin (as_comp cos sin i mem w1) (Some b) o l = Ok w2 ->
  new_jacobi ne nspin c (Some (a + b)) o l = Ok w ->
  j_overlap cos sin w2 sd = j_overlap cos sin w sd.
Proof.
  intros ne nspin c a b o l i mem w1 w2 w f sd HC HS F E1 E2 E.
  assert (F1 : forall m, get_olp (as_comp cos sin i mem w1) m = Ok (through f (rotated_sd (j_orb w1) (Z.to_nat (nspin / 2)) (j_p w1) (j_q w1) (cos (j_angle w1)) (sin (j_angle w1)) m))).
  { intros m. pose proof (C63_overlap _ _ _ _ _ _ _ f m E1 F) as T. unfold get_olp, as_comp. cbn [c_olp c_params hd]. destruct w1. exact T. }
  rewrite (C63_overlap _ _ _ _ _ _ _ _ sd E2 F1), (C63_overlap _ _ _ _ _ _ _ f sd E F). f_equal.
  pose proof (new_jacobi_ok _ _ _ _ _ _ _ E) as OK. pose proof (restricted_lt w OK) as RL.
  apply C63_constructor in E as (_ & _ & _ & _ & t & x & y & Ho & Hl & R & Ew).
  apply C63_constructor in E1 as (_ & _ & _ & _ & t1 & x1 & y1 & Ho1 & Hl1 & R1 & Ew1).
  apply C63_constructor in E2 as (_ & _ & _ & _ & t2 & x2 & y2 & Ho2 & Hl2 & R2 & Ew2).
  rewrite Hl in Hl1, Hl2. injection Hl1 as <- <-. injection Hl2 as <- <-.
  assert (T1 : t1 = t) by (destruct Ho as [[? ?]|?], Ho1 as [[? ?]|?]; congruence). assert (T2 : t2 = t) by (destruct Ho as [[? ?]|?], Ho2 as [[? ?]|?]; congruence).
  rewrite Ew1, Ew2, Ew. rewrite Ew in RL. unfold j_ns in RL. cbn [j_orb j_p j_q j_angle j_nspin] in *. subst t1 t2. rewrite through_rotated_sd.
  destruct (rotatable_min _ _ _ _ R) as [L _]. set (p := Z.to_nat (Z.min x y)) in *. set (q := Z.to_nat (Z.max x y)) in *. set (ns := Z.to_nat (nspin / 2)) in *.
  rewrite through_rotated_sd. rewrite HC, HS.
  assert (G : forall p' q' n (g : N -> K), (p' < q')%nat -> rotf p' q' (cos b) (sin b) (rotf p' q' (cos a) (sin a) g) n =
     rotf p' q' (cos a * cos b - sin a * sin b) (sin a * cos b + cos a * sin b) g n).
  { intros p' q' n g Lp. rewrite rotf_rotf by auto. f_equal; ring. }
  unfold rot_sd. destruct t.
  - specialize (RL eq_refl).
    rewrite (rotf_ext p q (cos b) (sin b) _ (rotf p q (cos a) (sin a) (rotf (p + ns) (q + ns) (cos b) (sin b) (rotf (p + ns) (q + ns) (cos a) (sin a) f)))).
    + rewrite G by auto. apply rotf_ext. intros n. apply G. lia.
    + intros n. transitivity (rotf (p + ns) (q + ns) (cos b) (sin b) (rotf p q (cos a) (sin a) (rotf (p + ns) (q + ns) (cos a) (sin a) f)) n).
      * apply rotf_ext. intros m. rewrite through_rotated_sd. reflexivity.
      * apply rotf_comm; lia.
  - rewrite (rotf_ext p q (cos b) (sin b) _ (rotf p q (cos a) (sin a) f)) by (intros; rewrite through_rotated_sd; reflexivity). now apply G.
  - rewrite (rotf_ext p q (cos b) (sin b) _ (rotf p q (cos a) (sin a) f)) by (intros; rewrite through_rotated_sd; reflexivity). now apply G.
Qed.
(** Restricted and unrestricted rotations keep the numbers of alpha and of beta electrons. *)
Theorem C63_spin : forall ne nspin c a o l (w : jac K) f na nb, new_jacobi ne nspin c a o l = Ok w -> (forall m, get_olp c m = Ok (f m)) ->
  j_orb w <> Generalized -> (Z.of_nat (j_q w) < nspin)%Z ->
  let ns := Z.to_nat (nspin / 2) in
  (forall m, ~ (alphas ns m = na /\ betas ns (2 * ns) m = nb) -> f m = 0) ->
  forall sd, ~ (alphas ns sd = na /\ betas ns (2 * ns) sd = nb) -> j_overlap cos sin w sd = Ok 0.
Proof.
  intros ne nspin c a o l w f na nb E F G Q ns Z0 sd N0. rewrite (C63_overlap _ _ _ _ _ _ _ f sd E F), through_rotated_sd. f_equal.
  pose proof (new_jacobi_ok _ _ _ _ _ _ _ E) as (O1 & O2 & O3 & O4).
  assert (En : j_nspin w = nspin) by (apply C63_constructor in E as (_ & _ & _ & _ & t & i & j & _ & _ & _ & ->); reflexivity).
  unfold j_ns in *. rewrite En in *. fold ns.
  assert (T : forall p q cc ss (g : N -> K), (p < q)%nat -> (q < 2 * ns)%nat -> (q < ns \/ ns <= p)%nat ->
    (forall m, ~ (alphas ns m = na /\ betas ns (2 * ns) m = nb) -> g m = 0) ->
    forall m, ~ (alphas ns m = na /\ betas ns (2 * ns) m = nb) -> rotf p q cc ss g m = 0).
  { intros p q cc ss g L L2 S Hg m Hm. rewrite rotf_msign by auto. destruct (Bool.eqb _ _) eqn:B; [now apply Hg|]. apply eqb_false_iff in B.
    rewrite (Hg m Hm). rewrite (Hg (flip (flip m p) q)); [ring|]. unfold alphas, betas in *.
    rewrite !nbelow_move; auto; try lia.
    - rewrite !(proj2 (Nat.ltb_lt _ _)) by lia. reflexivity.
    - destruct S; [rewrite !(proj2 (Nat.ltb_lt _ _)) by lia|rewrite !(proj2 (Nat.ltb_ge _ _)) by lia]; reflexivity. }
  assert (Hns : Z.of_nat ns = (nspin / 2)%Z) by (unfold ns; lia). clearbody ns. unfold rotatable in O4. destruct (j_orb w); [| |congruence].
  - unfold rot_sd. apply T; auto; try lia. apply T; auto; try lia.
  - unfold rot_sd. apply T; auto; try lia.
Qed.
(** Derivatives: of this wavefunction only, with respect to its one parameter. *)
Theorem C63_arguments : forall (w : jac K) sd t d,
  (forall i, t = TWfn i -> j_overlap_deriv cos sin w sd t d = Err (if Nat.eqb i (c_id (j_wfn w)) then NotImplementedError else ValueError)) /\
  (forall i, t = TSelf -> In i d -> i <> 0%Z -> j_overlap_deriv cos sin w sd t d = Err ValueError) /\
  (forall l, j_overlap_deriv cos sin w sd t d = Ok l -> t = TSelf /\ length l = length d /\ Forall (fun i => i = 0%Z) d).
Proof.
  intros w sd t d. unfold j_overlap_deriv, j_deriv_check. repeat split.
  - intros i ->. destruct (Nat.eqb _ _); reflexivity.
  - intros i -> Hi N0. replace (existsb _ d) with true; [reflexivity|]. symmetry. apply existsb_exists. exists i. split; auto.
    destruct (Z.ltb_spec i 0), (Z.leb_spec 1 i); auto; lia.
  - destruct t as [|i]; [reflexivity|]. destruct (Nat.eqb _ _) in H; discriminate.
  - destruct t as [|i]; [|destruct (Nat.eqb _ _) in H; discriminate]. destruct (existsb _ d); [discriminate|]. cbn [bind] in H.
    destruct (j_dolp cos sin w sd); [|discriminate]. apply Ok_inj in H. subst l. apply map_length.
  - destruct t as [|i]; [|destruct (Nat.eqb _ _) in H; discriminate]. destruct (existsb _ d) eqn:E; [discriminate|]. apply Forall_forall. intros i Hi.
    destruct (Z.eq_dec i 0); auto. exfalso. assert (X : true = false); [|discriminate]. rewrite <- E. symmetry. apply existsb_exists. exists i. split; auto.
    destruct (Z.ltb_spec i 0), (Z.leb_spec 1 i); auto; lia.
Qed.
(** What the instance answers without caches are the overlaps and their derivatives; assign_params leaves the
    wavefunction that the constructor makes from the new angle. *)
Theorem C63_program : forall (w : jac K) sd t d,
  value (j_olp cos sin) (j_dolp cos sin) w (j_get w (sd, None)) = (do v <- j_overlap cos sin w sd; Ok (Scalar v)) /\
  value (j_olp cos sin) (j_dolp cos sin) w (j_get w (sd, Some (t, d))) = (do l <- j_overlap_deriv cos sin w sd t d; Ok (Array l)).
Proof.
  intros w sd t d. split; unfold j_get; cbn [fst snd value].
  - unfold j_overlap. destruct (j_olp cos sin w sd); reflexivity.
  - unfold j_overlap_deriv. destruct (j_deriv_check w t d); [|reflexivity]. cbn [bind value]. destruct (j_dolp cos sin w sd); reflexivity.
Qed.
Theorem C63_assign : forall ne nspin (c : comp K) a b o l w, new_jacobi ne nspin c a o l = Ok w -> j_assign_params w b = new_jacobi ne nspin c b o l.
Proof.
  intros ne nspin c a b o l w. unfold new_jacobi.
  destruct (assign_nelec _ _) as [ne'|]; [|discriminate]. destruct (assign_nspin _) as [ns'|]; [|discriminate]. cbn [bind].
  destruct (one_assign_wfn _ _) as [c'|]; [|discriminate]. cbn [bind]. destruct (j_assign_orbtype _) as [t|]; [|discriminate]. cbn [bind].
  destruct (j_assign_indices _ _ _) as [pq|]; [|discriminate]. cbn [bind]. intros H. apply Ok_inj in H. subst w. reflexivity.
Qed.
(** Interleavings of get_overlap, assign_params and clear_cache answer as without caches. *)
Theorem C63_history : forall (w : jac K) memory h, (forall d, ~ In (EEnable d) h) -> (forall q, ~ In (ESet q) h) ->
  agrees (j_olp cos sin) (j_dolp cos sin) j_get j_assign_params set_any w h (j_run cos sin (j_object w memory) h).
Proof.
  intros w memory h He Hs.
  assert (C : forall n, (n <= 1)%nat -> careful n h).
  { intros n Hn. clear w. induction h as [|e h IH]; [exact I|]. assert (X : careful n h) by (apply IH; intros ? ?; [eapply He|eapply Hs]; right; eassumption).
    destruct e; cbn [careful]; auto; exfalso; [eapply Hs|eapply He]; left; reflexivity. }
  unfold j_run, j_object, constructed.
  pose proof (C48_transparent N.eqb N.eqb N.eqb_eq N.eqb_eq (j_olp cos sin) (j_dolp cos sin) j_get j_assign_params set_any (fun _ : jac K => 1%Z) w memory (EEnable true :: h)) as T.
  cbn [run step agrees] in T. apply T. cbn [careful]. apply C. lia.
Qed.
(** Findings.  The other setters, and assign_params of the wrapped wavefunction, leave the caches filled. *)
Theorem C63_stale_refuted : forall (w w' : jac K) change sd v, j_olp cos sin w sd = Ok v -> change w = Ok w' ->
  j_run cos sin (j_object w None) [EGet (sd, None); ESet change; EGet (sd, None)] = [AGet (Ok (Scalar v)); ADone; AGet (Ok (Scalar v))].
Proof.
  intros w w' change sd v E A. unfold j_run, j_object, constructed. cbn. rewrite E. cbn. unfold set_any at 1. rewrite A. cbn. rewrite N.eqb_refl. reflexivity.
Qed.
(** Unrestricted rotations of orbitals that do not exist are accepted; only jacobi_rotation fails. *)
Theorem C63_unrestricted_refuted : forall ne nspin (c : comp K) a, (0 < ne)%Z -> (0 < nspin)%Z -> Z.Even nspin -> c_nelec c = ne ->
  exists w, new_jacobi ne nspin c a (Some (OWord Unrestricted)) (Some [nspin; nspin + 1]%Z) = Ok w /\
    jacobi_rotation cos sin w = Err IndexError.
Proof.
  intros ne nspin c a H1 H2 H3 H4. eexists. split.
  - apply C63_constructor. repeat split; auto. exists Unrestricted, nspin, (nspin + 1)%Z. split; [now right|]. split; [reflexivity|]. split; [|reflexivity].
    unfold rotatable. assert (nspin / 2 <= nspin)%Z by (apply Z.div_le_upper_bound; lia). repeat split; try lia.
  - unfold jacobi_rotation. cbn [j_orb j_p j_q j_nspin j_ns]. rewrite Z.min_l, Z.max_r by lia. unfold j_ns. cbn [j_nspin].
    assert (B : (0 <= nspin / 2)%Z) by (apply Z.div_pos; lia). pose proof (Z.div_mod nspin 2). destruct H3 as [m ->].
    replace (2 * m / 2)%Z with m in * by (symmetry; rewrite Z.mul_comm; apply Z.div_mul; lia).
    rewrite !(proj2 (Nat.leb_le _ _)) by lia. cbn [andb]. rewrite (proj2 (Nat.ltb_ge _ _)) by lia. reflexivity.
Qed.
End C63.

(** More findings.  assign_orbtype does not look at the indices: what the constructor refuses can be reached, and
    jacobi_rotation then fails. *)
Theorem C63_orbtype_refuted : exists w w', ex_new (ex_wfn 1 [exq 1 1]) Generalized 0 3 = Ok w /\ j_set_orbtype (Some (OWord Restricted)) w = Ok w' /\
  j_orb w' = Restricted /\ ex_new (ex_wfn 1 [exq 1 1]) Restricted 0 3 = Err ValueError /\ jacobi_rotation ex_cos ex_sin w' = Err IndexError.
Proof. do 2 eexists. repeat split; vm_compute; reflexivity. Qed.
(** The overlap is not what the documentation of the class says. *)
Theorem C63_documented_refuted : exists w sd, ex_new (ex_wfn 1 [exq 1 1]) Generalized 0 3 = Ok w /\ (forall m, get_olp (j_wfn w) m = Ok (ex_f m)) /\
  match j_overlap ex_cos ex_sin w sd with
  | Ok v => ex_same v (documented (K := Qc_ring) (j_p w) (j_q w) (ex_cos (j_angle w)) (ex_sin (j_angle w)) ex_f sd) = false
  | Err _ => False
  end.
Proof. eexists. exists 5%N. repeat split; vm_compute; reflexivity. Qed.
(** The property seniority is that of the wrapped wavefunction for restricted and unrestricted orbitals, but the
    rotation does not keep the seniority. *)
Theorem C63_seniority_refuted : forall t, t <> Generalized -> exists w, ex_new ex_pair t 0 1 = Ok w /\
  (forall v sd, get_olp ex_pair sd = Ok v -> ex_same v (exq 0 1) = false -> unpaired 2 sd = 0) /\
  j_seniority w (Some 0%Z) = Some 0%Z /\ unpaired 2 6 = 2 /\
  match j_overlap ex_cos ex_sin w 6 with Ok v => ex_same v (exq 0 1) = false | Err _ => False end.
Proof.
  intros t Ht. assert (T : forall v sd, get_olp ex_pair sd = Ok v -> ex_same v (exq 0 1) = false -> unpaired 2 sd = 0).
  { intros v sd E N0. unfold get_olp, ex_pair in E. cbn [c_olp c_params] in E. apply Ok_inj in E. subst v.
    destruct (N.eqb_spec sd 5); [subst; reflexivity|]. destruct (N.eqb_spec sd 10); [subst; reflexivity|]. vm_compute in N0. discriminate. }
  destruct t; [| |congruence]; eexists; (split; [vm_compute; reflexivity|]); (split; [exact T|]); repeat split; vm_compute; reflexivity.
Qed.

Section C63_deriv.
Context {F : CField}.
Local Notation K := (fring F).
Local Open Scope cr_scope.
Add Ring K_ring88 : (rth K).
Variable (cos sin : K -> K) (Der : (K -> K) -> K -> K -> Prop).
Hypothesis C : calculus Der.
Hypothesis Dcos : forall x, Der cos x (- sin x).
Hypothesis Dsin : forall x, Der sin x (cos x).
(** The derivative is that of the overlap as a function of the angle. *)
Theorem C63_derivative : forall ne nspin c a o l (w : jac K) f sd d, new_jacobi ne nspin c (Some a) o l = Ok w -> (forall m, get_olp c m = Ok (f m)) ->
  Forall (fun i => i = 0%Z) d ->
  exists g, j_overlap_deriv cos sin w sd TSelf d = Ok (repeat g (length d)) /\
    Der (fun x => match new_jacobi ne nspin c (Some x) o l with Ok u => okv (j_overlap cos sin u sd) | Err _ => 0 end) a g.
Proof.
  intros ne nspin c a o l w f sd d E H Hd. pose proof (new_jacobi_ok _ _ _ _ _ _ _ E) as OK.
  pose proof (restricted_lt w OK) as RL. pose proof OK as (O1 & O2 & O3 & O4).
  assert (Ew : exists t p q, w = mkjac ne nspin c a t p q /\ forall x, new_jacobi ne nspin c (Some x) o l = Ok (mkjac ne nspin c x t p q)).
  { apply C63_constructor in E as (H1 & H2 & H3 & H4 & t & i & j & Ho & Hl & R & Ew). do 3 eexists. split; [exact Ew|]. intros x. apply C63_constructor.
    repeat split; auto. exists t, i, j. auto. }
  destruct Ew as (t & p & q & Ew & En).
  set (ns := Z.to_nat (nspin / 2)).
  assert (D : exists g, j_dolp cos sin w sd = Ok g /\ Der (fun x => rot_sd t ns p q (cos x) (sin x) f sd) a g).
  { assert (Fw : forall m, get_olp (j_wfn w) m = Ok (f m)) by (intros; rewrite Ew; apply H).
    assert (Sg : forall x y, Der (fun z => single (K := K) f sd x y (cos z) (sin z)) a (single f sd x y (- sin a) (cos a))).
    { intros x y. unfold single. apply (cal_add Der C).
      - apply (cal_ext Der C (fun z => f sd * cos z)); [intros; ring|]. eapply der_eq; [apply (der_scale Der C); apply Dcos|ring].
      - apply (cal_ext Der C (fun z => (eps (bit sd x) * (msign sd x y * f (flip (flip sd x) y))) * sin z)); [intros; ring|].
        eapply der_eq; [apply (der_scale Der C); apply Dsin|ring]. }
    assert (Dcc : Der (fun z => cos z * cos z) a (- ((1 + 1) * cos a * sin a))) by (eapply der_eq; [apply (cal_mul Der C); apply Dcos|ring]).
    assert (Dcs : Der (fun z => cos z * sin z) a (cos a * cos a - sin a * sin a)) by (eapply der_eq; [apply (cal_mul Der C); [apply Dcos|apply Dsin]|ring]).
    assert (Dss : Der (fun z => sin z * sin z) a ((1 + 1) * sin a * cos a)) by (eapply der_eq; [apply (cal_mul Der C); apply Dsin|ring]).
    assert (Pl : j_orb w <> Restricted -> exists g, j_dolp cos sin w sd = Ok g /\ Der (fun x => rotf p q (cos x) (sin x) f sd) a g).
    { intros NR. unfold j_dolp. rewrite (branches_plain w f Fw O3) by auto. rewrite Ew in O3 |- *. cbn [j_p j_q j_angle] in *.
      destruct (Bool.eqb (bit sd p) (bit sd q)) eqn:B.
      - exists 0. split; [reflexivity|]. apply (cal_ext Der C (fun _ => f sd)); [|apply (cal_const Der C)]. intros y. rewrite rotf_msign, B by auto. reflexivity.
      - eexists. split; [reflexivity|]. eapply (cal_ext Der C); [|apply Sg]. intros y. rewrite rotf_msign, B by auto. reflexivity. }
    unfold rot_sd. destruct t; [|apply Pl; rewrite Ew; discriminate|apply Pl; rewrite Ew; discriminate].
    assert (OR : j_orb w = Restricted) by (rewrite Ew; reflexivity). specialize (RL OR).
    unfold j_dolp. rewrite (branches_restricted w f Fw O3) by auto.
    assert (RB : forall x, rotf p q (cos x) (sin x) (rotf (p + ns) (q + ns) (cos x) (sin x) f) sd = _) by (intros x; pose proof (rot_both w (cos x) (sin x) f sd O3 RL) as T; rewrite Ew in T; exact T).
    rewrite Ew in O3, RL |- *. unfold j_ns in *. cbn [j_p j_q j_angle j_nspin] in *. fold ns in RL |- *. cbn zeta in *. fold ns in RB.
    destruct (Bool.eqb (bit sd p) (bit sd q)), (Bool.eqb (bit sd (p + ns)) (bit sd (q + ns))).
    - exists 0. split; [reflexivity|]. apply (cal_ext Der C (fun _ => f sd)); [|apply (cal_const Der C)]. intros y. now rewrite RB.
    - eexists. split; [reflexivity|]. eapply (cal_ext Der C); [|apply Sg]. intros y. rewrite RB. reflexivity.
    - eexists. split; [reflexivity|]. eapply (cal_ext Der C); [|apply Sg]. intros y. rewrite RB. reflexivity.
    - eexists. split; [reflexivity|]. eapply (cal_ext Der C); [intros y; symmetry; apply (RB y)|].
      apply (cal_add Der C); [apply (cal_add Der C)|].
      + apply (cal_ext Der C (fun z => f sd * (cos z * cos z))); [intros; ring|]. eapply der_eq; [apply (der_scale Der C), Dcc|ring].
      + apply (der_scale Der C), Dcs.
      + match goal with |- Der (fun y => ?e * (?m * (sin y * sin y) * ?v)) _ _ => apply (cal_ext Der C (fun z => (e * m * v) * (sin z * sin z))) end; [intros; ring|].
        eapply der_eq; [apply (der_scale Der C), Dss|ring]. }
  destruct D as (g & Eg & Dg). exists g. split.
  - unfold j_overlap_deriv, j_deriv_check. replace (existsb _ d) with false.
    + cbn [bind]. rewrite Eg. cbn [bind]. f_equal. clear. induction d as [|x d IH]; cbn; congruence.
    + symmetry. clear - Hd. induction Hd as [|x d -> _ IH]; [reflexivity|exact IH].
  - eapply (cal_ext Der C); [|exact Dg]. intros y. rewrite En, (C63_overlap cos sin _ _ _ _ _ _ _ f sd (En y) H). cbn [okv j_orb j_p j_q j_angle]. fold ns.
    now rewrite through_rotated_sd.
Qed.
End C63_deriv.
(** over the real numbers *)
Theorem C63_real : forall ne nspin (c : comp R_field) a o l (w : jac R_field) f sd v, new_jacobi ne nspin c (Some a) o l = Ok w -> (forall m, get_olp c m = Ok (f m)) ->
  j_overlap_deriv (K := R_field) cos sin w sd TSelf [0%Z] = Ok v ->
  exists g, v = [g] /\
  derivable_pt_lim (fun x => match new_jacobi ne nspin c (Some (x : R_field)) o l with Ok u => okv (K := R_field) (j_overlap (K := R_field) cos sin u sd) | Err _ => 0%R end) a g.
Proof.
  intros ne nspin c a o l w f sd v E H Hv.
  destruct (C63_derivative (F := R_field) cos sin real_der real_calculus (fun x => derivable_pt_lim_cos x) (fun x => derivable_pt_lim_sin x) ne nspin c a o l w f sd [0%Z] E H) as (g & Eg & D); [repeat constructor|].
  rewrite Hv in Eg. apply Ok_inj in Eg. exists g. split; [exact Eg|exact D].
Qed.
Print Assumptions C63_constructor.
Print Assumptions C63_overlap.
Print Assumptions C63_orbitals.
Print Assumptions C63_rotation.
Print Assumptions C63_zero.
Print Assumptions C63_compose.
Print Assumptions C63_spin.
Print Assumptions C63_arguments.
Print Assumptions C63_history.
Print Assumptions C63_stale_refuted.
Print Assumptions C63_unrestricted_refuted.
Print Assumptions C63_orbtype_refuted.
Print Assumptions C63_documented_refuted.
Print Assumptions C63_seniority_refuted.
Print Assumptions C63_derivative.
Print Assumptions C63_program.
Print Assumptions C63_assign.
Print Assumptions C63_real.

(** overlaps, and the same from the orbitals *)
Example C63_overlap_ex : ex_overlap (ex_wfn 1 [exq 1 1]) Restricted 0 1 5 = Some (434, 25%positive)%Z /\
  ex_overlap (ex_wfn 1 [exq 1 1]) Unrestricted 3 2 5 = Some (58, 5%positive)%Z /\ ex_overlap (ex_wfn 1 [exq 1 1]) Generalized 0 3 5 = Some (-34, 5%positive)%Z.
Proof. repeat split; vm_compute; reflexivity. Qed.
Example C63_orbitals_ex : ex_orbitals Restricted 0 1 [0; 2] = Some (434, 25%positive)%Z /\ ex_orbitals Unrestricted 3 2 [0; 2] = Some (58, 5%positive)%Z /\
  ex_orbitals Generalized 0 3 [0; 2] = Some (-34, 5%positive)%Z /\ occupies 5 [0; 2].
Proof.
  repeat (split; [vm_compute; reflexivity|]). split.
  - intros i. destruct i as [|[|[|i]]]; cbn; [tauto| | |]; try (split; [intros [?|[?|[]]]; discriminate || reflexivity|discriminate]); [tauto|].
    split; [intros [?|[?|[]]]; discriminate|]. unfold bit. intros B. exfalso. rewrite N.bits_above_log2 in B by (cbn; lia). discriminate.
  - intros [|[|a]] [|[|b]] [H1 H2]; cbn in *; lia.
Qed.
(** derivatives *)
Example C63_deriv_ex : ex_deriv Restricted 0 1 5 [0; 0]%Z = Some [Some (1, 25%positive)%Z; Some (1, 25%positive)%Z] /\ ex_deriv Unrestricted 0 1 5 [0%Z] = Some [Some (-3, 5%positive)%Z] /\
  ex_deriv Restricted 0 1 5 [1%Z] = None /\ ex_deriv Restricted 0 1 15 [0%Z] = Some [Some (0, 1%positive)%Z].
Proof. repeat split; vm_compute; reflexivity. Qed.
(** after each of the four changes the instance answers with the first value, the second would be right *)
Example C63_stale_ex : ex_stale Restricted (j_set_orbtype (Some (OWord Generalized))) = (Some (434, 25%positive)%Z, Some (46, 5%positive)%Z) /\
  ex_stale Unrestricted (j_set_indices (Some [2; 3]%Z)) = (Some (46, 5%positive)%Z, Some (58, 5%positive)%Z) /\
  ex_stale Restricted (j_set_wfn ex_pair) = (Some (434, 25%positive)%Z, Some (41, 25%positive)%Z) /\
  ex_stale Restricted (j_wfn_params [exq 7 1]) = (Some (434, 25%positive)%Z, Some (728, 25%positive)%Z).
Proof. repeat split; vm_compute; reflexivity. Qed.
(** what is refused *)
Example C63_refused_ex : ex_new ex_pair Restricted 0 2 = Err ValueError /\ ex_new ex_pair Unrestricted 1 2 = Err ValueError /\ ex_new ex_pair Generalized 1 4 = Err ValueError /\
  ex_new ex_pair Generalized 1 1 = Err ValueError /\ new_jacobi 4 4 ex_pair None None (Some [0; 1]%Z) = Err ValueError /\ new_jacobi 2 4 ex_pair None None (Some [0]%Z) = Err TypeError.
Proof. repeat split; vm_compute; reflexivity. Qed.
