From Coq Require Import List ZArith NArith Arith Bool Lia.
From Verif Require Import Py BitSpec BitLemmas Fock FockLemmas Slater SlaterBits SlaterBits2 SignLemmas Alg WfnCI Composite OrbSpec OrbLemmas OrbMain Jacobi JacobiSpec JacobiLemmas.
Import ListNotations.

Lemma nbelow_flip : forall n i k, nbelow (flip n i) k = if Nat.ltb i k then (if bit n i then nbelow n k - 1 else S (nbelow n k)) else nbelow n k.
Proof.
  intros n i k. induction k as [|k IH]; [destruct (Nat.ltb_spec i 0); [lia|reflexivity]|]. rewrite !nbelow_S, IH, bit_flip.
  destruct (Nat.ltb_spec i k), (Nat.ltb_spec i (S k)), (Nat.eqb_spec i k); try lia.
  - rewrite xorb_false_r. destruct (bit n i) eqn:B; [|lia].
    assert (0 < nbelow n k); [|lia]. unfold nbelow. destruct (filter (bit n) (seq 0 k)) eqn:E; [|cbn; lia].
    exfalso. assert (X : In i (filter (bit n) (seq 0 k))) by (apply filter_In; split; auto; apply in_seq; lia). rewrite E in X. exact X.
  - subst. destruct (bit n k); cbn [xorb]; lia.
  - rewrite xorb_false_r. reflexivity.
Qed.
Lemma nbelow_pos : forall n i k, i < k -> bit n i = true -> 0 < nbelow n k.
Proof.
  intros n i k H B. unfold nbelow. destruct (filter (bit n) (seq 0 k)) eqn:E; [|cbn; lia].
  exfalso. assert (X : In i (filter (bit n) (seq 0 k))) by (apply filter_In; split; auto; apply in_seq; lia). rewrite E in X. exact X.
Qed.
(** moving an electron between two orbitals on the same side of k *)
Lemma nbelow_move : forall n p q k, p <> q -> bit n p <> bit n q -> Nat.ltb p k = Nat.ltb q k -> nbelow (flip (flip n p) q) k = nbelow n k.
Proof.
  intros n p q k H B L. rewrite nbelow_flip, bit_flip_neq by auto. rewrite nbelow_flip, L. destruct (Nat.ltb_spec q k); [|reflexivity].
  apply Nat.ltb_lt in L. destruct (bit n p) eqn:Bp, (bit n q) eqn:Bq; try congruence.
  - pose proof (nbelow_pos n p k L Bp). lia.
  - lia.
Qed.

Section Main.
Context {K : CRing}.
Local Open Scope cr_scope.
Add Ring K_ring86 : (rth K).
Variable (cos sin : K -> K).
(** what the constructor ensures *)
Definition jac_ok (w : jac K) : Prop :=
  (0 < j_ns w)%Z /\ j_nspin w = (2 * j_ns w)%Z /\ (j_p w < j_q w)%nat /\
  rotatable (j_nspin w) (j_orb w) (Z.of_nat (j_p w)) (Z.of_nat (j_q w)).
Lemma assign_indices_ok : forall nspin t l pq, j_assign_indices nspin t l = Ok pq <->
  exists i j, l = Some [i; j] /\ rotatable nspin t i j /\ pq = (Z.to_nat (Z.min i j), Z.to_nat (Z.max i j)).
Proof.
  intros nspin t l pq. unfold j_assign_indices. split.
  - destruct l as [[|i [|j [|]]]|]; try discriminate. intros E. exists i, j. split; [reflexivity|].
    destruct (Z.ltb_spec i 0), (Z.ltb_spec j 0); cbn [orb] in E; try discriminate.
    destruct (Z.eqb_spec i j); [discriminate|].
    assert (R : rotatable nspin t i j).
    { unfold rotatable. repeat split; auto. destruct t.
      - destruct (Z.ltb_spec i (nspin / 2)), (Z.ltb_spec j (nspin / 2)); cbn [andb negb] in E; try discriminate. lia.
      - destruct (Z.ltb_spec i (nspin / 2)), (Z.ltb_spec j (nspin / 2)); cbn [Bool.eqb negb] in E; try discriminate; lia.
      - destruct (Z.ltb_spec i nspin), (Z.ltb_spec j nspin); cbn [andb negb] in E; try discriminate. lia. }
    split; auto. destruct (match t with Restricted => _ | _ => _ end); [discriminate|].
    destruct (Z.ltb_spec j i); apply Ok_inj in E; subst; [rewrite Z.min_r, Z.max_l by lia|rewrite Z.min_l, Z.max_r by lia]; reflexivity.
  - intros (i & j & -> & (R1 & R2 & R3 & R4) & ->).
    destruct (Z.ltb_spec i 0), (Z.ltb_spec j 0); cbn [orb]; try lia. destruct (Z.eqb_spec i j); [lia|].
    assert (E : match t with
              | Generalized => negb ((i <? nspin) && (j <? nspin))%Z
              | Restricted => negb ((i <? nspin / 2) && (j <? nspin / 2))%Z
              | Unrestricted => negb (Bool.eqb (i <? nspin / 2)%Z (j <? nspin / 2)%Z)
              end = false).
    { destruct t.
      - destruct (Z.ltb_spec i (nspin / 2)), (Z.ltb_spec j (nspin / 2)); cbn; auto; lia.
      - destruct (Z.ltb_spec i (nspin / 2)), (Z.ltb_spec j (nspin / 2)); cbn; auto; lia.
      - destruct (Z.ltb_spec i nspin), (Z.ltb_spec j nspin); cbn; auto; lia. }
    rewrite E. destruct (Z.ltb_spec j i); [rewrite Z.min_r, Z.max_l by lia|rewrite Z.min_l, Z.max_r by lia]; reflexivity.
Qed.
Lemma rotatable_min : forall nspin t i j, rotatable nspin t i j -> (Z.to_nat (Z.min i j) < Z.to_nat (Z.max i j))%nat /\
  rotatable nspin t (Z.of_nat (Z.to_nat (Z.min i j))) (Z.of_nat (Z.to_nat (Z.max i j))).
Proof.
  intros nspin t i j (R1 & R2 & R3 & R4). split; [lia|]. unfold rotatable. rewrite !Z2Nat.id by lia. repeat split; try lia. destruct t; lia.
Qed.
Lemma new_jacobi_ok : forall ne nspin c a o l (w : jac K), new_jacobi ne nspin c a o l = Ok w -> jac_ok w.
Proof.
  intros ne nspin c a o l w E. unfold new_jacobi in E. destruct (assign_nelec CIGeneral ne); [|discriminate]. cbn [bind] in E.
  unfold assign_nspin in E. destruct (Z.leb_spec nspin 0); [discriminate|]. destruct (Z.eqb_spec (nspin mod 2) 1); [discriminate|]. cbn [bind] in E.
  destruct (one_assign_wfn _ _) as [c'|]; [|discriminate]. cbn [bind] in E. destruct (j_assign_orbtype o) as [t|]; [|discriminate]. cbn [bind] in E.
  destruct (j_assign_indices nspin t l) as [pq|] eqn:I; [|discriminate]. cbn [bind] in E. apply Ok_inj in E. subst w.
  apply assign_indices_ok in I as (i & j & -> & R & ->). destruct (rotatable_min _ _ _ _ R) as [L R']. unfold jac_ok, j_ns. cbn [j_nspin j_p j_q j_orb fst snd].
  pose proof (Z.div_mod nspin 2). pose proof (Z.mod_pos_bound nspin 2). repeat split; try lia; try apply R'.
Qed.

Section W.
Variable (w : jac K) (f : N -> K).
Hypothesis F : forall m, get_olp (j_wfn w) m = Ok (f m).
Hypothesis OK : jac_ok w.
Let p := j_p w.
Let q := j_q w.
Let ns := Z.to_nat (j_ns w).
Definition rot_sd (t : orbtype) (ns p q : nat) (c s : K) (f : N -> K) (sd : N) : K :=
  match t with Restricted => rotf p q c s (rotf (p + ns) (q + ns) c s f) sd | _ => rotf p q c s f sd end.
Lemma through_rotated_sd : forall t ns p q c s f sd, through f (rotated_sd t ns p q c s sd) = rot_sd t ns p q c s f sd.
Proof. intros [] ns' p' q' c s f' sd; unfold rotated_sd, rot_sd; rewrite ?through_rotated, through_one; reflexivity. Qed.
Lemma restricted_lt : j_orb w = Restricted -> (q < ns)%nat.
Proof. intros O. destruct OK as (H1 & H2 & H3 & R). unfold rotatable in R. rewrite O in R. subst q ns. unfold j_ns in *. lia. Qed.
Lemma rot_both : forall c s (g : N -> K) n, (p < q)%nat -> (q < ns)%nat -> let p' := (p + ns)%nat in let q' := (q + ns)%nat in rotf p q c s (rotf p' q' c s g) n =
  if Bool.eqb (bit n p) (bit n q) then if Bool.eqb (bit n p') (bit n q') then g n else c * g n + eps (bit n p') * s * (msign n p' q' * g (flip (flip n p') q'))
  else if Bool.eqb (bit n p') (bit n q') then c * g n + eps (bit n p) * s * (msign n p q * g (flip (flip n p) q))
  else c * c * g n + (eps (bit n p) * (msign n p q * g (flip (flip n p) q)) + eps (bit n p') * (msign n p' q' * g (flip (flip n p') q'))) * (c * s)
           + eps (bit n p) * eps (bit n p') * (msign n p q * msign n p' q' * (s * s) * g (flip (flip (flip (flip n p) q) p') q')).
Proof.
  intros c s g n L Q p' q'. rewrite rotf_msign by auto. rewrite !rotf_msign by lia. fold p' q'.
  assert (B : forall i, (i = p' \/ i = q') -> bit (flip (flip n p) q) i = bit n i) by (intros i [->| ->]; subst p' q'; rewrite !bit_flip_neq by lia; reflexivity).
  assert (M : msign (K := K) (flip (flip n p) q) p' q' = msign n p' q').
  { unfold msign. rewrite B by auto. do 2 f_equal. rewrite !par_flip. subst p' q'. rewrite !(proj2 (Nat.ltb_lt _ _)) by lia. destruct (par n (p + ns)), (par n (q + ns)); reflexivity. }
  rewrite !B, M by auto. destruct (Bool.eqb (bit n p) (bit n q)); [reflexivity|]. destruct (Bool.eqb (bit n p') (bit n q')); [reflexivity|]. ring.
Qed.
Lemma j_olp_value : forall sd, j_olp cos sin w sd = Ok (rot_sd (j_orb w) ns p q (cos (j_angle w)) (sin (j_angle w)) f sd).
Proof.
  intros sd. pose proof OK as (H1 & H2 & H3 & R). unfold j_olp, rot_sd. destruct (j_orb w) eqn:O.
  - pose proof (restricted_lt O) as Q. rewrite (branches_restricted w f F H3) by auto. rewrite rot_both by auto. fold p q ns. cbn [wfn_at]. rewrite F. unfold single.
    destruct (Bool.eqb (bit sd p) (bit sd q)), (Bool.eqb (bit sd (p + ns)) (bit sd (q + ns))); f_equal; ring.
  - rewrite (branches_plain w f F H3) by congruence. rewrite rotf_msign by auto. fold p q. cbn [wfn_at]. rewrite F. unfold single. destruct (Bool.eqb _ _); reflexivity.
  - rewrite (branches_plain w f F H3) by congruence. rewrite rotf_msign by auto. fold p q. cbn [wfn_at]. rewrite F. unfold single. destruct (Bool.eqb _ _); reflexivity.
Qed.
End W.

(** * the matrices *)
Lemma entry_row : forall p q (c s : K) k j, p <> q ->
  entry p q c s k j = if Nat.eqb k p then (if Nat.eqb j p then c else if Nat.eqb j q then s else 0)
    else if Nat.eqb k q then (if Nat.eqb j p then - s else if Nat.eqb j q then c else 0)
    else if Nat.eqb k j then 1 else 0.
Proof.
  intros p q c s k j H. unfold entry. destruct (Nat.eqb_spec k p) as [->|]; cbn [andb].
  - destruct (Nat.eqb_spec j p); [reflexivity|]. destruct (Nat.eqb_spec j q); [reflexivity|]. rewrite (proj2 (Nat.eqb_neq p q)) by auto. cbn [andb]. now rewrite (proj2 (Nat.eqb_neq p j)) by auto.
  - destruct (Nat.eqb_spec k q) as [->|]; cbn [andb]; [|reflexivity]. destruct (Nat.eqb_spec j p); [reflexivity|]. destruct (Nat.eqb_spec j q); [reflexivity|]. now rewrite (proj2 (Nat.eqb_neq q j)) by auto.
Qed.
(** the matrix of a rotation of the spin orbitals p and q turns into the operator *)
Definition pair_rows (C : nat -> nat -> K) (m p q : nat) (c s : K) (k : nat) : Prop :=
  forall j, (j < m)%nat -> C k j = if Nat.eqb k p then (if Nat.eqb j p then c else if Nat.eqb j q then s else 0)
    else if Nat.eqb k q then (if Nat.eqb j p then - s else if Nat.eqb j q then c else 0)
    else if Nat.eqb k j then 1 else 0.
Lemma rows_rot : forall C m p q c s k (f : N -> K) n, (p < q)%nat -> (q < m)%nat -> (k < m)%nat -> c * c + s * s = 1 -> pair_rows C m p q c s k ->
  opf (Cre k) (rotf p q c s f) n = rotf p q c s (rowf C (seq 0 m) k f) n.
Proof.
  intros C m p q c s k f n L Q Hk U H. unfold pair_rows in H. destruct (Nat.eqb_spec k p) as [->|Np].
  - rewrite (proj1 (rotf_cre p q c s f n L U)). apply rotf_ext. intros x. symmetry. apply rowf_pair; auto; lia.
  - destruct (Nat.eqb_spec k q) as [->|Nq].
    + rewrite (proj2 (rotf_cre p q c s f n L U)). apply rotf_ext. intros x. symmetry. apply rowf_pair; auto; lia.
    + unfold Cre. rewrite opf_rotf by auto. apply rotf_ext. intros x. symmetry. apply rowf_single; auto.
Qed.
Lemma det_plain : forall C m p q c s (f : N -> K) rows, (p < q)%nat -> (q < m)%nat -> c * c + s * s = 1 ->
  (forall k, In k rows -> (k < m)%nat /\ pair_rows C m p q c s k) -> ascending rows ->
  through f (det_of C (seq 0 m) rows) = rotf p q c s f (ofrows rows).
Proof.
  intros C m p q c s f rows L Q U H A. apply intertwine; auto.
  - intros g. now apply rotf_0.
  - intros k g n Hk. apply H in Hk as [H1 H2]. now apply rows_rot.
Qed.
Lemma det_two : forall C m p q p' q' c s (f : N -> K) rows, (p < q)%nat -> (q < p')%nat -> (p' < q')%nat -> (q' < m)%nat -> c * c + s * s = 1 ->
  (forall k, In k rows -> (k < m)%nat /\ (k < p' -> pair_rows C m p q c s k)%nat /\ (q < k -> pair_rows C m p' q' c s k)%nat) -> ascending rows ->
  through f (det_of C (seq 0 m) rows) = rotf p q c s (rotf p' q' c s f) (ofrows rows).
Proof.
  intros C m p q p' q' c s f rows L1 L2 L3 L4 U H A.
  apply (intertwine (fun g n => rotf p q c s (rotf p' q' c s g) n) C (seq 0 m) rows); auto.
  - intros g. now rewrite !rotf_0.
  - intros k g n Hk. apply H in Hk as (H1 & H2 & H3). destruct (Nat.lt_ge_cases k p') as [Lk|Lk].
    + rewrite (opf_ext (Cre k) (fun x => rotf p q c s (rotf p' q' c s g) x) (rotf p' q' c s (rotf p q c s g))) by (intros; apply rotf_comm; lia).
      unfold Cre. rewrite opf_rotf by lia.
      rewrite (rotf_comm p q p' q') by lia. apply rotf_ext. intros x. rewrite (rows_rot C m p q c s k) by solve [auto | lia | apply H2; lia]. reflexivity.
    + unfold Cre. rewrite opf_rotf by lia. apply rotf_ext. intros x. rewrite (rows_rot C m p' q' c s k) by solve [auto | lia | apply H3; lia]. reflexivity.
Qed.
End Main.
