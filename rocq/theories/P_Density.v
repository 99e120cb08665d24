(** C38: density_matrix gives the reduced density matrices of the CI vector. *)
From Coq Require Import Ring_theory List ZArith NArith Arith Lia Bool Permutation.
From Verif Require Import Py BitSpec BitLemmas Slater SlaterBits SlaterBits2 Fock FockLemmas Alg Combos
  PermLemmas HamSpec HamGen HamRes FockInner HamLemmas HamSC HamMain SpinSpec HamSpin Density DensSpec DensLemmas DensCalls DensState
  DensMain DensEx.
Import ListNotations.
Local Open Scope nat_scope.

(** nothing is truncated: no square and no absolute value times a square is below the threshold (true
    for the reals and threshold 0) *)
Definition keeps_all {K : CRing} (lt : K -> K -> bool) (ab : K -> K) (thr : K) : Prop :=
  (forall x : K, lt (rmul x x) thr = false) /\ (forall x y : K, lt (rmul (ab x) (rmul y y)) thr = false).
(** a CI vector of distinct determinants in 2n orbitals *)
Definition ci_ok {K : CRing} (n : nat) (psi : list (K * N)) : Prop :=
  psi <> [] /\ NoDup (map snd psi) /\ forall sd, In sd (map snd psi) -> fits sd (2 * n).

Section C38.
Context {K : CRing} (lt : K -> K -> bool) (ab : K -> K) (thr : K).
Local Open Scope cr_scope.
Add Ring K_ring42 : (rth K).

Lemma len1 : forall {A} (l : list A) d, length l = 1%nat -> l = [nth 0 l d].
Proof. intros A [|x [|]] d H; try discriminate. reflexivity. Qed.
Lemma len2 : forall {A} (l : list A) d, length l = 2%nat -> l = [nth 0 l d; nth 1 l d].
Proof. intros A [|x [|y [|]]] d H; try discriminate. reflexivity. Qed.
Lemma len3 : forall {A} (l : list A) d, length l = 3%nat -> l = [nth 0 l d; nth 1 l d; nth 2 l d].
Proof. intros A [|x [|y [|z [|]]]] d H; try discriminate. reflexivity. Qed.

Theorem C38_generalized : forall cs sds n, keeps_all lt ab thr -> ci_ok n (combine cs sds) ->
  exists g1 g2, density_matrix lt ab cs sds n false thr Generalized = Ok ([g1], [g2]) /\
    (forall p q, (p < 2 * n)%nat -> (q < 2 * n)%nat -> g1 p q = rdm1 (combine cs sds) p q) /\
    (forall p q r s, (p < 2 * n)%nat -> (q < 2 * n)%nat -> (r < 2 * n)%nat -> (s < 2 * n)%nat ->
       g2 p q r s = rdm2 (combine cs sds) p q r s).
Proof.
  intros cs sds n [K1 K2] (Ne & Nd & Fl).
  destruct (density_ok lt ab thr K1 K2 cs sds n false Generalized) as (st & E & [S1 S2] & A1 & A2); auto; try discriminate.
  exists (get1 st 0), (get2 st 0). split.
  - rewrite E. cbn [n_one n_two] in S1, S2.
    rewrite (len1 (fst st) (fun _ _ => 0) S1), (len1 (snd st) (fun _ _ _ _ => 0) S2). reflexivity.
  - split; intros.
    + rewrite A1 by (cbn; lia). rewrite <- (dens1_e1 (2 * n)) by auto. reflexivity.
    + rewrite A2 by (cbn; lia). rewrite <- (dens2_e2 (2 * n)) by auto. reflexivity.
Qed.

Lemma bi_or : forall a b, (a && b)%bool = false -> bi (K := K) (a || b) = bi a + bi b.
Proof. intros [] [] H; cbn; try discriminate; ring. Qed.

(** restricted: both spins summed *)
Theorem C38_restricted : forall cs sds n, keeps_all lt ab thr -> ci_ok n (combine cs sds) ->
  exists g1 g2, density_matrix lt ab cs sds n false thr Restricted = Ok ([g1], [g2]) /\
    (forall p q, (p < n)%nat -> (q < n)%nat ->
       g1 p q = rdm1 (combine cs sds) p q + rdm1 (combine cs sds) (p + n) (q + n)) /\
    (forall p q r s, (p < n)%nat -> (q < n)%nat -> (r < n)%nat -> (s < n)%nat ->
       g2 p q r s = rdm2 (combine cs sds) p q r s + rdm2 (combine cs sds) p (q + n) r (s + n)
         + rdm2 (combine cs sds) (p + n) q (r + n) s + rdm2 (combine cs sds) (p + n) (q + n) (r + n) (s + n)).
Proof.
  intros cs sds n [K1 K2] (Ne & Nd & Fl).
  destruct (density_ok lt ab thr K1 K2 cs sds n false Restricted) as (st & E & [S1 S2] & A1 & A2); auto; try discriminate.
  exists (get1 st 0), (get2 st 0). split.
  - rewrite E. cbn [n_one n_two] in S1, S2.
    rewrite (len1 (fst st) (fun _ _ => 0) S1), (len1 (snd st) (fun _ _ _ _ => 0) S2). reflexivity.
  - split; intros.
    + rewrite A1 by (cbn; lia). rewrite <- !(dens1_e1 (2 * n)) by lia. rewrite <- dens1_add.
      apply dens1_ext. intros i j Hi Hj. unfold w1, sel1, e1.
      destruct (spin_split n p i) as [-> ->]; auto. destruct (spin_split n q j) as [-> ->]; auto.
      destruct (up n i), (up n j), (Nat.eqb p (place n i)), (Nat.eqb q (place n j)); cbn; ring.
    + rewrite A2 by (cbn; lia). rewrite <- !(dens2_e2 (2 * n)) by lia. rewrite <- !dens2_add.
      apply dens2_ext. intros i j k l Hi Hj Hk Hl. unfold w2, sel2, e2.
      destruct (spin_split n p i) as [-> ->]; auto. destruct (spin_split n q j) as [-> ->]; auto.
      destruct (spin_split n r k) as [-> ->]; auto. destruct (spin_split n s l) as [-> ->]; auto.
      destruct (up n i), (up n j), (up n k), (up n l); cbn [Bool.eqb andb negb];
        rewrite ?andb_false_r; rewrite ?andb_false_l; cbn [bi]; try ring;
        rewrite ?andb_assoc; ring.
Qed.

(** unrestricted: alpha and beta; alpha-alpha, alpha-beta and beta-beta blocks *)
Theorem C38_unrestricted : forall cs sds n, keeps_all lt ab thr -> ci_ok n (combine cs sds) ->
  exists a1 b1 aa ab' bb, density_matrix lt ab cs sds n false thr Unrestricted = Ok ([a1; b1], [aa; ab'; bb]) /\
    (forall p q, (p < n)%nat -> (q < n)%nat ->
       a1 p q = rdm1 (combine cs sds) p q /\ b1 p q = rdm1 (combine cs sds) (p + n) (q + n)) /\
    (forall p q r s, (p < n)%nat -> (q < n)%nat -> (r < n)%nat -> (s < n)%nat ->
       aa p q r s = rdm2 (combine cs sds) p q r s /\
       ab' p q r s = rdm2 (combine cs sds) p (q + n) r (s + n) /\
       bb p q r s = rdm2 (combine cs sds) (p + n) (q + n) (r + n) (s + n)).
Proof.
  intros cs sds n [K1 K2] (Ne & Nd & Fl).
  destruct (density_ok lt ab thr K1 K2 cs sds n false Unrestricted) as (st & E & [S1 S2] & A1 & A2); auto; try discriminate.
  exists (get1 st 0), (get1 st 1), (get2 st 0), (get2 st 1), (get2 st 2). split.
  - rewrite E. cbn [n_one n_two] in S1, S2.
    rewrite (len2 (fst st) (fun _ _ => 0) S1), (len3 (snd st) (fun _ _ _ _ => 0) S2). reflexivity.
  - split; intros; [split|split; [|split]].
    1,2: rewrite A1 by (cbn; lia); rewrite <- !(dens1_e1 (2 * n)) by lia; apply dens1_ext; intros i j Hi Hj;
      unfold w1, sel1, e1; destruct (spin_split n p i) as [U1 V1]; auto; rewrite ?U1, ?V1; destruct (spin_split n q j) as [U2 V2]; auto; rewrite ?U2, ?V2;
      destruct (up n i), (up n j), (Nat.eqb p (place n i)), (Nat.eqb q (place n j)); reflexivity.
    all: rewrite A2 by (cbn; lia); rewrite <- !(dens2_e2 (2 * n)) by lia; apply dens2_ext; intros i j k l Hi Hj Hk Hl;
      unfold w2, sel2, e2;
      destruct (spin_split n p i) as [U3 V3]; auto; rewrite ?U3, ?V3; destruct (spin_split n q j) as [U4 V4]; auto; rewrite ?U4, ?V4;
      destruct (spin_split n r k) as [U5 V5]; auto; rewrite ?U5, ?V5; destruct (spin_split n s l) as [U6 V6]; auto; rewrite ?U6, ?V6;
      destruct (up n i), (up n j), (up n k), (up n l); cbn [Bool.eqb andb negb Nat.ltb Nat.leb Nat.eqb];
        rewrite ?andb_false_r; rewrite ?andb_false_l; reflexivity.
Qed.

(** contracting with integrals gives the expectation value of the Hamiltonian *)
Theorem C38_contraction : forall (psi : list (K * N)) k (h : nat -> nat -> K) (g : nat -> nat -> nat -> nat -> K),
  sumf (fun p => sumf (fun q => h p q * rdm1 psi p q) (seq 0 k)) (seq 0 k)
  = sumf (fun a => sumf (fun b => fst a * fst b * one_body k h (snd a) (snd b)) psi) psi /\
  sumf (fun p => sumf (fun q => sumf (fun r => sumf (fun s => g p q r s * rdm2 psi p q r s) (seq 0 k)) (seq 0 k)) (seq 0 k)) (seq 0 k)
  = sumf (fun a => sumf (fun b => fst a * fst b * two_body k g (snd a) (snd b)) psi) psi.
Proof.
  intros psi k h g. unfold rdm1, rdm2, expect, one_body, two_body.
  assert (M : forall (c : K) (f : nat -> K) l, c * sumf f l = sumf (fun i => c * f i) l) by (intros; symmetry; apply sumf_mul_l).
  split.
  - transitivity (sumf (fun p => sumf (fun q => sumf (fun a => sumf (fun b => fst a * fst b * (h p q * sgnr (melem (snd a) [Ann q; Cre p] (snd b)))) psi) psi) (seq 0 k)) (seq 0 k)).
    { apply sumf_ext. intros p _. apply sumf_ext. intros q _. rewrite <- sumf_mul_l. apply sumf_ext. intros a _.
      rewrite <- sumf_mul_l. apply sumf_ext. intros b _. ring. }
    transitivity (sumf (fun p => sumf (fun a => sumf (fun b => sumf (fun q => fst a * fst b * (h p q * sgnr (melem (snd a) [Ann q; Cre p] (snd b)))) (seq 0 k)) psi) psi) (seq 0 k)).
    { apply sumf_ext. intros p _. rewrite sumf_swap. apply sumf_ext. intros a _. now rewrite sumf_swap. }
    rewrite sumf_swap. apply sumf_ext. intros a _. rewrite sumf_swap. apply sumf_ext. intros b _.
    rewrite M. apply sumf_ext. intros p _. now rewrite M.
  - transitivity (sumf (fun p => sumf (fun q => sumf (fun r => sumf (fun s => sumf (fun a => sumf (fun b => fst a * fst b *
      (g p q r s * sgnr (melem (snd a) [Ann r; Ann s; Cre q; Cre p] (snd b)))) psi) psi) (seq 0 k)) (seq 0 k)) (seq 0 k)) (seq 0 k)).
    { apply sumf_ext. intros p _. apply sumf_ext. intros q _. apply sumf_ext. intros r _. apply sumf_ext. intros s _.
      rewrite <- sumf_mul_l. apply sumf_ext. intros a _. rewrite <- sumf_mul_l. apply sumf_ext. intros b _. ring. }
    assert (X : forall (F : nat -> K * N -> K * N -> K),
      sumf (fun p => sumf (fun a => sumf (fun b => F p a b) psi) psi) (seq 0 k)
      = sumf (fun a => sumf (fun b => sumf (fun p => F p a b) (seq 0 k)) psi) psi).
    { intros F. rewrite sumf_swap. apply sumf_ext. intros a _. now rewrite sumf_swap. }
    transitivity (sumf (fun p => sumf (fun q => sumf (fun r => sumf (fun a => sumf (fun b => sumf (fun s => fst a * fst b *
      (g p q r s * sgnr (melem (snd a) [Ann r; Ann s; Cre q; Cre p] (snd b)))) (seq 0 k)) psi) psi) (seq 0 k)) (seq 0 k)) (seq 0 k)).
    { apply sumf_ext. intros p _. apply sumf_ext. intros q _. apply sumf_ext. intros r _. apply X. }
    transitivity (sumf (fun p => sumf (fun q => sumf (fun a => sumf (fun b => sumf (fun r => sumf (fun s => fst a * fst b *
      (g p q r s * sgnr (melem (snd a) [Ann r; Ann s; Cre q; Cre p] (snd b)))) (seq 0 k)) (seq 0 k)) psi) psi) (seq 0 k)) (seq 0 k)).
    { apply sumf_ext. intros p _. apply sumf_ext. intros q _. apply X. }
    transitivity (sumf (fun p => sumf (fun a => sumf (fun b => sumf (fun q => sumf (fun r => sumf (fun s => fst a * fst b *
      (g p q r s * sgnr (melem (snd a) [Ann r; Ann s; Cre q; Cre p] (snd b)))) (seq 0 k)) (seq 0 k)) (seq 0 k)) psi) psi) (seq 0 k)).
    { apply sumf_ext. intros p _. apply X. }
    rewrite X. apply sumf_ext. intros a _. apply sumf_ext. intros b _.
    rewrite M. apply sumf_ext. intros p _. rewrite M. apply sumf_ext. intros q _. rewrite M. apply sumf_ext. intros r _. now rewrite M.
Qed.

(** the trace counts electrons *)
Theorem C38_trace : forall (psi : list (K * N)) k ne, NoDup (map snd psi) ->
  (forall sd, In sd (map snd psi) -> fits sd k /\ has_electrons sd ne) ->
  sumf (fun p => rdm1 psi p p) (seq 0 k) = nat_r ne * sumf (fun a => fst a * fst a) psi.
Proof.
  intros psi k ne Nd F.
  transitivity (sumf (fun p => sumf (fun q => bi (Nat.eqb p q) * rdm1 psi p q) (seq 0 k)) (seq 0 k)).
  { apply sumf_ext. intros p Hp. apply in_seq in Hp. rewrite sumf_at by lia. reflexivity. }
  rewrite (proj1 (C38_contraction psi k (fun p q => bi (Nat.eqb p q)) (fun _ _ _ _ => 0))).
  rewrite <- sumf_mul_l.
  assert (Inj : forall a b, In a psi -> In b psi -> snd a = snd b -> a = b).
  { clear F. induction psi as [|x psi IH]; [intros a b []|]. cbn [map] in Nd. inversion Nd as [|? ? N1 N2]; subst.
    intros a b [->|Ha] [->|Hb] E; auto.
    - exfalso. apply N1. rewrite E. now apply in_map.
    - exfalso. apply N1. rewrite <- E. now apply in_map. }
  apply sumf_ext. intros a Ha. rewrite (sumf_single _ _ a); auto.
  - destruct (F (snd a) (in_map snd _ _ Ha)) as [Fa Ea]. rewrite one_same by auto. apply electrons_occ in Ea.
    rewrite (sumf_ext _ (fun _ => 1)) by (intros i _; rewrite Nat.eqb_refl; reflexivity). rewrite sumf_const, Ea. ring.
  - now apply NoDup_map_inv in Nd.
  - intros b Hb Hne. destruct (F (snd a) (in_map snd _ _ Ha)) as [Fa _]. destruct (F (snd b) (in_map snd _ _ Hb)) as [Fb _].
    assert (Z : one_body k (fun p q => bi (K := K) (Nat.eqb p q)) (snd a) (snd b) = 0); [|rewrite Z; ring].
    destruct (diff_cases (snd a) (snd b)) as [E|[(x & y & D)|[(x & y & c & d & D)|H]]].
    + exfalso. apply Hne. symmetry. now apply Inj.
    + rewrite (one_single _ _ _ _ x y) by (auto; rewrite D; auto).
      assert (x <> y).
      { intros ->. assert (A : bit (snd a) y = true /\ bit (snd b) y = false) by (apply diff_orbs_In1; rewrite D; now left).
        assert (B : bit (snd b) y = true /\ bit (snd a) y = false) by (apply diff_orbs_In2; rewrite D; now left).
        destruct A, B; congruence. }
      rewrite (proj2 (Nat.eqb_neq x y)) by auto. cbn [bi]. ring.
    + apply one_far. rewrite D. cbn. lia.
    + apply one_far. lia.
Qed.

(** no determinants, or an orbital type that is not one of the three words *)
Theorem C38_rejects : forall cs sds n ch o,
  (combine cs sds = [] \/ o = OtherOrb) -> density_matrix lt ab cs sds n ch thr o = Err ValueError.
Proof.
  intros cs sds n ch o H. unfold density_matrix. pose proof (sort_perm lt ab (combine cs sds)) as P.
  destruct (sort_civec lt ab (combine cs sds)) as [|x l]; auto. destruct H as [H|H].
  - rewrite H in P. apply Permutation_sym, Permutation_nil in P. discriminate.
  - now rewrite H.
Qed.

(** a determinant with an orbital outside the array *)
Lemma do_calls_bad : forall dim es (st : dstate K), shaped Generalized st ->
  (exists e, In e es /\ ~ in_range dim e) -> do_calls Generalized dim es st = Err IndexError.
Proof.
  intros dim es. induction es as [|e es IH]; intros [ms ts] S (x & Hx & Bx); [destruct Hx|].
  assert (B1 : forall i j (v : K) m, ~ ((i < dim)%nat /\ (j < dim)%nat) -> bump1 dim i j v m = Err IndexError).
  { intros i j v m H. unfold bump1. destruct (Nat.ltb_spec i dim), (Nat.ltb_spec j dim); auto. tauto. }
  assert (B2 : forall i j k l (v : K) m, ~ ((i < dim)%nat /\ (j < dim)%nat /\ (k < dim)%nat /\ (l < dim)%nat) ->
     bump2 dim i j k l v m = Err IndexError).
  { intros i j k l v m H. unfold bump2.
    destruct (Nat.ltb_spec i dim), (Nat.ltb_spec j dim), (Nat.ltb_spec k dim), (Nat.ltb_spec l dim); auto. tauto. }
  destruct S as [S1 S2]. cbn [fst snd n_one n_two] in S1, S2.
  destruct ms as [|m [|]]; try discriminate. destruct ts as [|t [|]]; try discriminate.
  assert (D : forall e : dcall K, in_range dim e \/ ~ in_range dim e).
  { intros [i j v|i j k l v]; cbn [in_range].
    - destruct (lt_dec i dim), (lt_dec j dim); tauto.
    - destruct (lt_dec i dim), (lt_dec j dim), (lt_dec k dim), (lt_dec l dim); tauto. }
  cbn [do_calls]. destruct (D e) as [Re|Re].
  - assert (Y : exists e, In e es /\ ~ in_range dim e).
    { destruct Hx as [->|Hx]; [tauto|]. exists x; auto. }
    destruct e as [i j v|i j k l v]; cbn [in_range] in Re; cbn [do_call fst snd].
    + unfold add_one_density. cbn [orb_check length Nat.eqb bind upd]. rewrite bump1_ok by tauto. cbn [bind]. apply IH; auto. now split.
    + unfold add_two_density. cbn [orb_check length Nat.eqb bind upd]. rewrite bump2_ok by tauto. cbn [bind]. apply IH; auto. now split.
  - destruct e as [i j v|i j k l v]; cbn [in_range] in Re; cbn [do_call fst snd].
    + unfold add_one_density. cbn [orb_check length Nat.eqb bind upd]. rewrite B1 by auto. reflexivity.
    + unfold add_two_density. cbn [orb_check length Nat.eqb bind upd]. rewrite B2 by auto. reflexivity.
Qed.
Hypothesis keep : keeps_all lt ab thr.
Lemma do_calls_any : forall dim es (st : dstate K), shaped Generalized st ->
  (exists st', do_calls Generalized dim es st = Ok st' /\ shaped Generalized st') \/
  do_calls Generalized dim es st = Err IndexError.
Proof.
  intros dim es. induction es as [|e es IH]; intros [ms ts] S; [left; eexists; split; [reflexivity|auto]|].
  destruct S as [S1 S2]. cbn [fst snd n_one n_two] in S1, S2.
  destruct ms as [|m [|]]; try discriminate. destruct ts as [|t [|]]; try discriminate.
  cbn [do_calls]. destruct e as [i j v|i j k l v]; cbn [do_call fst snd].
  - unfold add_one_density. cbn [orb_check length Nat.eqb bind upd]. unfold bump1.
    destruct (Nat.ltb i dim && Nat.ltb j dim)%bool; cbn [bind]; auto. apply IH. now split.
  - unfold add_two_density. cbn [orb_check length Nat.eqb bind upd]. unfold bump2.
    destruct (_ && _)%bool; cbn [bind]; auto. apply IH. now split.
Qed.
Definition bad_pair dim (a b : K * N) : Prop :=
  exists e, In e (pair_calls (fst a) (fst b) (snd a) (snd b)) /\ ~ in_range dim e.
Lemma inner_any : forall dim rem x1 sd1 l (st : dstate K), shaped Generalized st ->
  (exists st', inner_loop lt ab Generalized dim thr rem x1 sd1 l st = Ok st' /\ shaped Generalized st' /\
     forall b, In b l -> ~ bad_pair dim (x1, sd1) b) \/
  inner_loop lt ab Generalized dim thr rem x1 sd1 l st = Err IndexError.
Proof.
  destruct keep as [K1 K2]. intros dim rem x1 sd1 l.
  induction l as [|[x2 sd2] l IH]; intros st S; [left; eexists; repeat split; try apply S; auto|].
  cbn [inner_loop]. rewrite K2.
  destruct (do_calls_any dim (pair_calls x1 x2 sd1 sd2) st S) as [(st' & E & S')|E]; rewrite E; cbn [bind]; auto.
  destruct (IH st' S') as [(st'' & E' & S'' & B)|E']; auto. left. exists st''. split; auto. split; auto.
  intros b [<-|Hb]; auto. intros (e & He & Bad). cbn [fst snd] in He.
  rewrite (do_calls_bad dim _ st S) in E; [discriminate|eauto].
Qed.
Lemma outer_any : forall dim l (st : dstate K), shaped Generalized st -> (exists a, In a l /\ bad_pair dim a a) ->
  outer_loop lt ab Generalized dim thr l st = Err IndexError.
Proof.
  destruct keep as [K1 K2]. intros dim l. induction l as [|[x1 sd1] l IH]; intros st S (a & Ha & Bad); [destruct Ha|].
  cbn [outer_loop]. rewrite K1.
  destruct (inner_any dim (length ((x1, sd1) :: l)) x1 sd1 ((x1, sd1) :: l) st S) as [(st' & E & S' & B)|E]; rewrite E; cbn [bind]; auto.
  apply IH; auto. destruct Ha as [<-|Ha]; [|exists a; auto]. exfalso. apply (B (x1, sd1)); auto. now left.
Qed.
Theorem C38_outside : forall cs sds n ch, (exists sd, In sd (map snd (combine cs sds)) /\ ~ fits sd (2 * n)) ->
  density_matrix lt ab cs sds n ch thr Generalized = Err IndexError.
Proof.
  intros cs sds n ch (sd & Hsd & Bad). apply in_map_iff in Hsd as ([x sd'] & <- & Hsd). cbn [snd] in Bad.
  unfold density_matrix. pose proof (sort_perm lt ab (combine cs sds)) as P.
  destruct (sort_civec lt ab (combine cs sds)) as [|y l].
  - apply Permutation_nil in P. rewrite P in Hsd. destruct Hsd.
  - rewrite outer_any; auto; [split; reflexivity|]. exists (x, sd'). split; [now rewrite P|].
    assert (Ex : exists i, bit sd' i = true /\ (2 * n <= i)%nat).
    { destruct (existsb (fun i => Nat.leb (2 * n) i) (occ_indices (Some sd'))) eqn:Q.
      - apply existsb_exists in Q as (i & Hi & L). apply Nat.leb_le in L. apply occ_indices_In in Hi. eauto.
      - exfalso. apply Bad. intros i Li. destruct (bit sd' i) eqn:B; auto. apply not_true_iff_false in Q. exfalso. apply Q.
        apply existsb_exists. exists i. split; [now apply occ_indices_In|now apply Nat.leb_le]. }
    destruct Ex as (i & Bi & Li). unfold bad_pair. cbn [fst snd]. unfold pair_calls. rewrite diff_same. cbn [fst snd length Nat.eqb negb].
    set (v := (x * x * _)). exists (One i i v). split; [|cbn; lia].
    rewrite shared_same. apply occ_indices_In in Bi. revert Bi. generalize (occ_indices (Some sd')). intros sh Hi.
    induction sh as [|z sh IH]; [destruct Hi|]. cbn [same_calls]. destruct Hi as [->|Hi]; [now left|]. right. apply in_app_iff. auto.
Qed.
End C38.

(** chemist's notation: the permutation of the axes that the code applies *)
Theorem C38_chemist : forall {K : CRing} (lt : K -> K -> bool) ab thr cs sds n,
  keeps_all lt ab thr -> ci_ok n (combine cs sds) ->
  exists g1 g2, density_matrix lt ab cs sds n true thr Generalized = Ok ([g1], [g2]) /\
    forall p q r s, p < 2 * n -> q < 2 * n -> r < 2 * n -> s < 2 * n -> g2 p q r s = rdm2 (combine cs sds) p s q r.
Proof.
  intros K lt ab thr cs sds n [K1 K2] (Ne & Nd & Fl).
  destruct (density_ok lt ab thr K1 K2 cs sds n true Generalized) as (st & E & [S1 S2] & A1 & A2); auto; try discriminate.
  exists (get1 st 0), (to_chemist (get2 st 0)). split.
  - rewrite E. cbn [n_one n_two] in S1, S2.
    rewrite (len1 (fst st) (fun _ _ => rO) S1), (len1 (snd st) (fun _ _ _ _ => rO) S2). reflexivity.
  - intros. unfold to_chemist. rewrite A2 by (cbn; lia). rewrite <- (dens2_e2 (2 * n)) by auto. reflexivity.
Qed.

Lemma Z_keeps : keeps_all (K := Z_ring) Z.ltb Z.abs 0%Z.
Proof.
  split.
  - intros x. apply Z.ltb_ge. change (0 <= x * x)%Z. nia.
  - intros x y. apply Z.ltb_ge. change (0 <= Z.abs x * (y * y))%Z. apply Z.mul_nonneg_nonneg; [apply Z.abs_nonneg|nia].
Qed.

(** the documented formulas of density_matrix are not what it returns: physicist's notation
    <a+_i a+_k a_l a_j>, chemist's notation <a+_i a+_j a_k a_l>; the usual chemist's notation
    <a+_i a+_k a_l a_j> is not returned either *)
Theorem C38_documented_refuted :
  exists cs sds n, ci_ok (K := Z_ring) n (combine cs sds) /\
  (exists g1 g2, density_matrix (K := Z_ring) Z.ltb Z.abs cs sds n false 0%Z Generalized = Ok ([g1], [g2]) /\
     g2 0 1 0 1 <> expect (K := Z_ring) (combine cs sds) [Ann 1; Ann 1; Cre 0; Cre 0]) /\
  (exists g1 g2, density_matrix (K := Z_ring) Z.ltb Z.abs cs sds n true 0%Z Generalized = Ok ([g1], [g2]) /\
     g2 0 0 1 1 <> expect (K := Z_ring) (combine cs sds) [Ann 1; Ann 1; Cre 0; Cre 0]) /\
  (exists g1 g2, density_matrix (K := Z_ring) Z.ltb Z.abs cs sds n true 0%Z Generalized = Ok ([g1], [g2]) /\
     g2 0 2 1 3 <> expect (K := Z_ring) (combine cs sds) [Ann 2; Ann 3; Cre 1; Cre 0]).
Proof.
  assert (OK : ci_ok (K := Z_ring) 2 (combine [2%Z; 3%Z] [3%N; 12%N])).
  { split; [discriminate|]. split.
    + repeat constructor; cbn; intuition discriminate.
    + cbn [combine map snd]. intros sd [<-|[<-|[]]]; intros i H; (destruct i as [|[|[|[|i]]]]; [lia..|]);
        unfold bit; apply N.bits_above_log2; cbn [N.log2 Pos.size]; lia. }
  exists [2%Z; 3%Z], [3%N; 12%N], 2. split; [exact OK|].
  - split; [|split].
    + destruct (C38_generalized (K := Z_ring) Z.ltb Z.abs 0%Z [2%Z; 3%Z] [3%N; 12%N] 2 Z_keeps OK) as (g1 & g2 & E & _ & H).
      exists g1, g2. split; auto. rewrite H by lia. vm_compute. discriminate.
    + destruct (C38_chemist (K := Z_ring) Z.ltb Z.abs 0%Z [2%Z; 3%Z] [3%N; 12%N] 2 Z_keeps OK) as (g1 & g2 & E & H).
      exists g1, g2. split; auto. rewrite H by lia. vm_compute. discriminate.
    + destruct (C38_chemist (K := Z_ring) Z.ltb Z.abs 0%Z [2%Z; 3%Z] [3%N; 12%N] 2 Z_keeps OK) as (g1 & g2 & E & H).
      exists g1, g2. split; auto. rewrite H by lia. vm_compute. discriminate.
Qed.

(** repeated determinants: each unordered pair is visited once *)
Theorem C38_repeated_refuted :
  exists cs sds n,
    match density_matrix (K := Z_ring) Z.ltb Z.abs cs sds n false 0%Z Generalized with
    | Ok ([g1], _) => g1 0 0 <> rdm1 (K := Z_ring) (combine cs sds) 0 0
    | _ => False
    end.
Proof. exists [1%Z; 1%Z], [1%N; 1%N], 1. vm_compute. discriminate.
Qed.

Print Assumptions C38_generalized.
Print Assumptions C38_restricted.
Print Assumptions C38_unrestricted.
Print Assumptions C38_contraction.
Print Assumptions C38_trace.
Print Assumptions C38_rejects.
Print Assumptions C38_outside.
Print Assumptions C38_chemist.
Print Assumptions C38_documented_refuted.
Print Assumptions C38_repeated_refuted.

Example C38_ex_gen :
  zshow1 4 (zdens [2; -3; 5]%Z [3; 6; 12]%N 2 false 0 Generalized) = Ok [[4; 0; 6; 0; 0; 13; 0; 15; 6; 0; 34; 0; 0; 15; 0; 25]%Z].
Proof. vm_compute. reflexivity. Qed.
