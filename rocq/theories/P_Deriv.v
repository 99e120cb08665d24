(** C35: derivatives of matrix elements with respect to orbital-rotation parameters. *)
From Coq Require Import Ring_theory List ZArith NArith Bool Lia Arith QArith Qcanon.
From Verif Require Import Py BitSpec BitLemmas Slater Fock SignLemmas Alg PermLemmas HamSpec HamGen HamLemmas HamSC HamMain HamRes SpinSpec HamSpin HamSpinSum
  HamRot HamRotLemmas HamRotMat HamRotAssign HamRotTaylor HamEx HamRotEx HamDeriv DerivSpec DerivHams DerivLemmas DerivGen DerivSpin DerivSpin2 DerivSpin4 DerivTan
  P_Ham1 P_Ham2 P_Rot P_Rot2.
Import ListNotations.
Local Open Scope nat_scope.

(** the pair of orbitals that parameter i rotates, by the code's own map *)
Lemma rowcol_of : forall n i, i < n * (n - 1) / 2 ->
  param_ind_to_rowcol_ind n (Z.of_nat i) = Ok (Z.of_nat (fst (pair_at n i)), Z.of_nat (snd (pair_at n i))) /\ fst (pair_at n i) < snd (pair_at n i) < n.
Proof.
  intros n i L. destruct (rowcol_at n i L) as [E B]. split; auto. unfold rowcol in E.
  destruct (C34_position n i) as (x & y & Ex & _); [assert (H := half_tri n); lia|]. rewrite Ex in *. cbn [bind fst snd] in E. apply Ok_inj in E.
  rewrite !Nat2Z.id in E. rewrite <- E. reflexivity.
Qed.
Lemma d2_sym : forall {K : CRing} x y (g : nat -> nat -> nat -> nat -> K), two_sym g -> two_sym (d2 x y g).
Proof.
  intros K x y g S i j k l. unfold d2. rewrite (Radd_comm (rth K)). f_equal; unfold d2a, d2b, dl; f_equal; f_equal.
  all: destruct (Nat.eqb _ _); auto; apply S.
Qed.
Lemma sum_one : forall {K : CRing} (r : res (triple K)), deriv_sum (do t <- r; Ok [t]) = do t <- r; Ok (t_sum t).
Proof.
  intros K [t|e]; auto. cbn [bind]. unfold deriv_sum. cbn [bind]. f_equal. rewrite psum_sumf. unfold sumf. cbn.
  rewrite (Radd_comm (rth K)). apply (Radd_0_l (rth K)).
Qed.

(** ** each column of the array of derivatives holds the three parts of the matrix element of the changed integrals *)
Theorem C35_generalized_columns : forall {K : CRing} (h : gham K) m n ds, herm1 (gh_one h) -> herm2 (gh_two h) -> two_sym (gh_two h) ->
  fits m (gh_n h) -> fits n (gh_n h) -> (m <> 0%N \/ n <> 0%N) -> (forall i, In i ds -> i < gh_n h * (gh_n h - 1) / 2) ->
  exists cols, deriv_decomposed h m n (map Z.of_nat ds) = Ok cols /\
    Forall2 (fun i t => exists x y, param_ind_to_rowcol_ind (gh_n h) (Z.of_nat i) = Ok (Z.of_nat x, Z.of_nat y) /\ x < y < gh_n h /\
      forall g : gham K, has_ints g (gh_n h) (d1 x y (gh_one h)) (d2 x y (gh_two h)) -> integrate_sd_sd_decomposed g m n = Ok t) ds cols.
Proof.
  intros K h m n ds H1 H2 S Fm Fn NV B. destruct (deriv_decomposed_eq h m n ds) as (r & R & E); auto; [tauto|]. exists (map r ds). split; auto.
  clear E. induction ds as [|i ds IH]; cbn [map]; constructor.
  - destruct (rowcol_of (gh_n h) i) as [P L]; [apply B; now left|]. exists (fst (pair_at (gh_n h) i)), (snd (pair_at (gh_n h) i)). split; auto. split; auto.
    intros g (G0 & G1 & G2 & G3). rewrite <- (R i) by now left. apply decomposed_ext; cbn [der_g cache_two_ints gh_n gh_one gh_two gh_ijij gh_ijji]; auto;
      intros; try (destruct (G1 i0 j) as [X Y]; rewrite ?X, ?Y; apply G3).
  - apply IH; intros; [apply B|apply R]; now right.
Qed.
Print Assumptions C35_generalized_columns.

Theorem C35_generalized : forall {K : CField} (h : gham K) m n i, (@radd K rI rI <> rO) ->
  herm1 (gh_one h) -> herm2 (gh_two h) -> two_sym (gh_two h) -> fits m (gh_n h) -> fits n (gh_n h) -> i < gh_n h * (gh_n h - 1) / 2 ->
  exists x y, param_ind_to_rowcol_ind (gh_n h) (Z.of_nat i) = Ok (Z.of_nat x, Z.of_nat y) /\ x < y < gh_n h /\
    integrate_sd_sd_deriv h m n [Z.of_nat i] = Ok (ham_elem (gh_n h) (d1 x y (gh_one h)) (d2 x y (gh_two h)) m n).
Proof.
  intros K h m n i HH H1 H2 S Fm Fn B. destruct (rowcol_of (gh_n h) i B) as [P L].
  exists (fst (pair_at (gh_n h) i)), (snd (pair_at (gh_n h) i)). split; auto. split; auto.
  set (x := fst (pair_at (gh_n h) i)) in *. set (y := snd (pair_at (gh_n h) i)) in *.
  assert (D : (m = 0%N /\ n = 0%N) \/ (m <> 0%N \/ n <> 0%N)) by lia. destruct D as [[-> ->]|D].
  - unfold integrate_sd_sd_deriv, deriv_decomposed. change (diff_orbs 0 0) with (@nil nat, @nil nat). cbn [length Nat.eqb negb Nat.ltb Nat.leb rev].
    change (shared_orbs 0 0) with (@nil nat). change (sign_excite (Some 0%N) [] []) with (Ok 1%Z). cbn [bind].
    change [Z.of_nat i] with (map Z.of_nat [i]). rewrite deriv_ok_nat by (intros j [<-|[]]; auto). cbn [negb mapM map].
    destruct (rowcol_at (gh_n h) i B) as [-> _]. destruct (pair_at (gh_n h) i) as [x' y']. cbn. f_equal. unfold t_sum, t_scale, t_add, t_zero; cbn.
    unfold ham_elem. rewrite two_body_pairs by (apply d2_sym; auto). rewrite one_same, pair_same by (auto; now apply d2_sym).
    change (occ_indices (Some 0%N)) with (@nil nat). cbn. rewrite half_double by auto.
    rewrite !(Radd_0_l (rth K)), !cr_mul_0_r, !(Radd_0_l (rth K)). rewrite (Rsub_def (rth K)). symmetry. apply (Ropp_def (rth K)).
  - destruct (C35_generalized_columns h m n [i]) as (cols & E & F); auto; [intros j [<-|[]]; auto|].
    inversion F as [|? t ? ? (x' & y' & P' & _ & G) F']; subst. inversion F'; subst. rewrite P in P'. apply Ok_inj in P'.
    assert (x' = x /\ y' = y) as [-> ->] by (injection P'; lia).
    unfold integrate_sd_sd_deriv. cbn [map] in E. rewrite E. rewrite <- (C28_elements (der_g h x y)) by (auto; try (intros ? ?; split; reflexivity); now apply d2_sym).
    unfold integrate_sd_sd. rewrite (G (der_g h x y)) by (repeat split; reflexivity). apply (sum_one (Ok t)).
Qed.
Print Assumptions C35_generalized.

Theorem C35_restricted : forall {K : CField} (h : rham K) m n i, (@radd K rI rI <> rO) ->
  herm1 (rh_one h) -> herm2 (rh_two h) -> two_sym (rh_two h) -> fits m (2 * rh_n h) -> fits n (2 * rh_n h) -> i < rh_n h * (rh_n h - 1) / 2 ->
  exists x y, param_ind_to_rowcol_ind (rh_n h) (Z.of_nat i) = Ok (Z.of_nat x, Z.of_nat y) /\ x < y < rh_n h /\
    r_sd_sd_deriv h m n [Z.of_nat i]
    = Ok (ham_elem (2 * rh_n h) (expand1 (rh_n h) (d1 x y (rh_one h))) (expand2 (rh_n h) (d2 x y (rh_two h))) m n).
Proof.
  intros K h m n i HH H1 H2 S Fm Fn B. destruct (rowcol_of (rh_n h) i B) as [P L].
  exists (fst (pair_at (rh_n h) i)), (snd (pair_at (rh_n h) i)). split; auto. split; auto.
  unfold r_sd_sd_deriv. change [Z.of_nat i] with (map Z.of_nat [i]). rewrite r_deriv_decomposed_eq by (auto; try lia; intros j [<-|[]]; auto).
  set (x := fst (pair_at (rh_n h) i)) in *. set (y := snd (pair_at (rh_n h) i)) in *.
  rewrite <- (C30_elements (der_r h x y)) by (auto; try (intros ? ?; split; reflexivity); try (now apply d2_sym); cbn; lia).
  apply (sum_one (r_decomposed (der_r h x y) m n)).
Qed.
Print Assumptions C35_restricted.

(** any number of indices: one column for each *)
Theorem C35_restricted_columns : forall {K : CRing} (h : rham K) m n ds, herm1 (rh_one h) -> herm2 (rh_two h) -> two_sym (rh_two h) ->
  0 < rh_n h -> fits m (2 * rh_n h) -> fits n (2 * rh_n h) -> (forall i, In i ds -> i < rh_n h * (rh_n h - 1) / 2) ->
  r_deriv_decomposed h m n (map Z.of_nat ds) =
    mapM (fun i => r_decomposed (der_r h (fst (pair_at (rh_n h) i)) (snd (pair_at (rh_n h) i))) m n) ds.
Proof. intros K h m n ds H1 H2 S P Fm Fn B. now apply r_deriv_decomposed_eq. Qed.
Print Assumptions C35_restricted_columns.

Theorem C35_unrestricted : forall {K : CField} (h : uham K) m n i, (@radd K rI rI <> rO) ->
  herm1 (uh_one0 h) -> herm1 (uh_one1 h) -> herm2 (uh_two0 h) -> herm2 (uh_two1 h) -> herm2 (uh_two2 h) -> two_sym (uh_two0 h) -> two_sym (uh_two2 h) ->
  fits m (2 * uh_n h) -> fits n (2 * uh_n h) -> i < uh_n h * (uh_n h - 1) ->
  exists s x y, u_param_ind_to_rowcol_ind (uh_n h) (Z.of_nat i) = Ok (s, Z.of_nat x, Z.of_nat y) /\ s < 2 /\ x < y < uh_n h /\
    let k := uh_n h in
    let z1 := fun _ _ : nat => (rO : K) in
    let z2 := fun _ _ _ _ : nat => (rO : K) in
    u_sd_sd_deriv h m n [Z.of_nat i]
    = Ok (if Nat.eqb s 0
          then ham_elem (2 * k) (uexpand1 k (d1 x y (uh_one0 h)) z1) (uexpand2 k (d2 x y (uh_two0 h)) (d2a x y (uh_two1 h)) z2) m n
          else ham_elem (2 * k) (uexpand1 k z1 (d1 x y (uh_one1 h))) (uexpand2 k z2 (d2b x y (uh_two1 h)) (d2 x y (uh_two2 h))) m n).
Proof.
  intros K h m n i HH A1 A2 B0 B1 B2 S0 S2 Fm Fn B. destruct (C34_unrestricted (uh_n h) i B) as (s & x & y & E & L & _).
  exists s, x, y. split; auto.
  assert (Ls : s < 2).
  { revert E. unfold u_param_ind_to_rowcol_ind. destruct (Z.ltb _ _); destruct (param_ind_to_rowcol_ind _ _); cbn [bind]; intros E; try discriminate; injection E; lia. }
  split; auto. split; auto. cbn zeta.
  assert (U := proj1 (u_rowcol_at (uh_n h) i B)). unfold u_rowcol in U. rewrite E in U. cbn [bind] in U. rewrite !Nat2Z.id in U. apply Ok_inj in U.
  unfold u_sd_sd_deriv. change [Z.of_nat i] with (map Z.of_nat [i]). rewrite u_deriv_decomposed_eq by (auto; try nia; intros j [<-|[]]; auto).
  cbn [mapM]. injection U as U1 U2 U3. rewrite <- U1, <- U2, <- U3. clear U1 U2 U3.
  assert (Z2 : two_sym (fun _ _ _ _ : nat => (rO : K))) by (intros ? ? ? ?; reflexivity).
  transitivity (u_sd_sd (der_u h (Nat.eqb s 0) x y) m n); [apply (sum_one (u_decomposed (der_u h (Nat.eqb s 0) x y) m n))|].
  rewrite C31_elements; auto; try (intros ? ?; repeat split; reflexivity); try (cbn; lia); destruct (Nat.eqb s 0); auto; cbn [der_u u_cache_two_ints uh_two0 uh_two2]; auto; now apply d2_sym.
Qed.
Print Assumptions C35_unrestricted.

(** ** these are derivatives: along any polynomial path of matrices that leaves the identity in the direction of the
    generator of the parameter, rotating the integrals by the matrix changes the matrix element with this slope *)
Definition g_of (K : CField) (t : ints K) : gham K := cache_two_ints (mkgham (i_n t) (i_one t) (i_two t) (fun _ _ => rO) (fun _ _ => rO)).
Definition r_of (K : CField) (t : ints K) : rham K := r_cache_two_ints (mkrham (i_n t) (i_one t) (i_two t) (fun _ _ => rO) (fun _ _ => rO)).
Definition u_of (K : CField) (t : uints K) : uham K :=
  let z := fun _ _ => rO in u_cache_two_ints (mkuham (ui_n t) (ui_one0 t) (ui_one1 t) (ui_two0 t) (ui_two1 t) (ui_two2 t) z z z z z).
Arguments g_of {K}. Arguments r_of {K}. Arguments u_of {K}.

Theorem C35_generalized_derivative : forall {K : CField} (t : ints K) m n i, (@radd K rI rI <> rO) ->
  herm1 (i_one t) -> herm2 (i_two t) -> two_sym (i_two t) -> fits m (i_n t) -> fits n (i_n t) -> (m <> 0%N \/ n <> 0%N) -> i < i_n t * (i_n t - 1) / 2 ->
  exists x y v, param_ind_to_rowcol_ind (i_n t) (Z.of_nat i) = Ok (Z.of_nat x, Z.of_nat y) /\
    integrate_sd_sd_deriv (g_of t) m n [Z.of_nat i] = Ok v /\
    forall U, rotates (i_n t) x y U -> exists F, tangent F (F rO) v /\ integrate_sd_sd (g_of t) m n = Ok (F rO) /\
      forall e, exists t', orb_rotate_matrix t (i_n t) (i_n t) (U e) = Ok t' /\ integrate_sd_sd (g_of t') m n = Ok (F e).
Proof.
  intros K t m n i HH H1 H2 S Fm Fn NV B. destruct (C35_generalized (g_of t) m n i) as (x & y & P & L & E); auto.
  cbn [g_of cache_two_ints gh_n gh_one gh_two] in *. exists x, y. eexists. split; [exact P|]. split; [exact E|]. intros U HU.
  set (F := fun e => ham_elem (i_n t) (rot1 (i_n t) (i_one t) (U e) (U e)) (rot2 (i_n t) (i_two t) (U e) (U e) (U e) (U e)) m n).
  assert (T : tangent F (ham_elem (i_n t) (i_one t) (i_two t) m n) (ham_elem (i_n t) (d1 x y (i_one t)) (d2 x y (i_two t)) m n)).
  { apply tan_ham_elem; intros; [apply tan_rot1|apply tan_rot2_all with (V := fun _ : K => ident (K := K))]; auto; try lia. intros ? ? ? ? ?; reflexivity. }
  exists F. assert (F0 := tan_at0 _ _ _ T). split; [rewrite F0; exact T|]. split.
  - rewrite F0. rewrite (C28_elements (g_of t)); auto. intros ? ?; split; reflexivity.
  - intros e. eexists. unfold orb_rotate_matrix. rewrite Nat.eqb_refl. cbn [negb]. split; [reflexivity|].
    rewrite C28_elements; auto; [intros ? ?; split; reflexivity|cbn; now apply rot2_sym].
Qed.
Print Assumptions C35_generalized_derivative.

Lemma place_lt : forall k i, i < 2 * k -> place k i < k.
Proof. intros k i H. unfold place, up. destruct (Nat.ltb_spec i k); lia. Qed.
Theorem C35_restricted_derivative : forall {K : CField} (t : ints K) m n i, (@radd K rI rI <> rO) ->
  herm1 (i_one t) -> herm2 (i_two t) -> two_sym (i_two t) -> fits m (2 * i_n t) -> fits n (2 * i_n t) -> i < i_n t * (i_n t - 1) / 2 ->
  exists x y v, param_ind_to_rowcol_ind (i_n t) (Z.of_nat i) = Ok (Z.of_nat x, Z.of_nat y) /\
    r_sd_sd_deriv (r_of t) m n [Z.of_nat i] = Ok v /\
    forall U, rotates (i_n t) x y U -> exists F, tangent F (F rO) v /\ r_sd_sd (r_of t) m n = Ok (F rO) /\
      forall e, exists t', orb_rotate_matrix t (i_n t) (i_n t) (U e) = Ok t' /\ r_sd_sd (r_of t') m n = Ok (F e).
Proof.
  intros K t m n i HH H1 H2 S Fm Fn B. destruct (C35_restricted (r_of t) m n i) as (x & y & P & L & E); auto.
  cbn [r_of r_cache_two_ints rh_n rh_one rh_two] in *. exists x, y. eexists. split; [exact P|]. split; [exact E|]. intros U HU.
  set (F := fun e => ham_elem (2 * i_n t) (expand1 (i_n t) (rot1 (i_n t) (i_one t) (U e) (U e))) (expand2 (i_n t) (rot2 (i_n t) (i_two t) (U e) (U e) (U e) (U e))) m n).
  assert (T : tangent F (ham_elem (2 * i_n t) (expand1 (i_n t) (i_one t)) (expand2 (i_n t) (i_two t)) m n)
    (ham_elem (2 * i_n t) (expand1 (i_n t) (d1 x y (i_one t))) (expand2 (i_n t) (d2 x y (i_two t))) m n)).
  { apply tan_ham_elem; intros; unfold expand1, expand2.
    - destruct (same_spin _ _ _); [|apply tan_const]. apply tan_rot1; auto; try apply place_lt; lia.
    - destruct (_ && _)%bool; [|apply tan_const]. apply tan_rot2_all with (V := fun _ : K => ident (K := K)); auto; try apply place_lt; try lia. intros ? ? ? ? ?; reflexivity. }
  exists F. assert (F0 := tan_at0 _ _ _ T). split; [rewrite F0; exact T|]. split.
  - rewrite F0. rewrite (C30_elements (r_of t)); auto; [intros ? ?; split; reflexivity|cbn; lia].
  - intros e. eexists. unfold orb_rotate_matrix. rewrite Nat.eqb_refl. cbn [negb]. split; [reflexivity|].
    rewrite C30_elements; auto; [intros ? ?; split; reflexivity|cbn; now apply rot2_sym|cbn; lia].
Qed.
Print Assumptions C35_restricted_derivative.

Lemma tan_uexpand1 : forall {K : CField} k (A B : K -> nat -> nat -> K) a b a' b' i j, i < 2 * k -> j < 2 * k ->
  (forall p q, p < k -> q < k -> tangent (fun e => A e p q) (a p q) (a' p q)) -> (forall p q, p < k -> q < k -> tangent (fun e => B e p q) (b p q) (b' p q)) ->
  tangent (fun e => uexpand1 k (A e) (B e) i j) (uexpand1 k a b i j) (uexpand1 k a' b' i j).
Proof.
  intros K k A B a b a' b' i j Hi Hj HA HB. unfold uexpand1. destruct (same_spin k i j); [|apply tan_const].
  destruct (up k i); [apply HA|apply HB]; now apply place_lt.
Qed.
Lemma tan_uexpand2 : forall {K : CField} k (A B C : K -> nat -> nat -> nat -> nat -> K) a b c a' b' c' i j p q, i < 2 * k -> j < 2 * k -> p < 2 * k -> q < 2 * k ->
  (forall i j p q, i < k -> j < k -> p < k -> q < k -> tangent (fun e => A e i j p q) (a i j p q) (a' i j p q)) ->
  (forall i j p q, i < k -> j < k -> p < k -> q < k -> tangent (fun e => B e i j p q) (b i j p q) (b' i j p q)) ->
  (forall i j p q, i < k -> j < k -> p < k -> q < k -> tangent (fun e => C e i j p q) (c i j p q) (c' i j p q)) ->
  tangent (fun e => uexpand2 k (A e) (B e) (C e) i j p q) (uexpand2 k a b c i j p q) (uexpand2 k a' b' c' i j p q).
Proof.
  intros K k A B C a b c a' b' c' i j p q Hi Hj Hp Hq HA HB HC. unfold uexpand2. destruct (_ && _)%bool; [|apply tan_const].
  destruct (up k i), (up k j); [apply HA|apply HB|apply HB|apply HC]; now apply place_lt.
Qed.
Theorem C35_unrestricted_derivative : forall {K : CField} (t : uints K) m n i, (@radd K rI rI <> rO) ->
  herm1 (ui_one0 t) -> herm1 (ui_one1 t) -> herm2 (ui_two0 t) -> herm2 (ui_two1 t) -> herm2 (ui_two2 t) -> two_sym (ui_two0 t) -> two_sym (ui_two2 t) ->
  fits m (2 * ui_n t) -> fits n (2 * ui_n t) -> i < ui_n t * (ui_n t - 1) ->
  exists s x y v, u_param_ind_to_rowcol_ind (ui_n t) (Z.of_nat i) = Ok (s, Z.of_nat x, Z.of_nat y) /\
    u_sd_sd_deriv (u_of t) m n [Z.of_nat i] = Ok v /\
    forall U V, rotates (ui_n t) x y U -> stays (ui_n t) V -> exists F, tangent F (F rO) v /\ u_sd_sd (u_of t) m n = Ok (F rO) /\
      forall e, exists t', u_orb_rotate_matrix t (ui_n t) (ui_n t) (if Nat.eqb s 0 then U e else V e) (ui_n t) (ui_n t) (if Nat.eqb s 0 then V e else U e) = Ok t' /\
        u_sd_sd (u_of t') m n = Ok (F e).
Proof.
  intros K t m n i HH A1 A2 B0 B1 B2 S0 S2 Fm Fn B. destruct (C35_unrestricted (u_of t) m n i) as (s & x & y & P & Ls & L & E); auto.
  cbn [u_of u_cache_two_ints uh_n uh_one0 uh_one1 uh_two0 uh_two1 uh_two2] in *. cbn zeta in E. exists s, x, y. eexists. split; [exact P|]. split; [exact E|]. intros U V HU HV.
  set (k := ui_n t) in *. set (b := Nat.eqb s 0) in *.
  set (M0 := fun e => if b then U e else V e). set (M1 := fun e => if b then V e else U e).
  set (F := fun e => ham_elem (2 * k) (uexpand1 k (rot1 k (ui_one0 t) (M0 e) (M0 e)) (rot1 k (ui_one1 t) (M1 e) (M1 e)))
    (uexpand2 k (rot2 k (ui_two0 t) (M0 e) (M0 e) (M0 e) (M0 e)) (rot2 k (ui_two1 t) (M0 e) (M1 e) (M0 e) (M1 e)) (rot2 k (ui_two2 t) (M1 e) (M1 e) (M1 e) (M1 e))) m n).
  match type of E with _ = Ok ?w => assert (T : tangent F (ham_elem (2 * k) (uexpand1 k (ui_one0 t) (ui_one1 t)) (uexpand2 k (ui_two0 t) (ui_two1 t) (ui_two2 t)) m n) w) end.
  { unfold F, M0, M1. destruct b; apply tan_ham_elem; intros.
    - apply tan_uexpand1; auto; intros; [apply tan_rot1|apply tan_rot1_id]; auto; lia.
    - apply tan_uexpand2; auto; intros; [apply tan_rot2_all with (V := V)|apply tan_rot2_a|apply tan_rot2_id with (x := x) (y := y) (U := U)]; auto; lia.
    - apply tan_uexpand1; auto; intros; [apply tan_rot1_id|apply tan_rot1]; auto; lia.
    - apply tan_uexpand2; auto; intros; [apply tan_rot2_id with (x := x) (y := y) (U := U)|apply tan_rot2_b|apply tan_rot2_all with (V := V)]; auto; lia. }
  exists F. assert (F0 := tan_at0 _ _ _ T). split; [rewrite F0; exact T|]. split.
  - rewrite F0. rewrite (C31_elements (u_of t)); auto; [intros ? ?; repeat split; reflexivity|cbn; fold k; lia].
  - intros e. eexists. unfold u_orb_rotate_matrix. fold k. rewrite Nat.eqb_refl. cbn [negb andb]. split; [reflexivity|].
    rewrite C31_elements; auto; [intros ? ?; repeat split; reflexivity|cbn; now apply rot2_sym|cbn; now apply rot2_sym|cbn; lia].
Qed.
Print Assumptions C35_unrestricted_derivative.

(** in characteristic 0 a polynomial has one slope at 0, so these statements determine the returned value *)
Theorem C35_slope_unique : forall {K : CField} (F : K -> K) a v b w, (forall k, nat_r (K := K) (S k) <> rO) ->
  tangent F a v -> tangent F b w -> v = w.
Proof. intros K F a v b w C A B. now apply (tangent_unique C F a v b w). Qed.
Print Assumptions C35_slope_unique.
