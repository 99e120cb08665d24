(** Property C64: wavefunctions in nonorthogonal orbitals (fanpy/wfn/composite/nonorth.py). *)
From Coq Require Import List ZArith NArith Arith Bool Lia Permutation Sorted.
From Verif Require Import Py BitSpec BitLemmas Fock FockLemmas Combos Slater SlaterBits SlaterBits2 SignLemmas Alg MathTools DetLemmas WfnCI Composite Cache CacheSpec CacheLemmas WfnCached
  FockInner OrbSpec OrbLemmas OrbMain WedgeLemmas Jacobi JacobiSpec JacobiMain P_Jacobi Nonorth NonorthSpec NonorthLemmas NonorthMain NonorthValues NonorthValues2 NonorthValues3 NonorthEx
  EqnSpec EqnLemmas P_Cache.
Import ListNotations.
Local Open Scope nat_scope.

Section C64.
Context {K : CRing}.
Local Open Scope cr_scope.
Add Ring K_ring95 : (rth K).
Lemma shape_iff : forall (m : matrix K) r c, (Nat.eqb (m_rows m) (Z.to_nat r) && Nat.eqb (m_cols m) (Z.to_nat c))%bool = true <-> shaped r c m.
Proof. intros. unfold shaped. now rewrite andb_true_iff, !Nat.eqb_eq. Qed.
(** The constructor accepts exactly the matrices with the shapes of one of the kinds of transformations; without
    parameters it takes the identity of the spatial orbitals. *)
Theorem C64_constructor : forall ne nspin c a (w : nonorth K), new_nonorth ne nspin c a = Ok w <->
  (0 < ne)%Z /\ (0 < nspin)%Z /\ Z.Even nspin /\ c_nelec c = ne /\
  exists t ms, (a = NDefault /\ ms = [eye (Z.to_nat (nspin / 2)) (Z.to_nat (c_nspin c / 2))] \/ a = NMats ms) /\ transforms t nspin (c_nspin c) ms /\ w = mkno ne nspin c ms.
Proof.
  intros ne nspin c a w.
  assert (Se : assign_nelec CIGeneral ne = if (ne <=? 0)%Z then Err ValueError else Ok ne) by reflexivity.
  assert (Ev : Z.Even nspin <-> (nspin mod 2)%Z <> 1%Z).
  { rewrite <- Z.even_spec, Zeven_mod. pose proof (Z.mod_pos_bound nspin 2). destruct (Zeq_bool (nspin mod 2) 0) eqn:B.
    - apply Zeq_bool_eq in B. split; auto; lia.
    - apply Zeq_bool_neq in B. split; [discriminate|lia]. }
  split.
  - intros E. unfold new_nonorth in E. rewrite Se in E. destruct (Z.leb_spec ne 0); [discriminate|]. cbn [bind] in E.
    unfold assign_nspin in E. destruct (Z.leb_spec nspin 0); [discriminate|]. destruct (Z.eqb_spec (nspin mod 2) 1); [discriminate|]. cbn [bind] in E.
    unfold one_assign_wfn in E. destruct (Z.eqb_spec (c_nelec c) ne); [|discriminate]. cbn [negb bind] in E. repeat split; auto; [now apply Ev|].
    unfold n_assign_params in E. cbn [n_nelec n_nspin n_wfn] in E. destruct a as [|[|m [|m' [|? ?]]]|]; try discriminate.
    + apply Ok_inj in E. exists Restricted. eexists. split; [left; split; [reflexivity|reflexivity]|]. split; [split; reflexivity|]. now subst w.
    + destruct (_ || _)%bool eqn:B; [|discriminate]. apply Ok_inj in E. apply orb_true_iff in B as [B|B]; apply shape_iff in B; [exists Restricted|exists Generalized]; exists [m]; repeat split; auto; apply B.
    + destruct (_ && _)%bool eqn:B in E; [|discriminate]. destruct (_ && _)%bool eqn:B' in E; [|discriminate]. apply Ok_inj in E. apply shape_iff in B, B'.
      exists Unrestricted, [m; m']. repeat split; auto; solve [apply B | apply B'].
  - intros (H1 & H2 & H3 & H4 & t & ms & Ha & T & ->). unfold new_nonorth. rewrite Se. destruct (Z.leb_spec ne 0); [lia|]. cbn [bind].
    unfold assign_nspin. destruct (Z.leb_spec nspin 0); [lia|]. apply Ev in H3. destruct (Z.eqb_spec (nspin mod 2) 1); [contradiction|]. cbn [bind].
    unfold one_assign_wfn. rewrite H4, Z.eqb_refl. cbn [negb bind]. unfold n_assign_params. cbn [n_nelec n_nspin n_wfn].
    destruct Ha as [[-> ->]| ->]; [reflexivity|]. destruct t, ms as [|m [|m' [|? ?]]]; try contradiction; cbn [transforms] in T.
    + apply shape_iff in T. rewrite T. reflexivity.
    + destruct T as [T T']. apply shape_iff in T, T'. rewrite T, T'. reflexivity.
    + apply shape_iff in T. rewrite T, orb_true_r. reflexivity.
Qed.
Lemma new_fields : forall ne nspin c a (w : nonorth K), new_nonorth ne nspin c a = Ok w -> n_nelec w = ne /\ n_nspin w = nspin /\ n_wfn w = c /\ (0 < nspin)%Z /\ Z.Even nspin /\ (0 < ne)%Z.
Proof. intros ne nspin c a w E. apply C64_constructor in E as (H1 & H2 & H3 & H4 & t & ms & _ & _ & ->). repeat split; auto. Qed.
(** The kind of the orbitals follows from the shapes. *)
Theorem C64_orbtype : forall ne nspin c a (w : nonorth K) t, new_nonorth ne nspin c a = Ok w ->
  (n_orbtype w = Some t <-> transforms t nspin (c_nspin c) (n_params w)) /\ n_orbtype w <> None.
Proof.
  intros ne nspin c a w t E. apply C64_constructor in E as (H1 & H2 & H3 & H4 & u & ms & _ & T & ->). cbn [n_params].
  assert (Ne : Z.to_nat (nspin / 2) <> Z.to_nat nspin) by (pose proof (Z.div_lt nspin 2 H2); pose proof (Z.div_pos nspin 2); lia).
  assert (O : n_orbtype (mkno ne nspin c ms) = Some u).
  { unfold n_orbtype, n_ns. cbn [n_params n_nspin]. destruct u, ms as [|m [|m' [|? ?]]]; try contradiction; cbn [transforms] in T.
    - destruct T as [-> _]. now rewrite Nat.eqb_refl.
    - destruct T as [[-> _] [-> _]]. now rewrite !Nat.eqb_refl.
    - destruct T as [-> _]. rewrite Nat.eqb_refl. rewrite (proj2 (Nat.eqb_neq _ _)); auto. }
  split; [|rewrite O; discriminate]. rewrite O. split; [intros X; injection X as <-; exact T|]. intros T'. f_equal.
  destruct u, t, ms as [|m [|m' [|? ?]]]; try contradiction; try reflexivity; cbn [transforms] in T, T'; exfalso; apply Ne; destruct T as [T _], T' as [T' _]; congruence.
Qed.
(** For any arrays the object may hold, also those put there past the checks: the numbers of rows alone decide. *)
Theorem C64_orbtype_rows : forall (w : nonorth K), (0 < n_nspin w)%Z ->
  let ns := Z.to_nat (n_nspin w / 2) in
  (n_orbtype w = Some Restricted <-> exists m, n_params w = [m] /\ m_rows m = ns) /\
  (n_orbtype w = Some Unrestricted <-> exists a b, n_params w = [a; b] /\ m_rows a = ns /\ m_rows b = ns) /\
  (n_orbtype w = Some Generalized <-> exists m, n_params w = [m] /\ m_rows m = Z.to_nat (n_nspin w)).
Proof.
  intros w P ns. assert (Ne : ns <> Z.to_nat (n_nspin w)) by (unfold ns; pose proof (Z.div_lt (n_nspin w) 2 P); pose proof (Z.div_pos (n_nspin w) 2); lia).
  unfold n_orbtype, n_ns. fold ns. destruct (n_params w) as [|m [|m' [|? ?]]].
  - repeat split; try discriminate; [intros (? & X & _)|intros (? & ? & X & _)|intros (? & X & _)]; discriminate X.
  - destruct (Nat.eqb_spec (m_rows m) ns) as [A|A]; [|destruct (Nat.eqb_spec (m_rows m) (Z.to_nat (n_nspin w))) as [B|B]]; repeat split; try discriminate;
      try (intros (? & ? & X & _); discriminate X); try (intros (? & X & Y); injection X as <-; congruence); intros; exists m; auto.
  - destruct (Nat.eqb_spec (m_rows m) ns) as [A|A], (Nat.eqb_spec (m_rows m') ns) as [B|B]; cbn [andb]; repeat split; try discriminate;
      try (intros (? & X & _); discriminate X); try (intros (? & ? & X & Y & Z); injection X as <- <-; congruence); intros; exists m, m'; auto.
  - repeat split; try discriminate; [intros (? & X & _)|intros (? & ? & X & _)|intros (? & X & _)]; discriminate X.
Qed.
(** The spin and the seniority are those of the wrapped wavefunction unless the orbitals mix the spins. *)
Theorem C64_conserved : forall ne nspin c a (w : nonorth K) t x, new_nonorth ne nspin c a = Ok w -> transforms t nspin (c_nspin c) (n_params w) ->
  (t <> Generalized -> n_seniority w x = x) /\ (t = Generalized -> n_seniority w x = None).
Proof.
  intros ne nspin c a w t x E T. apply (C64_orbtype _ _ _ _ _ t E) in T. unfold n_seniority. rewrite T. destruct t; split; intros; auto; try contradiction; discriminate.
Qed.
Lemma new_valid : forall ne nspin c a (w : nonorth K) t, new_nonorth ne nspin c a = Ok w -> n_orbtype w = Some t -> valid w t.
Proof.
  intros ne nspin c a w t E O. destruct (new_fields _ _ _ _ _ E) as (_ & F2 & F3 & F4 & F5 & _). unfold valid. rewrite F2, F3. repeat split; auto. now apply (C64_orbtype _ _ _ _ _ t E).
Qed.
(** The number of parameters. *)
Theorem C64_nparams : forall ne nspin c a (w : nonorth K) t, new_nonorth ne nspin c a = Ok w -> n_orbtype w = Some t -> (0 <= c_nspin c)%Z ->
  n_nparams w = match t with Restricted => (nspin / 2 * (c_nspin c / 2))%Z | Unrestricted => (2 * (nspin / 2 * (c_nspin c / 2)))%Z | Generalized => (nspin * c_nspin c)%Z end.
Proof.
  intros ne nspin c a w t E O P. pose proof (proj1 (proj1 (C64_orbtype _ _ _ _ _ t E)) O) as T. destruct (new_fields _ _ _ _ _ E) as (_ & _ & _ & F4 & _).
  assert (A : (0 <= nspin / 2)%Z) by (apply Z.div_pos; lia). assert (B : (0 <= c_nspin c / 2)%Z) by (apply Z.div_pos; lia). clear E O.
  unfold n_nparams. destruct t, (n_params w) as [|m [|m' [|? ?]]]; try contradiction; cbn [transforms] in T; cbn [fold_right].
  - destruct T as [-> ->]. rewrite Nat2Z.inj_mul, !Z2Nat.id by auto. lia.
  - destruct T as [[-> ->] [-> ->]]. rewrite Nat2Z.inj_mul, !Z2Nat.id by auto. lia.
  - destruct T as [-> ->]. rewrite Nat2Z.inj_mul, !Z2Nat.id by lia. lia.
Qed.
(** The overlap is that of the wrapped wavefunction with the determinant of the transformed orbitals. *)
Theorem C64_overlap : forall ne nspin c a (w : nonorth K) t k f sd rows, new_nonorth ne nspin c a = Ok w -> n_orbtype w = Some t ->
  (t = Generalized -> k = Z.to_nat ne) -> (t <> Generalized -> c_nspin c = nspin) ->
  overlaps_of c k f -> within (Z.to_nat nspin) sd -> has_electrons sd k -> occupies sd rows ->
  n_overlap w sd = Ok (through f (det_of (spin_matrix t (Z.to_nat (nspin / 2)) (Z.to_nat (c_nspin c / 2)) (entries (n_params w))) (seq 0 (Z.to_nat (c_nspin c))) rows)).
Proof.
  intros ne nspin c a w t k f sd rows E O G B F W El Oc. pose proof (new_valid _ _ _ _ _ _ E O) as V. destruct (new_fields _ _ _ _ _ E) as (F1 & F2 & F3 & _).
  rewrite through_det, (occupies_occ _ _ Oc). unfold n_overlap. rewrite (olp_value w t f k sd V); rewrite ?F2, ?F3; auto.
  - unfold n_ns, n_wns. now rewrite F2, F3.
  - unfold sized. rewrite F1, F2, F3. destruct t; auto; apply B; discriminate.
Qed.
Lemma unit_det : forall (C : nat -> nat -> K) m sd (f : N -> K), within m sd -> (forall i j, (i < m)%nat -> (j < m)%nat -> C i j = if Nat.eqb i j then 1 else 0) ->
  linsf (seq 0 m) (map C (occ_indices (Some sd))) f 0%N = f sd.
Proof.
  intros C m sd f W H. assert (Oc : occupies sd (occ_indices (Some sd))).
  { apply occ_occupies. }
  rewrite <- through_det. rewrite (intertwine (fun f => f) C (seq 0 m) (occ_indices (Some sd))); auto.
  - now rewrite (occupies_ofrows _ _ Oc).
  - intros k g n Hk. apply occ_indices_In, W in Hk. symmetry. apply rowf_single; auto.
  - exact (proj2 Oc).
Qed.
(** The default parameters and identity matrices leave the overlaps as they are. *)
Theorem C64_identity : forall ne nspin c a (w : nonorth K) k f sd, new_nonorth ne nspin c a = Ok w -> c_nspin c = nspin ->
  (a = NDefault \/ exists ms, a = NMats ms /\ forall m i j, In m ms -> m_at m i j = if Nat.eqb i j then 1 else 0) ->
  (n_orbtype w = Some Generalized -> k = Z.to_nat ne) ->
  overlaps_of c k f -> within (Z.to_nat nspin) sd -> has_electrons sd k -> n_overlap w sd = Ok (f sd).
Proof.
  intros ne nspin c a w k f sd E Ec Ha G F W El. destruct (n_orbtype w) as [t|] eqn:O; [|now apply (C64_orbtype _ _ _ _ _ Generalized) in E].
  pose proof (new_valid _ _ _ _ _ _ E O) as V. destruct (new_fields _ _ _ _ _ E) as (F1 & F2 & F3 & F4 & F5 & _).
  unfold n_overlap. rewrite (olp_value w t f k sd V); rewrite ?F2, ?F3; auto.
  2:{ unfold sized. rewrite F1, F2, F3. destruct t; auto. }
  f_equal. apply unit_det; [rewrite Ec; auto|]. intros i j Hi Hj.
  assert (Id : forall m i j, In m (n_params w) -> m_at m i j = if Nat.eqb i j then 1 else 0).
  { apply C64_constructor in E as (_ & _ & _ & _ & u & ms & Hms & _ & ->). cbn [n_params]. destruct Ha as [-> | (l & -> & H)].
    - destruct Hms as [[_ ->]|X]; [|discriminate]. intros m i' j' [<-|[]]. reflexivity.
    - destruct Hms as [[X _]|X]; [discriminate|]. injection X as <-. exact H. }
  assert (Bl : forall a b : nat -> nat -> K, (forall i j, a i j = if Nat.eqb i j then 1 else 0) -> (forall i j, b i j = if Nat.eqb i j then 1 else 0) -> OrbSpec.blocks (n_ns w) (n_wns w) a b i j = if Nat.eqb i j then 1 else 0).
  { intros a' b' Ha' Hb'. replace (n_wns w) with (n_ns w) by (unfold n_wns, n_ns; now rewrite F2, F3, Ec). unfold OrbSpec.blocks.
    destruct (Nat.ltb_spec i (n_ns w)), (Nat.ltb_spec j (n_ns w)); [apply Ha'| | |].
    - destruct (Nat.eqb_spec i j); auto; lia.
    - destruct (Nat.eqb_spec i j); auto; lia.
    - rewrite Hb'. destruct (Nat.eqb_spec i j), (Nat.eqb_spec (i - n_ns w) (j - n_ns w)); auto; lia. }
  destruct V as (_ & T & _). unfold entries. destruct t, (n_params w) as [|m [|m' [|? ?]]]; try contradiction; cbn [spin_matrix map].
  - apply Bl; intros; apply Id; now left.
  - apply Bl; intros; apply Id; [now left|right; now left].
  - apply Id. now left.
Qed.
(** Wavefunctions with two rotated orbitals are those with the matrices that jacobi_rotation gives. *)
Theorem C64_jacobi : forall cos sin ne nspin c x o l (j : jac K) ms (w : nonorth K) f sd, new_jacobi ne nspin c x o l = Ok j -> jacobi_rotation cos sin j = Ok ms ->
  cos (j_angle j) * cos (j_angle j) + sin (j_angle j) * sin (j_angle j) = 1 ->
  new_nonorth ne nspin c (NMats (map (fun m => mkmat (fst m) (fst m) (snd m)) ms)) = Ok w ->
  c_nspin c = nspin -> (forall m, get_olp c m = Ok (f m)) -> within (Z.to_nat nspin) sd -> (j_orb j = Generalized -> has_electrons sd (Z.to_nat ne)) ->
  n_orbtype w = Some (j_orb j) /\ n_overlap w sd = j_overlap cos sin j sd.
Proof.
  intros cos sin ne nspin c x o l j ms w f sd Ej J U E Ec F W G.
  assert (Ejn : j_nspin j = nspin) by (apply C63_constructor in Ej as (_ & _ & _ & _ & t & i & j' & _ & _ & _ & ->); reflexivity).
  assert (O : n_orbtype w = Some (j_orb j)).
  { apply (C64_orbtype _ _ _ _ _ _ E). pose proof E as E0. apply C64_constructor in E0 as (_ & _ & _ & _ & t & ms' & [[X _]|X] & _ & ->); [discriminate|]. injection X as <-. cbn [n_params].
    unfold jacobi_rotation in J. unfold j_ns in J. rewrite Ejn in J. destruct (_ && _)%bool in J; [|discriminate].
    destruct (j_orb j); [| |]; [|destruct (_ && _)%bool in J|]; apply Ok_inj in J; subst ms; cbn [map transforms fst snd]; unfold shaped; cbn [m_rows m_cols]; rewrite Ec; auto. }
  split; [exact O|]. assert (Oc : occupies sd (occ_indices (Some sd))).
  { apply occ_occupies. }
  rewrite (C63_orbitals cos sin _ _ _ _ _ _ _ ms f sd _ Ej F U J Oc W).
  assert (El : exists k, has_electrons sd k /\ (j_orb j = Generalized -> k = Z.to_nat ne)).
  { destruct (j_orb j) eqn:Oj; [| |exists (Z.to_nat ne); auto]; (exists (nbelow sd (Z.to_nat nspin)); split; [|discriminate]; apply has_electrons_fits; intros i Hi; destruct (bit sd i) eqn:B; auto; apply W in B; lia). }
  destruct El as (k & El & Ek).
  rewrite (C64_overlap _ _ _ _ _ _ k f sd (occ_indices (Some sd)) E O); auto; [|intros m _ _; apply F].
  rewrite Ec. assert (Ep : entries (n_params w) = map snd ms); [|now rewrite Ep].
  apply C64_constructor in E as (_ & _ & _ & _ & t & ms' & [[X _]|X] & _ & ->); [discriminate|]. injection X as <-. cbn [n_params]. unfold entries. rewrite map_map. apply map_ext. reflexivity.
Qed.
End C64.
Print Assumptions C64_constructor.
Print Assumptions C64_orbtype.
Print Assumptions C64_orbtype_rows.
Print Assumptions C64_conserved.
Print Assumptions C64_nparams.
Print Assumptions C64_overlap.
Print Assumptions C64_identity.
Print Assumptions C64_jacobi.

(** wrong shapes; restricted, unrestricted and generalized orbitals; the determinant from the theorem *)
Example C64_constructor_ex : no_overlap 2 4 1 [no_33] 5 = Err ValueError /\ no_overlap 2 4 1 [no_22; no_44] 5 = Err ValueError /\ no_overlap 2 4 1 [] 5 = Err TypeError /\
  no_overlap 2 4 1 [no_22] 5 = Ok 668%Z /\ no_overlap 2 4 1 [no_22; no_22'] 9 = Ok 1236%Z /\ no_overlap 2 4 1 [no_44] 9 = Ok 477%Z.
Proof. repeat split; vm_compute; reflexivity. Qed.
Example C64_overlap_ex : through (K := Z_ring) (no_f 1) (det_of (K := Z_ring) (spin_matrix (K := Z_ring) Unrestricted 2 2 (entries [no_22; no_22'])) (seq 0 4) [0; 3]) = 1236%Z /\
  through (K := Z_ring) (no_f 1) (det_of (K := Z_ring) (m_at no_44) (seq 0 4) [0; 3]) = 477%Z.
Proof. repeat split; vm_compute; reflexivity. Qed.
Example C64_identity_ex : no_overlap 2 4 1 [no_mat 2 2 [[1; 0]; [0; 1]]]%Z 9 = Ok 82%Z /\ no_f 1 9 = 82%Z.
Proof. repeat split; vm_compute; reflexivity. Qed.
Example C64_conserved_ex : (do w <- new_nonorth (K := Z_ring) 2 4 (no_wfn 2 4 1) (NMats [no_22; no_22']); Ok (n_seniority w (Some 0%Z))) = Ok (Some 0%Z) /\
  (do w <- new_nonorth (K := Z_ring) 2 4 (no_wfn 2 4 1) (NMats [no_44]); Ok (n_seniority w (Some 0%Z))) = Ok None /\
  n_orbtype (mkno 2 4 (no_wfn 2 4 1) [no_22; no_33]) = None /\ n_orbtype (mkno 2 4 (no_wfn 2 4 1) [no_22; no_22']) = Some Unrestricted.
Proof. vm_compute. repeat split. Qed.
