(** Model of the generalized (spin-orbital) molecular Hamiltonian of
    fanpy/ham/generalized_chemical.py and of fanpy/ham/base.py.

    Integrals are functions of orbital indices with values in a commutative ring (numpy arrays; no
    rounding); reading outside of the array is an IndexError.  np.real is the identity: integrals
    are real.  A wavefunction enters only through its overlap function. *)
From Coq Require Import List ZArith NArith Bool Arith.
From Verif Require Import Py Slater Alg.
Import ListNotations.

Section Ham.
Context {K : CRing}.
Local Open Scope cr_scope.

(** attributes one_int, two_int, _cached_two_int_ijij, _cached_two_int_ijji; [gh_n] is
    one_int.shape[0], the number of spin orbitals (generalized_base.py:61-71) *)
Record gham := mkgham {
  gh_n : nat;
  gh_one : nat -> nat -> K;
  gh_two : nat -> nat -> nat -> nat -> K;
  gh_ijij : nat -> nat -> K;
  gh_ijji : nat -> nat -> K }.

(** generalized_chemical.py:101-106  cache_two_ints *)
Definition cache_two_ints (h : gham) : gham :=
  mkgham (gh_n h) (gh_one h) (gh_two h)
    (fun i j => gh_two h i j i j) (fun i j => gh_two h i j j i).

(** three components: one-electron, coulomb, exchange *)
Definition triple := (K * K * K)%type.
Definition t_zero : triple := (0, 0, 0).
Definition t_scale (c : K) (t : triple) : triple :=
  let '(a, b, e) := t in (c * a, c * b, c * e).
Definition t_add (s t : triple) : triple :=
  let '(a, b, e) := s in let '(a', b', e') := t in (a + a', b + b', e + e').
(** np.sum(..., axis=0) over the three components *)
Definition t_sum (t : triple) : K := let '(a, b, e) := t in a + b + e.

(** numpy integer indexing: IndexError if an index is out of bounds *)
Definition chk {A} (n : nat) (l : list nat) (v : A) : res A :=
  if forallb (fun i => Nat.ltb i n) l then Ok v else Err IndexError.

(** np.sum(np.triu(m[idx[:, None], idx], k=1)) *)
Definition triu_sum (m : nat -> nat -> K) (idx : list nat) : K :=
  psum (fun p => psum (fun q => if Nat.ltb p q then m (nth p idx 0%nat) (nth q idx 0%nat) else 0)
                      (seq 0 (length idx))) (seq 0 (length idx)).

(** generalized_chemical.py:297-316  _integrate_sd_sd_zero *)
Definition sd_sd_zero (h : gham) (shared : list nat) : res triple :=
  chk (gh_n h) shared
    (psum (fun i => gh_one h i i) shared, triu_sum (gh_ijij h) shared, - triu_sum (gh_ijji h) shared).

(** generalized_chemical.py:318-348  _integrate_sd_sd_one *)
Definition sd_sd_one (h : gham) (diff_sd1 diff_sd2 shared : list nat) : res triple :=
  match diff_sd1, diff_sd2 with
  | [a], [b] =>
      chk (gh_n h) (a :: b :: shared)
        (gh_one h a b, psum (fun i => gh_two h i a i b) shared, - psum (fun i => gh_two h i a b i) shared)
  | _, _ => Err ValueError
  end.

(** generalized_chemical.py:350-374  _integrate_sd_sd_two *)
Definition sd_sd_two (h : gham) (diff_sd1 diff_sd2 : list nat) : res triple :=
  match diff_sd1, diff_sd2 with
  | [a; b], [c; d] => chk (gh_n h) [a; b; c; d] (0, gh_two h a b c d, - gh_two h a b d c)
  | _, _ => Err ValueError
  end.

(** generalized_chemical.py:187-252  integrate_sd_sd_decomposed with deriv=None *)
Definition integrate_sd_sd_decomposed (h : gham) (sd1 sd2 : N) : res triple :=
  let shared := shared_orbs sd1 sd2 in
  let (diff_sd1, diff_sd2) := diff_orbs sd1 sd2 in
  if negb (Nat.eqb (length diff_sd1) (length diff_sd2)) then Ok t_zero
  else
    let order := length diff_sd1 in
    if Nat.ltb 2 order then Ok t_zero
    else
      do sign <- sign_excite (Some sd1) diff_sd1 (rev diff_sd2);
      do t <- (if (Nat.eqb order 0 && negb (Nat.eqb (length shared) 0))%bool then sd_sd_zero h shared
               else if Nat.eqb order 1 then sd_sd_one h diff_sd1 diff_sd2 shared
               else sd_sd_two h diff_sd1 diff_sd2);
      Ok (t_scale (sgnr sign) t).

(** generalized_chemical.py:254-295  integrate_sd_sd with deriv=None *)
Definition integrate_sd_sd (h : gham) (sd1 sd2 : N) : res K :=
  do t <- integrate_sd_sd_decomposed h sd1 sd2; Ok (t_sum t).

(** generalized_chemical.py:711-730  _integrate_sd_sds_zero *)
Definition sd_sds_zero (h : gham) (occs : list nat) : list triple :=
  [(psum (fun i => gh_one h i i) occs, triu_sum (gh_ijij h) occs, - triu_sum (gh_ijji h) occs)].

(** elementwise product of the sign array with the columns of an integral array *)
Definition sign_times (signs : list Z) (ts : list triple) : list triple :=
  map (fun p => t_scale (sgnr (fst p)) (snd p)) (combine signs ts).

(** generalized_chemical.py:732-778  _integrate_sd_sds_one; the ravelled arrays run over occupied
    (outer) and virtual (inner) orbitals *)
Definition sd_sds_one (h : gham) (occs virs : list nat) : list triple :=
  let shared := shared_indices_remove_one_index occs in
  sign_times (sign_excite_one occs virs)
    (flat_map (fun k =>
       let a := nth k occs 0%nat in
       let sh := nth k shared [] in
       map (fun v => (gh_one h a v, psum (fun s => gh_two h s a s v) sh,
                      - psum (fun s => gh_two h s a v s) sh)) virs)
       (seq 0 (length occs))).

(** generalized_chemical.py:780-818  _integrate_sd_sds_two *)
Definition sd_sds_two (h : gham) (occs virs : list nat) : list triple :=
  sign_times (sign_excite_two occs virs)
    (flat_map (fun ab =>
       map (fun cd =>
              let a := nth 0 ab 0%nat in let b := nth 1 ab 0%nat in
              let c := nth 0 cd 0%nat in let d := nth 1 cd 0%nat in
              (0, gh_two h a b c d, - gh_two h a b d c))
           (combinations virs 2))
       (combinations occs 2)).

(** np.sum(integrals * overlaps, axis=1): the arrays must have the same length (numpy broadcasting
    error otherwise) *)
Definition dot3 (ts : list triple) (overlaps : list K) : res triple :=
  if Nat.eqb (length ts) (length overlaps)
  then Ok (fold_left (fun acc p => t_add acc (t_scale (snd p) (fst p))) (combine ts overlaps) t_zero)
  else Err ValueError.

(** generalized_chemical.py:1505-1639  integrate_sd_wfn with ham_deriv=None and components=True.
    [f] is wfn.get_overlap(., deriv=wfn_deriv): the arrays of derivatives are treated column by
    column by numpy broadcasting, so [f] is one column *)
Definition integrate_sd_wfn3 (h : gham) (sd : N) (f : N -> K) : res triple :=
  let occs := occ_indices (Some sd) in
  let virs := vir_indices (Some sd) (Z.of_nat (gh_n h)) in
  do z <- chk (gh_n h) occs (sd_sds_zero h occs);
  do out0 <- dot3 z [f sd];
  do s1 <- excite_bulk sd occs virs 1;
  do out1 <- dot3 (sd_sds_one h occs virs) (map (fun z => f (Z.to_N z)) s1);
  do s2 <- excite_bulk sd occs virs 2;
  do out2 <- (if (Nat.ltb 1 (length occs) && Nat.ltb 1 (length virs))%bool
              then dot3 (sd_sds_two h occs virs) (map (fun z => f (Z.to_N z)) s2) else Ok t_zero);
  Ok (t_add (t_add (t_add t_zero out0) out1) out2).

(** components=False *)
Definition integrate_sd_wfn (h : gham) (sd : N) (f : N -> K) : res K :=
  do t <- integrate_sd_wfn3 h sd f; Ok (t_sum t).

(** with wfn_deriv: one column per derivative index *)
Definition integrate_sd_wfn_deriv (h : gham) (sd : N) (fs : list (N -> K)) : res (list K) :=
  mapM (fun f => integrate_sd_wfn h sd f) fs.

(** base.py:85-175  BaseHamiltonian.integrate_sd_wfn, for an arbitrary integrate_sd_sd *)
Fixpoint base_loop (elem : N -> N -> res K) (sd : N) (f : N -> K) (es : list (list nat * list nat))
  (integral : K) : res K :=
  match es with
  | [] => Ok integral
  | (anns, cres) :: t =>
      do sdm <- excite (Some sd) (anns ++ cres);
      match sdm with
      | None => Err TypeError   (* get_overlap(None) *)
      | Some m => do e <- elem sd m; base_loop elem sd f t (integral + f m * e)
      end
  end.
Definition base_integrate_sd_wfn (elem : N -> N -> res K) (nspin : nat) (orders : list nat) (sd : N) (f : N -> K)
  : res K :=
  let occs := occ_indices (Some sd) in
  let virs := vir_indices (Some sd) (Z.of_nat nspin) in
  do e <- elem sd sd;
  base_loop elem sd f
    (flat_map (fun order => list_prod (combinations occs order) (combinations virs order)) orders)
    (f sd * e).
End Ham.
Arguments gham : clear implicits.
Arguments triple : clear implicits.
