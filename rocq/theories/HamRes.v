(** Model of the spin-adapted molecular Hamiltonians of fanpy/ham/restricted_chemical.py and
    fanpy/ham/unrestricted_chemical.py (without derivatives with respect to orbital rotations).

    As in [HamGen]: integrals are functions of spatial orbital indices, reading outside of an array is an
    IndexError.  The bodies of the two classes that are the same text up to which integrals they read
    are modelled once ([spin_*]), with the integrals as arguments. *)
From Coq Require Import List ZArith NArith Bool Arith.
From Verif Require Import Py Slater Alg HamGen.
Import ListNotations.

Section HamRes.
Context {K : CRing}.
Local Open Scope cr_scope.

Local Notation triple := (HamGen.triple K).
Definition int1 := nat -> nat -> K.
Definition int2 := nat -> nat -> nat -> nat -> K.

(** RestrictedMolecularHamiltonian: one_int, two_int, _cached_two_int_ijij, _cached_two_int_ijji;
    [rh_n] is nspatial = one_int.shape[0] *)
Record rham := mkrham {
  rh_n : nat; rh_one : int1; rh_two : int2; rh_ijij : int1; rh_ijji : int1 }.
(** inherited generalized_chemical.py:101-106  cache_two_ints *)
Definition r_cache_two_ints (h : rham) : rham :=
  mkrham (rh_n h) (rh_one h) (rh_two h) (fun i j => rh_two h i j i j) (fun i j => rh_two h i j j i).

(** UnrestrictedMolecularHamiltonian: one_int[0..1], two_int[0..2] and the five caches *)
Record uham := mkuham {
  uh_n : nat; uh_one0 : int1; uh_one1 : int1; uh_two0 : int2; uh_two1 : int2; uh_two2 : int2;
  uh_0_ijij : int1; uh_1_ijij : int1; uh_2_ijij : int1; uh_0_ijji : int1; uh_2_ijji : int1 }.
(** unrestricted_chemical.py:105-113  cache_two_ints *)
Definition u_cache_two_ints (h : uham) : uham :=
  mkuham (uh_n h) (uh_one0 h) (uh_one1 h) (uh_two0 h) (uh_two1 h) (uh_two2 h)
    (fun i j => uh_two0 h i j i j) (fun i j => uh_two1 h i j i j) (fun i j => uh_two2 h i j i j)
    (fun i j => uh_two0 h i j j i) (fun i j => uh_two2 h i j j i).

(** slater.is_alpha / slater.spatial_index on non-negative indices *)
Definition alpha (n i : nat) : res bool := is_alpha (Z.of_nat i) (Z.of_nat n).
Definition spatial (n i : nat) : res nat :=
  do z <- spatial_index (Z.of_nat i) (Z.of_nat n); Ok (Z.to_nat z).

(** np.sum(m[x[:, None], y]) *)
Definition block_sum (m : int1) (xs ys : list nat) : K := psum (fun x => psum (m x) ys) xs.

(** restricted_chemical.py:386-415 and unrestricted_chemical.py:333-361  _integrate_sd_sd_zero.
    A sum over an empty array is 0, so the size guards are not needed *)
Definition spin_sd_zero (n : nat) (one_a one_b aa_ijij ab_ijij bb_ijij aa_ijji bb_ijji : int1)
  (shared_alpha shared_beta : list nat) : res triple :=
  chk n (shared_alpha ++ shared_beta)
    (psum (fun i => one_a i i) shared_alpha + psum (fun i => one_b i i) shared_beta,
     triu_sum aa_ijij shared_alpha + triu_sum bb_ijij shared_beta + block_sum ab_ijij shared_alpha shared_beta,
     - triu_sum aa_ijji shared_alpha - triu_sum bb_ijji shared_beta).

(** restricted_chemical.py:417-465  _integrate_sd_sd_one *)
Definition r_sd_one (h : rham) (diff_sd1 diff_sd2 shared_alpha shared_beta : list nat) : res triple :=
  match diff_sd1, diff_sd2 with
  | [a], [b] =>
      do sa <- spatial (rh_n h) a;
      do sb <- spatial (rh_n h) b;
      do ta <- alpha (rh_n h) a;
      do tb <- alpha (rh_n h) b;
      if negb (eqb ta tb) then Ok t_zero
      else chk (rh_n h) (sa :: sb :: shared_alpha ++ shared_beta)
        (rh_one h sa sb,
         psum (fun i => rh_two h i sa i sb) shared_alpha + psum (fun i => rh_two h i sa i sb) shared_beta,
         if ta then - psum (fun i => rh_two h i sa sb i) shared_alpha
         else - psum (fun i => rh_two h i sa sb i) shared_beta)
  | _, _ => Err ValueError
  end.

(** unrestricted_chemical.py:363-415  _integrate_sd_sd_one *)
Definition u_sd_one (h : uham) (diff_sd1 diff_sd2 shared_alpha shared_beta : list nat) : res triple :=
  match diff_sd1, diff_sd2 with
  | [a], [b] =>
      do sa <- spatial (uh_n h) a;
      do sb <- spatial (uh_n h) b;
      do ta <- alpha (uh_n h) a;
      do tb <- alpha (uh_n h) b;
      if negb (eqb ta tb) then Ok t_zero
      else chk (uh_n h) (sa :: sb :: shared_alpha ++ shared_beta)
        (if ta then
          (uh_one0 h sa sb,
           psum (fun i => uh_two0 h i sa i sb) shared_alpha + psum (fun i => uh_two1 h sa i sb i) shared_beta,
           - psum (fun i => uh_two0 h i sa sb i) shared_alpha)
         else
          (uh_one1 h sa sb,
           psum (fun i => uh_two1 h i sa i sb) shared_alpha + psum (fun i => uh_two2 h i sa i sb) shared_beta,
           - psum (fun i => uh_two2 h i sa sb i) shared_beta))
  | _, _ => Err ValueError
  end.

(** restricted_chemical.py:467-507  _integrate_sd_sd_two *)
Definition r_sd_two (h : rham) (diff_sd1 diff_sd2 : list nat) : res triple :=
  match diff_sd1, diff_sd2 with
  | [a; b], [c; d] =>
      let n := rh_n h in
      do sa <- spatial n a; do sb <- spatial n b; do sc <- spatial n c; do s_d <- spatial n d;
      do ta <- alpha n a; do tb <- alpha n b; do tc <- alpha n c; do td <- alpha n d;
      do coulomb <- (if (eqb tb td && eqb ta tc)%bool
                     then chk n [sa; sb; sc; s_d] (rh_two h sa sb sc s_d) else Ok 0);
      do exchange <- (if (eqb tb tc && eqb ta td)%bool
                      then chk n [sa; sb; sc; s_d] (- rh_two h sa sb s_d sc) else Ok 0);
      Ok (0, coulomb, exchange)
  | _, _ => Err ValueError
  end.

(** unrestricted_chemical.py:417-474  _integrate_sd_sd_two *)
Definition u_sd_two (h : uham) (diff_sd1 diff_sd2 : list nat) : res triple :=
  match diff_sd1, diff_sd2 with
  | [a0; b0], [c0; d0] =>
      let n := uh_n h in
      do t0 <- alpha n a0; do t1 <- alpha n b0;
      let two := if (t0 && t1)%bool then uh_two0 h
                 else if (t0 && negb t1)%bool then uh_two1 h
                 else if (negb t0 && t1)%bool then uh_two1 h
                 else uh_two2 h in
      let '(a, b, c, d) := if (negb t0 && t1)%bool then (b0, a0, d0, c0) else (a0, b0, c0, d0) in
      do sa <- spatial n a; do sb <- spatial n b; do sc <- spatial n c; do s_d <- spatial n d;
      do ta <- alpha n a; do tb <- alpha n b; do tc <- alpha n c; do td <- alpha n d;
      do coulomb <- (if (eqb tb td && eqb ta tc)%bool
                     then chk n [sa; sb; sc; s_d] (two sa sb sc s_d) else Ok 0);
      do exchange <- (if (eqb tb tc && eqb ta td)%bool
                      then chk n [sa; sb; sc; s_d] (- two sa sb s_d sc) else Ok 0);
      Ok (0, coulomb, exchange)
  | _, _ => Err ValueError
  end.

(** restricted_chemical.py:91-165 and unrestricted_chemical.py:213-288  integrate_sd_sd_decomposed
    with deriv=None *)
Definition spin_decomposed (n : nat) (zero : list nat -> list nat -> res triple)
  (one : list nat -> list nat -> list nat -> list nat -> res triple)
  (two : list nat -> list nat -> res triple) (sd1 sd2 : N) : res triple :=
  do ab <- split_spin (shared_sd sd1 sd2) (Z.of_nat n);
  let shared_alpha := occ_indices (Some (fst ab)) in
  let shared_beta := occ_indices (Some (snd ab)) in
  let (diff_sd1, diff_sd2) := diff_orbs sd1 sd2 in
  if negb (Nat.eqb (length diff_sd1) (length diff_sd2)) then Ok t_zero
  else
    let order := length diff_sd1 in
    if Nat.ltb 2 order then Ok t_zero
    else
      do sign <- sign_excite (Some sd1) diff_sd1 (rev diff_sd2);
      do t <- (if Nat.eqb order 0 then zero shared_alpha shared_beta
               else if Nat.eqb order 1 then one diff_sd1 diff_sd2 shared_alpha shared_beta
               else two diff_sd1 diff_sd2);
      Ok (t_scale (sgnr sign) t).

Definition r_sd_zero (h : rham) : list nat -> list nat -> res triple :=
  spin_sd_zero (rh_n h) (rh_one h) (rh_one h) (rh_ijij h) (rh_ijij h) (rh_ijij h) (rh_ijji h) (rh_ijji h).
Definition u_sd_zero (h : uham) : list nat -> list nat -> res triple :=
  spin_sd_zero (uh_n h) (uh_one0 h) (uh_one1 h) (uh_0_ijij h) (uh_1_ijij h) (uh_2_ijij h)
    (uh_0_ijji h) (uh_2_ijji h).

Definition r_decomposed (h : rham) (sd1 sd2 : N) : res triple :=
  spin_decomposed (rh_n h) (r_sd_zero h) (r_sd_one h) (r_sd_two h) sd1 sd2.
Definition u_decomposed (h : uham) (sd1 sd2 : N) : res triple :=
  spin_decomposed (uh_n h) (u_sd_zero h) (u_sd_one h) (u_sd_two h) sd1 sd2.

(** restricted_chemical.py:167-208, unrestricted_chemical.py:290-331  integrate_sd_sd *)
Definition r_sd_sd (h : rham) (sd1 sd2 : N) : res K :=
  do t <- r_decomposed h sd1 sd2; Ok (t_sum t).
Definition u_sd_sd (h : uham) (sd1 sd2 : N) : res K :=
  do t <- u_decomposed h sd1 sd2; Ok (t_sum t).

(** restricted_chemical.py:941-969, unrestricted_chemical.py:1090-1118  _integrate_sd_sds_zero *)
Definition spin_sds_zero (one_a one_b aa_ijij ab_ijij bb_ijij aa_ijji bb_ijji : int1)
  (occ_alpha occ_beta : list nat) : list triple :=
  [(psum (fun i => one_a i i) occ_alpha + psum (fun i => one_b i i) occ_beta,
    triu_sum aa_ijij occ_alpha + block_sum ab_ijij occ_alpha occ_beta + triu_sum bb_ijij occ_beta,
    - triu_sum aa_ijji occ_alpha - triu_sum bb_ijji occ_beta)].

(** restricted_chemical.py:971-1032, unrestricted_chemical.py:1120-1181  _integrate_sd_sds_one_alpha *)
Definition spin_sds_one_alpha (one_a : int1) (two_aa two_ab : int2) (occ_alpha occ_beta vir_alpha : list nat)
  : list triple :=
  let shared_alpha := shared_indices_remove_one_index occ_alpha in
  sign_times (sign_excite_one occ_alpha vir_alpha)
    (flat_map (fun k =>
       let a := nth k occ_alpha 0%nat in
       let sh := nth k shared_alpha [] in
       map (fun v => (one_a a v,
                      psum (fun s => two_aa s a s v) sh + psum (fun b => two_ab a b v b) occ_beta,
                      - psum (fun s => two_aa s a v s) sh)) vir_alpha)
       (seq 0 (length occ_alpha))).

(** restricted_chemical.py:1034-1095, unrestricted_chemical.py:1183-1244  _integrate_sd_sds_one_beta *)
Definition spin_sds_one_beta (one_b : int1) (two_bb two_ab : int2) (occ_alpha occ_beta vir_beta : list nat)
  : list triple :=
  let shared_beta := shared_indices_remove_one_index occ_beta in
  sign_times (sign_excite_one occ_beta vir_beta)
    (flat_map (fun k =>
       let b := nth k occ_beta 0%nat in
       let sh := nth k shared_beta [] in
       map (fun v => (one_b b v,
                      psum (fun s => two_bb s b s v) sh + psum (fun a => two_ab a b a v) occ_alpha,
                      - psum (fun s => two_bb s b v s) sh)) vir_beta)
       (seq 0 (length occ_beta))).

(** restricted_chemical.py:1097-1136, 1178-1216, unrestricted_chemical.py:1246-1285, 1327-1365
    _integrate_sd_sds_two_aa, _integrate_sd_sds_two_bb (rows 1 and 2 of the output) *)
Definition spin_sds_two_same (two : int2) (occ vir : list nat) : list triple :=
  sign_times (sign_excite_two occ vir)
    (flat_map (fun ab =>
       map (fun cd =>
              let a := nth 0 ab 0%nat in let b := nth 1 ab 0%nat in
              let c := nth 0 cd 0%nat in let d := nth 1 cd 0%nat in
              (0, two a b c d, - two a b d c))
           (combinations vir 2))
       (combinations occ 2)).

(** restricted_chemical.py:1138-1176, unrestricted_chemical.py:1287-1325  _integrate_sd_sds_two_ab
    (row 1 of the output) *)
Definition spin_sds_two_ab (two_ab : int2) (occ_alpha occ_beta vir_alpha vir_beta : list nat) : list triple :=
  sign_times (sign_excite_two_ab occ_alpha occ_beta vir_alpha vir_beta)
    (flat_map (fun ab => map (fun cd => (0, two_ab (fst ab) (snd ab) (fst cd) (snd cd), 0))
                             (list_prod vir_alpha vir_beta))
       (list_prod occ_alpha occ_beta)).

(** overlaps of excited determinants from the int64 bit masks (unrestricted: slater.excite_bulk;
    restricted_chemical.py:3209-3305 writes out the same masks for nspin <= 64) *)
Definition bulk_overlaps (f : N -> K) (sd : N) (occ vir : list nat) (order : Z) : res (list K) :=
  do l <- excite_bulk sd occ vir order; Ok (map (fun z => f (Z.to_N z)) l).
Definition bulk_overlaps_ab (f : N -> K) (sd : N) (oa ob va vb : list nat) : res (list K) :=
  do l <- excite_bulk_two_ab sd oa ob va vb; Ok (map (fun z => f (Z.to_N z)) l).
(** restricted_chemical.py:3306-3344  nspin > 64: slater.excite on Python ints *)
Definition excited_overlaps (f : N -> K) (sd : N) (occs virs : list (list nat)) : res (list K) :=
  mapM (fun p => do r <- excite (Some sd) (fst p ++ snd p);
                 match r with None => Err TypeError | Some m => Ok (f m) end)
       (list_prod occs virs).
Definition pair_lists (x y : list nat) : list (list nat) := map (fun p => [fst p; snd p]) (list_prod x y).

(** restricted_chemical.py:3117-3420, unrestricted_chemical.py:3266-3500  integrate_sd_wfn with
    ham_deriv=None and components=True.  The two classes differ in the order of the statements only:
    on a determinant with orbitals outside of the integrals the restricted one may raise from the
    overlaps before the IndexError *)
Definition spin_wfn3 (n : nat) (zero : list nat -> list nat -> list triple)
  (one_alpha one_beta : list nat -> list nat -> list nat -> list triple)
  (two_aa two_bb : list nat -> list nat -> list triple)
  (two_ab : list nat -> list nat -> list nat -> list nat -> list triple)
  (ov : list nat -> list nat -> Z -> res (list K))
  (ov_ab : list nat -> list nat -> list nat -> list nat -> res (list K))
  (sd : N) (f : N -> K) : res triple :=
  let occs := occ_indices (Some sd) in
  let virs := vir_indices (Some sd) (Z.of_nat (2 * n)) in
  let occ_alpha := filter (fun i => Nat.ltb i n) occs in
  let vir_alpha := filter (fun i => Nat.ltb i n) virs in
  let occ_beta := filter (fun i => Nat.leb n i) occs in
  let vir_beta := filter (fun i => Nat.leb n i) virs in
  let ob := map (fun i => (i - n)%nat) occ_beta in
  let vb := map (fun i => (i - n)%nat) vir_beta in
  do z <- chk n (occ_alpha ++ ob) (zero occ_alpha ob);
  do out0 <- dot3 z [f sd];
  do l1a <- ov occ_alpha vir_alpha 1%Z;
  do out1 <- dot3 (one_alpha occ_alpha ob vir_alpha) l1a;
  do l1b <- ov occ_beta vir_beta 1%Z;
  do out2 <- dot3 (one_beta occ_alpha ob vb) l1b;
  do laa <- ov occ_alpha vir_alpha 2%Z;
  do out3 <- (if (Nat.ltb 1 (length occ_alpha) && Nat.ltb 1 (length vir_alpha))%bool
              then dot3 (two_aa occ_alpha vir_alpha) laa else Ok t_zero);
  do lab <- ov_ab occ_alpha occ_beta vir_alpha vir_beta;
  do out4 <- (if (Nat.ltb 0 (length occ_alpha) && Nat.ltb 0 (length ob) &&
                  Nat.ltb 0 (length vir_alpha) && Nat.ltb 0 (length vb))%bool
              then dot3 (two_ab occ_alpha ob vir_alpha vb) lab else Ok t_zero);
  do lbb <- ov occ_beta vir_beta 2%Z;
  do out5 <- (if (Nat.ltb 1 (length ob) && Nat.ltb 1 (length vb))%bool
              then dot3 (two_bb ob vb) lbb else Ok t_zero);
  Ok (t_add (t_add (t_add (t_add (t_add (t_add t_zero out0) out1) out2) out3) out4) out5).

Definition r_wfn3 (h : rham) (sd : N) (f : N -> K) : res triple :=
  spin_wfn3 (rh_n h)
    (spin_sds_zero (rh_one h) (rh_one h) (rh_ijij h) (rh_ijij h) (rh_ijij h) (rh_ijji h) (rh_ijji h))
    (spin_sds_one_alpha (rh_one h) (rh_two h) (rh_two h))
    (spin_sds_one_beta (rh_one h) (rh_two h) (rh_two h))
    (spin_sds_two_same (rh_two h)) (spin_sds_two_same (rh_two h)) (spin_sds_two_ab (rh_two h))
    (fun occ vir order =>
       if Nat.leb (2 * rh_n h) 64 then bulk_overlaps f sd occ vir order
       else excited_overlaps f sd (combinations occ (Z.to_nat order)) (combinations vir (Z.to_nat order)))
    (fun oa ob va vb =>
       if Nat.leb (2 * rh_n h) 64 then bulk_overlaps_ab f sd oa ob va vb
       else excited_overlaps f sd (pair_lists oa ob) (pair_lists va vb))
    sd f.
Definition u_wfn3 (h : uham) (sd : N) (f : N -> K) : res triple :=
  spin_wfn3 (uh_n h)
    (spin_sds_zero (uh_one0 h) (uh_one1 h) (uh_0_ijij h) (uh_1_ijij h) (uh_2_ijij h) (uh_0_ijji h) (uh_2_ijji h))
    (spin_sds_one_alpha (uh_one0 h) (uh_two0 h) (uh_two1 h))
    (spin_sds_one_beta (uh_one1 h) (uh_two2 h) (uh_two1 h))
    (spin_sds_two_same (uh_two0 h)) (spin_sds_two_same (uh_two2 h)) (spin_sds_two_ab (uh_two1 h))
    (bulk_overlaps f sd) (bulk_overlaps_ab f sd) sd f.

(** components=False *)
Definition r_wfn (h : rham) (sd : N) (f : N -> K) : res K := do t <- r_wfn3 h sd f; Ok (t_sum t).
Definition u_wfn (h : uham) (sd : N) (f : N -> K) : res K := do t <- u_wfn3 h sd f; Ok (t_sum t).
End HamRes.
Arguments rham : clear implicits.
Arguments uham : clear implicits.
Arguments int1 : clear implicits.
Arguments int2 : clear implicits.
