(** Model of fanpy/ham/senzero.py: the seniority-zero Hamiltonian. *)
From Coq Require Import List ZArith NArith Bool Arith.
From Verif Require Import Py Slater Alg HamGen HamRes.
Import ListNotations.

Section HamSen.
Context {K : CRing}.
Local Open Scope cr_scope.
Local Notation triple := (HamGen.triple K).

(** senzero.py:158-243  integrate_sd_sd_decomposed with deriv=None (a derivative raises
    NotImplementedError) *)
Definition sz_decomposed (h : rham K) (sd1 sd2 : N) : res triple :=
  let n := Z.of_nat (rh_n h) in
  do s1 <- get_seniority sd1 n;
  do s2 <- get_seniority sd2 n;
  if negb (Nat.eqb s1 s2 && Nat.eqb s2 0) then Ok t_zero
  else
    do p1 <- split_spin sd1 n;
    do p2 <- split_spin sd2 n;
    let sd1_spatial := fst p1 in
    let sd2_spatial := fst p2 in
    let shared := shared_orbs sd1_spatial sd2_spatial in
    let (diff_sd1, diff_sd2) := diff_orbs sd1_spatial sd2_spatial in
    if negb (Nat.eqb (length diff_sd1) (length diff_sd2)) then Ok t_zero
    else
      let order := length diff_sd1 in
      if Nat.ltb 1 order then Ok t_zero
      else if Nat.eqb order 0 then
        chk (rh_n h) shared
          ((1 + 1) * psum (fun i => rh_one h i i) shared,
           (1 + 1) * triu_sum (rh_ijij h) shared + block_sum (rh_ijij h) shared shared,
           - (1 + 1) * triu_sum (rh_ijji h) shared)
      else
        match diff_sd1, diff_sd2 with
        | [a], [b] =>
            do sa <- spatial (rh_n h) a;
            do sb <- spatial (rh_n h) b;
            chk (rh_n h) [sa; sb] (0, rh_two h sa sa sb sb, 0)
        | _, _ => Err ValueError
        end.

(** senzero.py:245-283  integrate_sd_sd *)
Definition sz_sd_sd (h : rham K) (sd1 sd2 : N) : res K :=
  do t <- sz_decomposed h sd1 sd2; Ok (t_sum t).

(** senzero.py:142-154  the pair-excited determinant *)
Definition sz_excite (n : nat) (sd : N) (i a : nat) : res N :=
  let z := Z.of_nat n in
  do ia <- spin_index (Z.of_nat i) z Alpha;
  do ib <- spin_index (Z.of_nat i) z Beta;
  do ab <- spin_index (Z.of_nat a) z Beta;
  do aa <- spin_index (Z.of_nat a) z Alpha;
  do r <- excite (Some sd) [Z.to_nat ia; Z.to_nat ib; Z.to_nat ab; Z.to_nat aa];
  match r with None => Err TypeError | Some m => Ok m end.

(** senzero.py:141-154  the double loop; [add acc coeff value] is [acc + coeff * value] *)
Fixpoint sz_loop {A} (n : nat) (elem : N -> N -> res A) (add : A -> K -> A -> A) (sd : N) (f : N -> K)
  (ps : list (nat * nat)) (acc : A) : res A :=
  match ps with
  | [] => Ok acc
  | (i, a) :: t =>
      do sd_m <- sz_excite n sd i a;
      do e <- elem sd sd_m;
      sz_loop n elem add sd f t (add acc (f sd_m) e)
  end.

(** senzero.py:81-156  integrate_sd_wfn with ham_deriv=None; [f] is wfn.get_overlap(., deriv=wfn_deriv), one
    column of derivatives as in HamGen.v.  [zero] and [scale] are those of the result type *)
Definition sz_integrate {A} (h : rham K) (zero : A) (scale : K -> A -> A) (add : A -> K -> A -> A)
  (elem : N -> N -> res A) (sd : N) (f : N -> K) : res A :=
  let n := Z.of_nat (rh_n h) in
  do s <- get_seniority sd n;
  if negb (Nat.eqb s 0) then Ok zero
  else
    do p <- split_spin sd n;
    let occ := occ_indices (Some (fst p)) in
    let vir := vir_indices (Some (fst p)) n in
    do e <- elem sd sd;
    sz_loop (rh_n h) elem add sd f (list_prod occ vir) (scale (f sd) e).
Definition sz_wfn (h : rham K) (sd : N) (f : N -> K) : res K :=
  sz_integrate h 0 (fun c x => c * x) (fun acc c x => acc + c * x) (sz_sd_sd h) sd f.
Definition sz_wfn3 (h : rham K) (sd : N) (f : N -> K) : res triple :=
  sz_integrate h t_zero t_scale (fun acc c x => t_add acc (t_scale c x)) (sz_decomposed h) sd f.

(** components=True together with wfn_deriv: numpy multiplies the array of overlap derivatives with the array of three
    components elementwise, after broadcasting arrays of one element; other lengths do not broadcast *)
Definition bcast3 (cs : list K) (t : triple) : res triple :=
  match cs, t with
  | [c], _ => Ok (t_scale c t)
  | [a; b; c], (x, y, z) => Ok (a * x, b * y, c * z)
  | _, _ => Err ValueError
  end.
Definition sz_diag3_deriv (h : rham K) (sd : N) (fs : list (N -> K)) : res triple :=
  do t <- sz_decomposed h sd sd; bcast3 (map (fun f => f sd) fs) t.
End HamSen.
