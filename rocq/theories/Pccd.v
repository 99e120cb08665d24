(** Model of the pair coupled-cluster wavefunctions: fanpy/wfn/cc/pccd_ap1rog.py (PCCD),
    ap1rog_spin.py (AP1roGSDSpin), ap1rog_generalized.py (AP1roGSDGeneralized), apg1ro_d.py (APG1roD),
    apg1ro_sd.py (APG1roSD), apset1rog_d.py (APset1roGD), apset1rog_sd.py (APset1roGSD), ccsd_sen0.py
    (CCSDsen0), ccsdq_sen0.py (CCSDQsen0), ccsdtq_sen0.py (CCSDTQsen0) and ccsdt_sen2_q_sen0.py
    (CCSDTsen2Qsen0).  The base class is that of CC.v.
    Not modelled: isinstance checks, memory, printing, the state left behind by a call that raises. *)
From Coq Require Import List ZArith NArith Arith Bool.
From Verif Require Import Py Slater Graphs MathTools Alg WfnCI CC.
Import ListNotations.
Open Scope Z_scope.

Inductive pclass := PPair | PSpin | PGen | PGD | PGSD | PSetD | PSetSD | PSen0 | PQuad | PTripQuad | PTrip2Quad.

(** pccd_ap1rog.py:183-202 (inherited by APG1roD and APset1roGD), ap1rog_spin.py:104-121,
    ap1rog_generalized.py:104-121, apg1ro_sd.py:104-121, apset1rog_sd.py:106-123, ccsd_sen0.py:160-180,
    ccsdq_sen0.py:103-123, ccsdtq_sen0.py:107-126 (inherited by CCSDTsen2Qsen0) assign_ranks *)
Definition pair_ranks (c : pclass) (nelec : Z) (ranks : ranksarg) : res (list Z) :=
  let only (least : Z) (l : list Z) :=
    match ranks with RanksNone => if nelec <=? least then Err ValueError else Ok l | _ => Err ValueError end in
  match c with
  | PPair | PGD | PSetD => only 1 [2]
  | PSpin | PGen | PGSD | PSetSD => match ranks with RanksNone => Ok [1; 2] | _ => Err TypeError end
  | PSen0 => only 1 [1; 2]
  | PQuad => only 3 [1; 2; 4]
  | PTripQuad | PTrip2Quad => only 3 [1; 2; 3; 4]
  end.

(** ** the excitation operators, from the occupied orbitals [ex_from] and the virtual ones [ex_to] *)
Definition half {A} (l : list A) : list A := firstn (length l / 2) l.
Definition virtuals (nspin : Z) (ex_from : list Z) : list Z := filter (fun i => negb (memz i ex_from)) (orbitals nspin).
(** [for x in l: for y in l[l.index(x) + 1:]] *)
Fixpoint later {A} (l : list A) : list (A * A) :=
  match l with [] => [] | x :: t => map (fun y => (x, y)) t ++ later t end.
(** pccd_ap1rog.py:238-242, ccsd_sen0.py:225-229 *)
Definition pair_doubles (ns : Z) (ex_from ex_to : list Z) : list (list Z) :=
  flat_map (fun i => map (fun v => [i; i + ns; v; v + ns]) (half ex_to)) (half ex_from).
(** apg1ro_d.py:135-140 *)
Definition any_doubles (ns : Z) (ex_from ex_to : list Z) : list (list Z) :=
  flat_map (fun i => map (fun v => [i; i + ns; fst v; snd v]) (later ex_to)) (half ex_from).
(** apset1rog_d.py:146-151, 174-179 *)
Definition set_doubles (ns : Z) (ex_from l0 l1 : list Z) : list (list Z) :=
  flat_map (fun i => flat_map (fun x => map (fun y => [i; i + ns; x; y]) l1) l0) (half ex_from).
(** ap1rog_spin.py:158-167, ap1rog_generalized.py:157-166, apg1ro_sd.py:157-166, apset1rog_sd.py:168-177, 204-213 *)
Definition pair_singles (ns : Z) (ex_from l0 l1 : list Z) : list (list Z) :=
  flat_map (fun i => map (fun v => [i; v]) l0) (half ex_from) ++
  flat_map (fun i => map (fun v => [i + ns; v]) l1) (half ex_from).
(** [exops[exop] = ind + shift], e.g. ap1rog_spin.py:168-172 *)
Definition add_shifted (d e : exops) : exops :=
  fold_left (fun acc ei => dict_set acc (fst ei) (snd ei + length d)%nat) e d.
(** ccsdtq_sen0.py:175-191, ccsdt_sen2_q_sen0.py:170-185 *)
Definition pair_quadruples (ns : Z) (ex_from ex_to : list Z) : list (list Z) :=
  flat_map (fun ij => map (fun ab => [fst ij; fst ij + ns; snd ij; snd ij + ns; fst ab; fst ab + ns; snd ab; snd ab + ns])
                          (later (half ex_to))) (later (half ex_from)).
(** ccsdt_sen2_q_sen0.py:154-167 *)
Definition pair_triples (ns : Z) (ex_from ex_to : list Z) : list (list Z) :=
  flat_map (fun i =>
    flat_map (fun k =>
      flat_map (fun a =>
        map (fun b => [i; i + ns; k; a; a + ns; b]) (filter (fun b => negb (memz b [a; a + ns])) ex_to))
        (half ex_to))
      (filter (fun k => negb (memz k [i; i + ns])) ex_from))
    (half ex_from).
(** apset1rog_d.py:158-173, apset1rog_sd.py:188-203: the two lists of orbitals, checked, sorted *)
Definition two_sets (ex_from : list Z) (indices : list (list Z)) : res (list Z * list Z) :=
  match indices with
  | [l0; l1] =>
      let bad l := (negb (forallb (fun i => 0 <=? i) l) || existsb (fun i => memz i ex_from) l)%bool in
      if bad l0 then Err ValueError
      else if bad l1 then Err ValueError
      else if existsb (fun i => memz i l1) l0 then Err ValueError
      else Ok (sorted_set l0, sorted_set l1)
  | _ => Err TypeError
  end.
(** assign_exops: pccd_ap1rog.py:204-243, ap1rog_spin.py:123-172, ap1rog_generalized.py:123-171,
    apg1ro_d.py:101-141, apg1ro_sd.py:123-171, apset1rog_d.py:103-180, apset1rog_sd.py:125-218 (whose
    doubles are those of assign_exops(None)), ccsd_sen0.py:182-230, ccsdtq_sen0.py:128-192 (inherited by
    CCSDQsen0), ccsdt_sen2_q_sen0.py:107-186.  is_alpha(i) is [i < nspatial] on these orbitals. *)
Definition pair_exops (c : pclass) (nspin : Z) (ranks : list Z) (ref : N) (indices : option (list (list Z))) : res exops :=
  let ns := nspin / 2 in
  let ex_from := zoccs ref in
  let ex_to := virtuals nspin ex_from in
  let alphas := filter (fun i => i <? ns) ex_to in
  let betas := filter (fun i => negb (i <? ns)) ex_to in
  match c, indices with
  | PPair, None => Ok (number (pair_doubles ns ex_from ex_to))
  | PSpin, None => Ok (add_shifted (number (pair_singles ns ex_from alphas betas)) (number (pair_doubles ns ex_from ex_to)))
  | PGen, None => Ok (add_shifted (number (pair_singles ns ex_from ex_to ex_to)) (number (pair_doubles ns ex_from ex_to)))
  | PGD, None => Ok (number (any_doubles ns ex_from ex_to))
  | PGSD, None => Ok (add_shifted (number (pair_singles ns ex_from ex_to ex_to)) (number (any_doubles ns ex_from ex_to)))
  | PSetD, None => Ok (number (set_doubles ns ex_from alphas betas))
  | PSetSD, None => Ok (add_shifted (number (pair_singles ns ex_from alphas betas)) (number (set_doubles ns ex_from alphas betas)))
  | PSetD, Some l =>
      do s <- two_sets ex_from l;
      Ok (number (set_doubles ns ex_from (fst s) (snd s)))
  | PSetSD, Some l =>
      do s <- two_sets ex_from l;
      Ok (add_shifted (number (pair_singles ns ex_from (fst s) (snd s))) (number (set_doubles ns ex_from alphas betas)))
  | PSen0, None =>
      Ok (number (flat_map (fun i => map (fun v => [i; v]) ex_to) ex_from ++ pair_doubles ns ex_from ex_to))
  | (PQuad | PTripQuad), None =>
      Ok (number (rank_keys (firstn (length ranks - 1) ranks) ex_from (fun _ => ex_to) ++ pair_quadruples ns ex_from ex_to))
  | PTrip2Quad, None =>
      Ok (number (rank_keys (firstn (length ranks - 2) ranks) ex_from (fun _ => ex_to) ++
                  pair_triples ns ex_from ex_to ++ pair_quadruples ns ex_from ex_to))
  | _, Some _ => Err TypeError
  end.

(** pccd_ap1rog.py:245-280 assign_refwfn; the argument is None or a determinant *)
Definition pair_reference (nelec nspin : Z) (r : option N) : res N :=
  match r with
  | None => ground nelec nspin
  | Some sd =>
      let ns := nspin / 2 in
      let occs := zoccs sd in
      let n := Z.to_nat (nelec / 2) in
      if negb (Z.of_nat (total_occ (Some sd)) =? nelec) then Err ValueError
      else if forallb (fun i => memz (i + ns) occs) (firstn n occs) && forallb (fun i => memz (i - ns) occs) (skipn n occs)
           then Ok sd else Err ValueError
  end.

(** pccd_ap1rog.py:334-375, 442-492: whether a row of the table is kept; [ops] is the attribute
    ind_exops, [occs] the orbitals of a determinant *)
Fixpoint add_all (js trash : list Z) : option (list Z) :=
  match js with
  | [] => Some trash
  | j :: t => if memz j trash then None else add_all t (j :: trash)
  end.
Fixpoint keep_row (ns : Z) (ops : list (list Z)) (occs trash : list Z) (row : list nat) : res bool :=
  match row with
  | [] => Ok true
  | i :: t =>
      match nth_error ops i with
      | None => Err IndexError
      | Some e =>
          if Nat.eqb (length e) 2 then
            let z := nth 0 e 0 in
            if memz z trash then Ok false
            else
              let z' := if z <? ns then z + ns else z - ns in
              if memz z' occs then keep_row ns ops occs (z' :: z :: trash) t else Ok false
          else match add_all (annihilators e) trash with
               | None => Ok false
               | Some trash' => keep_row ns ops occs trash' t
               end
      end
  end.
Fixpoint filterM {A} (f : A -> res bool) (l : list A) : res (list A) :=
  match l with
  | [] => Ok []
  | x :: t => do b <- f x; do r <- filterM f t; Ok (if b then x :: r else r)
  end.
Definition keep_rows (ns : Z) (ops : list (list Z)) (occs : list Z) (m : multi) : res multi :=
  mapM (fun p => do rows <- filterM (fun row => keep_row ns ops occs [] (fst row)) (snd p); Ok (fst p, rows)) m.

Section Pair.
Context {K : CRing}.
Local Open Scope cr_scope.

(** the attributes of BaseCC, the class, and ind_exops *)
Record pcc := mkpcc { p_class : pclass; p_cc : cc K; p_ops : list (list Z) }.
Definition with_cc (p : pcc) (w : cc K) : pcc := mkpcc (p_class p) w (p_ops p).

(** pccd_ap1rog.py:107-160 and ccsd_sen0.py:103-158 __init__ over cc/base.py:133-187, with
    pccd_ap1rog.py:162-181 assign_nelec.  The operators of the first seven classes are those of the
    default reference; the other four are built again after the reference is set, but ind_exops is
    not.  [given]: whether exop_combinations was passed (it is then not stored). *)
Definition new_pcc (c : pclass) (nelec nspin : Z) (ranks : ranksarg) (indices : option (list (list Z)))
  (refwfn : option N) (ps : ccparams K) (given : bool) (refresh : Z) : res pcc :=
  do ne <- assign_nelec CIGeneral nelec;
  if negb (ne mod 2 =? 0)%Z then Err ValueError else
  do ns <- assign_nspin nspin;
  do rk <- pair_ranks c ne RanksNone;
  do g <- ground ne ns;
  do d <- pair_exops c ns rk g None;
  do w <- cc_assign_params (mkcc CCBase ne ns rk (RSd g) d [] refresh (if given then None else Some [])) ps;
  let late := match c with PSen0 | PQuad | PTripQuad | PTrip2Quad => true | _ => false end in
  do rk1 <- pair_ranks c ne (if late then RanksNone else ranks);
  do d1 <- pair_exops c ns rk1 g (if late then None else indices);
  do ref <- pair_reference ne ns refwfn;
  let ops := map fst (sorted_key (fun ei => Z.of_nat (snd ei)) d1) in
  do rk2 <- (if late then pair_ranks c ne ranks else Ok rk1);
  do d2 <- (if late then pair_exops c ns rk2 ref indices else Ok d1);
  Ok (mkpcc c (mkcc CCBase ne ns rk2 (RSd ref) d2 (cc_params w) refresh (cc_combs w)) ops).

(** pccd_ap1rog.py:305-393, 412-510: the table is made if it is missing, its rows are filtered, the
    filtered table is stored; [occs] gives the orbitals used by the filter from sd and the reference *)
Definition pair_table {A} (p : pcc) (sd : N) (occs : N -> N -> list Z) (at_ref : A) (f : cc K -> multi -> res A)
  (scale : K -> A -> A) : res (A * pcc) :=
  let w := p_cc p in
  match cc_ref w with
  | RCI => Err AttributeError
  | RSd ref =>
      if N.eqb sd ref then Ok (at_ref, p)
      else
        let '(a, c) := excitation_of sd ref in
        do sign <- sign_excite (Some ref) a c;
        do q <- get_multi w (map Z.of_nat a) (map Z.of_nat c);
        do m <- keep_rows (cc_nspin w / 2)%Z (p_ops p) (occs sd ref) (fst q);
        let combs := match cc_combs (snd q) with Some l => Some (dict_set l (map Z.of_nat a ++ map Z.of_nat c) m) | None => None end in
        let w' := with_combs (snd q) combs in
        do v <- f w' m;
        Ok (scale (sgnr sign) v, with_cc p w')
  end.
(** pccd_ap1rog.py:282-393 _olp: the filter looks at the orbitals of sd *)
Definition pair_olp (p : pcc) (sd : N) : res (K * pcc) :=
  pair_table p sd (fun sd _ => zoccs sd) 1 amplitudes (fun s v => s * v).
(** pccd_ap1rog.py:395-510 _olp_deriv: the filter looks at the orbitals of the reference *)
Definition pair_olp_deriv (p : pcc) (sd : N) : res (list K * pcc) :=
  pair_table p sd (fun _ ref => zoccs ref) (repeat 0 (length (cc_params (p_cc p)))) amplitudes_deriv (fun s v => map (fun x => s * x) v).
(** cc/base.py:826-873 get_overlap (without the cache of functools) *)
Definition pair_overlap (p : pcc) (sd : N) : res K := do q <- pair_olp p sd; Ok (fst q).
Definition pair_overlap_deriv (p : pcc) (sd : N) (deriv : list Z) : res (list K) :=
  do q <- pair_olp_deriv p sd;
  mapM (fun d => do i <- np_index (length (fst q)) d; Ok (nth i (fst q) 0)) deriv.
(** cc/base.py:400-450 assign_params *)
Definition pair_assign_params (p : pcc) (ps : ccparams K) : res pcc := do w <- cc_assign_params (p_cc p) ps; Ok (with_cc p w).
(** a sequence of calls on one object: the overlap, the derivative, new parameters *)
Inductive paircall := POverlap (sd : N) | PDeriv (sd : N) (ds : list Z) | PParams (l : list K).
Inductive pairret := RValue (r : res K) | RDeriv (r : res (list K)) | RDone (r : res unit).
Fixpoint pair_run (p : pcc) (h : list paircall) : list pairret :=
  match h with
  | [] => []
  | POverlap sd :: t => match pair_olp p sd with
                        | Ok (v, p') => RValue (Ok v) :: pair_run p' t
                        | Err x => RValue (Err x) :: pair_run p t
                        end
  | PDeriv sd ds :: t =>
      let r := fun D => mapM (fun d => do i <- np_index (length D) d; Ok (nth i D 0)) ds in
      match pair_olp_deriv p sd with
      | Ok (D, p') => RDeriv (r D) :: pair_run p' t
      | Err x => RDeriv (Err x) :: pair_run p t
      end
  | PParams l :: t => match pair_assign_params p (CPArray l) with
                      | Ok p' => RDone (Ok tt) :: pair_run p' t
                      | Err x => RDone (Err x) :: pair_run p t
                      end
  end.
End Pair.
Arguments pcc : clear implicits.
Arguments paircall : clear implicits.
Arguments pairret : clear implicits.
