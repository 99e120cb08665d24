(** fanpy/wfn/cc/seniority_cc.py: coupled cluster in which an operator acts only on orbitals whose
    partners of opposite spin are occupied (annihilators) or empty (creators).  The rest of the class is
    BaseCC (CC.v).  Left out: memory, the printed message of refresh_exops, functools caches, noise. *)
From Coq Require Import List ZArith NArith Arith Bool.
From Verif Require Import Py Slater Graphs MathTools Alg WfnCI CC.
Import ListNotations.

(** ** generate_possible_exops *)
(** seniority_cc.py:468-472 every block of annihilators with every block of creators of its size *)
Definition sen_combs (annhs creas : list (list Z)) : list (list Z) :=
  flat_map (fun annh => map (fun crea => annh ++ crea) (filter (fun crea => Nat.eqb (length annh) (length crea)) creas)) annhs.
(** seniority_cc.py:473-479 operators different from each other share no orbital *)
Definition disjointb (x y : list Z) : bool := forallb (fun i => negb (memz i y)) x.
Definition sen_match (ops : list (list Z)) : bool :=
  forallb (fun op => forallb (fun other => key_eqb other op || disjointb other op) ops) ops.
(** seniority_cc.py:459-479 the lists of operators of one partition *)
Definition sen_part (a_inds c_inds partition : list Z) : res (list (list (list Z))) :=
  let bsn := bins_of partition in
  let nops := list_sum (map snd bsn) in
  do As <- generate_unordered_partition a_inds bsn;
  do per <- mapM (fun annhs =>
      do Cs <- generate_unordered_partition c_inds bsn;
      Ok (flat_map (fun creas => filter sen_match (combinations (sen_combs annhs creas) nops)) Cs)) As;
  Ok (concat per).
(** seniority_cc.py:454-484 *)
Definition sen_gen (d : exops) (ranks a_inds c_inds : list Z) : res (list (list (list Z))) :=
  let exrank := length a_inds in
  do parts <- int_partition (S (exrank + length ranks)) ranks (length ranks) (Z.of_nat exrank);
  do check_ops <- mapM (sen_part a_inds c_inds) (rev parts);
  Ok (filter (forallb (fun op => match dict_get d op with Some _ => true | None => false end)) (concat check_ops)).

(** ** the sign of a list of operators *)
(** seniority_cc.py:263-287 and 354-378 complement_occ, complement_empty: occupation of the partner *)
Definition partner_occ (ns : Z) (sd : option N) (i : Z) : res bool :=
  do alpha <- is_alpha i ns;
  Ok (occ sd (Z.to_nat (if alpha then i + ns else i - ns)%Z)).
Definition sen_check (ns : Z) (sd : option N) (exop : list Z) : res bool :=
  do full <- mapM (partner_occ ns sd) (annihilators exop);
  do empty <- mapM (fun i => do b <- partner_occ ns sd i; Ok (negb b)) (creators exop);
  Ok (forallb (fun b => b) (full ++ empty)).
(** seniority_cc.py:308-322 and 399-413; None is the sign None *)
Fixpoint sen_sign (ns : Z) (sd : option N) (sign : Z) (ops : list (list Z)) : res (option Z) :=
  match ops with
  | [] => Ok (Some sign)
  | exop :: t =>
      do ok <- sen_check ns sd exop;
      if negb ok then Ok None
      else match sign_excite sd (map Z.to_nat (annihilators exop)) (map Z.to_nat (creators exop)) with
           | Err ValueError => Ok None
           | Err x => Err x
           | Ok s => do sd' <- excite sd (map Z.to_nat exop); sen_sign ns sd' (sign * s) t
           end
  end.

(** seniority_cc.py:193-238 assign_refwfn; of a CI wavefunction only the numbers of electrons and spin
    orbitals and the seniority are read *)
Inductive senref := SRNone | SRSd (sd : N) | SRCI (nelec nspin : Z) (seniority : option Z).
Definition sen_assign_refwfn (nelec nspin : Z) (r : senref) : res reference :=
  match r with
  | SRNone => do g <- ground nelec nspin; Ok (RSd g)
  | SRSd sd => if negb (Z.of_nat (total_occ (Some sd)) =? nelec)%Z then Err ValueError else Ok (RSd sd)
  | SRCI ne ns s =>
      if negb (ne =? nelec)%Z then Err ValueError
      else if negb (ns =? nspin)%Z then Err ValueError
      else match s with Some 0%Z => Ok RCI | _ => Err ValueError end
  end.

Section Sen.
Context {K : CRing}.
Local Open Scope cr_scope.
(** sn_cc: the attributes of BaseCC (its cc_combs is not used); sn_combs: exop_combinations, whose values
    are lists of lists of operators here (None if it was never set) *)
Record sen := mksen { sn_cc : cc K; sn_combs : option (list (list Z * list (list (list Z)))) }.
Definition with_ref (w : cc K) (r : reference) : cc K :=
  mkcc (cc_class w) (cc_nelec w) (cc_nspin w) (cc_ranks w) r (cc_exops w) (cc_params w) (cc_refresh w) (cc_combs w).
Definition sen_with_params (s : sen) (p : list K) : sen := mksen (with_params (sn_cc s) p) (sn_combs s).
(** seniority_cc.py:159-170 __init__ over cc/base.py:177-187, with 172-191 assign_nelec.  BaseCC is built
    with the default reference, then the reference is set. *)
Definition new_sen (nelec nspin : Z) (ranks : ranksarg) (indices : option (list (list Z))) (refwfn : senref)
  (ps : ccparams K) (given : bool) (refresh : Z) : res sen :=
  do ne <- assign_nelec CIGeneral nelec;
  if negb (ne mod 2 =? 0)%Z then Err ValueError else
  do w <- new_cc CCBase nelec nspin ranks indices RefNone ps given refresh;
  do r <- sen_assign_refwfn ne nspin refwfn;
  Ok (mksen (with_ref w r) (if given then None else Some [])).

(** seniority_cc.py:301-302, 450-452 *)
Definition sen_table (s : sen) (a_inds c_inds : list Z) : res (list (list (list Z)) * sen) :=
  let w := sn_cc s in
  match sn_combs s with
  | None => Err AttributeError
  | Some combs =>
      match dict_get combs (a_inds ++ c_inds) with
      | Some t => Ok (t, s)
      | None =>
          let combs := if (negb (cc_refresh w =? 0)%Z && (cc_refresh w <? Z.of_nat (length combs))%Z)%bool
                       then [] else combs in
          do t <- sen_gen (cc_exops w) (cc_ranks w) a_inds c_inds;
          Ok (t, mksen w (Some (dict_set combs (a_inds ++ c_inds) t)))
      end
  end.
(** indices of the operators of a list with its sign; None for a list that is skipped *)
Definition sen_term (w : cc K) (ref : N) (ops : list (list Z)) : res (option (list nat * Z)) :=
  match ops with
  | [] => Ok None
  | _ =>
      do inds <- mapM (get_ind (cc_exops w)) ops;
      do sign <- sen_sign (cc_nspin w / 2) (Some ref) 1 ops;
      match sign with
      | None => Ok None
      | Some s => if (s =? 0)%Z then Ok None else Ok (Some (inds, s))
      end
  end.
(** cc/base.py:500-520 product_amplitudes *)
Definition sen_value (w : cc K) (t : option (list nat * Z)) : res K :=
  match t with
  | None => Ok 0
  | Some (inds, s) => do ps <- mapM (param w) inds; Ok (sgnr s * prodf (fun x => x) ps)
  end.
(** cc/base.py:528-531 product_amplitudes(deriv=True), entry [d] *)
Definition sen_slope (w : cc K) (d : nat) (inds : list nat) : K :=
  if existsb (Nat.eqb d) inds
  then prodf (fun i => nth i (cc_params w) 0) (filter (fun i => negb (Nat.eqb d i)) inds)
  else 0.
Definition sen_slopes (w : cc K) (t : option (list nat * Z)) : res (list K) :=
  match t with
  | None => Ok (repeat 0 (length (cc_params w)))
  | Some (inds, s) =>
      if forallb (fun i => Nat.ltb i (length (cc_params w))) inds
      then Ok (map (fun d => sgnr s * sen_slope w d inds) (seq 0%nat (length (cc_params w))))
      else Err IndexError
  end.
Definition vadd (u v : list K) : list K := map (fun p => fst p + snd p) (combine u v).

(** seniority_cc.py:240-335 _olp; CIWavefunction has no attribute sd_vec *)
Definition sen_olp (s : sen) (sd : N) : res (K * sen) :=
  match cc_ref (sn_cc s) with
  | RCI => Err AttributeError
  | RSd ref =>
      if N.eqb sd ref then Ok (1, s)
      else
        let '(a, c) := excitation_of sd ref in
        do p <- sen_table s (map Z.of_nat a) (map Z.of_nat c);
        do ts <- mapM (fun ops => do t <- sen_term (sn_cc s) ref ops; sen_value (sn_cc s) t) (fst p);
        Ok (fold_left (fun v x => v + x) ts 0, snd p)
  end.
(** seniority_cc.py:337-426 _olp_deriv: at the reference the float 0.0, otherwise an array *)
Inductive slopes := Float | Array (l : list K).
Definition sen_olp_deriv (s : sen) (sd : N) : res (slopes * sen) :=
  match cc_ref (sn_cc s) with
  | RCI => Err AttributeError
  | RSd ref =>
      if N.eqb sd ref then Ok (Float, s)
      else
        let '(a, c) := excitation_of sd ref in
        do p <- sen_table s (map Z.of_nat a) (map Z.of_nat c);
        do ts <- mapM (fun ops => do t <- sen_term (sn_cc s) ref ops; sen_slopes (sn_cc s) t) (fst p);
        Ok (Array (fold_left vadd ts (repeat 0 (length (cc_params (sn_cc s))))), snd p)
  end.
(** cc/base.py:826-873 get_overlap (without the cache of functools); a float cannot be indexed *)
Definition sen_overlap (s : sen) (sd : N) : res K := do p <- sen_olp s sd; Ok (fst p).
Definition sen_overlap_deriv (s : sen) (sd : N) (deriv : list Z) : res (list K) :=
  do p <- sen_olp_deriv s sd;
  match fst p with
  | Float => Err TypeError
  | Array D => mapM (fun d => do i <- np_index (length D) d; Ok (nth i D 0)) deriv
  end.
End Sen.
Arguments sen : clear implicits.
Arguments slopes : clear implicits.
