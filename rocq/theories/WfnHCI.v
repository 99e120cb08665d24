(** Model of fanpy/wfn/ci/hci.py.  Floating point numbers are modelled by rationals, without rounding:
    the coefficients are powers of two up to sign, so for hierarchies with a short binary expansion no
    rounding happens.  The order of list(set(..)) is the argument [order].  [Exc 1] stands for the
    raised Warning.  The class itself is not an option of the other constructors. *)
From Coq Require Import List ZArith NArith Arith Bool QArith Qround.
From Verif Require Import Py Slater SdList Alg WfnCI.
Import ListNotations.

Inductive hversion := VOld | VNew | VOther.
Inductive hpattern := PosDiag | NegDiag | Hch | Vch.

(** hci.py:9-14 ALPHA_BY_PATTERN *)
Definition alpha (p : hpattern) : Q * Q :=
  match p with
  | PosDiag => (1#2, 1#4)
  | NegDiag => (1, - (1#2))
  | Hch => (1, - (1#4))
  | Vch => (1, - (1))
  end%Q.

(** numpy.arange: ceil((stop - start) / step) entries *)
Definition arange (start stop step : Q) : list Q :=
  map (fun i => (start + inject_Z (Z.of_nat i) * step)%Q) (seq 0 (Z.to_nat (Qceiling ((stop - start) / step)%Q))).
(** hci.py:272-315 assign_pos_hierarchies; the old version stores the hierarchy unchanged *)
Definition pos_hierarchies (v : hversion) (p : hpattern) (hierarchy : option Q) : res (list (option Q)) :=
  match v with
  | VNew =>
      match hierarchy with
      | None => Err TypeError
      | Some h =>
          Ok (map Some match p with
             | PosDiag => arange 0 (h + (1#2)) (1#2)
             | NegDiag => arange 0 (h + 1) 1
             | Hch => arange 0 (h + (1#2)) (1#2)
             | Vch => arange (- (1) * h) (h + 1) 1
             end)
      end
  | _ => Ok [hierarchy]
  end.

(** hci.py:405-412 the range S_list as a membership test of an integer *)
Definition in_S_list (nelec : Z) (e s : Z) : bool :=
  if (nelec mod 2 =? 0)%Z then
    if (e mod 2 =? 0)%Z then ((0 <=? s) && (s <? Z.min (2 * e) nelec + 2) && (s mod 2 =? 0))%Z
    else ((2 <=? s) && (s <? Z.min (2 * e) nelec + 2) && (s mod 2 =? 0))%Z
  else ((1 <=? s) && (s <? Z.min (2 * e + 1) nelec + 2) && ((s - 1) mod 2 =? 0))%Z.
(** is_integer and int *)
Definition q_int (x : Q) : option Z :=
  let r := Qred x in if (Qden r =? 1)%positive then Some (Qnum r) else None.
(** hci.py:402-419 body of the loops *)
Definition e_s_pair (p : hpattern) (nelec : Z) (h : Q) (e : Z) : list (Z * Z) :=
  let s := ((h - fst (alpha p) * inject_Z e) / snd (alpha p))%Q in
  match q_int s with
  | Some z => if ((0 <=? z)%Z && in_S_list nelec e z)%bool then [(e, z)] else []
  | None => []
  end.
(** hci.py:378-421 calculate_e_s_pairs *)
Definition calculate_e_s_pairs (p : hpattern) (nelec : Z) (hs : list (option Q)) : res (list (Z * Z)) :=
  do ls <- mapM (fun h : option Q => match h with
                       | None => Err TypeError
                       | Some h => Ok (flat_map (fun e => e_s_pair p nelec h (Z.of_nat e)) (range (nelec + 1)))
                       end) hs;
  Ok (concat ls).
(** hci.py:424-478 assign_sds; spin and seniority of the wavefunction are None *)
Definition hci_assign_sds (order : list N -> list N) (p : hpattern) (nelec nspin : Z) (hs : list (option Q))
    (sds : option (list N)) : res (list N) :=
  match sds with
  | Some _ => Err ValueError
  | None =>
      do prs <- calculate_e_s_pairs p nelec hs;
      do g <- ground nelec nspin;
      do ls <- mapM (fun es => sd_list nelec nspin None (Some [fst es]) None (Some (snd es)) true) prs;
      let allowed := g :: concat ls in
      if Nat.eqb (length allowed) 1 then Err (Exc 1)
      else base_assign_sds nelec nspin None None (Some (order allowed))
  end.

(** reference: None, a determinant, or a CI wavefunction of which the sizes are checked *)
Inductive href := RefNone | RefSd (sd : N) | RefWfn (nelec nspin : Z).
(** hci.py:338-375 assign_refwfn *)
Definition hci_assign_refwfn (nelec nspin : Z) (r : href) : res href :=
  match r with
  | RefNone => do g <- ground nelec nspin; Ok (RefSd g)
  | RefSd sd => if negb (Z.of_nat (total_occ (Some sd)) =? nelec)%Z then Err ValueError else Ok r
  | RefWfn ne ns => if negb (ne =? nelec)%Z then Err ValueError
                    else if negb (ns =? nspin)%Z then Err ValueError else Ok r
  end.

Section HCI.
Context {K : CRing}.
Local Open Scope cr_scope.
(** hci.py:133-171 __init__; [pattern = None] is an unknown name.  The base constructor calls the
    overridden assign_sds with None, fills the dictionary and the default parameters; the second call
    of assign_sds repeats the first when sds is None and raises otherwise. *)
Definition new_hci (order : list N -> list N) (nelec nspin : Z) (pattern : option hpattern) (hierarchy : option Q)
    (version : option hversion) (sds : option (list N)) (ref : href) : res (ciwfn K * href) :=
  let v := match version with None => VNew | Some v => v end in
  if match v with VOther => true | _ => false end then Err TypeError
  else
    match pattern with
    | None => Err TypeError
    | Some p =>
        do hs <- pos_hierarchies v p hierarchy;
        do ne <- assign_nelec CIGeneral nelec;
        do ns <- assign_nspin nspin;
        do l <- hci_assign_sds order p ne ns hs None;
        let params := match l with [] => [] | _ :: t => 1 :: map (fun _ => 0) t end in
        do l2 <- hci_assign_sds order p ne ns hs sds;
        do r <- hci_assign_refwfn ne ns ref;
        Ok (mkci ne ns None None l2 params, r)
    end.
End HCI.
