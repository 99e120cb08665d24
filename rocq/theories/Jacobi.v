(** Model of fanpy/wfn/composite/jacobi.py (with base_one.py:65-119): a wavefunction whose orbitals p and q
    are rotated by one angle.

    The wrapped wavefunction is a component of [Composite].  The parameter is one number (an array with one
    entry); other arrays, which assign_params does not reject, are left out, and so is noise.  cos and sin
    are given.  The checks of Python types are left out except that of the pair of indices. *)
From Coq Require Import List ZArith NArith Arith Bool.
From Verif Require Import Py Slater Alg WfnCI Composite Cache WfnCached.
Import ListNotations.

Inductive orbtype := Restricted | Unrestricted | Generalized.
(** the argument orbtype: one of the three words, or any other value *)
Inductive orbword := OWord (t : orbtype) | OOther.

Section Jacobi.
Context {K : CRing}.
Local Open Scope cr_scope.
Variable (cos sin : K -> K).
Record jac := mkjac {
  j_nelec : Z; j_nspin : Z; j_wfn : comp K; j_angle : K; j_orb : orbtype; j_p : nat; j_q : nat }.
(** wfn/base.py nspatial *)
Definition j_ns (w : jac) : Z := (j_nspin w / 2)%Z.

(** base_one.py:94-119 assign_wfn *)
Definition one_assign_wfn (nelec : Z) (c : comp K) : res (comp K) :=
  if negb (c_nelec c =? nelec)%Z then Err ValueError else Ok c.
(** jacobi.py:232-247 assign_orbtype *)
Definition j_assign_orbtype (o : option orbword) : res orbtype :=
  match o with None => Ok Restricted | Some (OWord t) => Ok t | Some OOther => Err ValueError end.
(** jacobi.py:275-302 assign_jacobi_indices: what is given is a tuple or list of integers, or not *)
Definition j_assign_indices (nspin : Z) (t : orbtype) (l : option (list Z)) : res (nat * nat) :=
  let ns := (nspin / 2)%Z in
  match l with
  | Some [i; j] =>
      if ((i <? 0) || (j <? 0))%Z then Err ValueError
      else if (i =? j)%Z then Err ValueError
      else if match t with
              | Generalized => negb ((i <? nspin) && (j <? nspin))%Z
              | Restricted => negb ((i <? ns) && (j <? ns))%Z
              | Unrestricted => negb (Bool.eqb (i <? ns)%Z (j <? ns)%Z)
              end then Err ValueError
      else if (j <? i)%Z then Ok (Z.to_nat j, Z.to_nat i) else Ok (Z.to_nat i, Z.to_nat j)
  | _ => Err TypeError
  end.
(** jacobi.py:211-230 assign_params *)
Definition j_param (a : option K) : K := match a with None => 0 | Some x => x end.
(** jacobi.py:104-131 __init__ *)
Definition new_jacobi (nelec nspin : Z) (c : comp K) (angle : option K) (o : option orbword) (l : option (list Z)) : res jac :=
  do ne <- assign_nelec CIGeneral nelec;
  do nsp <- assign_nspin nspin;
  do c <- one_assign_wfn ne c;
  do t <- j_assign_orbtype o;
  do pq <- j_assign_indices nsp t l;
  Ok (mkjac ne nsp c (j_param angle) t (fst pq) (snd pq)).

(** self.wfn.get_overlap at the result of an excitation *)
Definition wfn_at (w : jac) (sd : option N) : res K :=
  match sd with Some n => get_olp (j_wfn w) n | None => Err TypeError end.
Definition excited (w : jac) (sd : N) (l : list nat) : res K := do m <- excite (Some sd) l; wfn_at w m.
Definition swap_sign (sd : N) (i j : nat) : res K := do s <- sign_swap (Some sd) (Z.of_nat i) (Z.of_nat j); Ok (sgnr s).
(** the two terms of a single rotation, with the coefficients of both (jacobi.py:327-334, 467-474) *)
Definition one_move (w : jac) (sd : N) (a b : K) (sign_sd : N) (i j x y : nat) : res K :=
  do sign <- swap_sign sign_sd i j;
  do v0 <- wfn_at w (Some sd);
  do v1 <- excited w sd [x; y];
  Ok (a * v0 + sign * b * v1).
(** the four terms when both spins are moved (jacobi.py:367-439, 511-579): [(i,j)] is the move of the alpha
    electron with the factor [ea] of its sign, [(k,l)] and [eb] that of the beta electron *)
Definition two_moves (w : jac) (sd alpha beta : N) (a b c : K) (ea eb : K) (i j k l : nat) : res K :=
  let ns := Z.to_nat (j_ns w) in
  do sa <- swap_sign alpha i j;
  do sb <- swap_sign beta k l;
  do v0 <- wfn_at w (Some sd);
  do va <- excited w sd [i; j];
  do vb <- excited w sd [(k + ns)%nat; (l + ns)%nat];
  do vab <- excited w sd [i; (k + ns)%nat; j; (l + ns)%nat];
  Ok (a * v0 + (ea * sa * va + eb * sb * vb) * b + ea * eb * (sa * sb * c * vab)).
(** the branches of _olp and _olp_deriv are the same: [same] is returned when nothing is moved, [a1], [b1]
    are the factors of a single move, [a2], [b2], [c2] those of two moves *)
Definition branches (w : jac) (sd : N) (same : res K) (a1 b1 a2 b2 c2 : K) : res K :=
  let p := j_p w in let q := j_q w in
  match j_orb w with
  | Generalized | Unrestricted =>
      if Bool.eqb (occ (Some sd) p) (occ (Some sd) q) then same
      else if (occ (Some sd) p && negb (occ (Some sd) q))%bool then one_move w sd a1 b1 sd p q p q
      else one_move w sd a1 (- b1) sd q p q p
  | Restricted =>
      let ns := Z.to_nat (j_ns w) in
      do ab <- split_spin sd (j_ns w);
      let alpha := fst ab in let beta := snd ab in
      let ap := occ (Some alpha) p in let aq := occ (Some alpha) q in
      let bp := occ (Some beta) p in let bq := occ (Some beta) q in
      if (Bool.eqb ap aq && Bool.eqb bp bq)%bool then same
      else if (Bool.eqb ap aq && bp && negb bq)%bool then one_move w sd a1 b1 beta p q (p + ns)%nat (q + ns)%nat
      else if (Bool.eqb ap aq && negb bp && bq)%bool then one_move w sd a1 (- b1) beta q p (q + ns)%nat (p + ns)%nat
      else if (ap && negb aq && Bool.eqb bp bq)%bool then one_move w sd a1 b1 alpha p q p q
      else if (ap && negb aq && bp && negb bq)%bool then two_moves w sd alpha beta a2 b2 c2 1 1 p q p q
      else if (ap && negb aq && negb bp && bq)%bool then two_moves w sd alpha beta a2 b2 c2 1 (- (1)) p q q p
      else if (negb ap && aq && Bool.eqb bp bq)%bool then one_move w sd a1 (- b1) alpha q p q p
      else if (negb ap && aq && bp && negb bq)%bool then two_moves w sd alpha beta a2 b2 c2 (- (1)) 1 q p p q
      else two_moves w sd alpha beta a2 b2 c2 (- (1)) (- (1)) q p q p
  end.
(** jacobi.py:305-439 _olp *)
Definition j_olp (w : jac) (sd : N) : res K :=
  let s := sin (j_angle w) in let c := cos (j_angle w) in
  branches w sd (wfn_at w (Some sd)) c s (c * c) (c * s) (s * s).
(** jacobi.py:442-579 _olp_deriv *)
Definition j_dolp (w : jac) (sd : N) : res K :=
  let s := sin (j_angle w) in let c := cos (j_angle w) in
  branches w sd (Ok 0) (- s) c (- ((1 + 1) * c * s)) (c * c - s * s) ((1 + 1) * s * c).
(** the checks of get_overlap with deriv (jacobi.py:646-654, 659) *)
Definition j_deriv_check (w : jac) (t : target) (d : list Z) : res unit :=
  match t with
  | TSelf => if existsb (fun i => (i <? 0) || (1 <=? i))%Z d then Err ValueError else Ok tt
  | TWfn i => if Nat.eqb i (c_id (j_wfn w)) then Err NotImplementedError else Err ValueError
  end.
(** jacobi.py:582-662 get_overlap *)
Definition j_overlap (w : jac) (sd : N) : res K := j_olp w sd.
Definition j_overlap_deriv (w : jac) (sd : N) (t : target) (d : list Z) : res (list K) :=
  do _ <- j_deriv_check w t d; do g <- j_dolp w sd; Ok (map (fun _ => g) d).

(** jacobi.py:170-209 jacobi_rotation: the matrices with their sizes *)
Definition entry (p q : nat) (c s : K) (i j : nat) : K :=
  if (Nat.eqb i p && Nat.eqb j p)%bool then c
  else if (Nat.eqb i p && Nat.eqb j q)%bool then s
  else if (Nat.eqb i q && Nat.eqb j p)%bool then - s
  else if (Nat.eqb i q && Nat.eqb j q)%bool then c
  else if Nat.eqb i j then 1 else 0.
Definition identity (i j : nat) : K := if Nat.eqb i j then 1 else 0.
Definition jacobi_rotation (w : jac) : res (list (nat * (nat -> nat -> K))) :=
  let ns := Z.to_nat (j_ns w) in
  let n := match j_orb w with Generalized => Z.to_nat (j_nspin w) | _ => ns end in
  let p := j_p w in let q := j_q w in
  let shift := match j_orb w with Unrestricted => (Nat.leb ns p && Nat.leb ns q)%bool | _ => false end in
  let p' := if shift then (p - ns)%nat else p in
  let q' := if shift then (q - ns)%nat else q in
  if (Nat.ltb p' n && Nat.ltb q' n)%bool then
    let m := (n, entry p' q' (cos (j_angle w)) (sin (j_angle w))) in
    match j_orb w with
    | Restricted | Generalized => Ok [m]
    | Unrestricted => if (Nat.ltb p ns && Nat.ltb q ns)%bool then Ok [m; (ns, identity)] else Ok [(ns, identity); m]
    end
  else Err IndexError.

(** jacobi.py:134-168 spin and seniority, with nonorth.py:99-136: from that of the wrapped wavefunction *)
Definition j_spin (w : jac) (inner : option Z) : option Z := match j_orb w with Generalized => None | _ => inner end.
Definition j_seniority (w : jac) (inner : option Z) : option Z := match j_orb w with Generalized => None | _ => inner end.

(** * the instance: caching is always enabled by base_one.py:91-92; only assign_params clears the caches *)
Definition jarg := (N * option (target * list Z))%type.
Definition j_get (w : jac) (a : jarg) : prog N K N K (ovalue K) :=
  match snd a with
  | None => CallO (fst a) (fun v => Ret (Ok (Scalar v)))
  | Some (t, d) =>
      match j_deriv_check w t d with
      | Err e => Ret (Err e)
      | Ok _ => CallD (fst a) (fun g => Ret (Ok (Array (map (fun _ => g) d))))
      end
  end.
Definition j_assign_params (w : jac) (a : option K) : res jac :=
  Ok (mkjac (j_nelec w) (j_nspin w) (j_wfn w) (j_param a) (j_orb w) (j_p w) (j_q w)).
(** the other setters *)
Definition j_set_orbtype (o : option orbword) (w : jac) : res jac :=
  do t <- j_assign_orbtype o; Ok (mkjac (j_nelec w) (j_nspin w) (j_wfn w) (j_angle w) t (j_p w) (j_q w)).
Definition j_set_indices (l : option (list Z)) (w : jac) : res jac :=
  do pq <- j_assign_indices (j_nspin w) (j_orb w) l;
  Ok (mkjac (j_nelec w) (j_nspin w) (j_wfn w) (j_angle w) (j_orb w) (fst pq) (snd pq)).
Definition j_set_wfn (c : comp K) (w : jac) : res jac :=
  do c <- one_assign_wfn (j_nelec w) c; Ok (mkjac (j_nelec w) (j_nspin w) c (j_angle w) (j_orb w) (j_p w) (j_q w)).
(** assign_params of the wrapped wavefunction *)
Definition j_wfn_params (ps : list K) (w : jac) : res jac :=
  let c := j_wfn w in
  Ok (mkjac (j_nelec w) (j_nspin w) (mkcomp (c_id c) (c_nelec c) (c_nspin c) (c_memory c) ps (c_olp c) (c_dolp c) (c_olps c))
            (j_angle w) (j_orb w) (j_p w) (j_q w)).
Definition j_run := run N.eqb N.eqb j_olp j_dolp j_get j_assign_params (set_any (Cfg := jac)) (fun _ => 1%Z).
Definition j_object (w : jac) (memory : option Z) := constructed (K1 := N) (V1 := K) (K2 := N) (V2 := K) (fun _ : jac => 1%Z) w memory true.
End Jacobi.
Arguments jac : clear implicits.
