(** Model of the CI wavefunctions: fanpy/wfn/base.py (assign_nelec, assign_nspin, assign_params),
    fanpy/wfn/ci/base.py (whole class), fci.py, doci.py, cisd.py, ci_pairs.py (constructors).
    Spin is modelled by twice its value (non-half-integer spins raise ValueError in assign_spin and
    are not modelled); isinstance checks, memory, add_noise and to_ap1rog are not modelled. *)
From Coq Require Import List ZArith NArith Arith Bool.
From Verif Require Import Py Slater SdList Alg.
Import ListNotations.

(** the classes that share CIWavefunction.__init__ *)
Inductive ciclass := CIGeneral | CIFull | CIDoubly | CISinglesDoubles | CIPairExc.

(** wfn/base.py:163-184 assign_nelec; doci.py:78-100 (also CIPairs, which inherits it) *)
Definition assign_nelec (c : ciclass) (nelec : Z) : res Z :=
  if (nelec <=? 0)%Z then Err ValueError
  else match c with
       | CIDoubly | CIPairExc => if negb (nelec mod 2 =? 0)%Z then Err ValueError else Ok nelec
       | _ => Ok nelec
       end.
(** wfn/base.py:186-210 assign_nspin *)
Definition assign_nspin (nspin : Z) : res Z :=
  if (nspin <=? 0)%Z then Err ValueError
  else if (nspin mod 2 =? 1)%Z then Err ValueError else Ok nspin.
(** ci/base.py:182-209 assign_spin; doci.py:102-129 *)
Definition assign_spin (c : ciclass) (spin2 : option Z) : res (option Z) :=
  let spin2 := match c, spin2 with (CIDoubly | CIPairExc), None => Some 0%Z | _, _ => spin2 end in
  if match spin2 with Some s => (s <? 0)%Z | None => false end then Err ValueError
  else match c with
       | CIDoubly | CIPairExc =>
           if match spin2 with Some s => negb (s =? 0)%Z | None => true end then Err ValueError else Ok spin2
       | _ => Ok spin2
       end.
(** ci/base.py:211-236 assign_seniority; fci.py:84-100; doci.py:131-155 *)
Definition assign_seniority (c : ciclass) (sen : option Z) : res (option Z) :=
  let sen := match c, sen with (CIDoubly | CIPairExc), None => Some 0%Z | _, _ => sen end in
  if match c, sen with CIFull, Some _ => true | _, _ => false end then Err ValueError
  else if match sen with Some s => (s <? 0)%Z | None => false end then Err ValueError
  else match c with
       | CIDoubly | CIPairExc =>
           if match sen with Some s => negb (s =? 0)%Z | None => true end then Err ValueError else Ok sen
       | _ => Ok sen
       end.

(** ci/base.py:281-299: checks of one determinant *)
Definition check_sd (nelec nspatial : Z) (spin2 sen : option Z) (sd : N) : res unit :=
  if negb (Z.of_nat (total_occ (Some sd)) =? nelec)%Z then Err ValueError
  else
    do s <- get_spin2 sd nspatial;
    if match spin2 with Some x => negb (s =? x)%Z | None => false end then Err ValueError
    else
      do v <- get_seniority sd nspatial;
      if match sen with Some y => negb (Z.of_nat v =? y)%Z | None => false end then Err ValueError
      else Ok tt.
(** ci/base.py:238-303 CIWavefunction.assign_sds *)
Definition base_assign_sds (nelec nspin : Z) (spin2 sen : option Z) (sds : option (list N)) : res (list N) :=
  do l <- match sds with
          | None => sd_list nelec nspin None None spin2 sen false
          | Some l => Ok l
          end;
  do _ <- mapM (check_sd nelec (nspin / 2)%Z spin2 sen) l;
  match l with [] => Err ValueError | _ => Ok l end.
(** assign_sds of the classes: fci.py:102-119, cisd.py:77-114, ci_pairs.py:81-113 *)
Definition assign_sds (c : ciclass) (nelec nspin : Z) (spin2 sen : option Z) (sds : option (list N)) : res (list N) :=
  match c, sds with
  | (CIFull | CISinglesDoubles | CIPairExc), Some _ => Err ValueError
  | CISinglesDoubles, None =>
      do l <- sd_list nelec nspin None (Some [1; 2]%Z) spin2 sen false;
      base_assign_sds nelec nspin spin2 sen (Some l)
  | CIPairExc, None =>
      do l <- sd_list nelec nspin None (Some [2]%Z) spin2 sen false;
      base_assign_sds nelec nspin spin2 sen (Some l)
  | _, _ => base_assign_sds nelec nspin spin2 sen sds
  end.

(** numpy indexing of an axis of length [n] by an integer, negative indices count from the end *)
Definition np_index (n : nat) (z : Z) : res nat :=
  if ((- Z.of_nat n <=? z) && (z <? Z.of_nat n))%Z
  then Ok (Z.to_nat (if (z <? 0)%Z then z + Z.of_nat n else z)%Z) else Err IndexError.

Section CI.
Context {K : CRing}.
Local Open Scope cr_scope.

Record ciwfn := mkci {
  ci_nelec : Z; ci_nspin : Z; ci_spin2 : option Z; ci_sen : option Z;
  ci_sds : list N; ci_params : list K
}.

(** ci/base.py:92-129 __init__ (default_val is 0); 305-322 assign_params: default parameters are
    (1, 0, ..); given parameters are stored without a check *)
Definition new_ci (c : ciclass) (nelec nspin : Z) (params : option (list K)) (sds : option (list N))
    (spin2 sen : option Z) : res ciwfn :=
  do ne <- assign_nelec c nelec;
  do ns <- assign_nspin nspin;
  do sp <- assign_spin c spin2;
  do se <- assign_seniority c sen;
  do l <- assign_sds c ne ns sp se sds;
  let p := match params with
           | Some p => p
           | None => match l with [] => [] | _ :: t => 1 :: map (fun _ => 0) t end
           end in
  Ok (mkci ne ns sp se l p).

(** ci/base.py:126  dict_sd_index = {sd: i for i, sd in enumerate(sds)}: a repeated determinant gets
    its last position *)
Fixpoint sd_index_from (sd : N) (l : list N) (i : nat) (found : option nat) : option nat :=
  match l with
  | [] => found
  | x :: t => sd_index_from sd t (S i) (if N.eqb x sd then Some i else found)
  end.
Definition dict_sd_index (w : ciwfn) (sd : N) : option nat := sd_index_from sd (ci_sds w) 0 None.

(** ci/base.py:342-394 get_overlap *)
Definition ci_overlap (w : ciwfn) (sd : N) : res K :=
  match dict_sd_index w sd with
  | Some i => match nth_error (ci_params w) i with Some x => Ok x | None => Err IndexError end
  | None => Ok 0
  end.
Definition ci_overlap_deriv (w : ciwfn) (sd : N) (deriv : list Z) : res (list K) :=
  let zeros := repeat (0 : K) (length (ci_params w)) in
  do output <- match dict_sd_index w sd with
               | Some i => if Nat.ltb i (length (ci_params w)) then Ok (upd zeros i 1) else Err IndexError
               | None => Ok zeros
               end;
  mapM (fun d => do i <- np_index (length (ci_params w)) d; Ok (nth i output 0)) deriv.

(** ci/base.py:324-340 import_params from another CI wavefunction: first position in the guess *)
Fixpoint first_index (sd : N) (l : list N) : option nat :=
  match l with
  | [] => None
  | x :: t => if N.eqb x sd then Some 0%nat else option_map S (first_index sd t)
  end.
Fixpoint import_loop (guess : ciwfn) (sds : list N) (index : nat) (params : list K) : res (list K) :=
  match sds with
  | [] => Ok params
  | sd :: t =>
      match first_index sd (ci_sds guess) with
      | None => import_loop guess t (S index) params
      | Some g =>
          match nth_error (ci_params guess) g with
          | None => Err IndexError
          | Some x => if Nat.ltb index (length params) then import_loop guess t (S index) (upd params index x)
                      else Err IndexError
          end
      end
  end.
Definition import_params (w guess : ciwfn) : res ciwfn :=
  do p <- import_loop guess (ci_sds w) 0 (ci_params w);
  Ok (mkci (ci_nelec w) (ci_nspin w) (ci_spin2 w) (ci_sen w) (ci_sds w) p).

(** ci/base.py:396-434 compute_1rdm: calls made on the array *)
Definition rdm_add (n : nat) (i j : nat) (v : K) (m : nat -> nat -> K) : res (nat -> nat -> K) :=
  if (Nat.ltb i n && Nat.ltb j n)%bool
  then Ok (fun p q => if (Nat.eqb p i && Nat.eqb q j)%bool then m p q + v else m p q)
  else Err IndexError.
Fixpoint rdm_adds (n : nat) (l : list (nat * nat * K)) (m : nat -> nat -> K) : res (nat -> nat -> K) :=
  match l with
  | [] => Ok m
  | (i, j, v) :: t => do m' <- rdm_add n i j v m; rdm_adds n t m'
  end.
(** ci/base.py:421-432: one pair of an occupied and a virtual orbital *)
Definition rdm_pair (w : ciwfn) (sd : N) (param : K) (o v : nat) : res (list (nat * nat * K)) :=
  do e <- excite (Some sd) [o; v];
  match e with
  | None => Ok []   (* None is not in sds *)
  | Some ex =>
      if existsb (N.eqb ex) (ci_sds w) then
        match dict_sd_index w ex with
        | None => Err KeyError
        | Some i =>
            match nth_error (ci_params w) i with
            | None => Err IndexError
            | Some excited_param =>
                do phase <- sign_excite (Some sd) [o] [v];
                Ok [(o, v, param * excited_param * sgnr phase)]
            end
        end
      else Ok []
  end.
(** ci/base.py:409-432: one determinant; the diagonal is a single array operation, checked first *)
Definition rdm_sd (w : ciwfn) (sd : N) (param : K) (m : nat -> nat -> K) : res (nat -> nat -> K) :=
  let n := Z.to_nat (ci_nspin w) in
  let occ := occ_indices (Some sd) in
  let vir := vir_indices (Some sd) (ci_nspin w) in
  do m1 <- rdm_adds n (map (fun i => (i, i, param * param)) occ) m;
  do ls <- mapM (fun p => rdm_pair w sd param (fst p) (snd p)) (list_prod occ vir);
  rdm_adds n (concat ls) m1.
Fixpoint rdm_loop (w : ciwfn) (l : list (N * K)) (m : nat -> nat -> K) : res (nat -> nat -> K) :=
  match l with
  | [] => Ok m
  | (sd, param) :: t => do m' <- rdm_sd w sd param m; rdm_loop w t m'
  end.
Definition compute_1rdm (w : ciwfn) : res (nat -> nat -> K) :=
  rdm_loop w (combine (ci_sds w) (ci_params w)) (fun _ _ => 0).
End CI.
Arguments ciwfn : clear implicits.
