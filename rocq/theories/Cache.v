(** Model of the caching of overlaps in fanpy/wfn/base.py (enable_cache, clear_cache), with
    functools.lru_cache of the Python library.

    A wavefunction is its configuration (parameters, reference determinant, ...) together with the
    caches.  The overlap method of a class is a program that may call the memoised methods _olp and
    _olp_deriv; what these compute is given by the class ([olp], [dolp]), and so is assign_params
    ([assign]) and a setter that does not clear the caches ([setter]).  Cached values are not mutated
    by the callers (numpy indexing with an index array copies). *)
From Coq Require Import List ZArith NArith Arith Bool.
From Verif Require Import Py.
Import ListNotations.

(** functools.lru_cache(maxsize): entries with the most recently used first; no maximum if None *)
Section Lru.
Context {Key V : Type} (eqb : Key -> Key -> bool).
Record layer := mklayer { l_max : option N; l_entries : list (Key * V) }.
Fixpoint find (k : Key) (l : list (Key * V)) : option V :=
  match l with [] => None | (k', v) :: t => if eqb k k' then Some v else find k t end.
Definition without_key (k : Key) (l : list (Key * V)) : list (Key * V) := filter (fun p => negb (eqb k (fst p))) l.
Definition room (L : layer) : bool :=
  match l_max L with None => true | Some n => (N.of_nat (length (l_entries L)) <? n)%N end.
Definition disabled (L : layer) : bool := match l_max L with None => false | Some n => (n =? 0)%N end.
(** a miss is entered in front, the least recently used entry is dropped when full *)
Definition enter (L : layer) (k : Key) (v : V) : layer :=
  mklayer (l_max L) ((k, v) :: if room L then l_entries L else removelast (l_entries L)).
(** a call through a stack of caches, the outermost first; errors are not cached, size 0 disables *)
Fixpoint call (f : Key -> res V) (ls : list layer) (k : Key) : res V * list layer :=
  match ls with
  | [] => (f k, [])
  | L :: rest =>
      if disabled L then let (v, rest') := call f rest k in (v, L :: rest')
      else match find k (l_entries L) with
           | Some v => (Ok v, mklayer (l_max L) ((k, v) :: without_key k (l_entries L)) :: rest)
           | None =>
               let (v, rest') := call f rest k in
               match v with
               | Ok x => (Ok x, enter L k x :: rest')
               | Err e => (Err e, L :: rest')
               end
           end
  end.
(** cache_clear of the outermost cache *)
Definition clear_head (ls : list layer) : list layer :=
  match ls with [] => [] | L :: rest => mklayer (l_max L) [] :: rest end.
End Lru.
Arguments layer : clear implicits.

(** programs that call the memoised methods *)
Inductive prog (K1 V1 K2 V2 A : Type) :=
| Ret : res A -> prog K1 V1 K2 V2 A
| CallO : K1 -> (V1 -> prog K1 V1 K2 V2 A) -> prog K1 V1 K2 V2 A
| CallD : K2 -> (V2 -> prog K1 V1 K2 V2 A) -> prog K1 V1 K2 V2 A.
Arguments Ret {K1 V1 K2 V2 A}.
Arguments CallO {K1 V1 K2 V2 A}.
Arguments CallD {K1 V1 K2 V2 A}.

(** the keys of _cache_fns: "overlap", "overlap derivative", any other string *)
Inductive fnkey := FOverlap | FDeriv | FOther.

Section Object.
Context {Cfg K1 V1 K2 V2 Arg Out P Q : Type}.
Variable (eqb1 : K1 -> K1 -> bool) (eqb2 : K2 -> K2 -> bool).
Variable (olp : Cfg -> K1 -> res V1) (dolp : Cfg -> K2 -> res V2).
Variable (get : Cfg -> Arg -> prog K1 V1 K2 V2 Out).
Variable (assign : Cfg -> P -> res Cfg) (setter : Cfg -> Q -> res Cfg) (nparams : Cfg -> Z).
(** the instance: memory in bytes or None for infinity; [o_fns] is None before the first enable_cache,
    else tells if the derivative is among _cache_fns.  The entries of _cache_fns are the outermost caches. *)
Record obj := mkobj {
  o_cfg : Cfg; o_memory : option Z; o_olp : list (layer K1 V1); o_dolp : list (layer K2 V2); o_fns : option bool }.

(** base.py:321-336 enable_cache: wraps the methods as they are, that is including earlier caches *)
Definition maxsize (o : obj) (include_derivative : bool) : N :=
  match o_memory o with
  | None => 2 ^ 30
  | Some m => Z.to_N (if include_derivative then Z.quot (Z.quot m 8) (nparams (o_cfg o) + 1) else Z.quot m 8)
  end.
Definition enable_cache (o : obj) (include_derivative : bool) : obj :=
  let n := maxsize o include_derivative in
  mkobj (o_cfg o) (o_memory o) (mklayer (Some n) [] :: o_olp o)
        (if include_derivative then mklayer (Some n) [] :: o_dolp o else o_dolp o) (Some include_derivative).
(** base.py:386-401 clear_cache *)
Definition clear_cache (o : obj) (key : option fnkey) : res obj :=
  match o_fns o with
  | None => Ok o
  | Some d =>
      match key with
      | None => Ok (mkobj (o_cfg o) (o_memory o) (clear_head (o_olp o)) (if d then clear_head (o_dolp o) else o_dolp o) (o_fns o))
      | Some FOverlap => Ok (mkobj (o_cfg o) (o_memory o) (clear_head (o_olp o)) (o_dolp o) (o_fns o))
      | Some FDeriv => if d then Ok (mkobj (o_cfg o) (o_memory o) (o_olp o) (clear_head (o_dolp o)) (o_fns o)) else Err KeyError
      | Some FOther => Err KeyError
      end
  end.
(** running a program against the caches *)
Fixpoint exec (o : obj) (p : prog K1 V1 K2 V2 Out) : res Out * obj :=
  match p with
  | Ret r => (r, o)
  | CallO k f =>
      let (v, ls) := call eqb1 (olp (o_cfg o)) (o_olp o) k in
      let o' := mkobj (o_cfg o) (o_memory o) ls (o_dolp o) (o_fns o) in
      match v with Ok x => exec o' (f x) | Err e => (Err e, o') end
  | CallD k f =>
      let (v, ls) := call eqb2 (dolp (o_cfg o)) (o_dolp o) k in
      let o' := mkobj (o_cfg o) (o_memory o) (o_olp o) ls (o_fns o) in
      match v with Ok x => exec o' (f x) | Err e => (Err e, o') end
  end.
(** calls on the instance and what they return or raise *)
Inductive event := EGet (a : Arg) | EAssign (p : P) | ESet (q : Q) | EClear (k : option fnkey) | EEnable (d : bool).
Inductive answer := AGet (r : res Out) | ADone | ARaise (e : exn).
Definition step (o : obj) (e : event) : answer * obj :=
  match e with
  | EGet a => let (r, o') := exec o (get (o_cfg o) a) in (AGet r, o')
  | EAssign p =>
      match assign (o_cfg o) p with
      | Ok c => match clear_cache (mkobj c (o_memory o) (o_olp o) (o_dolp o) (o_fns o)) None with
                | Ok o' => (ADone, o')
                | Err x => (ARaise x, o)
                end
      | Err x => (ARaise x, o)
      end
  | ESet q => match setter (o_cfg o) q with
              | Ok c => (ADone, mkobj c (o_memory o) (o_olp o) (o_dolp o) (o_fns o))
              | Err x => (ARaise x, o)
              end
  | EClear k => match clear_cache o k with Ok o' => (ADone, o') | Err x => (ARaise x, o) end
  | EEnable d => (ADone, enable_cache o d)
  end.
Fixpoint run (o : obj) (h : list event) : list answer :=
  match h with [] => [] | e :: t => let (a, o') := step o e in a :: run o' t end.
Definition fresh (c : Cfg) (memory : option Z) : obj := mkobj c memory [] [] None.
End Object.
Arguments obj : clear implicits.
Arguments event : clear implicits.
Arguments answer : clear implicits.
