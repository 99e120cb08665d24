(** Specification for C62: products of sums of excitations, and the exponential restricted to the
    products that do not break a pair twice.  Independent of the model. *)
From Coq Require Import List ZArith NArith Arith Bool.
From Verif Require Import Py BitSpec Slater Fock Alg CC CCSpec Pccd.
Import ListNotations.

(** the orbital of the other spin, and the spatial orbital; [ns] spatial orbitals *)
Definition partner (ns z : Z) : Z := (if z <? ns then z + ns else z - ns)%Z.
Definition spatial (ns z : Z) : Z := (if z <? ns then z else z - ns)%Z.
(** the orbitals that an operator empties *)
Definition emptied (e : list Z) : list Z := firstn (length e / 2) e.
(** no operator of the list empties the partner of the orbital emptied by a single excitation *)
Definition compatible (ns : Z) (w : list (list Z)) : bool :=
  forallb (fun e => match e with
                    | [z; _] => forallb (fun e' => negb (existsb (Z.eqb (partner ns z)) (emptied e'))) w
                    | _ => true
                    end) w.
(** sequences of [k] operators *)
Fixpoint sequences {A} (l : list A) (k : nat) : list (list A) :=
  match k with O => [[]] | S k => flat_map (fun x => map (cons x) (sequences l k)) l end.

Section Spec.
Context {F : CField}.
Local Open Scope cr_scope.
(** operators with their amplitudes *)
Definition excitations (T : list (F * list Z)) : list (F * list op) := map (fun t => (fst t, excitation (snd t))) T.
(** (1 + T_n) ... (1 + T_1) |ref>, T_1 being the head *)
Definition one_plus (T : list (F * list op)) (v : vec) : vec := v ++ apply_sum T v.
Definition product_state (Ts : list (list (F * list op))) (ref : N) : vec := fold_left (fun v T => one_plus T v) Ts [(1, ref)].
(** the coefficient of |sd> in the sum over k <= n of 1/k! times the products of k operators that satisfy [ok] *)
Definition restricted_exp (ok : list (list Z) -> bool) (n : nat) (T : list (F * list Z)) (ref sd : N) : F :=
  sumf (fun k => finv (nat_r (fact k)) *
    sumf (fun w => coeff sd (apply_sum [(prodf fst w, flat_map (fun t => excitation (snd t)) w)] [(1, ref)]))
         (filter (fun w => ok (map snd w)) (sequences T k))) (seq 0%nat (S n)).
End Spec.
(** what the calls return when no table of excitations is kept from one call to the next *)
Fixpoint pair_plain {K : CRing} (p : pcc K) (h : list (paircall K)) : list (pairret K) :=
  match h with
  | [] => []
  | POverlap sd :: t => RValue (pair_overlap p sd) :: pair_plain p t
  | PDeriv sd ds :: t => RDeriv (pair_overlap_deriv p sd ds) :: pair_plain p t
  | PParams l :: t => match pair_assign_params p (CPArray l) with
                      | Ok p' => RDone (Ok tt) :: pair_plain p' t
                      | Err x => RDone (Err x) :: pair_plain p t
                      end
  end.
(** the determinants of the calls have at least as many electrons as the reference *)
Definition reaches {K : CRing} (ref : N) (q : paircall K) : Prop :=
  match q with POverlap sd | PDeriv sd _ => (total_occ (Some ref) <= total_occ (Some sd))%nat | PParams _ => True end.
(** the operator of the docstring of PCCD: a_i and a_ibar empty, then a^+_abar and a^+_a fill *)
Definition documented (e : list Z) : list op :=
  match e with
  | [i; ib; a; ab] => [Ann (Z.to_nat i); Ann (Z.to_nat ib); Cre (Z.to_nat ab); Cre (Z.to_nat a)]
  | _ => []
  end.
(** both orbitals of every pair are occupied, and they are among the spin orbitals *)
Definition closed_shell (nspin : Z) (sd : N) : Prop :=
  forall i, bit sd i = true -> (Z.of_nat i < nspin)%Z /\ bit sd (Z.to_nat (partner (nspin / 2) (Z.of_nat i))) = true.
(** the orbitals of each half are listed in increasing order *)
Fixpoint increasingb (l : list Z) : bool :=
  match l with x :: ((y :: _) as t) => ((x <? y)%Z && increasingb t)%bool | _ => true end.
Definition ordered (e : list Z) : bool := (increasingb (emptied e) && increasingb (skipn (length e / 2) e))%bool.

(** ** the operators of a class, for the occupation of a determinant [g] *)
Section Operators.
Variables (nspin : Z) (g : N).
Let ns : Z := (nspin / 2)%Z.
Definition occupied (z : Z) : Prop := (0 <= z)%Z /\ bit g (Z.to_nat z) = true.
Definition vacant (z : Z) : Prop := (0 <= z < nspin)%Z /\ bit g (Z.to_nat z) = false.
Definition alpha (z : Z) : Prop := (z < ns)%Z.
(** x -> v, with the condition [P] *)
Definition single (P : Z -> Z -> Prop) (e : list Z) : Prop := exists x v, e = [x; v] /\ occupied x /\ P x v.
(** the pair i, ibar -> x, y, with the condition [P] *)
Definition from_pair (P : Z -> Z -> Prop) (e : list Z) : Prop := exists i x y, e = [i; i + ns; x; y]%Z /\ occupied i /\ alpha i /\ P x y.
Definition pair_to_pair : list Z -> Prop := from_pair (fun x y => vacant x /\ alpha x /\ y = (x + ns)%Z).
Definition to_vacant (x v : Z) : Prop := vacant v.
Definition to_two (x y : Z) : Prop := vacant x /\ vacant y /\ (x < y)%Z.
(** the two sets of orbitals of APset1roGD and APset1roGSD *)
Definition set0 (indices : option (list (list Z))) (z : Z) : Prop :=
  match indices with Some (l0 :: _) => In z l0 | _ => vacant z /\ alpha z end.
Definition set1 (indices : option (list (list Z))) (z : Z) : Prop :=
  match indices with Some (_ :: l1 :: _) => In z l1 | _ => vacant z /\ ~ alpha z end.
(** all excitations from occupied to vacant orbitals of some ranks *)
Definition all_of (ranks : list Z) (e : list Z) : Prop :=
  exists ann cre, exop_shape ranks e ann cre /\ (forall z, In z ann -> occupied z) /\ (forall z, In z cre -> vacant z).
Definition two_pairs (e : list Z) : Prop := exists i j a b, e = [i; i + ns; j; j + ns; a; a + ns; b; b + ns]%Z /\
  occupied i /\ occupied j /\ (i < j)%Z /\ alpha j /\ vacant a /\ vacant b /\ (a < b)%Z /\ alpha b.
Definition pair_and_one (e : list Z) : Prop := exists i k a b, e = [i; i + ns; k; a; a + ns; b]%Z /\
  occupied i /\ alpha i /\ occupied k /\ spatial ns k <> i /\ vacant a /\ alpha a /\ vacant b /\ spatial ns b <> a.
Definition operator_of (c : pclass) (indices : option (list (list Z))) (e : list Z) : Prop :=
  match c with
  | PPair => pair_to_pair e
  | PSpin => single (fun x v => vacant v /\ (alpha x <-> alpha v)) e \/ pair_to_pair e
  | PGen => single to_vacant e \/ pair_to_pair e
  | PGD => from_pair to_two e
  | PGSD => single to_vacant e \/ from_pair to_two e
  | PSetD => from_pair (fun x y => set0 indices x /\ set1 indices y) e
  | PSetSD => single (fun x v => (alpha x /\ set0 indices v) \/ (~ alpha x /\ set1 indices v)) e \/ from_pair (fun x y => set0 None x /\ set1 None y) e
  | PSen0 => single to_vacant e \/ pair_to_pair e
  | PQuad => all_of [1; 2]%Z e \/ two_pairs e
  | PTripQuad => all_of [1; 2; 3]%Z e \/ two_pairs e
  | PTrip2Quad => all_of [1; 2]%Z e \/ pair_and_one e \/ two_pairs e
  end.
End Operators.
