(** fanpy/ham/utils.py: ham_factory.  The function for the components, the wavefunction and a given integrate_sd_wfn are arguments.
    An overlap (or its derivatives) is a list of numbers, one number without derivatives; arrays of different lengths are not
    broadcast but refused. *)
From Coq Require Import List ZArith NArith Arith Bool.
From Verif Require Import Py Slater Alg.
Import ListNotations.

Section F.
Context {K : CRing} {I : Type}.
Local Open Scope cr_scope.
(** the arguments of ham_factory, which the methods refer to; the attributes integrals and _nspin (utils.py:41-52) *)
Record facham := mkfac { fa_dec : N -> N -> I -> res (list K); fa_ints : I; fa_nspin : Z; fa_orders : list Z;
  fa_wfn : option (N -> res (list K)) }.
(** utils.py:181-201 integrate_sd_sd: np.sum of integrate_sd_sd_decomposed (utils.py:155-179) *)
Definition fac_ss (h : facham) (a b : N) : res K := do c <- fa_dec h a b (fa_ints h); Ok (sumf (fun x => x) c).
(** coeff * integral; integral += *)
Definition v_scale (x : K) (v : list K) : list K := map (fun y => y * x) v.
Definition v_plus (a b : list K) : res (list K) :=
  if Nat.eqb (length a) (length b) then Ok (map (fun p => fst p + snd p) (combine a b)) else Err ValueError.
(** utils.py:145-150: the body of the loops *)
Fixpoint fac_loop (h : facham) (ov : N -> res (list K)) (sd : N) (es : list (list nat * list nat)) (integral : list K) : res (list K) :=
  match es with
  | [] => Ok integral
  | (annihilators, creators) :: t =>
      do sd_m <- excite (Some sd) (annihilators ++ creators);
      match sd_m with
      | None => Err TypeError
      | Some m =>
          do coeff <- ov m;
          do e <- fac_ss h sd m;
          do s <- v_plus integral (v_scale e coeff);
          fac_loop h ov sd t s
      end
  end.
(** utils.py:144: for order in orders; itertools.combinations refuses negative numbers *)
Fixpoint fac_orders (h : facham) (ov : N -> res (list K)) (sd : N) (orders : list Z) (integral : list K) : res (list K) :=
  match orders with
  | [] => Ok integral
  | k :: t =>
      if (k <? 0)%Z then Err ValueError
      else
        do s <- fac_loop h ov sd (list_prod (combinations (occ_indices (Some sd)) (Z.to_nat k)) (combinations (vir_indices (Some sd) (fa_nspin h)) (Z.to_nat k))) integral;
        fac_orders h ov sd t s
  end.
(** utils.py:82-153 integrate_sd_wfn *)
Definition fac_integrate (h : facham) (ov : N -> res (list K)) (sd : N) : res (list K) :=
  match fa_wfn h with
  | Some f => f sd
  | None =>
      do coeff <- ov sd;
      do e <- fac_ss h sd sd;
      fac_orders h ov sd (fa_orders h) (v_scale e coeff)
  end.
End F.
Arguments facham : clear implicits.
