(** Model of the derivatives of matrix elements with respect to orbital rotations:
    _integrate_sd_sd_deriv_* of fanpy/ham/generalized_chemical.py, restricted_chemical.py and
    unrestricted_chemical.py.  The integrals are real, so np.real is the identity. *)
From Coq Require Import List ZArith NArith Bool Arith.
From Verif Require Import Py Slater Alg HamGen HamRes HamRot.
Import ListNotations.

Section Deriv.
Context {K : CRing}.
Local Open Scope cr_scope.
Local Notation triple := (HamGen.triple K).
Local Notation "2" := (1 + 1) : cr_scope.

(** an if/elif chain of contributions: each branch has its test, the indices it reads and the values it adds
    to (one_electron, coulomb, exchange) *)
Definition branch : Type := bool * list nat * triple.
Fixpoint pick (n : nat) (l : list branch) : res triple :=
  match l with
  | [] => Ok t_zero
  | (c, idx, t) :: l => if c then chk n idx t else pick n l
  end.
(** consecutive if/elif chains *)
Fixpoint steps (n : nat) (ls : list (list branch)) : res triple :=
  match ls with
  | [] => Ok t_zero
  | l :: ls => do s <- pick n l; do t <- steps n ls; Ok (t_add s t)
  end.
(** x in array; array[array != x] *)
Definition memb (x : nat) (l : list nat) : bool := existsb (Nat.eqb x) l.
Definition without (x : nat) (l : list nat) : list nat := filter (fun i => negb (Nat.eqb i x)) l.
Local Notation "a =? b" := (Nat.eqb a b) : bool_scope.
Local Open Scope bool_scope.

(** ** GeneralizedMolecularHamiltonian *)

(** generalized_chemical.py:542-582  _integrate_sd_sd_deriv_zero *)
Definition deriv_zero (h : gham K) (x y : nat) (shared : list nat) : res triple :=
  let nox := without x shared in
  let noy := without y shared in
  steps (gh_n h)
    [[(memb x shared, x :: y :: nox,
       (- (2 * gh_one h x y), - (2 * psum (fun s => gh_two h x s y s) nox), 2 * psum (fun s => gh_two h x s s y) nox))];
     [(memb y shared, x :: y :: noy,
       (2 * gh_one h x y, 2 * psum (fun s => gh_two h x s y s) noy, - (2 * psum (fun s => gh_two h x s s y) noy)))]].

(** generalized_chemical.py:584-651  _integrate_sd_sd_deriv_one *)
Definition deriv_one (h : gham K) (diff_sd1 diff_sd2 : list nat) (x y : nat) (shared : list nat) : res triple :=
  let one := gh_one h in
  let two := gh_two h in
  match diff_sd1, diff_sd2 with
  | [a], [b] =>
      steps (gh_n h)
        [[(x =? a, y :: b :: shared,
           (- one y b, - psum (fun s => two y s b s) shared, psum (fun s => two y s s b) shared));
          (x =? b, a :: y :: shared,
           (- one a y, - psum (fun s => two a s y s) shared, psum (fun s => two a s s y) shared));
          (memb x shared, [a; b; x; y],
           (0, - two y a x b - two x a y b, two y a b x + two x a b y))];
         [(y =? a, x :: b :: shared,
           (one x b, psum (fun s => two x s b s) shared, - psum (fun s => two x s s b) shared));
          (y =? b, a :: x :: shared,
           (one a x, psum (fun s => two a s x s) shared, - psum (fun s => two a s s x) shared))];
         [(memb y shared, [a; b; x; y],
           (0, two x a y b + two y a x b, - two x a b y - two y a b x))]]
  | _, _ => Err ValueError
  end.

(** generalized_chemical.py:653-709  _integrate_sd_sd_deriv_two *)
Definition deriv_two (h : gham K) (diff_sd1 diff_sd2 : list nat) (x y : nat) : res triple :=
  let two := gh_two h in
  match diff_sd1, diff_sd2 with
  | [a; b], [c; d] =>
      let idx := [a; b; c; d; x; y] in
      steps (gh_n h)
        [[(x =? a, idx, (0, - two y b c d, two y b d c));
          (x =? b, idx, (0, - two a y c d, two a y d c));
          (x =? c, idx, (0, - two a b y d, two a b d y));
          (x =? d, idx, (0, - two a b c y, two a b y c))];
         [(y =? a, idx, (0, two x b c d, - two x b d c));
          (y =? b, idx, (0, two a x c d, - two a x d c));
          (y =? c, idx, (0, two a b x d, - two a b d x));
          (y =? d, idx, (0, two a b c x, - two a b x c))]]
  | _, _ => Err ValueError
  end.

(** np.all(deriv >= 0) and np.all(deriv < self.nparams) *)
Definition deriv_ok (nparams : nat) (deriv : list Z) : bool :=
  forallb (fun d => (0 <=? d)%Z && (d <? Z.of_nat nparams)%Z) deriv.
Definition rowcol (n : nat) (d : Z) : res (nat * nat) :=
  do xy <- param_ind_to_rowcol_ind n d; Ok (Z.to_nat (fst xy), Z.to_nat (snd xy)).

(** generalized_chemical.py:433-504  _integrate_sd_sd_deriv_decomposed; the list runs over the derivative
    indices, its elements are the columns of the returned array.  nparams is the size of the parameters,
    which are assigned as nspin * (nspin - 1) / 2 numbers *)
Definition deriv_decomposed (h : gham K) (sd1 sd2 : N) (deriv : list Z) : res (list triple) :=
  let shared := shared_orbs sd1 sd2 in
  let (diff_sd1, diff_sd2) := diff_orbs sd1 sd2 in
  if negb (Nat.eqb (length diff_sd1) (length diff_sd2)) then Ok (map (fun _ => t_zero) deriv)
  else
    let order := length diff_sd1 in
    if Nat.ltb 2 order then Ok (map (fun _ => t_zero) deriv)
    else
      do sign <- sign_excite (Some sd1) diff_sd1 (rev diff_sd2);
      if negb (deriv_ok (gh_n h * (gh_n h - 1) / 2) deriv) then Err ValueError
      else mapM (fun d =>
        do xy <- rowcol (gh_n h) d;
        let (x, y) := xy in
        do t <- (if Nat.eqb order 0 then deriv_zero h x y shared
                 else if Nat.eqb order 1 then deriv_one h diff_sd1 diff_sd2 x y shared
                 else deriv_two h diff_sd1 diff_sd2 x y);
        Ok (t_scale (sgnr sign) t)) deriv.

(** generalized_chemical.py:506-540  _integrate_sd_sd_deriv, the value of integrate_sd_sd(sd1, sd2, deriv):
    np.sum over both axes; restricted_chemical.py:349-384 and unrestricted_chemical.py:621-654 are the same *)
Definition deriv_sum (r : res (list triple)) : res K :=
  do l <- r; Ok (psum t_sum l).
Definition integrate_sd_sd_deriv (h : gham K) (sd1 sd2 : N) (deriv : list Z) : res K :=
  deriv_sum (deriv_decomposed h sd1 sd2 deriv).

(** ** RestrictedMolecularHamiltonian *)

(** restricted_chemical.py:509-574  _integrate_sd_sd_deriv_zero *)
Definition r_deriv_zero (h : rham K) (x y : nat) (sa sb : list nat) : res triple :=
  let one := rh_one h in
  let two := rh_two h in
  let anx := without x sa in
  let any := without y sa in
  let bnx := without x sb in
  let bny := without y sb in
  steps (rh_n h)
    [[(memb x sa, x :: y :: anx ++ sb,
       (- (2 * one x y), - (2 * psum (fun s => two x s y s) sb) - 2 * psum (fun s => two x s y s) anx,
        2 * psum (fun s => two x s s y) anx))];
     [(memb x sb, x :: y :: sa ++ bnx,
       (- (2 * one x y), - (2 * psum (fun s => two s x s y) sa) - 2 * psum (fun s => two x s y s) bnx,
        2 * psum (fun s => two x s s y) bnx))];
     [(memb y sa, x :: y :: any ++ sb,
       (2 * one x y, 2 * psum (fun s => two x s y s) sb + 2 * psum (fun s => two x s y s) any,
        - (2 * psum (fun s => two x s s y) any)))];
     [(memb y sb, x :: y :: sa ++ bny,
       (2 * one x y, 2 * psum (fun s => two s x s y) sa + 2 * psum (fun s => two x s y s) bny,
        - (2 * psum (fun s => two x s s y) bny)))]].

(** restricted_chemical.py:576-739  _integrate_sd_sd_deriv_one.  [ta], [tb]: spin_a == 0, spin_b == 0 *)
Definition r_deriv_one (h : rham K) (diff_sd1 diff_sd2 : list nat) (x y : nat) (sa sb : list nat) : res triple :=
  let one := rh_one h in
  let two := rh_two h in
  let n := rh_n h in
  match diff_sd1, diff_sd2 with
  | [a0], [b0] =>
      do a <- spatial n a0; do b <- spatial n b0;
      do ta <- alpha n a0; do tb <- alpha n b0;
      (* 616-627 *)
      let sa' := if ta && tb then without a0 (without b0 sa)
                 else if ta && negb tb then without a0 sa
                 else if negb ta && tb then without b0 sa else sa in
      let sb' := if ta && tb then sb
                 else if ta && negb tb then without b0 sb
                 else if negb ta && tb then without a0 sb else without a0 (without b0 sb) in
      let same := eqb ta tb in
      let ab := a :: b :: x :: y :: sa' ++ sb' in
      steps n
        [[((x =? a) && same && tb, ab,
           (- one y b, - psum (fun s => two y s b s) sb' - psum (fun s => two y s b s) sa', psum (fun s => two y s s b) sa'));
          ((x =? a) && same && negb tb, ab,
           (- one y b, - psum (fun s => two s y s b) sa' - psum (fun s => two y s b s) sb', psum (fun s => two y s s b) sb'));
          ((x =? b) && same && ta, ab,
           (- one a y, - psum (fun s => two a s y s) sb' - psum (fun s => two a s y s) sa', psum (fun s => two a s s y) sa'));
          ((x =? b) && same && negb ta, ab,
           (- one a y, - psum (fun s => two s a s y) sa' - psum (fun s => two a s y s) sb', psum (fun s => two a s s y) sb'))];
         [(ta && tb && memb x sa, [a; b; x; y],
           (0, - two x a y b - two x b y a, two x b a y + two x a b y))];
         [(ta && tb && memb x sb, [a; b; x; y], (0, - two a x b y - two b x a y, 0))];
         [(negb ta && negb tb && memb x sb, [a; b; x; y],
           (0, - two x a y b - two x b y a, two x b a y + two x a b y))];
         [(negb ta && negb tb && memb x sa, [a; b; x; y], (0, - two x a y b - two x b y a, 0))];
         [((y =? a) && same && tb, ab,
           (one x b, psum (fun s => two x s b s) sb' + psum (fun s => two x s b s) sa', - psum (fun s => two x s s b) sa'));
          ((y =? a) && same && negb tb, ab,
           (one x b, psum (fun s => two s x s b) sa' + psum (fun s => two x s b s) sb', - psum (fun s => two x s s b) sb'));
          ((y =? b) && same && ta, ab,
           (one a x, psum (fun s => two a s x s) sb' + psum (fun s => two a s x s) sa', - psum (fun s => two a s s x) sa'));
          ((y =? b) && same && negb ta, ab,
           (one a x, psum (fun s => two s a s x) sa' + psum (fun s => two a s x s) sb', - psum (fun s => two a s s x) sb'))];
         [(ta && tb && memb y sa, [a; b; x; y],
           (0, two x a y b + two x b y a, - two x a b y - two x b a y))];
         [(ta && tb && memb y sb, [a; b; x; y], (0, two a x b y + two b x a y, 0))];
         [(negb ta && negb tb && memb y sb, [a; b; x; y],
           (0, two x a y b + two x b y a, - two x a b y - two x b a y))];
         [(negb ta && negb tb && memb y sa, [a; b; x; y], (0, two x a y b + two x b y a, 0))]]
  | _, _ => Err ValueError
  end.

(** restricted_chemical.py:741-939  _integrate_sd_sd_deriv_two *)
Definition r_deriv_two (h : rham K) (diff_sd1 diff_sd2 : list nat) (x y : nat) : res triple :=
  let two := rh_two h in
  let n := rh_n h in
  match diff_sd1, diff_sd2 with
  | [a0; b0], [c0; d0] =>
      do a <- spatial n a0; do b <- spatial n b0; do c <- spatial n c0; do d <- spatial n d0;
      do ta <- alpha n a0; do tb <- alpha n b0; do tc <- alpha n c0; do td <- alpha n d0;
      let idx := [a; b; c; d; x; y] in
      let aaaa := ta && tb && tc && td in
      let abab := ta && tc && negb tb && negb td in
      let bbbb := negb ta && negb tb && negb tc && negb td in
      steps n
        [[((x =? a) && aaaa, idx, (0, - two y b c d, two y b d c));
          ((x =? a) && abab, idx, (0, - two y b c d, 0));
          ((x =? a) && bbbb, idx, (0, - two y b c d, two y b d c))];
         [((x =? b) && aaaa, idx, (0, - two y a d c, two y a c d));
          ((x =? b) && abab, idx, (0, - two a y c d, 0));
          ((x =? b) && bbbb, idx, (0, - two y a d c, two y a c d))];
         [((x =? c) && aaaa, idx, (0, - two a b y d, two b a y d));
          ((x =? c) && abab, idx, (0, - two a b y d, 0));
          ((x =? c) && bbbb, idx, (0, - two a b y d, two b a y d))];
         [((x =? d) && aaaa, idx, (0, - two b a y c, two a b y c));
          ((x =? d) && abab, idx, (0, - two a b c y, 0));
          ((x =? d) && bbbb, idx, (0, - two b a y c, two a b y c))];
         [((y =? a) && aaaa, idx, (0, two x b c d, - two x b d c));
          ((y =? a) && abab, idx, (0, two x b c d, 0));
          ((y =? a) && bbbb, idx, (0, two x b c d, - two x b d c))];
         [((y =? b) && aaaa, idx, (0, two x a d c, - two x a c d));
          ((y =? b) && abab, idx, (0, two a x c d, 0));
          ((y =? b) && bbbb, idx, (0, two x a d c, - two x a c d))];
         [((y =? c) && aaaa, idx, (0, two a b x d, - two b a x d));
          ((y =? c) && abab, idx, (0, two a b x d, 0));
          ((y =? c) && bbbb, idx, (0, two a b x d, - two b a x d))];
         [((y =? d) && aaaa, idx, (0, two b a x c, - two a b x c));
          ((y =? d) && abab, idx, (0, two a b c x, 0));
          ((y =? d) && bbbb, idx, (0, two b a x c, - two a b x c))]]
  | _, _ => Err ValueError
  end.

(** restricted_chemical.py:267-347 and unrestricted_chemical.py:539-619  _integrate_sd_sd_deriv_decomposed;
    [P] is what param_ind_to_rowcol_ind returns *)
Definition spin_deriv_decomposed {P} (n nparams : nat) (rc : Z -> res P)
  (zero : P -> list nat -> list nat -> res triple)
  (one : list nat -> list nat -> P -> list nat -> list nat -> res triple)
  (two : list nat -> list nat -> P -> res triple) (sd1 sd2 : N) (deriv : list Z) : res (list triple) :=
  do ab <- split_spin (shared_sd sd1 sd2) (Z.of_nat n);
  let shared_alpha := occ_indices (Some (fst ab)) in
  let shared_beta := occ_indices (Some (snd ab)) in
  let (diff_sd1, diff_sd2) := diff_orbs sd1 sd2 in
  if negb (Nat.eqb (length diff_sd1) (length diff_sd2)) then Ok (map (fun _ => t_zero) deriv)
  else
    let order := length diff_sd1 in
    if Nat.ltb 2 order then Ok (map (fun _ => t_zero) deriv)
    else
      do sign <- sign_excite (Some sd1) diff_sd1 (rev diff_sd2);
      if negb (deriv_ok nparams deriv) then Err ValueError
      else mapM (fun d =>
        do p <- rc d;
        do t <- (if Nat.eqb order 0 then zero p shared_alpha shared_beta
                 else if Nat.eqb order 1 then one diff_sd1 diff_sd2 p shared_alpha shared_beta
                 else two diff_sd1 diff_sd2 p);
        Ok (t_scale (sgnr sign) t)) deriv.

Definition r_deriv_decomposed (h : rham K) : N -> N -> list Z -> res (list triple) :=
  spin_deriv_decomposed (rh_n h) (rh_n h * (rh_n h - 1) / 2) (rowcol (rh_n h))
    (fun p => r_deriv_zero h (fst p) (snd p)) (fun d1 d2 p => r_deriv_one h d1 d2 (fst p) (snd p))
    (fun d1 d2 p => r_deriv_two h d1 d2 (fst p) (snd p)).
Definition r_sd_sd_deriv (h : rham K) (sd1 sd2 : N) (deriv : list Z) : res K :=
  deriv_sum (r_deriv_decomposed h sd1 sd2 deriv).

(** ** UnrestrictedMolecularHamiltonian; [t]: spin_ind == 0 *)

(** unrestricted_chemical.py:656-725  _integrate_sd_sd_deriv_zero *)
Definition u_deriv_zero (h : uham K) (t : bool) (x y : nat) (sa sb : list nat) : res triple :=
  let anx := without x sa in
  let any := without y sa in
  let bnx := without x sb in
  let bny := without y sb in
  steps (uh_n h)
    [[(t && memb x sa, x :: y :: anx ++ sb,
       (- (2 * uh_one0 h x y),
        - (2 * psum (fun s => uh_two1 h x s y s) sb) - 2 * psum (fun s => uh_two0 h x s y s) anx,
        2 * psum (fun s => uh_two0 h x s s y) anx));
      (negb t && memb x sb, x :: y :: sa ++ bnx,
       (- (2 * uh_one1 h x y),
        - (2 * psum (fun s => uh_two1 h s x s y) sa) - 2 * psum (fun s => uh_two2 h x s y s) bnx,
        2 * psum (fun s => uh_two2 h x s s y) bnx))];
     [(t && memb y sa, x :: y :: any ++ sb,
       (2 * uh_one0 h x y,
        2 * psum (fun s => uh_two1 h x s y s) sb + 2 * psum (fun s => uh_two0 h x s y s) any,
        - (2 * psum (fun s => uh_two0 h x s s y) any)));
      (negb t && memb y sb, x :: y :: sa ++ bny,
       (2 * uh_one1 h x y,
        2 * psum (fun s => uh_two1 h s x s y) sa + 2 * psum (fun s => uh_two2 h x s y s) bny,
        - (2 * psum (fun s => uh_two2 h x s s y) bny)))]].

(** unrestricted_chemical.py:727-884  _integrate_sd_sd_deriv_one *)
Definition u_deriv_one (h : uham K) (diff_sd1 diff_sd2 : list nat) (t : bool) (x y : nat) (sa sb : list nat) : res triple :=
  let n := uh_n h in
  let one0 := uh_one0 h in
  let one1 := uh_one1 h in
  let two0 := uh_two0 h in
  let two1 := uh_two1 h in
  let two2 := uh_two2 h in
  match diff_sd1, diff_sd2 with
  | [a0], [b0] =>
      do a <- spatial n a0; do b <- spatial n b0;
      do ta <- alpha n a0; do tb <- alpha n b0;
      let same := eqb t tb && eqb tb ta in
      let aa := ta && tb in
      let bb := negb ta && negb tb in
      let nab z := negb ((z =? a) || (z =? b)) in
      let ab := a :: b :: x :: y :: sa ++ sb in
      let q := [a; b; x; y] in
      steps n
        [[((x =? a) && same && t, ab,
           (- one0 y b, - psum (fun s => two1 y s b s) sb - psum (fun s => two0 y s b s) sa, psum (fun s => two0 y s s b) sa));
          ((x =? a) && same && negb t, ab,
           (- one1 y b, - psum (fun s => two1 s y s b) sa - psum (fun s => two2 y s b s) sb, psum (fun s => two2 y s s b) sb));
          ((x =? b) && same && t, ab,
           (- one0 a y, - psum (fun s => two1 a s y s) sb - psum (fun s => two0 a s y s) sa, psum (fun s => two0 a s s y) sa));
          ((x =? b) && same && negb t, ab,
           (- one1 a y, - psum (fun s => two1 s a s y) sa - psum (fun s => two2 a s y s) sb, psum (fun s => two2 a s s y) sb));
          (t && aa && memb x sa && nab x, q,
           (0, - two0 x a y b - two0 x b y a, two0 x b a y + two0 x a b y));
          (t && bb && memb x sa, q, (0, - two1 x a y b - two1 x b y a, 0));
          (negb t && aa && memb x sb, q, (0, - two1 a x b y - two1 b x a y, 0));
          (negb t && bb && memb x sb && nab x, q,
           (0, - two2 x a y b - two2 x b y a, two2 x b a y + two2 x a b y))];
         [((y =? a) && same && t, ab,
           (one0 x b, psum (fun s => two1 x s b s) sb + psum (fun s => two0 x s b s) sa, - psum (fun s => two0 x s s b) sa));
          ((y =? a) && same && negb t, ab,
           (one1 x b, psum (fun s => two1 s x s b) sa + psum (fun s => two2 x s b s) sb, - psum (fun s => two2 x s s b) sb));
          ((y =? b) && same && t, ab,
           (one0 a x, psum (fun s => two1 a s x s) sb + psum (fun s => two0 a s x s) sa, - psum (fun s => two0 a s s x) sa));
          ((y =? b) && same && negb t, ab,
           (one1 a x, psum (fun s => two1 s a s x) sa + psum (fun s => two2 a s x s) sb, - psum (fun s => two2 a s s x) sb));
          (t && aa && memb y sa && nab y, q,
           (0, two0 x a y b + two0 x b y a, - two0 x a b y - two0 x b a y));
          (t && bb && memb y sa, q, (0, two1 x a y b + two1 x b y a, 0));
          (negb t && aa && memb y sb, q, (0, two1 a x b y + two1 b x a y, 0));
          (negb t && bb && memb y sb && nab y, q,
           (0, two2 x a y b + two2 x b y a, - two2 x a b y - two2 x b a y))]]
  | _, _ => Err ValueError
  end.

(** unrestricted_chemical.py:886-1088  _integrate_sd_sd_deriv_two; the last entry for each orbital closes the
    outer elif when none of the inner tests holds *)
Definition u_deriv_two (h : uham K) (diff_sd1 diff_sd2 : list nat) (t : bool) (x y : nat) : res triple :=
  let n := uh_n h in
  let two0 := uh_two0 h in
  let two1 := uh_two1 h in
  let two2 := uh_two2 h in
  match diff_sd1, diff_sd2 with
  | [a0; b0], [c0; d0] =>
      do a <- spatial n a0; do b <- spatial n b0; do c <- spatial n c0; do d <- spatial n d0;
      do ta <- alpha n a0; do tb <- alpha n b0; do tc <- alpha n c0; do td <- alpha n d0;
      let i := [a; b; c; d; x; y] in
      let xa := (x =? a) && eqb t ta in
      let xb := (x =? b) && eqb t tb in
      let xc := (x =? c) && eqb t tc in
      let xd := (x =? d) && eqb t td in
      let ya := (y =? a) && eqb t ta in
      let yb := (y =? b) && eqb t tb in
      let yc := (y =? c) && eqb t tc in
      let yd := (y =? d) && eqb t td in
      steps n
        [[(xa && (t && tc && tb && td), i, (0, - two0 y b c d, two0 y b d c));
          (xa && (t && tc && negb tb && negb td), i, (0, - two1 y b c d, 0));
          (xa && (negb t && negb tc && negb tb && negb td), i, (0, - two2 y b c d, two2 y b d c));
          (xa, [], t_zero);
          (xb && (t && tc && ta && td), i, (0, - two0 y a d c, two0 y a c d));
          (xb && (negb t && negb td && ta && tc), i, (0, - two1 a y c d, 0));
          (xb && (negb t && negb tc && negb ta && negb td), i, (0, - two2 y a d c, two2 y a c d));
          (xb, [], t_zero);
          (xc && (t && ta && tb && td), i, (0, - two0 a b y d, two0 b a y d));
          (xc && (t && ta && negb tb && negb td), i, (0, - two1 a b y d, 0));
          (xc && (negb t && negb ta && negb tb && negb td), i, (0, - two2 a b y d, two2 b a y d));
          (xc, [], t_zero);
          (xd && (t && ta && tb && tc), i, (0, - two0 b a y c, two0 a b y c));
          (xd && (negb t && negb tb && ta && tc), i, (0, - two1 a b c y, 0));
          (xd && (negb t && negb ta && negb tb && negb tc), i, (0, - two2 b a y c, two2 a b y c));
          (xd, [], t_zero)];
         [(ya && (t && tc && tb && td), i, (0, two0 x b c d, - two0 x b d c));
          (ya && (t && tc && negb tb && negb td), i, (0, two1 x b c d, 0));
          (ya && (negb t && negb tc && negb tb && negb td), i, (0, two2 x b c d, - two2 x b d c));
          (ya, [], t_zero);
          (yb && (t && tc && ta && td), i, (0, two0 x a d c, - two0 x a c d));
          (yb && (negb t && negb td && ta && tc), i, (0, two1 a x c d, 0));
          (yb && (negb t && negb tc && negb ta && negb td), i, (0, two2 x a d c, - two2 x a c d));
          (yb, [], t_zero);
          (yc && (t && ta && tb && td), i, (0, two0 a b x d, - two0 b a x d));
          (yc && (t && ta && negb tb && negb td), i, (0, two1 a b x d, 0));
          (yc && (negb t && negb ta && negb tb && negb td), i, (0, two2 a b x d, - two2 b a x d));
          (yc, [], t_zero);
          (yd && (t && ta && tb && tc), i, (0, two0 b a x c, - two0 a b x c));
          (yd && (negb t && negb tb && ta && tc), i, (0, two1 a b c x, 0));
          (yd && (negb t && negb ta && negb tb && negb tc), i, (0, two2 b a x c, - two2 a b x c));
          (yd, [], t_zero)]]
  | _, _ => Err ValueError
  end.

Definition u_rowcol (n : nat) (d : Z) : res (bool * nat * nat) :=
  do p <- u_param_ind_to_rowcol_ind n d;
  let '(s, x, y) := p in Ok (Nat.eqb s 0, Z.to_nat x, Z.to_nat y).
Definition u_deriv_decomposed (h : uham K) : N -> N -> list Z -> res (list triple) :=
  spin_deriv_decomposed (uh_n h) (uh_n h * (uh_n h - 1)) (u_rowcol (uh_n h))
    (fun p => u_deriv_zero h (fst (fst p)) (snd (fst p)) (snd p))
    (fun d1 d2 p => u_deriv_one h d1 d2 (fst (fst p)) (snd (fst p)) (snd p))
    (fun d1 d2 p => u_deriv_two h d1 d2 (fst (fst p)) (snd (fst p)) (snd p)).
Definition u_sd_sd_deriv (h : uham K) (sd1 sd2 : N) (deriv : list Z) : res K :=
  deriv_sum (u_deriv_decomposed h sd1 sd2 deriv).
End Deriv.
