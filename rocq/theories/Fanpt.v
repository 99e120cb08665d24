(** fanpy/fanpt: perturbation theory for the projected equations (containers/base.py, energy_param.py, energy_free.py,
    constant_terms.py, updater.py, utils.py, fanpt.py).  Arrays are functions of indices below their sizes.  Not modelled:
    precomputed operators and overlaps given to the containers, printing; [sop] is pyci.sparse_op of a Hamiltonian
    (the matrix with rows in the "P" and columns in the "S" space), [lstsq] and [inv] are numpy.linalg.lstsq and inv,
    [lt] and [le] the comparisons of numbers. *)
From Coq Require Import List ZArith Arith Bool Lia.
From Verif Require Import Py Slater Alg Fanci.
Import ListNotations.
Local Open Scope nat_scope.

Section Fanpt.
Context {F : CField}.
Local Notation K := (fring F).
Local Open Scope cr_scope.

(** pyci.hamiltonian: core energy, one and two electron integrals of spatial orbitals *)
Record pham := mkpham { h_core : K; h_one : nat -> nat -> K; h_two : nat -> nat -> nat -> nat -> K }.
(** utils.py:7-30 linear_comb_ham *)
Definition linear_comb_ham (h1 h0 : pham) (a1 a0 : K) : pham :=
  mkpham (a1 * h_core h1 + a0 * h_core h0) (fun i j => a1 * h_one h1 i j + a0 * h_one h0 i j)
         (fun i j k l => a1 * h_two h1 i j k l + a0 * h_two h0 i j k l).
(** utils.py:33-53 reduce_to_fock *)
Definition reduce_to_fock (two : nat -> nat -> nat -> nat -> K) (lambda_val : K) : nat -> nat -> nat -> nat -> K :=
  fun i j k l => if (Nat.eqb l j || Nat.eqb k j)%bool then two i j k l else two i j k l * lambda_val.

Variable sop : pham -> nat -> nat -> K.
Variable lstsq : nat -> nat -> (nat -> nat -> K) -> (nat -> K) -> nat -> K.
Variable inv : nat -> (nat -> nat -> K) -> nat -> nat -> K.
Variable lt le : K -> K -> bool.
Variable isz : K -> bool.

Fixpoint fpow (t : K) (n : nat) : K := match n with O => 1 | S n => t * fpow t n end.

(** * the containers *)
Record cont := mkcont { q_o : fobj K; q_chunk : nat; q_x : list K; q_l : K; q_ref : nat; q_inorm : bool; q_free : bool;
  q_ham : nat -> nat -> K; q_fpot : nat -> nat -> K; q_h1 : pham; q_h0 : pham; q_dd : nat -> nat -> nat -> K }.
Definition q_nproj (q : cont) := fo_nproj (q_o q).
Definition q_ns (q : cont) := fo_ns (q_o q).
Definition q_nequation (q : cont) := fo_nequation (q_o q).
Definition q_nactive (q : cont) := fo_nactive (q_o q).
(** active_energy, base.py:161 *)
Definition q_eact (q : cont) := fo_eact (q_o q).
Definition q_energy (q : cont) : K := epar (q_x q).
(** the number of columns for wavefunction parameters *)
Definition q_nw (q : cont) : nat := if q_eact q then (q_nactive q - 1)%nat else q_nactive q.
(** ovlp_s and d_ovlp_s, base.py:193-200 *)
Definition q_c (q : cont) (j : nat) : K := fo_ovlp (q_o q) (wpar (q_x q)) j.
Definition q_d (q : cont) (j p : nat) : K := fo_dovlp (q_o q) (wpar (q_x q)) j (nth p (fo_act (q_o q)) 0%nat).
Definition opdot (m : nat -> nat -> K) (ns n : nat) (v : nat -> K) : K := sumf (fun j => m n j * v j) (seq 0 ns).
(** energy_param.py:196-210, energy_free.py:167-187 der_g_lambda *)
Definition super_dgl (q : cont) (n : nat) : K := if Nat.ltb n (q_nproj q) then opdot (q_fpot q) (q_ns q) n (q_c q) else 0.
Definition q_dgl (q : cont) (n : nat) : K :=
  if (q_free q && Nat.ltb n (q_nproj q))%bool then
    if q_inorm q then super_dgl q n - super_dgl q (q_ref q) * q_c q n
    else super_dgl q n - super_dgl q (q_ref q) * q_c q n * finv (q_c q (q_ref q))
  else super_dgl q n.
(** energy_param.py:212-232, energy_free.py:189-222 der2_g_lambda_wfnparams *)
Definition super_d2 (q : cont) (n p : nat) : K := if Nat.ltb n (q_nproj q) then opdot (q_fpot q) (q_ns q) n (fun j => q_d q j p) else 0.
Definition q_d2lp (q : cont) (n p : nat) : K :=
  if (q_free q && Nat.ltb n (q_nproj q))%bool then
    if q_inorm q then super_d2 q n p - super_d2 q (q_ref q) p * q_c q n - super_dgl q (q_ref q) * q_d q n p
    else super_d2 q n p
         - (super_d2 q (q_ref q) p - super_dgl q (q_ref q) * q_d q (q_ref q) p * finv (q_c q (q_ref q))) * q_c q n * finv (q_c q (q_ref q))
         - super_dgl q (q_ref q) * q_d q n p * finv (q_c q (q_ref q))
  else super_d2 q n p.
(** energy_param.py:326-341, energy_free.py:224-254 gen_coeff_matrix *)
Definition q_cmat (q : cont) (n p : nat) : K :=
  let jac := nth p (nth n (compute_jacobian (q_o q) (q_chunk q) (q_x q)) []) 0 in
  if (q_free q && Nat.ltb n (q_nproj q))%bool then
    let fref := opdot (q_ham q) (q_ns q) (q_ref q) (fun j => q_d q j p) in
    if q_inorm q then jac - fref * q_c q n
    else jac - (fref - q_energy q * q_d q (q_ref q) p) * q_c q n * finv (q_c q (q_ref q))
  else jac.
(** energy_param.py:281-300 der2_g_e_wfnparams *)
Definition q_d2ep (q : cont) (n p : nat) : K := if Nat.ltb n (q_nproj q) then - q_d q n p else 0.
(** the pair written for the place (k, l): the loops run over k <= l and mirror *)
Definition upper (k l : nat) : nat * nat := if Nat.leb k l then (k, l) else (l, k).
(** energy_param.py:343-379 der2_g_wfnparams2, 234-278 der3_g_lambda_wfnparams2, 302-323 der3_g_e_wfnparams2 *)
Definition q_d2pp (q : cont) (n k l : nat) : K :=
  let kl := upper k l in
  if Nat.ltb n (q_nproj q) then opdot (q_ham q) (q_ns q) n (fun j => q_dd q j (fst kl) (snd kl)) - q_energy q * q_dd q n (fst kl) (snd kl) else 0.
Definition q_d3lpp (q : cont) (n k l : nat) : K :=
  let kl := upper k l in if Nat.ltb n (q_nproj q) then opdot (q_fpot q) (q_ns q) n (fun j => q_dd q j (fst kl) (snd kl)) else 0.
Definition q_d3epp (q : cont) (n k l : nat) : K := if Nat.ltb n (q_nproj q) then - q_dd q n k l else 0.

Definition has_con (o : fobj K) (n : cname) : bool := existsb (fun p => cname_eqb (fst p) n) (fo_cons o).
(** base.py:105-226, energy_param.py:128-195, energy_free.py:105-165: the constructors.  E-free containers do not pass
    the order of the quasi approximation on.  The overlaps have second derivatives with respect to all parameters; for
    frozen parameters the arrays do not fit in der3_g_e_wfnparams2 (unless there is only one parameter); without an
    active energy der2_g_wfnparams2 uses unbound names (Exc 2).  E-free: f_proj[ref_sd], energy_free.py:248, 251. *)
Definition new_cont (free : bool) (o : fobj K) (chunk : nat) (x : list K) (h0 h1 : pham) (l : K) (ref : nat) (inorm : bool) (qao3 : bool) : res cont :=
  if (free && fo_eact o)%bool then Err TypeError
  else
    let three := (qao3 && negb free)%bool in
    do dd <- (if three then match fo_ddovlp o with None => Err NotImplementedError | Some f => Ok (f (wpar x)) end else Ok (fun _ _ _ => 0));
    if (inorm && negb (has_con o (NDet ref)))%bool then Err KeyError
    else if (free && Nat.leb (fo_nproj o) ref)%bool then Err IndexError
    else if (three && negb (fo_eact o))%bool then Err (Exc 2)
    else if (three && negb (Nat.eqb (fo_nactive o - 1) (fo_nparam o - 1) || Nat.eqb (fo_nparam o - 1) 1))%bool then Err ValueError
    else Ok (mkcont o chunk x l ref inorm free (sop (linear_comb_ham h1 h0 l (1 - l))) (sop (linear_comb_ham h1 h0 1 (- (1)))) h1 h0 dd).

(** * constant_terms.py *)
Definition comb (n o : nat) : K := nat_r (fact n) * finv (nat_r (fact o * fact (n - o))).
Definition zvec : nat -> K := fun _ => 0.
(** response of order [o] among the previous ones *)
Definition rsp (prev : list (nat -> K)) (o : nat) : nat -> K := nth (o - 1) prev zvec.
Definition quad (q : cont) (t : nat -> nat -> K) (u v : nat -> K) : K :=
  sumf (fun k => sumf (fun l => t k l * u k * v l) (seq 0 (q_nw q))) (seq 0 (q_nw q)).
(** constant_terms.py:172-249 gen_constant_terms; the energy is the last of the active parameters *)
Definition gen_const (q : cont) (three : bool) (order : nat) (prev : list (nat -> K)) (n : nat) : K :=
  if Nat.eqb order 1 then - q_dgl q n
  else if q_eact q then
    let ie := (q_nactive q - 1)%nat in
    let r := fun p => fold_left (fun s o => s + comb order o * rsp prev o ie * rsp prev (order - o) p) (seq 1 (order - 1)) 0 in
    let base := - nat_r order * sumf (fun p => q_d2lp q n p * rsp prev (order - 1) p) (seq 0 (q_nw q)) - sumf (fun p => q_d2ep q n p * r p) (seq 0 (q_nw q)) in
    if three then
      if Nat.eqb order 2 then base - quad q (q_d2pp q n) (rsp prev 1) (rsp prev 1)
      else if Nat.eqb order 3 then
        base - nat_r 3 * quad q (q_d2pp q n) (rsp prev 2) (rsp prev 1)
             - nat_r 3 * rsp prev 1 ie * quad q (q_d3epp q n) (rsp prev 2) (rsp prev 1)
             - nat_r 3 * quad q (q_d3lpp q n) (rsp prev 1) (rsp prev 1)
      else base
    else base
  else - nat_r order * sumf (fun p => q_d2lp q n p * rsp prev (order - 1) p) (seq 0 (q_nw q)).
(** constant_terms.py:60-170: the checks of the constructor; the order of the quasi approximation is None, 2, 3 or another *)
Definition check_qao (qao : option Z) : res bool :=
  match qao with None => Ok false | Some v => if (v =? 2)%Z then Ok false else if (v =? 3)%Z then Ok true else Err ValueError end.
Definition const_terms (q : cont) (order : Z) (prev : option (list (nat -> K))) (qao : option Z) : res (nat -> K) :=
  if (order <? 0)%Z then Err ValueError
  else
    do three <- check_qao qao;
    if (order =? 1)%Z then Ok (gen_const q three 1 [])
    else match prev with
         | None => Err TypeError
         | Some l => if negb (Z.of_nat (length l) =? order - 1)%Z then Err ValueError else Ok (gen_const q three (Z.to_nat order) l)
         end.

(** * updater.py *)
(** updater.py:265-285 get_responses *)
Fixpoint responses (q : cont) (three : bool) (final_order : nat) : list (nat -> K) :=
  match final_order with
  | O => []
  | S m => let prev := responses q three m in prev ++ [lstsq (q_nequation q) (q_nactive q) (q_cmat q) (gen_const q three (S m) prev)]
  end.
(** updater.py:307, 365: (final_l - l0) ** order / factorial(order) *)
Definition dlam (q : cont) (fl : K) (o : nat) : K := fpow (fl - q_l q) o * finv (nat_r (fact o)).
(** updater.py:287-316 params_updater, the corrections of a series *)
Definition series_corr (q : cont) (fl : K) (rs : list (nat -> K)) (p : nat) : K :=
  sumf (fun o => rsp rs o p * dlam q fl o) (seq 1 (length rs)).
(** updater.py:160-213: the resummed correction *)
Definition mulmat (n : nat) (a b : nat -> nat -> K) (i j : nat) : K := sumf (fun k => a i k * b k j) (seq 0 n).
Definition mulvec (n : nat) (a : nat -> nat -> K) (v : nat -> K) (i : nat) : K := sumf (fun k => a i k * v k) (seq 0 n).
Definition resum_A (q : cont) : nat -> nat -> K := mulmat (q_nequation q) (inv (q_nequation q) (q_cmat q)) (q_d2lp q).
Definition resum_b (q : cont) : nat -> K := mulvec (q_nequation q) (inv (q_nequation q) (q_cmat q)) (q_dgl q).
Definition idmat (i j : nat) : K := if Nat.eqb i j then 1 else 0.
Definition resum_corr (q : cont) (fl : K) (p : nat) : K :=
  - (fl * mulvec (q_nequation q) (inv (q_nequation q) (fun i j => fl * resum_A q i j + idmat i j)) (resum_b q) p).
(** updater.py:313-316: for c, active_index in zip(corrections, active_wfn_indices): wfn_params[active_index] += c *)
Definition add_corr (ps : list K) (act : list nat) (corr : nat -> K) : list K :=
  fold_left (fun v pi => upd v (snd pi) (nth (snd pi) v 0 + corr (fst pi))) (combine (seq 0 (length act)) act) ps.
Record updated := mkupdated { u_params : list K; u_energy : K; u_ham : pham; u_resp : list (nat -> K); u_fanpt_e : option K }.
(** updater.py:318-348 energy_ham_ovlp_updater *)
Definition new_ham_of (q : cont) (fl : K) : pham := linear_comb_ham (q_h1 q) (q_h0 q) fl (1 - fl).
Definition new_energy_of (q : cont) (fl : K) (ps : list K) : K :=
  let f := opdot (sop (new_ham_of q fl)) (q_ns q) (q_ref q) (fo_ovlp (q_o q) ps) in
  if q_inorm q then f else f * finv (fo_ovlp (q_o q) ps (q_ref q)).
(** updater.py:82-116: the constructor; [given]: whether a solver is given (then it is not assigned, 259-263); assign_resum 136-158,
    assign_final_l 236-257, assign_final_order 215-234; fanpt_e_response 350-367 *)
Definition new_updater (q : cont) (final_order : Z) (fl : K) (given : bool) (resum : bool) (three : bool) : res updated :=
  if negb (lt (q_l q) fl && le fl 1)%bool then Err ValueError
  else
    let rs := (negb (q_eact q) && resum && Nat.eqb (q_nequation q) (q_nactive q))%bool in
    if rs then
      let ps := add_corr (wpar (q_x q)) (fo_act (q_o q)) (resum_corr q fl) in
      Ok (mkupdated ps (new_energy_of q fl ps) (new_ham_of q fl) [] None)
    else if (final_order <? 0)%Z then Err ValueError
    else if (given && negb (final_order =? 0)%Z)%bool then Err AttributeError
    else
      let r := responses q three (Z.to_nat final_order) in
      let ps := add_corr (wpar (q_x q)) (fo_act (q_o q)) (series_corr q fl r) in
      Ok (mkupdated ps (new_energy_of q fl ps) (new_ham_of q fl) r
            (if q_eact q then Some (q_energy q + sumf (fun o => rsp r o (q_nactive q - 1)%nat * dlam q fl o) (seq 1 (length r))) else None)).

(** * fanpt.py *)
Record fanpt := mkfanpt { p_eact : bool; p_resum : bool; p_inorm : bool; p_ref : nat; p_order : Z; p_li : K; p_lf : K; p_steps : nat;
  p_three : bool; p_h0 : pham; p_h1 : pham; p_mask : list bool }.
(** pyci.hamiltonian(ham.ecore, ham.one_mo, reduce_to_fock(ham.two_mo)), fanpt.py:184-188 *)
Definition ideal_ham (h : pham) : pham := mkpham (h_core h) (h_one h) (reduce_to_fock (h_two h) 0).
(** fanpt.py:84-226: the constructor; [o]: the objective made by the interface, of the Hamiltonian [h] *)
Definition new_fanpt (o : fobj K) (h : pham) (eact resum : bool) (ref : nat) (order : Z) (li lf : K) (steps : nat) (qao : option Z) : res fanpt :=
  let inorm := has_con o (NDet ref) in
  let o := if eact then unfreeze_energy o else freeze_energy o in
  do st <- (if resum then
              if eact then Err ValueError
              else if (negb inorm && Nat.eqb (fo_nequation o) (fo_nactive o))%bool then Ok (1%nat, inorm)
              else if (inorm && Nat.eqb (fo_nequation o - 1) (fo_nactive o))%bool then do _ <- remove_constraint o (NDet ref); Ok (1%nat, false)
              else Err ValueError
            else Ok (steps, inorm));
  let '(steps, inorm) := st in
  match qao with
  | None => Err ValueError
  | Some v =>
    if negb ((v =? 2) || (v =? 3))%Z then Err ValueError
    else if ((v =? 3)%Z && negb eact)%bool then Err ValueError
    else Ok (mkfanpt eact resum inorm ref order li lf steps (v =? 3)%Z (ideal_ham h) h (fo_mask o))
  end.
(** fanpt.py:264-267: x or self.x *)
Definition or_k (a : option K) (b : K) : K := match a with None => b | Some v => if isz v then b else v end.
Definition or_z (a : option Z) (b : Z) : Z := match a with None => b | Some v => if (v =? 0)%Z then b else v end.
Definition or_n (a : option nat) (b : nat) : nat := match a with None => b | Some v => if Nat.eqb v 0 then b else v end.
(** fanpt.py:286: np.linspace(lambda_i, lambda_f, steps, endpoint=False); 300: final_l *)
Definition lstep (li lf : K) (steps : nat) : K := (lf - li) * finv (nat_r steps).
Definition lambdas (li lf : K) (steps : nat) : list K := map (fun i => li + nat_r i * lstep li lf steps) (seq 0 steps).
(** the interface: [mk h mask] is the objective rebuilt for a Hamiltonian (interface/pyci.py:287-351 update_objective),
    [opt o x] the vector x of the result of its optimize *)
Variable mk : pham -> list bool -> fobj K.
Variable opt : fobj K -> list K -> list K.
Variable chunk : nat.
(** fanpt.py:269-283 and 319-335: solving the projected equations of a Hamiltonian *)
Definition resolve (p : fanpt) (h : pham) (mask : list bool) (x : list K) : fobj K * list K :=
  let o := mk h mask in
  let o' := if p_eact p then o else unfreeze_energy o in
  let x' := put_mask (fo_mask o') x (opt o' x) in
  (if p_eact p then o' else freeze_energy o', x').
(** fanpt.py:286-335: a pass of the loop *)
Definition fanpt_step (p : fanpt) (order : Z) (st : fobj K * list K) (l fl : K) : res (fobj K * list K) :=
  let '(o, x) := st in
  do q <- new_cont (negb (p_eact p)) o chunk x (p_h0 p) (p_h1 p) l (p_ref p) (p_inorm p) (p_three p);
  do u <- new_updater q order fl false (p_resum p) (p_three p);
  Ok (resolve p (u_ham u) (fo_mask o) (u_params u ++ [u_energy u])).
Fixpoint foldM {A B} (f : A -> B -> res A) (l : list B) (a : A) : res A :=
  match l with [] => Ok a | b :: t => do a' <- f a b; foldM f t a' end.
(** fanpt.py:227-340 optimize: the final objective and parameters; the energy of the results is the last one.  Without
    steps no name fanpt_params is bound (Exc 3). *)
Definition fanpt_optimize (p : fanpt) (guess : list K) (energy : K) (order : option Z) (li lf : option K) (steps : option nat) : res (fobj K * list K * K) :=
  let order := or_z order (p_order p) in
  let li := or_k li (p_li p) in
  let lf := or_k lf (p_lf p) in
  let steps := or_n steps (p_steps p) in
  let st := resolve p (p_h0 p) (p_mask p) (guess ++ [energy]) in
  do r <- foldM (fun st l => fanpt_step p order st l (l + lstep li lf steps)) (lambdas li lf steps) st;
  if Nat.eqb steps 0 then Err (Exc 3) else Ok (fst r, snd r, epar (snd r)).
End Fanpt.
Arguments pham : clear implicits. Arguments cont : clear implicits. Arguments fanpt : clear implicits. Arguments updated : clear implicits.
