(** Model of fanpy/wfn/network/rbm.py (RestrictedBoltzmannMachine), function by function.
    [ex] stands for np.exp.  Arrays of weights are kept flat, row by row; arrays that are computed on the way are functions of
    their indices, together with the length of the last axis where it is not the number of hidden units. *)
From Coq Require Import List ZArith NArith Arith Bool.
From Verif Require Import Py Slater Alg WfnCI.
Import ListNotations.

Section Rbm.
Context {K : CField}.
Local Open Scope cr_scope.
Variable ex : K -> K.

(** rbm.py:54-64 the attributes.  [rb_scale] is None as long as output_scale has not been set, [rb_template] as long as
    _template_params is None; [rb_pspace] is pspace_norm (wfn/base.py:87).  [rb_params] are the arrays of _params, flat. *)
Record rbm := mkrbm { rb_nelec : Z; rb_nspin : Z; rb_nbath : nat; rb_orders : list nat; rb_layers : nat;
  rb_scale : option K; rb_template : option (list (list K)); rb_params : list (list K); rb_pspace : list N }.
Definition rb_n (w : rbm) : nat := Z.to_nat (rb_nspin w).

(** rbm.py:67-69 params *)
Definition rb_flat (w : rbm) : list K := concat (rb_params w).
(** rbm.py:75-88 nparams *)
Definition rb_nparams (w : rbm) : Z :=
  (fold_right Z.add 0 (map (fun o => Z.of_nat (rb_nbath w) * rb_nspin w ^ Z.of_nat o) (rb_orders w))
   + (Z.of_nat (rb_layers w) - 1) * (Z.of_nat (rb_nbath w) ^ 2))%Z.
(** rbm.py:94-113 params_shape, here the number of entries (np.prod) of each *)
Definition rb_sizes (w : rbm) : list nat :=
  map (fun o => (rb_nbath w * rb_n w ^ o)%nat) (rb_orders w) ++ repeat (rb_nbath w * rb_nbath w)%nat (rb_layers w - 1).

(** rbm.py:136-178 assign_template_params: zeros, and output_scale *)
Definition rb_assign_template (w : rbm) : rbm :=
  mkrbm (rb_nelec w) (rb_nspin w) (rb_nbath w) (rb_orders w) (rb_layers w) (Some (finv (1 + 1)))
    (Some (map (repeat 0) (rb_sizes w))) (rb_params w) (rb_pspace w).
Inductive rbparams := RNone | RArray (l : list K) | RList (l : list (list K)).
(** rbm.py:209-213 the loop that cuts a flat array into the shapes; reshape of a piece that is too short raises *)
Fixpoint rb_cut (sizes : list nat) (l : list K) : res (list (list K)) :=
  match sizes with
  | [] => Ok []
  | n :: t => if Nat.ltb (length l) n then Err ValueError else do r <- rb_cut t (skipn n l); Ok (firstn n l :: r)
  end.
Definition rb_store (w : rbm) (ps : list (list K)) : rbm :=
  mkrbm (rb_nelec w) (rb_nspin w) (rb_nbath w) (rb_orders w) (rb_layers w) (rb_scale w) (rb_template w) ps (rb_pspace w).
(** rbm.py:180-219 assign_params.  Lists of arrays are stored without any check; the model has them flat, of the shapes of
    params_shape. *)
Definition rb_assign_params (w : rbm) (ps : rbparams) : res rbm :=
  match ps with
  | RNone =>
      let w := match rb_template w with None => rb_assign_template w | Some _ => w end in
      Ok (rb_store w (match rb_template w with Some t => t | None => [] end))
  | RArray l => do r <- rb_cut (rb_sizes w) l; Ok (rb_store w r)
  | RList l => Ok (rb_store w l)
  end.
(** rbm.py:54-64 __init__ with wfn/base.py:163-206 *)
Definition new_rbm (nelec nspin : Z) (nbath : nat) (layers : nat) (orders : list nat) (ps : rbparams) : res rbm :=
  do ne <- assign_nelec CIGeneral nelec;
  do ns <- assign_nspin nspin;
  rb_assign_params (mkrbm ne ns nbath orders layers None None [] []) ps.

(** rbm.py:222-232 activation, activation_deriv *)
Definition activation (x : K) : K := 1 + ex x.
Definition activation_deriv (x : K) : K := ex x.

(** rbm.py:302-304 occ_mask.  An empty array of indices has a float dtype, which is not an index. *)
Definition rb_mask (n : nat) (occ : list nat) : res (list bool) :=
  if Nat.eqb (length occ) 0 || existsb (fun i => Nat.leb n i) occ then Err IndexError
  else Ok (fold_left (fun m i => upd m i true) occ (repeat false n)).
(** rbm.py:319-321 occ_mask & expand_dims(mask, -1), flat *)
Definition rb_outer (occ mask : list bool) : list bool := flat_map (fun m => map (fun o => andb o m) occ) mask.
Definition rb_power (occ : list bool) (order : nat) : list bool := Nat.iter (order - 1) (rb_outer occ) occ.
(** rbm.py:318, 322 input_layer, flat *)
Definition rb_input (mask : list bool) : nat -> K := fun t => if nth t mask false then 1 else 0.
(** rbm.py:337 one unit of the sum over all axes but the first *)
Definition rb_contract (lay : list K) (width : nat) (x : nat -> K) (j : nat) : K :=
  sumf (fun t => nth (j * width + t) lay 0 * x t) (seq 0 width).

(** what the code keeps in forward_cache_act and forward_cache_lin for each layer: the input with its length, the linear
    combination, and beside it the weights *)
Definition entry : Type := (nat * (nat -> K)) * (nat -> K) * list K.
(** rbm.py:346-352 the further layers *)
Definition rb_deep_step (B : nat) (st : list entry * (nat -> K)) (lay : list K) : list entry * (nat -> K) :=
  let '(es, out) := st in
  let lin := rb_contract lay B out in
  (es ++ [((B, out), lin, lay)], fun j => activation (lin j)).
(** rbm.py:284-353 _olp_helper with cache=True: the cached layers and the output *)
Definition rb_helper (w : rbm) (sd : N) : res (list entry * (nat -> K)) :=
  do occ <- rb_mask (rb_n w) (occ_indices (Some sd));
  if Nat.eqb (length (rb_sizes w)) 0 then Err IndexError
  else if existsb (Nat.eqb 0) (rb_orders w) then Err IndexError
  else
    let zipped := combine (rb_orders w) (rb_params w) in
    let inputs := map (fun ol : nat * list K => (rb_n w ^ fst ol, rb_input (rb_power occ (fst ol)))%nat) zipped in
    let lin := fun j => psum (fun xl : (nat * (nat -> K)) * (nat * list K) => rb_contract (snd (snd xl)) (fst (fst xl)) (snd (fst xl)) j) (combine inputs zipped) in
    let first := map (fun xl : (nat * (nat -> K)) * (nat * list K) => (fst xl, lin, snd (snd xl))) (combine inputs zipped) in
    Ok (fold_left (rb_deep_step (rb_nbath w)) (skipn (length (rb_orders w)) (rb_params w)) (first, fun j => activation (lin j))).

(** rbm.py:269-282 _olp, 263-264 get_overlap without derivative *)
Definition rb_overlap (w : rbm) (sd : N) : res K :=
  do r <- rb_helper w sd;
  match rb_scale w with
  | None => Err AttributeError
  | Some s => Ok (pprod (fun j => snd r j * s) (seq 0 (rb_nbath w)))
  end.

(** rbm.py:389-408 one turn of the loop from the last layer to the first; [dy] is dy_da_prev *)
Definition grad3 : Type := nat * (nat -> nat -> nat -> K).
Definition rb_back_step (B norders : nat) (s : K) (st : (nat -> nat -> K) * list grad3) (ie : nat * entry) : (nat -> nat -> K) * list grad3 :=
  let '(dy, grads) := st in
  let '(i, (a, lin, lay)) := ie in
  let dy_dz := fun y z => dy y z * activation_deriv (lin z) in
  let g := (fst a, fun y z t => dy_dz y z * snd a t * s) in
  (if Nat.leb norders i then fun y k => sumf (fun z => dy_dz y z * nth (z * B + k) lay 0) (seq 0 B) else dy, grads ++ [g]).
(** rbm.py:413-415 np.roll(indices, -i - 1)[:-1] and the product of the other values *)
Definition rb_others (B i : nat) : list nat := removelast (skipn (i + 1) (seq 0 B) ++ firstn (i + 1) (seq 0 B)).
Definition rb_other_vals (B : nat) (s : K) (vals : nat -> K) (i : nat) : K := pprod (fun k => vals k * s) (rb_others B i).
(** rbm.py:417-421 the sums over the outputs; in the last layer other_vals[:, None] is aligned with the second axis *)
Definition rb_collect (B : nat) (g : grad3) (c : nat -> nat -> K) : list K :=
  flat_map (fun z => map (fun t => sumf (fun y => c y z * snd g y z t) (seq 0 B)) (seq 0 (fst g))) (seq 0 B).
Definition rb_join (B : nat) (other : nat -> K) (grads : list grad3) : list K :=
  flat_map (fun g => rb_collect B g (fun y _ => other y)) (removelast grads) ++
  match rev grads with g :: _ => rb_collect B g (fun _ z => other z) | [] => [] end.
(** rbm.py:355-421 _olp_deriv *)
Definition rb_dolp (w : rbm) (sd : N) : res (list K) :=
  let B := rb_nbath w in
  do r <- rb_helper w sd;
  match rb_scale w with
  | None => Err AttributeError
  | Some s =>
      if Nat.eqb B 0 then Err IndexError
      else
        let grads := rev (snd (fold_left (rb_back_step B (length (rb_orders w)) s) (rev (enumerate (fst r))) (fun y k => if Nat.eqb y k then 1 else 0, []))) in
        Ok (rb_join B (rb_other_vals B s (snd r)) grads)
  end.
(** numpy indexing of a row *)
Definition rb_select (deriv : list Z) (l : list K) : res (list K) := mapM (fun d => do i <- np_index (length l) d; Ok (nth i l 0)) deriv.
(** rbm.py:234-265 get_overlap with derivatives *)
Definition rb_overlap_deriv (w : rbm) (sd : N) (deriv : list Z) : res (list K) := do l <- rb_dolp w sd; rb_select deriv l.

(** ** get_overlaps: the same for all determinants at once; the last index of the arrays is that of the determinant *)
Definition entries : Type := (nat * (nat -> nat -> K)) * (nat -> nat -> K) * list K.
(** rbm.py:458 np.array of the lists of occupied orbitals: lists of different lengths raise *)
Definition rb_rows (sds : list N) : res (list (list nat)) :=
  let rows := map (fun sd => occ_indices (Some sd)) sds in
  if forallb (fun r : list nat => Nat.eqb (length r) (length (hd [] rows))) rows then Ok rows else Err ValueError.
(** rbm.py:478-481 expand_dims(mask, -1) & occ_mask for one determinant *)
Definition rb_outer2 (occ mask : list bool) : list bool := flat_map (fun m => map (fun o => andb m o) occ) mask.
(** rbm.py:473-495 the loop over the orders.  [extra] is the number of axes that have been added to occ_mask, which is not
    reset; a mask with more axes than the array raises. *)
Fixpoint rb_first_loop (n : nat) (occ : list (list bool)) (extra : nat) (zipped : list (nat * list K)) : res (list ((nat * (nat -> nat -> K)) * list K)) :=
  match zipped with
  | [] => Ok []
  | (order, lay) :: t =>
      if Nat.ltb (order + 1) (2 + extra + (order - 1)) then Err IndexError
      else
        let masks := map (fun o => Nat.iter (order - 1) (rb_outer2 o) o) occ in
        do r <- rb_first_loop n occ (extra + (order - 1)) t;
        Ok (((n ^ order)%nat, fun p s => rb_input (nth s masks []) p, lay) :: r)
  end.
(** rbm.py:501-505 *)
Definition rb_deep_step2 (B : nat) (st : list entries * (nat -> nat -> K)) (lay : list K) : list entries * (nat -> nat -> K) :=
  let '(es, out) := st in
  let lin := fun j s => sumf (fun k => nth (j * B + k) lay 0 * out k s) (seq 0 B) in
  (es ++ [((B, out), lin, lay)], fun j s => activation (lin j s)).
(** rbm.py:456-505 *)
Definition rb_helper2 (w : rbm) (sds : list N) : res (list entries * (nat -> nat -> K)) :=
  do rows <- rb_rows sds;
  do occ <- mapM (rb_mask (rb_n w)) rows;
  do first <- rb_first_loop (rb_n w) occ 0 (combine (rb_orders w) (rb_params w));
  let lin := fun j s => psum (fun xl : (nat * (nat -> nat -> K)) * list K => sumf (fun p => nth (j * fst (fst xl) + p) (snd xl) 0 * snd (fst xl) p s) (seq 0 (fst (fst xl)))) first in
  Ok (fold_left (rb_deep_step2 (rb_nbath w)) (skipn (length (rb_orders w)) (rb_params w))
        (map (fun xl : (nat * (nat -> nat -> K)) * list K => (fst xl, lin, snd xl)) first, fun j s => activation (lin j s))).
(** rbm.py:454-455, 507-508 get_overlaps without derivatives *)
Definition rb_overlaps (w : rbm) (sds : list N) : res (list K) :=
  if Nat.eqb (length sds) 0 then Ok []
  else
    do r <- rb_helper2 w sds;
    match rb_scale w with
    | None => Err AttributeError
    | Some sc => Ok (map (fun s => pprod (fun j => snd r j s * sc) (seq 0 (rb_nbath w))) (seq 0 (length sds)))
    end.
(** rbm.py:514-534 *)
Definition grad4 : Type := nat * (nat -> nat -> nat -> nat -> K).
Definition rb_back_step2 (B norders : nat) (sc : K) (st : (nat -> nat -> nat -> K) * list grad4) (ie : nat * entries) : (nat -> nat -> nat -> K) * list grad4 :=
  let '(dy, grads) := st in
  let '(i, (a, lin, lay)) := ie in
  let dy_dz := fun y z s => dy y z s * activation_deriv (lin z s) in
  let g := (fst a, fun y z t s => dy_dz y z s * snd a t s * sc) in
  (if Nat.leb norders i then fun y k s => sumf (fun z => dy_dz y z s * nth (z * B + k) lay 0) (seq 0 B) else dy, grads ++ [g]).
(** rbm.py:542-548: here all layers are aligned with the first axis *)
Definition rb_collect2 (B : nat) (other : nat -> nat -> K) (g : grad4) (s : nat) : list K :=
  flat_map (fun z => map (fun t => sumf (fun y => other y s * snd g y z t s) (seq 0 B)) (seq 0 (fst g))) (seq 0 B).
(** rbm.py:423-548 get_overlaps with derivatives *)
Definition rb_overlaps_deriv (w : rbm) (sds : list N) (deriv : list Z) : res (list (list K)) :=
  let B := rb_nbath w in
  if Nat.eqb (length sds) 0 then Ok []
  else
    do r <- rb_helper2 w sds;
    match rb_scale w with
    | None => Err AttributeError
    | Some sc =>
        if Nat.eqb B 0 then Err IndexError
        else
          let grads := rev (snd (fold_left (rb_back_step2 B (length (rb_orders w)) sc) (rev (enumerate (fst r))) (fun y k _ => if Nat.eqb y k then 1 else 0, []))) in
          let other := fun i s => rb_other_vals B sc (fun k => snd r k s) i in
          mapM (fun s => rb_select deriv (flat_map (fun g => rb_collect2 B other g s) grads)) (seq 0 (length sds))
    end.

(** ** rbm.py:550-590 normalize.  [root norm B] stands for norm ** (-0.5 / B). *)
Variable root : K -> nat -> K.
Definition rb_norm (w : rbm) (pspace : list N) : res K := do l <- mapM (rb_overlap w) pspace; Ok (psum (fun x => x * x) l).
Definition rb_normalize (w : rbm) (pspace : option (list N)) : res rbm :=
  let ps := match pspace with Some l => l | None => rb_pspace w end in
  do norm <- rb_norm w ps;
  match rb_scale w with
  | None => Err AttributeError
  | Some s =>
      if Nat.eqb (length (rb_sizes w)) 0 then Err IndexError
      else if Nat.eqb (length ps) 0 || Nat.eqb (rb_nbath w) 0 then Err ZeroDivisionError
      else Ok (mkrbm (rb_nelec w) (rb_nspin w) (rb_nbath w) (rb_orders w) (rb_layers w) (Some (s * root norm (rb_nbath w))) (rb_template w) (rb_params w) (rb_pspace w))
  end.
End Rbm.
Arguments rbm K : clear implicits.
Arguments rbparams K : clear implicits.
Arguments entry K : clear implicits.
Arguments entries K : clear implicits.
Arguments grad3 K : clear implicits.
Arguments grad4 K : clear implicits.
