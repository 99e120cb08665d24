(** Model of fanpy/tools/sd_list.py.

    The argument [spin] (an int or a float) is modelled by twice its value, [spin2 : option Z];
    spins that are not half-integers are not modelled (they are never equal to a determinant's
    spin).  The isinstance checks are not modelled (arguments have the right type). *)
From Coq Require Import List ZArith NArith Bool.
From Verif Require Import Py Slater.
Import ListNotations.

(** sd_list.py:18-54  satisfies_conditions.  [spin in [None, 1, ...]]: spin 1 is [spin2 = 2]. *)
Definition satisfies_conditions (sd : N) (nspatial : Z) (spin2 seniority : option Z)
  (hierarchy : bool) : res bool :=
  do s <- get_spin2 sd nspatial;
  if hierarchy then
    if match spin2 with None => true | Some x => (x =? 2)%Z || (x =? s)%Z end then
      do v <- get_seniority sd nspatial;
      Ok (match seniority with None => false | Some y => (y =? Z.of_nat v)%Z end)
    else Ok false
  else
    if match spin2 with None => true | Some x => (x =? s)%Z end then
      match seniority with
      | None => Ok true
      | Some y => do v <- get_seniority sd nspatial; Ok (Z.of_nat v <=? y)%Z
      end
    else Ok false.

(** sd_list.py:142-143  sort keys of the orbital lists *)
Definition spatial_key (nspatial : Z) (x : nat) : Z :=
  if (nspatial <=? Z.of_nat x)%Z then (Z.of_nat x - nspatial)%Z else Z.of_nat x.

(** state of the nested loops: [Done] after the early return, [More sds count] otherwise *)
Inductive loop_state := Done (sds : list N) | More (sds : list N) (count : Z).

(** sd_list.py:152-159  inner loop over (occ, vir) pairs *)
Fixpoint sd_inner (ground : N) (nspatial : Z) (num_limit spin2 seniority : option Z)
  (hierarchy : bool) (prs : list (list nat * list nat)) (sds : list N) (count : Z)
  : res loop_state :=
  match prs with
  | [] => Ok (More sds count)
  | (occ, vir) :: t =>
      do sd <- excite (Some ground) (occ ++ vir);
      match sd with
      | None => Err TypeError (* get_spin of None *)
      | Some m =>
          do c <- satisfies_conditions m nspatial spin2 seniority hierarchy;
          if negb c then sd_inner ground nspatial num_limit spin2 seniority hierarchy t sds count
          else
            let sds' := sds ++ [m] in
            let count' := (count + 1)%Z in
            if match num_limit with None => false | Some k => (count' =? k)%Z end
            then Ok (Done sds')
            else sd_inner ground nspatial num_limit spin2 seniority hierarchy t sds' count'
      end
  end.

(** sd_list.py:149-160  loop over excitation orders; itertools.combinations rejects negative
    orders *)
Fixpoint sd_outer (ground : N) (nspatial : Z) (num_limit spin2 seniority : option Z)
  (hierarchy : bool) (occs virs : list nat) (orders : list Z) (sds : list N) (count : Z)
  : res (list N) :=
  match orders with
  | [] => Ok sds
  | nexc :: t =>
      if (nexc <? 0)%Z then Err ValueError
      else
        let k := Z.to_nat nexc in
        do r <- sd_inner ground nspatial num_limit spin2 seniority hierarchy
                  (list_prod (combinations occs k) (combinations virs k)) sds count;
        match r with
        | Done l => Ok l
        | More l c =>
            sd_outer ground nspatial num_limit spin2 seniority hierarchy occs virs t l c
        end
  end.

(** sd_list.py:57-160  sd_list *)
Definition sd_list (nelec nspin : Z) (num_limit : option Z) (exc_orders : option (list Z))
  (spin2 seniority : option Z) (hierarchy : bool) : res (list N) :=
  let orders := match exc_orders with
                | None => map (fun i => Z.of_nat (i + 1)) (range nelec)
                | Some l => l
                end in
  if match num_limit with Some k => (k <=? 0)%Z | None => false end then Err ValueError
  else if match spin2, seniority with
          | Some s, Some v => (v <? Z.abs s)%Z
          | _, _ => false
          end then Err ValueError
  else
    let nspatial := (nspin / 2)%Z in
    do g <- ground nelec nspin;
    do c <- satisfies_conditions g nspatial spin2 seniority hierarchy;
    let sds := if c then [g] else [] in
    let occs := sorted_key_rev (spatial_key nspatial) (occ_indices (Some g)) in
    let virs := sorted_key (spatial_key nspatial) (vir_indices (Some g) nspin) in
    if match num_limit with Some k => (k =? 1)%Z | None => false end then Ok sds
    else sd_outer g nspatial num_limit spin2 seniority hierarchy occs virs orders sds 1.
