(** Concrete networks for the examples of C69, with rational weights and x -> 1 + x + x * x in place of the exponential function *)
From Coq Require Import List ZArith NArith QArith Qcanon.
From Verif Require Import Py Slater Alg Rbm RbmSpec Rank2Ex.
Import ListNotations.
Definition rex (x : Qc_field) : Qc_field := radd rI (radd x (rmul x x)).
(** the first [k] weights 1/2, -1, 3/2, ... *)
Definition rb_weights (k : nat) : list Qc_field := map (fun i => Q2Qc ((if Nat.even i then Z.of_nat (S i) else - Z.of_nat (S i)) # 4)) (seq 0 k).
(** a network with default parameters, then the given number of weights *)
Definition rb_ex (ne ns : Z) (B layers : nat) (orders : list nat) (k : nat) : res (rbm Qc_field) := do w <- new_rbm (K := Qc_field) ne ns B layers orders RNone; rb_assign_params w (RArray (rb_weights k)).
Definition rb_val (ne ns : Z) (B layers : nat) (orders : list nat) (k : nat) (sd : N) : res (Z * positive) := do w <- rb_ex ne ns B layers orders k; show_res (rb_overlap rex w sd).
Definition rb_grad (ne ns : Z) (B layers : nat) (orders : list nat) (k : nat) (sd : N) (ds : list Z) : res (list (Z * positive)) := do w <- rb_ex ne ns B layers orders k; show_list (rb_overlap_deriv rex w sd ds).
Definition rb_vals (ne ns : Z) (B layers : nat) (orders : list nat) (k : nat) (sds : list N) : res (list (Z * positive)) := do w <- rb_ex ne ns B layers orders k; show_list (rb_overlaps rex w sds).
Definition rb_grads (ne ns : Z) (B layers : nat) (orders : list nat) (k : nat) (sds : list N) (ds : list Z) : res (list (list (Z * positive))) := do w <- rb_ex ne ns B layers orders k; do r <- rb_overlaps_deriv rex w sds ds; Ok (map (map shown) r).
Definition rb_given (l : list Qc_field) (sd : N) : res (Z * positive) := do w <- new_rbm (K := Qc_field) 2 4 2 1 [1%nat] (RArray l); show_res (rb_overlap rex w sd).
Definition rb_default (ne ns : Z) (B layers : nat) (orders : list nat) (sd : N) : res (Z * positive) := do w <- new_rbm (K := Qc_field) ne ns B layers orders RNone; show_res (rb_overlap (fun _ => rI) w sd).
