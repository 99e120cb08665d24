(** Example wavefunctions for C74 and the histories of a SeniorityCC wavefunction *)
From Coq Require Import List ZArith NArith Arith Bool.
From Verif Require Import Py Slater Alg WfnCI CC SenCC.
Import ListNotations.
Open Scope Z_scope.
(** integer amplitudes; the reference, ranks and orbital lists are given *)
Definition ex_sen (nelec nspin : Z) (ranks : ranksarg) (indices : option (list (list Z))) (ref : senref) (amps : list Z) : res (sen Z_ring) :=
  new_sen (K := Z_ring) nelec nspin ranks indices ref (CPArray (K := Z_ring) amps) false 0.
Definition ex_sen_value (s : res (sen Z_ring)) (sd : N) : res Z := do s <- s; sen_overlap s sd.
Definition ex_sen_deriv (s : res (sen Z_ring)) (sd : N) (ds : list Z) : res (list Z) := do s <- s; sen_overlap_deriv s sd ds.
(** the same over the rationals *)
Definition ex_senq (nelec nspin : Z) (ranks : ranksarg) (indices : option (list (list Z))) (amps : list Z) : res (sen (fring Qc_field)) :=
  new_sen (K := Qc_field) nelec nspin ranks indices SRNone (CPArray (K := Qc_field) (map (fun z => Qcanon.Q2Qc (QArith_base.inject_Z z)) amps)) false 0.
(** what a wavefunction becomes after overlaps, derivatives and new parameters *)
Inductive later {K : CRing} (s : sen K) : sen K -> Prop :=
| LStart : later s s
| LOverlap : forall s' sd v s'', later s s' -> sen_olp s' sd = Ok (v, s'') -> later s s''
| LDeriv : forall s' sd v s'', later s s' -> sen_olp_deriv s' sd = Ok (v, s'') -> later s s''
| LParams : forall s' P, later s s' -> length P = length (cc_params (sn_cc s)) -> later s (sen_with_params s' P).
