(** Specification for C48: the same history without caches *)
From Coq Require Import List ZArith NArith Arith Bool.
From Verif Require Import Py Cache.
Import ListNotations.
Section Plain.
Context {Cfg K1 V1 K2 V2 Arg Out P Q : Type}.
Variable (olp : Cfg -> K1 -> res V1) (dolp : Cfg -> K2 -> res V2) (get : Cfg -> Arg -> prog K1 V1 K2 V2 Out).
Variable (assign : Cfg -> P -> res Cfg) (setter : Cfg -> Q -> res Cfg).
(** the overlap computed from the configuration *)
Fixpoint value (c : Cfg) (p : prog K1 V1 K2 V2 Out) : res Out :=
  match p with
  | Ret r => r
  | CallO k f => do x <- olp c k; value c (f x)
  | CallD k f => do x <- dolp c k; value c (f x)
  end.
(** [agrees c h answers]: every overlap asked for in the history is that of the configuration at that
    time, assignments succeed or fail with it; nothing is said about the other calls *)
Fixpoint agrees (c : Cfg) (h : list (event Arg P Q)) (l : list (answer Out)) : Prop :=
  match h, l with
  | [], [] => True
  | EGet a :: h, x :: l => x = AGet (value c (get c a)) /\ agrees c h l
  | EAssign p :: h, x :: l => match assign c p with Ok c' => x = ADone /\ agrees c' h l | Err e => x = ARaise e /\ agrees c h l end
  | ESet q :: h, x :: l => match setter c q with Ok c' => x = ADone /\ agrees c' h l | Err e => x = ARaise e /\ agrees c h l end
  | EClear _ :: h, _ :: l => agrees c h l
  | EEnable _ :: h, _ :: l => agrees c h l
  | _, _ => False
  end.
(** histories in which no parameters are assigned after caching was enabled a second time, and no
    setter that does not clear the caches is used once caching is enabled; [n] counts the enabling calls *)
Fixpoint careful (n : nat) (h : list (event Arg P Q)) : Prop :=
  match h with
  | [] => True
  | EGet _ :: h => careful n h
  | EAssign _ :: h => n <= 1 /\ careful n h
  | ESet _ :: h => n = 0 /\ careful n h
  | EClear _ :: h => careful n h
  | EEnable _ :: h => careful (S n) h
  end.
End Plain.
