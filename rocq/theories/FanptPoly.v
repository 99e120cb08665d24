(** Polynomials as lists of coefficients. *)
From Coq Require Import List ZArith Arith Bool Lia Ring.
From Verif Require Import Py Slater Alg Fanci Fanpt FanptSpec.
Import ListNotations.
Local Open Scope nat_scope.

Section Poly.
Context {F : CField}.
Local Notation K := (fring F).
Local Open Scope cr_scope.
Add Ring K_ring125 : (rth K).
Definition cf (p : list K) (i : nat) : K := nth i p 0.
Fixpoint padd (p q : list K) : list K := match p, q with [], _ => q | _, [] => p | a :: p', b :: q' => (a + b) :: padd p' q' end.
Definition pscale (c : K) (p : list K) : list K := map (fun a => c * a) p.
Fixpoint pmul (p q : list K) : list K := match p with [] => [] | a :: p' => padd (pscale a q) (0 :: pmul p' q) end.
Definition psums {A} (f : A -> list K) (l : list A) : list K := fold_right (fun x s => padd (f x) s) [] l.
Lemma peval_padd : forall (p q : list K) (t : K), peval (padd p q) t = peval p t + peval q t.
Proof. unfold peval. induction p as [|a p IH]; intros [|b q] t; cbn [padd fold_right]; try ring. rewrite IH. ring. Qed.
Lemma peval_pscale : forall (c : K) (p : list K) (t : K), peval (pscale c p) t = c * peval p t.
Proof. unfold peval, pscale. induction p as [|a p IH]; intros t; cbn [map fold_right]; [ring|]. rewrite IH. ring. Qed.
Lemma peval_cons : forall (a : K) (p : list K) (t : K), peval (a :: p) t = a + t * peval p t. Proof. reflexivity. Qed.
Lemma peval_pmul : forall (p q : list K) (t : K), peval (pmul p q) t = peval p t * peval q t.
Proof. induction p as [|a p IH]; intros q t; cbn [pmul]; [unfold peval; cbn [fold_right]; ring|]. rewrite peval_padd, peval_pscale, !peval_cons, IH. ring. Qed.
Lemma peval_psums : forall {A} (f : A -> list K) l t, peval (psums f l) t = sumf (fun x => peval (f x) t) l.
Proof. induction l as [|x l IH]; intros t; [reflexivity|]. unfold psums in *. cbn [fold_right]. rewrite peval_padd, IH. reflexivity. Qed.
Lemma cf_nil : forall i, cf [] i = 0. Proof. intros [|i]; reflexivity. Qed.
Lemma cf_padd : forall p q i, cf (padd p q) i = cf p i + cf q i.
Proof.
  induction p as [|a p IH]; intros q i; cbn [padd]; [rewrite cf_nil; ring|]. destruct q as [|b q]; [rewrite cf_nil; ring|].
  destruct i as [|i]; [reflexivity|]. exact (IH q i).
Qed.
Lemma cf_pscale : forall c p i, cf (pscale c p) i = c * cf p i.
Proof. unfold cf, pscale. induction p as [|a p IH]; intros [|i]; cbn [map nth]; try ring. apply IH. Qed.
Lemma cf_psums : forall {A} (f : A -> list K) l i, cf (psums f l) i = sumf (fun x => cf (f x) i) l.
Proof. induction l as [|x l IH]; intros i; [apply cf_nil|]. unfold psums in *. cbn [fold_right]. rewrite cf_padd, IH. reflexivity. Qed.
Lemma seq_S : forall n, seq 0 (S n) = 0%nat :: map S (seq 0 n).
Proof. intros n. cbn [seq]. now rewrite seq_shift. Qed.
Lemma cf_pmul : forall p q n, cf (pmul p q) n = sumf (fun i => cf p i * cf q (n - i)) (seq 0 (S n)).
Proof.
  induction p as [|a p IH]; intros q n; cbn [pmul].
  - rewrite cf_nil. symmetry. apply sumf_zero. intros. rewrite cf_nil. ring.
  - rewrite cf_padd, cf_pscale, seq_S, sumf_cons, sumf_map, Nat.sub_0_r. change (cf (a :: p) 0) with a. f_equal.
    destruct n as [|n]; [reflexivity|]. change (cf (0 :: pmul p q) (S n)) with (cf (pmul p q) n). rewrite IH. apply sumf_ext. intros i _. reflexivity.
Qed.
(** a polynomial without the terms below [m] *)
Lemma vanish_low : forall m (p : list K), (forall i, (i < m)%nat -> cf p i = 0) -> forall t : K, peval p t = fpow t m * peval (skipn m p) t.
Proof.
  induction m as [|m IH]; intros p Z t; [cbn [fpow skipn]; ring|]. destruct p as [|a p]; [cbn [skipn]; unfold peval; cbn [fold_right]; ring|].
  rewrite peval_cons. cbn [skipn fpow]. rewrite (IH p) by (intros i Hi; apply (Z (S i)); lia).
  assert (A := Z 0%nat (Nat.lt_0_succ m)). change (a = 0) in A. rewrite A. ring.
Qed.
Lemma lead_low : forall m (p : list K), (forall i, (i < m)%nat -> cf p i = 0) -> forall t : K, peval p t = fpow t m * (cf p m + t * peval (skipn (S m) p) t).
Proof.
  intros m p Z t. rewrite (vanish_low m p Z). f_equal. unfold cf. clear Z. revert p. induction m as [|m IH]; intros [|a p]; cbn [skipn nth]; try reflexivity; try (unfold peval; cbn [fold_right]; ring).
  rewrite (IH p). reflexivity.
Qed.
(** sum of the terms of a list of coefficients *)
Lemma peval_sum : forall (p : list K) (t : K), peval p t = sumf (fun i => cf p i * fpow t i) (seq 0 (length p)).
Proof.
  induction p as [|a p IH]; intros t; [reflexivity|]. rewrite peval_cons. cbn [length]. rewrite seq_S, sumf_cons, sumf_map, IH. cbn [fpow]. change (cf (a :: p) 0) with a.
  rewrite <- sumf_mul_l. replace (a * 1) with a by ring. f_equal. apply sumf_ext. intros i _. change (cf (a :: p) (S i)) with (cf p i). ring.
Qed.
Lemma cf_map_seq : forall (f : nat -> K) s n i, cf (map f (seq s n)) i = if Nat.ltb i n then f (s + i)%nat else 0.
Proof.
  intros f s n. revert s. induction n as [|n IH]; intros s i; cbn [seq map]; [now rewrite cf_nil|]. destruct i as [|i].
  - cbn. now rewrite Nat.add_0_r.
  - change (cf (f s :: map f (seq (S s) n)) (S i)) with (cf (map f (seq (S s) n)) i). rewrite IH. change (Nat.ltb (S i) (S n)) with (Nat.ltb i n). now rewrite Nat.add_succ_r.
Qed.
Lemma fact_nz : char0 (F := F) -> forall n, nat_r (K := K) (fact n) <> 0.
Proof. intros C n. pose proof (lt_O_fact n). destruct (fact n) as [|k]; [lia|]. apply C. Qed.
End Poly.
