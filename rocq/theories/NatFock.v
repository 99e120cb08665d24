(** Quadratic forms of the one-electron density matrix as sums of squares. *)
From Coq Require Import List ZArith NArith Arith Bool Lia.
From Verif Require Import Py Slater BitSpec Fock FockLemmas SignLemmas FockInner Alg DensSpec.
Import ListNotations.
Section S.
Context {K : CRing}.
Local Open Scope cr_scope.
Add Ring K_ring144 : (rth K).
Definition supp (u : ket) : list N := match u with Some (_, m) => [m] | None => [] end.
Lemma resolve : forall (M : list N) u v, NoDup M -> incl (supp u) M ->
  sgnr (inner u v) = sumf (fun m => sgnr (inner (Some (false, m)) u) * sgnr (inner (Some (false, m)) v)) M :> K.
Proof.
  intros M [[s n]|] v ND I.
  - rewrite (sumf_single _ M n); [|exact ND|apply I; now left|].
    + destruct v as [[t n']|]; cbn [inner]; [|rewrite sgnr_0; ring]. rewrite N.eqb_refl. destruct (N.eqb n n'); [|rewrite sgnr_0; ring]. destruct s, t; cbn; ring.
    + intros m _ D. cbn [inner]. apply N.eqb_neq in D. rewrite D, sgnr_0. ring.
  - symmetry. apply sumf_zero. intros m _. cbn [inner]. rewrite sgnr_0. ring.
Qed.
Lemma gram : forall {X} (L : list X) (g : X -> K) (u : X -> ket) M, NoDup M -> (forall x, In x L -> incl (supp (u x)) M) ->
  sumf (fun x => sumf (fun y => g x * g y * sgnr (inner (u x) (u y))) L) L
  = sumf (fun m => sumf (fun x => g x * sgnr (inner (Some (false, m)) (u x))) L * sumf (fun x => g x * sgnr (inner (Some (false, m)) (u x))) L) M.
Proof.
  intros X L g u M ND I.
  transitivity (sumf (fun x => sumf (fun y => sumf (fun m => g x * sgnr (inner (Some (false, m)) (u x)) * (g y * sgnr (inner (Some (false, m)) (u y)))) M) L) L).
  - apply sumf_ext. intros x Hx. apply sumf_ext. intros y _. rewrite (resolve M (u x) (u y)) by auto. rewrite <- sumf_mul_l. apply sumf_ext. intros; ring.
  - rewrite (sumf_ext _ (fun x => sumf (fun m => sumf (fun y => g x * sgnr (inner (Some (false, m)) (u x)) * (g y * sgnr (inner (Some (false, m)) (u y)))) L) M)) by (intros; apply sumf_swap).
    rewrite sumf_swap. apply sumf_ext. intros m _. rewrite <- sumf_mul_r. apply sumf_ext. intros x _. apply sumf_mul_l.
Qed.
Variables (psi : list (K * N)) (f : nat -> K) (n : nat).
Definition targets (d : bool) : list N := nodup N.eq_dec (flat_map (fun x => supp (apply1 (d, snd x) (Some (false, snd (fst x))))) (list_prod psi (seq 0 n))).
(** the coefficient of [m] in a_f|psi> or a+_f|psi> *)
Definition amp (d : bool) (m : N) : K := sumf (fun x => fst (fst x) * f (snd x) * sgnr (inner (Some (false, m)) (apply1 (d, snd x) (Some (false, snd (fst x)))))) (list_prod psi (seq 0 n)).
Lemma square : forall d, sumf (fun p => sumf (fun q => f p * f q *
    sumf (fun a => sumf (fun b => fst a * fst b * sgnr (inner (apply1 (d, p) (Some (false, snd a))) (apply1 (d, q) (Some (false, snd b))))) psi) psi) (seq 0 n)) (seq 0 n)
  = sumf (fun m => amp d m * amp d m) (targets d).
Proof.
  intros d. unfold amp. rewrite <- (gram (list_prod psi (seq 0 n)) (fun x => fst (fst x) * f (snd x)) (fun x => apply1 (d, snd x) (Some (false, snd (fst x))))).
  - assert (PS : forall (F : (K * N) * nat -> K), sumf F (list_prod psi (seq 0 n)) = sumf (fun p => sumf (fun a => F (a, p)) psi) (seq 0 n)).
    { intros F. rewrite sumf_prod. apply sumf_swap. }
    rewrite PS. apply sumf_ext. intros p _. cbn [fst snd].
    rewrite (sumf_ext (fun a => sumf _ (list_prod psi (seq 0 n))) (fun a => sumf (fun q => sumf (fun b => fst a * f p * (fst b * f q) * sgnr (inner (apply1 (d, p) (Some (false, snd a))) (apply1 (d, q) (Some (false, snd b))))) psi) (seq 0 n))) by (intros a _; apply PS).
    rewrite sumf_swap. apply sumf_ext. intros q _. rewrite <- sumf_mul_l. apply sumf_ext. intros a _. rewrite <- sumf_mul_l. apply sumf_ext. intros b _. ring.
  - apply NoDup_nodup.
  - intros x Hx m Hm. apply nodup_In. apply in_flat_map. eauto.
Qed.
Lemma quad_ann : sumf (fun p => sumf (fun q => f p * f q * rdm1 psi p q) (seq 0 n)) (seq 0 n) = sumf (fun m => amp false m * amp false m) (targets false).
Proof.
  rewrite <- square. apply sumf_ext. intros p _. apply sumf_ext. intros q _. unfold rdm1, expect. f_equal.
  apply sumf_ext. intros a _. apply sumf_ext. intros b _. rewrite melem1_inner. reflexivity.
Qed.
Lemma sgnr_split : forall x y (b : bool), (x + y = if b then 1 else 0)%Z -> (x = 0 \/ x = 1 \/ x = -1)%Z -> (y = 0 \/ y = 1 \/ y = -1)%Z -> sgnr x + sgnr y = (if b then 1 else 0) :> K.
Proof. intros x y [] H [->|[->| ->]] [->|[->| ->]]; try discriminate H; cbn; ring. Qed.
Lemma melem_cre : forall m p q o, melem m [Cre q; Ann p] o = inner (apply1 (true, p) (Some (false, m))) (apply1 (true, q) (Some (false, o))).
Proof. intros. rewrite melem_inner. cbn [applys fold_left]. exact (inner_adj_r false p _ _). Qed.
Lemma quad_both : NoDup (map snd psi) ->
  sumf (fun p => sumf (fun q => f p * f q * rdm1 psi p q) (seq 0 n)) (seq 0 n) + sumf (fun m => amp true m * amp true m) (targets true)
  = sumf (fun p => f p * f p) (seq 0 n) * sumf (fun a => fst a * fst a) psi.
Proof.
  intros ND. rewrite <- square. rewrite (sumf_swap (fun p q => f p * f q * rdm1 psi p q)). rewrite <- sumf_add.
  rewrite <- sumf_mul_r. apply sumf_ext. intros p Hp. rewrite <- sumf_add.
  rewrite (sumf_ext _ (fun q => f p * f q * (if Nat.eqb p q then sumf (fun a => fst a * fst a) psi else 0))).
  - rewrite (sumf_single _ (seq 0 n) p); [rewrite Nat.eqb_refl; ring|apply seq_NoDup|exact Hp|]. intros q _ D. rewrite (proj2 (Nat.eqb_neq p q)) by congruence. ring.
  - intros q _. replace (f q * f p * rdm1 psi q p) with (f p * f q * rdm1 psi q p) by ring.
    match goal with |- ?a * ?b + ?a * ?c = _ => transitivity (a * (b + c)); [ring|f_equal] end.
    unfold rdm1, expect. rewrite <- sumf_add.
    rewrite (sumf_ext _ (fun a => sumf (fun b => fst a * fst b * (if Nat.eqb p q && N.eqb (snd a) (snd b) then 1 else 0)) psi)).
    + destruct (Nat.eqb p q); cbn [andb].
      * apply sumf_ext. intros a Ha. rewrite (sumf_single _ psi a); [rewrite N.eqb_refl; ring|now apply NoDup_map_inv in ND|exact Ha|].
        intros b Hb D. destruct (N.eqb_spec (snd a) (snd b)) as [E|]; [|ring]. exfalso. apply D. clear - ND Ha Hb E. induction psi as [|x t IH]; [destruct Ha|]. cbn in ND. inversion ND as [|? ? N1 N2]; subst.
        destruct Ha as [->|Ha], Hb as [->|Hb]; auto; exfalso; apply N1; [rewrite E|rewrite <- E]; now apply in_map.
      * apply sumf_zero. intros a _. apply sumf_zero. intros b _. ring.
    + intros a _. rewrite <- sumf_add. apply sumf_ext. intros b _.
      rewrite <- (sgnr_split (melem (snd a) [Cre q; Ann p] (snd b)) (melem (snd a) [Ann p; Cre q] (snd b)) (Nat.eqb p q && N.eqb (snd a) (snd b))).
      * rewrite melem_cre. ring.
      * apply car_mixed.
      * rewrite melem_inner. apply inner_values.
      * rewrite melem_inner. apply inner_values.
Qed.
End S.
