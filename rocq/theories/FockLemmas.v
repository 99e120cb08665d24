From Coq Require Import List ZArith NArith Bool Lia Arith.
From Verif Require Import BitSpec BitLemmas Fock.
Import ListNotations.

Lemma bit_flip : forall n i j, bit (flip n i) j = xorb (bit n j) (Nat.eqb i j).
Proof. intros. unfold flip. now rewrite bit_lxor, bit_single. Qed.

Lemma bit_flip_eq : forall n i, bit (flip n i) i = negb (bit n i).
Proof. intros. rewrite bit_flip, Nat.eqb_refl. now destruct (bit n i). Qed.

Lemma bit_flip_neq : forall n i j, i <> j -> bit (flip n i) j = bit n j.
Proof. intros. rewrite bit_flip, (proj2 (Nat.eqb_neq i j)) by auto. apply xorb_false_r. Qed.

Lemma flip_flip : forall n i, flip (flip n i) i = n.
Proof.
  intros. apply bit_ext. intros j. rewrite !bit_flip. destruct (bit n j), (Nat.eqb i j); reflexivity.
Qed.

Lemma flip_comm : forall n i j, flip (flip n i) j = flip (flip n j) i.
Proof.
  intros. apply bit_ext. intros k. rewrite !bit_flip.
  destruct (bit n k), (Nat.eqb i k), (Nat.eqb j k); reflexivity.
Qed.

Lemma par_0 : forall n, par n 0 = false.
Proof. reflexivity. Qed.

Lemma odd_add_b : forall n (b : bool), Nat.odd (n + if b then 1 else 0) = xorb (Nat.odd n) b.
Proof.
  intros n [|]; rewrite Nat.odd_add; reflexivity.
Qed.

Lemma par_S : forall n i, par n (S i) = xorb (par n i) (bit n i).
Proof. intros. unfold par. rewrite nbelow_S. apply odd_add_b. Qed.

Lemma par_flip : forall n j i, par (flip n j) i = xorb (par n i) (Nat.ltb j i).
Proof.
  intros n j. induction i as [|i IH].
  - reflexivity.
  - rewrite !par_S, IH, bit_flip.
    destruct (Nat.ltb_spec j i), (Nat.ltb_spec j (S i)), (Nat.eqb_spec j i); try lia;
    destruct (par n i), (bit n i); reflexivity.
Qed.

Lemma par_ext : forall m n i, (forall j, j < i -> bit m j = bit n j) -> par m i = par n i.
Proof. intros. unfold par. f_equal. now apply nbelow_ext. Qed.

Definition neg_ket (k : ket) : ket :=
  match k with None => None | Some (s, n) => Some (negb s, n) end.
Definition xor_ket (b : bool) (k : ket) : ket :=
  match k with None => None | Some (s, n) => Some (xorb b s, n) end.

Lemma apply1_xor : forall b o k, apply1 o (xor_ket b k) = xor_ket b (apply1 o k).
Proof.
  intros b o [[s n]|]; auto. simpl. destruct (Bool.eqb _ _); auto. simpl. now rewrite xorb_assoc.
Qed.
Lemma applys_xor : forall b os k, applys os (xor_ket b k) = xor_ket b (applys os k).
Proof.
  induction os as [|o os IH]; intros k; auto. cbn [applys fold_left]. rewrite apply1_xor. apply IH.
Qed.
Lemma applys_app : forall l1 l2 k, applys (l1 ++ l2) k = applys l2 (applys l1 k).
Proof. intros. apply fold_left_app. Qed.
Lemma applys_None : forall l, applys l None = None.
Proof. induction l; auto. Qed.
Lemma applys_cons : forall o l k, applys (o :: l) k = applys l (apply1 o k).
Proof. reflexivity. Qed.

Lemma xor_ket_xor : forall a b k, xor_ket a (xor_ket b k) = xor_ket (xorb a b) k.
Proof. intros a b [[s n]|]; auto. simpl. now rewrite xorb_assoc. Qed.
Lemma xor_ket_false : forall k, xor_ket false k = k.
Proof. intros [[s n]|]; auto. simpl. now destruct s. Qed.

Lemma braket_xor : forall m b k, braket m (xor_ket b k) = ((if b then -1 else 1) * braket m k)%Z.
Proof.
  intros m b [[s n]|]; simpl; [|destruct b; reflexivity].
  destruct (N.eqb m n), b, s; reflexivity.
Qed.

(** operators on different orbitals anticommute *)
Lemma apply1_swap : forall d e i j k, i <> j ->
  apply1 (d, i) (apply1 (e, j) k) = xor_ket true (apply1 (e, j) (apply1 (d, i) k)).
Proof.
  intros d e i j [[s n]|] Hij; auto. cbn [apply1 fst snd].
  destruct (Bool.eqb (bit n j) e) eqn:Ej, (Bool.eqb (bit n i) d) eqn:Ei; cbn [apply1 fst snd];
    rewrite ?bit_flip_neq, ?Ei, ?Ej by auto; auto.
  cbn [xor_ket]. rewrite !par_flip, flip_comm. do 2 f_equal.
  destruct (Nat.ltb_spec j i), (Nat.ltb_spec i j); try lia; destruct s, (par n i), (par n j); reflexivity.
Qed.

(** the same operator twice gives zero *)
Lemma apply1_twice : forall d i k, apply1 (d, i) (apply1 (d, i) k) = None.
Proof.
  intros d i [[s n]|]; auto. cbn [apply1 fst snd]. destruct (Bool.eqb (bit n i) d) eqn:E; auto.
  cbn [apply1 fst snd]. rewrite bit_flip_eq. destruct (bit n i), d; auto; discriminate.
Qed.

(** annihilate after create (or conversely) on the same orbital *)
Lemma apply1_undo : forall d i s n,
  apply1 (negb d, i) (apply1 (d, i) (Some (s, n)))
  = if Bool.eqb (bit n i) d then None else Some (s, n).
Proof.
  intros. cbn [apply1 fst snd]. destruct (Bool.eqb (bit n i) d) eqn:E; auto.
  cbn [apply1 fst snd]. rewrite bit_flip_eq, par_flip, Nat.ltb_irrefl, flip_flip.
  assert (X : Bool.eqb (negb (bit n i)) (negb d) = false) by (destruct (bit n i), d; auto; discriminate).
  rewrite X. do 2 f_equal. destruct s, (par n i); reflexivity.
Qed.

(** canonical anticommutation relations, as matrix elements *)
Lemma car_same : forall d i j m n, (melem m [(d, i); (d, j)] n + melem m [(d, j); (d, i)] n = 0)%Z.
Proof.
  intros. unfold melem. cbn [applys fold_left]. destruct (Nat.eq_dec i j) as [->|H].
  - rewrite !apply1_twice. reflexivity.
  - rewrite (apply1_swap d d j i) by auto. rewrite braket_xor. lia.
Qed.
Lemma car_mixed : forall i j m n,
  (melem m [Cre j; Ann i] n + melem m [Ann i; Cre j] n
   = if Nat.eqb i j && N.eqb m n then 1 else 0)%Z.
Proof.
  intros. unfold melem, Cre, Ann. cbn [applys fold_left]. destruct (Nat.eqb_spec i j) as [->|H].
  - change (false, j) with (negb true, j) at 1. rewrite apply1_undo.
    change (true, j) with (negb false, j) at 1. rewrite apply1_undo.
    destruct (bit n j); simpl; destruct (N.eqb m n); reflexivity.
  - rewrite (apply1_swap false true i j) by auto. rewrite braket_xor. cbn [andb]. lia.
Qed.

Lemma applys_swap : forall l1 l2 d e i j k, i <> j ->
  applys (l1 ++ (d, i) :: (e, j) :: l2) k = xor_ket true (applys (l1 ++ (e, j) :: (d, i) :: l2) k).
Proof.
  intros. rewrite !applys_app, !applys_cons. rewrite apply1_swap by auto. apply applys_xor.
Qed.
