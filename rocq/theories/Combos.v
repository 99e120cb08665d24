(** itertools.combinations: soundness, completeness, uniqueness. *)
From Coq Require Import List ZArith NArith Bool Lia Arith Sorted Permutation.
From Verif Require Import Py BitSpec BitLemmas.
Import ListNotations.

(** order-preserving sub-list *)
Inductive subseq {A} : list A -> list A -> Prop :=
| subseq_nil : forall l, subseq [] l
| subseq_take : forall x a l, subseq a l -> subseq (x :: a) (x :: l)
| subseq_skip : forall x a l, subseq a l -> subseq a (x :: l).

Lemma combinations_0 : forall {A} (l : list A), combinations l 0 = [[]].
Proof. destruct l; reflexivity. Qed.

Lemma combinations_In : forall {A} (l : list A) k c,
  In c (combinations l k) <-> subseq c l /\ length c = k.
Proof.
  induction l as [|x l IH]; intros k c.
  - destruct k; simpl.
    + split.
      * intros [<-|[]]. split; [constructor|reflexivity].
      * intros [_ H]. destruct c; [auto|discriminate].
    + split; [intros []|]. intros [H L]. inversion H; subst. discriminate.
  - destruct k as [|k].
    + simpl. split.
      * intros [<-|[]]. split; [constructor|reflexivity].
      * intros [_ H]. destruct c; [auto|discriminate].
    + cbn [combinations]. rewrite in_app_iff, in_map_iff, IH. split.
      * intros [(c' & <- & H)|[H1 H2]].
        -- apply IH in H as [H1 H2]. split; [now constructor|]. simpl. lia.
        -- split; auto. now constructor.
      * intros [H L]. inversion H; subst; simpl in L.
        -- discriminate.
        -- left. exists a. split; auto. apply IH. split; auto; lia.
        -- right. auto.
Qed.

Lemma subseq_incl : forall {A} (a l : list A), subseq a l -> incl a l.
Proof.
  induction 1 as [|x a l H IH|x a l H IH]; intros y Hy.
  - destruct Hy.
  - destruct Hy as [->|Hy]; [now left|right; auto].
  - right; auto.
Qed.

Lemma subseq_NoDup : forall {A} (a l : list A), subseq a l -> NoDup l -> NoDup a.
Proof.
  induction 1 as [|x a l H IH|x a l H IH]; intros N.
  - constructor.
  - inversion N; subst. constructor; auto. intros Hx. apply subseq_incl in H. auto.
  - inversion N; subst. auto.
Qed.

Lemma subseq_increasing : forall a l, subseq a l -> increasing l -> increasing a.
Proof.
  induction 1 as [|x a l H IH|x a l H IH]; intros N.
  - constructor.
  - apply SS_cons_inv in N as [N1 N2]. constructor; auto. rewrite Forall_forall in *.
    intros y Hy. apply N2. eapply subseq_incl; eauto.
  - apply SS_cons_inv in N as [N1 N2]. auto.
Qed.

Lemma increasing_subseq : forall l a, increasing l -> increasing a -> incl a l -> subseq a l.
Proof.
  induction l as [|x l IH]; intros a Hl Ha Hi.
  - destruct a as [|y a]; [constructor|]. exfalso. apply (Hi y). now left.
  - apply SS_cons_inv in Hl as [Hl1 Hl2]. rewrite Forall_forall in Hl2.
    destruct a as [|y a]; [constructor|].
    apply SS_cons_inv in Ha as [Ha1 Ha2]. rewrite Forall_forall in Ha2.
    destruct (Hi y (or_introl eq_refl)) as [->|Hy].
    + constructor. apply IH; auto. intros z Hz. destruct (Hi z (or_intror Hz)) as [->|]; auto.
      specialize (Ha2 _ Hz). lia.
    + apply subseq_skip. apply IH; auto.
      * constructor; auto. now apply Forall_forall.
      * intros z [->|Hz]; auto. destruct (Hi z (or_intror Hz)) as [->|]; auto.
        specialize (Ha2 _ Hz). specialize (Hl2 _ Hy). lia.
Qed.

Lemma combinations_increasing_In : forall l k c, increasing l ->
  (In c (combinations l k) <-> increasing c /\ incl c l /\ length c = k).
Proof.
  intros l k c H. rewrite combinations_In. split.
  - intros [S L]. repeat split; auto; [eapply subseq_increasing|apply subseq_incl]; eauto.
  - intros (I1 & I2 & L). split; auto. now apply increasing_subseq.
Qed.

Lemma NoDup_map_inj : forall {A B} (f : A -> B) l,
  (forall x y, In x l -> In y l -> f x = f y -> x = y) -> NoDup l -> NoDup (map f l).
Proof.
  intros A B f. induction l as [|x l IH]; intros Hf N; simpl; [constructor|].
  inversion N; subst. constructor.
  - intros H. apply in_map_iff in H as (y & E & Hy). apply Hf in E; [|now right|now left]. now subst.
  - apply IH; auto. intros; apply Hf; auto; now right.
Qed.

Lemma NoDup_app_intro' : forall {A} (a b : list A), NoDup a -> NoDup b ->
  (forall x, In x a -> In x b -> False) -> NoDup (a ++ b).
Proof.
  induction a as [|x a IH]; intros b Ha Hb D; simpl; auto.
  inversion Ha; subst. constructor.
  - rewrite in_app_iff. intros [?|?]; [contradiction|]. now apply (D x); [left|].
  - apply IH; auto. intros y Hy. apply D. now right.
Qed.

Lemma combinations_NoDup : forall {A} (l : list A) k, NoDup l -> NoDup (combinations l k).
Proof.
  induction l as [|x l IH]; intros [|k] N; simpl; try (repeat constructor; auto; fail).
  inversion N; subst. apply NoDup_app_intro'.
  - apply NoDup_map_inj; auto. intros; congruence.
  - now apply IH.
  - intros c Hc1 Hc2. apply in_map_iff in Hc1 as (c' & <- & _).
    apply combinations_In in Hc2 as [Hc2 _]. apply subseq_incl in Hc2.
    apply H1, Hc2. now left.
Qed.

Lemma combinations_map : forall {A B} (f : A -> B) l k,
  combinations (map f l) k = map (map f) (combinations l k).
Proof.
  intros A B f. induction l as [|x l IH]; intros [|k]; auto.
  cbn [map combinations]. rewrite map_app, !map_map. f_equal; [|apply IH].
  rewrite IH. rewrite !map_map. reflexivity.
Qed.

(** number of combinations (Pascal) *)
Fixpoint binom (n k : nat) : nat :=
  match n, k with
  | _, O => 1
  | O, S _ => 0
  | S n', S k' => binom n' k' + binom n' k
  end.
Lemma combinations_length : forall {A} (l : list A) k, length (combinations l k) = binom (length l) k.
Proof.
  induction l as [|x l IH]; intros [|k]; auto.
  cbn [combinations length binom]. rewrite app_length, map_length, !IH. reflexivity.
Qed.

Lemma combinations_1 : forall {A} (l : list A), combinations l 1 = map (fun x => [x]) l.
Proof.
  induction l as [|x l IH]; auto. cbn [combinations map]. rewrite combinations_0. simpl. now rewrite IH.
Qed.
Lemma combinations_2_cons : forall {A} x (l : list A),
  combinations (x :: l) 2 = map (fun y => [x; y]) l ++ combinations l 2.
Proof.
  intros. cbn [combinations]. rewrite combinations_1, map_map. reflexivity.
Qed.
