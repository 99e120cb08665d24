(** Signs of excitations within one spin: the other electrons do not matter. *)
From Coq Require Import List ZArith NArith Bool Lia Arith.
From Verif Require Import Py BitSpec BitLemmas Slater SlaterBits SlaterBits2 Fock FockLemmas SignLemmas.
Import ListNotations.

Definition same_ket (u v : ket) (e : bool) : Prop :=
  match u, v with
  | Some (t, _), Some (t', _) => t' = xorb t e
  | None, None => True
  | _, _ => False
  end.

Lemma applys_None : forall ops, applys ops None = None.
Proof. induction ops as [|o ops IH]; auto. Qed.

Lemma applys_low : forall k ops m m' s, (forall o, In o ops -> snd o < k) -> (forall i, i < k -> bit m i = bit m' i) ->
  same_ket (applys ops (Some (s, m))) (applys ops (Some (s, m'))) false.
Proof.
  intros k. induction ops as [|[c i] ops IH]; intros m m' s H A.
  - simpl. now destruct s.
  - cbn [applys fold_left]. change (fold_left (fun k o => apply1 o k) ops) with (applys ops). cbn [apply1 fst snd].
    assert (I : i < k) by (apply (H (c, i)); now left). rewrite <- (A i I).
    destruct (Bool.eqb (bit m i) c); [now rewrite applys_None|].
    assert (P : par m i = par m' i) by (apply par_ext; intros; apply A; lia). rewrite <- P.
    apply IH; [intros; apply H; now right|]. intros j J. rewrite !bit_flip. now rewrite (A j J).
Qed.

Definition shift_op (k : nat) (o : op) : op := (fst o, snd o + k).

Lemma par_shift : forall k m m' i, (forall i, bit m' i = bit m (i + k)) -> par m (i + k) = xorb (par m k) (par m' i).
Proof.
  intros k m m' i H. induction i as [|i IH].
  - rewrite par_0. simpl. now destruct (par m k).
  - simpl. rewrite !par_S, IH, H. now destruct (par m k), (par m' i), (bit m (i + k)).
Qed.

Lemma applys_high : forall k ops m m' s s', (forall i, bit m' i = bit m (i + k)) ->
  same_ket (applys ops (Some (s, m'))) (applys (map (shift_op k) ops) (Some (s', m)))
    (xorb (xorb s s') (Nat.odd (length ops) && par m k)).
Proof.
  intros k. induction ops as [|[c i] ops IH]; intros m m' s s' A.
  - simpl. now destruct s, s'.
  - cbn [applys fold_left map]. change (fold_left (fun k o => apply1 o k)) with applys.
    unfold shift_op at 2. cbn [apply1 fst snd]. rewrite <- A.
    destruct (Bool.eqb (bit m' i) c); [now rewrite !applys_None|].
    specialize (IH (flip m (i + k)) (flip m' i) (xorb s (par m' i)) (xorb s' (par m (i + k)))).
    rewrite par_flip in IH. rewrite (proj2 (Nat.ltb_ge (i + k) k)) in IH by lia.
    rewrite (par_shift k m m' i A) in *. cbn [length]. rewrite Nat.odd_succ, <- Nat.negb_odd.
    match goal with H : _ -> same_ket ?u ?v ?e |- same_ket ?u ?v ?e' => replace e' with e; [apply H|] end.
    + intros j. rewrite !bit_flip, A. f_equal. destruct (Nat.eqb_spec i j), (Nat.eqb_spec (i + k) (j + k)); auto; lia.
    + destruct s, s', (par m k), (par m' i), (Nat.odd (length ops)); reflexivity.
Qed.

Lemma sign_low : forall k m m' anns cres, (forall i, i < k -> bit m i = bit m' i) ->
  (forall i, In i anns -> i < k) -> (forall i, In i cres -> i < k) ->
  sign_excite (Some m) anns cres = sign_excite (Some m') anns cres.
Proof.
  intros k m m' anns cres A H1 H2. rewrite !sign_excite_eq.
  assert (X := applys_low k (map Ann anns ++ map Cre cres) m m' false).
  match type of X with ?P -> _ => assert (HP : P) end.
  { intros o Ho. apply in_app_iff in Ho as [Ho|Ho]; apply in_map_iff in Ho as (i & <- & Hi); cbn; auto. }
  specialize (X HP A). unfold same_ket in X.
  destruct (applys _ (Some (false, m))) as [[t r]|], (applys _ (Some (false, m'))) as [[t' r']|]; try tauto.
  subst. now rewrite xorb_false_r.
Qed.

Lemma sign_high : forall k m m' anns cres, (forall i, bit m' i = bit m (i + k)) -> length anns = length cres ->
  sign_excite (Some m) (map (fun i => i + k) anns) (map (fun i => i + k) cres) = sign_excite (Some m') anns cres.
Proof.
  intros k m m' anns cres A L. rewrite !sign_excite_eq.
  assert (X := applys_high k (map Ann anns ++ map Cre cres) m m' false false A).
  rewrite map_app, !map_map in X. rewrite !map_map.
  change (fun x => shift_op k (Ann x)) with (fun x => Ann (x + k)) in X.
  change (fun x => shift_op k (Cre x)) with (fun x => Cre (x + k)) in X.
  rewrite app_length, !map_length, L in X.
  assert (O : Nat.odd (length cres + length cres) = false).
  { rewrite Nat.odd_add. now destruct (Nat.odd (length cres)). }
  rewrite O in X. cbn [xorb andb] in X. unfold same_ket in X.
  destruct (applys _ (Some (false, m'))) as [[t r]|], (applys _ (Some (false, m))) as [[t' r']|]; try tauto.
  subst. now rewrite xorb_false_r.
Qed.
