(** Powers of a sum of operator products; products that never refill an emptied orbital *)
From Coq Require Import List ZArith NArith Arith Bool Lia Permutation Sorted.
From Verif Require Import Py BitSpec BitLemmas Slater SignSpec SignLemmas Fock FockLemmas FockInner Alg CreLemmas GeneralLemmas BicliqueLemmas CCSpec.
Import ListNotations.

Lemma iter_r : forall {A} (f : A -> A) n x, Nat.iter (S n) f x = Nat.iter n f (f x).
Proof. induction n as [|n IH]; intros x; [reflexivity|]. change (f (Nat.iter (S n) f x) = f (Nat.iter n f (f x))). now rewrite IH. Qed.

Section Words.
Context {F : CField}.
Local Open Scope cr_scope.
Add Ring K_ring54 : (rth F).
Lemma melem_step : forall sd l1 l2 n, (sgnr (melem sd (l1 ++ l2) n) : F) =
  match applys l1 (Some (false, n)) with Some (b, m) => sgnr (sgn b) * sgnr (melem sd l2 m) | None => 0 end.
Proof.
  intros sd l1 l2 n. unfold melem. rewrite applys_app. destruct (applys l1 (Some (false, n))) as [[b m]|].
  - replace (Some (b, m)) with (xor_ket b (Some (false, m))) by (cbn; now rewrite xorb_false_r). rewrite applys_xor, braket_xor.
    unfold braket. destruct (applys l2 (Some (false, m))) as [[b' m']|].
    + destruct (N.eqb sd m'); [|rewrite Z.mul_0_r; change (sgnr 0) with (0 : F); ring]. destruct b, b'; cbn; ring.
    + rewrite Z.mul_0_r. change (sgnr 0) with (0 : F). ring.
  - rewrite applys_None. reflexivity.
Qed.
Lemma coeff_powers : forall (T : list (F * list op)) sd k v, coeff sd (Nat.iter k (apply_sum T) v) =
  sumf (fun p => fst p * sumf (fun w => prodf fst w * sgnr (melem sd (flat_map snd w) (snd p))) (words T k)) v.
Proof.
  intros T sd. induction k as [|k IH]; intros v.
  - cbn [Nat.iter nat_rect words flat_map]. unfold coeff. apply sumf_ext. intros [x n] _. cbn [fst snd].
    rewrite sumf_cons. unfold melem, applys, braket. cbn [sumf fold_right fold_left prodf flat_map]. rewrite (N.eqb_sym n sd). destruct (N.eqb sd n).
    + change (sgnr 1) with (1 : F). ring.
    + change (sgnr 0) with (0 : F). ring.
  - rewrite iter_r, IH. unfold apply_sum at 1. rewrite sumf_flat_map.
    rewrite (sumf_ext (fun x : F * list op => sumf _ (map _ (apply_ops (snd x) v)))
      (fun t => sumf (fun p => fst p * (fst t * sumf (fun w => prodf fst w * sgnr (melem sd (snd t ++ flat_map snd w) (snd p))) (words T k))) v)).
    + rewrite sumf_swap. apply sumf_ext. intros p _. rewrite sumf_mul_l. f_equal. cbn [words]. rewrite sumf_flat_map. apply sumf_ext. intros t _.
      rewrite sumf_map, <- sumf_mul_l. apply sumf_ext. intros w _. rewrite prodf_cons. cbn [flat_map]. ring.
    + intros t _. unfold apply_ops. rewrite sumf_map, sumf_flat_map. apply sumf_ext. intros p _. cbn [fst snd].
      rewrite (sumf_ext (fun w : list (F * list op) => prodf fst w * sgnr (melem sd (snd t ++ flat_map snd w) (snd p))) 
        (fun w => match applys (snd t) (Some (false, snd p)) with Some (b, m) => sgnr (sgn b) * (prodf fst w * sgnr (melem sd (flat_map snd w) m)) | None => 0 end)).
      * destruct (applys (snd t) (Some (false, snd p))) as [[b m]|].
        -- rewrite sumf_mul_l. cbn [sumf fold_right fst snd]. unfold sumf. ring.
        -- rewrite (sumf_zero (fun _ => 0)) by auto. cbn [sumf fold_right]. ring.
      * intros w _. rewrite melem_step. destruct (applys (snd t) (Some (false, snd p))) as [[b m]|]; ring.
Qed.
End Words.

(** products in which no orbital is both emptied and filled *)
Definition one_way (l : list op) : Prop := forall i, In (Ann i) l -> ~ In (Cre i) l.
Lemma one_way_cons : forall o l, one_way (o :: l) -> one_way l.
Proof. intros o l H i H1 H2. apply (H i); now right. Qed.
Lemma one_way_state : forall l s n s' m, one_way l -> applys l (Some (s, n)) = Some (s', m) ->
  NoDup (map snd l) /\ (forall o, In o l -> bit n (snd o) = negb (fst o)) /\
  (forall j, bit m j = xorb (bit n j) (existsb (Nat.eqb j) (map snd l))).
Proof.
  induction l as [|[d i] l IH]; intros s n s' m W E.
  - cbn in E. injection E as <- <-. repeat split; [constructor|intros o []|]. intros j. now rewrite xorb_false_r.
  - rewrite applys_cons in E. cbn [apply1 fst snd] in E. destruct (Bool.eqb (bit n i) d) eqn:B; [rewrite applys_None in E; discriminate|].
    destruct (IH _ _ _ _ (one_way_cons _ _ W) E) as (N & H & M).
    assert (Bn : bit n i = negb d) by (destruct (bit n i), d; auto; discriminate).
    assert (Fr : ~ In i (map snd l)).
    { intros X. apply in_map_iff in X as ([d' i'] & Ei & X). cbn [snd] in Ei. subst i'. pose proof (H _ X) as Y. cbn [fst snd] in Y.
      rewrite bit_flip_eq, Bn, negb_involutive in Y. subst d. destruct d'; cbn [negb] in *.
      - apply (W i); [now left|now right].
      - apply (W i); [now right|now left]. }
    cbn [map snd]. split; [now constructor|]. split.
    + intros o [<-|Ho]; [exact Bn|]. rewrite <- (H o Ho). symmetry. apply bit_flip_neq. intros ->. apply Fr. now apply in_map.
    + intros j. rewrite M, bit_flip. cbn [existsb]. rewrite (Nat.eqb_sym i j). destruct (Nat.eqb_spec j i) as [->|Hj].
      * assert (X : existsb (Nat.eqb i) (map snd l) = false); [|rewrite X; cbn; now rewrite xorb_false_r].
        apply not_true_iff_false. intros X. apply existsb_exists in X as (y & Hy & X). apply Nat.eqb_eq in X. now subst y.
      * cbn [orb]. now rewrite xorb_false_r.
Qed.
