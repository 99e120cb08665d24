(** Invariants of cached wavefunctions *)
From Coq Require Import List ZArith NArith Arith Bool Lia.
From Verif Require Import Py Cache CacheSpec.
Import ListNotations.

Section Layers.
Context {Key V : Type} (eqb : Key -> Key -> bool) (EQ : forall a b, eqb a b = true <-> a = b).
Definition right (f : Key -> res V) (ls : list (layer Key V)) : Prop :=
  forall L, In L ls -> forall k v, In (k, v) (l_entries L) -> f k = Ok v.
Definition small (L : layer Key V) : Prop := match l_max L with None => True | Some n => (N.of_nat (length (l_entries L)) <= n)%N end.
Lemma find_In : forall k l (v : V), find eqb k l = Some v -> In (k, v) l.
Proof.
  induction l as [|[k' v'] l IH]; intros v H; [discriminate|]. cbn [find] in H. destruct (eqb k k') eqn:E.
  - apply EQ in E. injection H as <-. subst. now left.
  - right. auto.
Qed.
Lemma removelast_incl : forall {A} (l : list A) x, In x (removelast l) -> In x l.
Proof.
  induction l as [|a l IH]; intros x H; [destruct H|]. cbn [removelast] in H. destruct l; [destruct H|]. destruct H as [->|H]; [now left|]. right. auto.
Qed.
Lemma removelast_length : forall {A} (l : list A), length (removelast l) = pred (length l).
Proof. induction l as [|a l IH]; [reflexivity|]. cbn [removelast]. destruct l; [reflexivity|]. cbn [length] in *. now rewrite IH. Qed.
Lemma call_right : forall (f : Key -> res V) ls k, right f ls ->
  fst (call eqb f ls k) = f k /\ right f (snd (call eqb f ls k)) /\ length (snd (call eqb f ls k)) = length ls.
Proof.
  induction ls as [|L ls IH]; intros k R; [cbn; auto|].
  assert (R' : right f ls) by (intros L' H'; apply R; now right). destruct (IH k R') as (I1 & I2 & I3).
  cbn [call]. destruct (disabled L) eqn:E0.
  - destruct (call eqb f ls k) as [v rest] eqn:Ec. cbn [fst snd] in *. split; [auto|]. split; [|cbn [length]; now rewrite I3].
    intros L' [<-|H']; [apply R; now left|now apply I2].
  - destruct (find eqb k (l_entries L)) as [v|] eqn:Ef.
    + apply find_In in Ef. assert (Ev : f k = Ok v) by (apply (R L); [now left|auto]). cbn [fst snd]. split; [auto|]. split; [|reflexivity].
      intros L' [<-|H']; [|now apply R']. cbn [l_entries]. intros k' v' [X|X]; [now injection X as <- <-|]. apply filter_In in X as [X _]. apply (R L); [now left|auto].
    + destruct (call eqb f ls k) as [v rest] eqn:Ec. cbn [fst snd] in *. destruct v as [x|e]; cbn [fst snd].
      * split; [auto|]. split; [|cbn [length]; now rewrite I3]. intros L' [<-|H']; [|now apply I2]. unfold enter. cbn [l_entries].
        intros k' v' [X|X]; [injection X as <- <-; auto|]. apply (R L); [now left|]. destruct (room L); [auto|now apply removelast_incl].
      * split; [auto|]. split; [|cbn [length]; now rewrite I3]. intros L' [<-|H']; [apply R; now left|now apply I2].
Qed.
Lemma filter_len : forall {A} (p : A -> bool) l, length (filter p l) <= length l.
Proof. induction l as [|a l IH]; [cbn; lia|]. cbn [filter]. destruct (p a); cbn [length]; lia. Qed.
Lemma without_shorter : forall k l (v : V), find eqb k l = Some v -> S (length (without_key eqb k l)) <= length l.
Proof.
  induction l as [|[k' v'] l IH]; intros v H; [discriminate|]. cbn [find] in H. unfold without_key in *. cbn [filter fst]. destruct (eqb k k') eqn:E; cbn [negb length].
  - pose proof (filter_len (fun p : Key * V => negb (eqb k (fst p))) l). lia.
  - apply IH in H. lia.
Qed.
Lemma call_small : forall (f : Key -> res V) ls k, Forall small ls -> Forall small (snd (call eqb f ls k)).
Proof.
  induction ls as [|L ls IH]; intros k H; [constructor|]. inversion H as [|? ? HL Hls]; subst. specialize (IH k Hls). cbn [call].
  destruct (disabled L) eqn:E0; [destruct (call eqb f ls k); cbn [snd] in *; now constructor|].
  destruct (find eqb k (l_entries L)) as [v|] eqn:Ef.
  - cbn [snd]. constructor; [|auto]. apply without_shorter in Ef. unfold small in *. cbn [l_max l_entries length]. destruct (l_max L); [lia|auto].
  - destruct (call eqb f ls k) as [[x|e] rest]; cbn [snd] in *; constructor; auto. unfold small, enter, disabled, room in *. cbn [l_max l_entries length].
    destruct (l_max L) as [n|]; [|auto]. apply N.eqb_neq in E0. destruct (N.ltb_spec (N.of_nat (length (l_entries L))) n); [lia|]. rewrite removelast_length. lia.
Qed.
Lemma clear_right : forall (f : Key -> res V) ls, right f ls -> right f (clear_head ls).
Proof. intros f [|L ls] R; [auto|]. intros L' [<-|H']; [intros k v []|]. apply R. now right. Qed.
Lemma clear_small : forall ls, Forall small ls -> Forall small (@clear_head Key V ls).
Proof. intros [|L ls] H; [auto|]. inversion H; subst. constructor; auto. unfold small. cbn. destruct (l_max L); [lia|auto]. Qed.
Lemma cleared_right : forall (f : Key -> res V) ls, length ls <= 1 -> right f (clear_head ls).
Proof. intros f [|L [|L2 ls]] H; cbn [length] in H; [intros L' []| |lia]. intros L' [<-|[]] k v []. Qed.
Lemma clear_length : forall ls, length (@clear_head Key V ls) = length ls.
Proof. intros [|L ls]; reflexivity. Qed.
End Layers.

Section Obj.
Context {Cfg K1 V1 K2 V2 Arg Out P Q : Type}.
Variable (eqb1 : K1 -> K1 -> bool) (eqb2 : K2 -> K2 -> bool).
Variable (EQ1 : forall a b, eqb1 a b = true <-> a = b) (EQ2 : forall a b, eqb2 a b = true <-> a = b).
Variable (olp : Cfg -> K1 -> res V1) (dolp : Cfg -> K2 -> res V2).
Variable (get : Cfg -> Arg -> prog K1 V1 K2 V2 Out).
Variable (assign : Cfg -> P -> res Cfg) (setter : Cfg -> Q -> res Cfg) (nparams : Cfg -> Z).
Notation obj := (obj Cfg K1 V1 K2 V2).
Definition holds (o : obj) : Prop := right (olp (o_cfg o)) (o_olp o) /\ right (dolp (o_cfg o)) (o_dolp o).
Definition shape (n : nat) (o : obj) : Prop :=
  (n = 0 -> o_olp o = [] /\ o_dolp o = [] /\ o_fns o = None) /\
  (n <= 1 -> length (o_olp o) <= 1 /\ length (o_dolp o) <= 1 /\
     match o_fns o with None => o_olp o = [] /\ o_dolp o = [] | Some true => True | Some false => o_dolp o = [] end).
Lemma exec_holds : forall (p : prog K1 V1 K2 V2 Out) (o : obj), holds o -> fst (exec eqb1 eqb2 olp dolp o p) = value olp dolp (o_cfg o) p /\
  let o' := snd (exec eqb1 eqb2 olp dolp o p) in holds o' /\ o_cfg o' = o_cfg o /\ o_fns o' = o_fns o /\ o_memory o' = o_memory o /\
  length (o_olp o') = length (o_olp o) /\ length (o_dolp o') = length (o_dolp o).
Proof.
  induction p as [r|k f IH|k f IH]; intros o [H1 H2]; cbn [exec value].
  - cbn. repeat split; auto.
  - destruct (call_right eqb1 EQ1 _ _ k H1) as (A & B & C). destruct (call eqb1 (olp (o_cfg o)) (o_olp o) k) as [v ls]. cbn [fst snd] in *. rewrite <- A.
    set (o' := mkobj (o_cfg o) (o_memory o) ls (o_dolp o) (o_fns o)). assert (Ho : holds o') by (split; auto).
    destruct v as [x|e]; cbn [bind].
    + destruct (IH x o' Ho) as (D & Hh & E1 & E2 & E3 & E4 & E5). split; [exact D|]. split; [auto|]. split; [auto|]. split; [auto|]. split; [auto|]. cbn in E4, E5. rewrite C in E4. auto.
    + cbn [fst snd]. repeat split; auto; apply Ho.
  - destruct (call_right eqb2 EQ2 _ _ k H2) as (A & B & C). destruct (call eqb2 (dolp (o_cfg o)) (o_dolp o) k) as [v ls]. cbn [fst snd] in *. rewrite <- A.
    set (o' := mkobj (o_cfg o) (o_memory o) (o_olp o) ls (o_fns o)). assert (Ho : holds o') by (split; auto).
    destruct v as [x|e]; cbn [bind].
    + destruct (IH x o' Ho) as (D & Hh & E1 & E2 & E3 & E4 & E5). split; [exact D|]. split; [auto|]. split; [auto|]. split; [auto|]. split; [auto|]. cbn in E4, E5. rewrite C in E5. auto.
    + cbn [fst snd]. repeat split; auto; apply Ho.
Qed.
Lemma len0 : forall {A} (l m : list A), length l = length m -> m = [] -> l = [].
Proof. intros A l m H ->. now destruct l. Qed.
Lemma exec_shape : forall n (p : prog K1 V1 K2 V2 Out) (o : obj), holds o -> shape n o -> shape n (snd (exec eqb1 eqb2 olp dolp o p)).
Proof.
  intros n p o H [S0 S1]. destruct (exec_holds p o H) as (_ & _ & _ & E1 & _ & E2 & E3). split.
  - intros Hn. destruct (S0 Hn) as (A & B & C). rewrite E1. repeat split; auto; eapply len0; eauto.
  - intros Hn. destruct (S1 Hn) as (A & B & C). rewrite E1, E2, E3. split; [auto|]. split; [auto|].
    destruct (o_fns o) as [[|]|]; auto; [eapply len0; eauto|]. destruct C. split; eapply len0; eauto.
Qed.
Lemma run_agrees : forall h n o, holds o -> shape n o -> careful n h ->
  agrees olp dolp get assign setter (o_cfg o) h (run eqb1 eqb2 olp dolp get assign setter nparams o h).
Proof.
  induction h as [|e h IH]; intros n o H S C; [exact I|]. destruct e as [a|p|q|k|d]; cbn [run step careful] in *.
  - destruct (exec_holds (get (o_cfg o) a) o H) as (A & Hh & Ec & _). pose proof (exec_shape n (get (o_cfg o) a) o H S) as Hs.
    destruct (exec eqb1 eqb2 olp dolp o (get (o_cfg o) a)) as [r o']. cbn [fst snd] in *. cbn [agrees]. split; [now f_equal|]. rewrite <- Ec. eapply IH; eauto.
  - cbn [agrees]. destruct C as [Cn C]. destruct (assign (o_cfg o) p) as [c|x] eqn:Ea; [|cbn [agrees]; split; [reflexivity|]; eapply IH; eauto].
    unfold clear_cache. cbn [o_fns o_cfg o_memory o_olp o_dolp]. destruct S as [S0 S1]. destruct (S1 Cn) as (L1 & L2 & Sf).
    destruct (o_fns o) as [d|] eqn:Ef.
    + split; [reflexivity|].
      apply (IH n (mkobj c (o_memory o) (clear_head (o_olp o)) (if d then clear_head (o_dolp o) else o_dolp o) (Some d))); auto.
      * split; cbn [o_cfg o_olp o_dolp]; [now apply cleared_right|]. destruct d; [now apply cleared_right|]. rewrite Sf. intros L [].
      * split; cbn [o_cfg o_olp o_dolp o_fns]; [intros Hn; destruct (S0 Hn) as (_ & _ & X); discriminate|]. intros _. rewrite clear_length.
        split; [auto|]. destruct d; [rewrite clear_length|]; auto.
    + destruct Sf as [E1 E2]. split; [reflexivity|]. rewrite E1, E2. apply (IH n (mkobj c (o_memory o) [] [] None)); auto; [split; intros L []|].
      split; cbn; auto with arith.
  - cbn [agrees]. destruct C as [Cn C]. destruct (setter (o_cfg o) q) as [c|x] eqn:Ea; [|cbn [agrees]; split; [reflexivity|]; eapply IH; eauto].
    split; [reflexivity|]. destruct S as [S0 S1]. destruct (S0 Cn) as (E1 & E2 & E3). rewrite E1, E2, E3.
    apply (IH n (mkobj c (o_memory o) [] [] None)); auto; [split; intros L []|]. split; cbn; auto with arith.
  - assert (X : forall o', clear_cache o k = Ok o' -> holds o' /\ shape n o' /\ o_cfg o' = o_cfg o).
    { intros o' E. unfold clear_cache in E. destruct H as [H1 H2], S as [S0 S1]. destruct (o_fns o) as [d|] eqn:Ef.
      - assert (N0 : n <> 0) by (intros Hn; destruct (S0 Hn) as (_ & _ & X); discriminate).
        assert (G : forall (b1 b2 : bool), (b2 = true -> d = true) -> let o' := mkobj (o_cfg o) (o_memory o) (if b1 then clear_head (o_olp o) else o_olp o) (if b2 then clear_head (o_dolp o) else o_dolp o) (Some d) in
          holds o' /\ shape n o' /\ o_cfg o' = o_cfg o).
        { intros b1 b2 Hb. split; [|split; [|reflexivity]].
          - split; cbn [o_cfg o_olp o_dolp]; [destruct b1|destruct b2]; auto using clear_right.
          - split; [intros Hn; contradiction|]. intros Hn. destruct (S1 Hn) as (L1 & L2 & Sf). cbn [o_olp o_dolp o_fns].
            split; [destruct b1; rewrite ?clear_length; auto|]. split; [destruct b2; rewrite ?clear_length; auto|]. destruct d; auto. destruct b2; auto. discriminate Hb; auto. }
        destruct k as [[| |]|].
        + injection E as <-. now apply (G true false).
        + destruct d; [|discriminate]. injection E as <-. now apply (G false true).
        + discriminate.
        + injection E as <-. destruct d; [now apply (G true true)|]. now apply (G true false).
      - injection E as <-. split; [split; auto|]. split; [split; rewrite Ef; auto|reflexivity]. }
    cbn [agrees]. destruct (clear_cache o k) as [o'|x] eqn:E; cbn [agrees].
    + destruct (X _ eq_refl) as (A & B & D). rewrite <- D. eapply IH; eauto.
    + eapply IH; eauto.
  - cbn [agrees]. apply (IH (Datatypes.S n) (enable_cache nparams o d)); auto.
    + destruct H as [H1 H2]. split; cbn [enable_cache o_cfg o_olp o_dolp]; [intros L [<-|HL]; [intros k v []|now apply H1]|].
      destruct d; [intros L [<-|HL]; [intros k v []|now apply H2]|exact H2].
    + split; [discriminate|]. intros Hn. assert (n = 0) by lia. destruct S as [S0 _]. destruct (S0 H0) as (E1 & E2 & _).
      cbn [enable_cache o_olp o_dolp o_fns]. rewrite E1, E2. destruct d; cbn; auto.
Qed.
(** sizes *)
Definition sized (o : obj) : Prop := Forall small (o_olp o) /\ Forall small (o_dolp o).
Lemma exec_sized : forall (p : prog K1 V1 K2 V2 Out) (o : obj), sized o -> sized (snd (exec eqb1 eqb2 olp dolp o p)).
Proof.
  induction p as [r|k f IH|k f IH]; intros o [H1 H2]; cbn [exec].
  - now split.
  - pose proof (call_small eqb1 (olp (o_cfg o)) _ k H1) as C. destruct (call eqb1 (olp (o_cfg o)) (o_olp o) k) as [[x|e] ls]; cbn [fst snd] in *; [apply IH|]; now split.
  - pose proof (call_small eqb2 (dolp (o_cfg o)) _ k H2) as C. destruct (call eqb2 (dolp (o_cfg o)) (o_dolp o) k) as [[x|e] ls]; cbn [fst snd] in *; [apply IH|]; now split.
Qed.
Lemma clear_sized : forall o k o', clear_cache o k = Ok o' -> sized o -> sized o'.
Proof.
  intros o k o' E [H1 H2]. unfold clear_cache in E. destruct (o_fns o) as [d|]; [|injection E as <-; now split].
  destruct k as [[| |]|]; try discriminate; try (destruct d; [|discriminate]); injection E as <-; split; cbn; auto using clear_small. destruct d; auto using clear_small.
Qed.
Lemma step_sized : forall o e, sized o -> sized (snd (step eqb1 eqb2 olp dolp get assign setter nparams o e)).
Proof.
  intros o e H. destruct e as [a|p|q|k|d]; cbn [step].
  - pose proof (exec_sized (get (o_cfg o) a) o H) as X. destruct (exec eqb1 eqb2 olp dolp o (get (o_cfg o) a)); exact X.
  - destruct (assign (o_cfg o) p) as [c|x]; [|exact H]. match goal with |- context [clear_cache ?o0 None] => destruct (clear_cache o0 None) as [o'|x] eqn:E end; [|exact H].
    cbn [snd]. apply clear_sized in E; [exact E|]. exact H.
  - destruct (setter (o_cfg o) q); exact H.
  - destruct (clear_cache o k) as [o'|x] eqn:E; [|exact H]. eapply clear_sized; eauto.
  - destruct H as [H1 H2]. split; cbn [snd enable_cache o_olp o_dolp]; [constructor; auto; unfold small; cbn; lia|]. destruct d; [constructor; auto; unfold small; cbn; lia|auto].
Qed.
End Obj.
