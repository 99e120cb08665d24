From Coq Require Import List ZArith NArith Arith Lia Bool Permutation.
From Verif Require Import Py BitSpec BitLemmas Slater SlaterBits SlaterBits2 Fock FockLemmas SignLemmas SignVec Alg Combos
  PermLemmas HamSpec HamGen HamRes FockInner HamLemmas HamSC HamMain SpinSpec HamSpin Density DensSpec DensLemmas DensCalls.
Import ListNotations.

(** which calls change entry (p, q) of the w-th array *)
Definition sel1 (o : orbtype) (n w p q i j : nat) : bool :=
  match o with
  | Restricted => Bool.eqb (up n i) (up n j) && (Nat.eqb p (place n i) && Nat.eqb q (place n j))
  | Unrestricted => Bool.eqb (up n i) (Nat.eqb w 0) && Bool.eqb (up n j) (Nat.eqb w 0) && (Nat.eqb p (place n i) && Nat.eqb q (place n j))
  | _ => Nat.eqb p i && Nat.eqb q j
  end.
Definition sel2 (o : orbtype) (n w p q r s i j k l : nat) : bool :=
  match o with
  | Restricted => (Bool.eqb (up n i) (up n k) && Bool.eqb (up n j) (up n l)) &&
      (Nat.eqb p (place n i) && Nat.eqb q (place n j) && Nat.eqb r (place n k) && Nat.eqb s (place n l))
  | Unrestricted =>
      let x := Nat.ltb w 2 in let y := Nat.eqb w 0 in
      (Bool.eqb (up n i) x && Bool.eqb (up n k) x && Bool.eqb (up n j) y && Bool.eqb (up n l) y) &&
      (Nat.eqb p (place n i) && Nat.eqb q (place n j) && Nat.eqb r (place n k) && Nat.eqb s (place n l))
  | _ => Nat.eqb p i && Nat.eqb q j && Nat.eqb r k && Nat.eqb s l
  end.

Section State.
Context {K : CRing}.
Local Open Scope cr_scope.
Add Ring K_ring39 : (rth K).

Definition bi (b : bool) : K := if b then 1 else 0.
Definition get1 (st : dstate K) (w p q : nat) : K := nth w (fst st) (fun _ _ => 0) p q.
Definition get2 (st : dstate K) (w p q r s : nat) : K := nth w (snd st) (fun _ _ _ _ => 0) p q r s.
Definition w1 o n w p q i j : K := bi (sel1 o n w p q i j).
Definition w2 o n w p q r s i j k l : K := bi (sel2 o n w p q r s i j k l).

Definition in_range (k : nat) (e : dcall K) : Prop :=
  match e with
  | One i j _ => (i < k)%nat /\ (j < k)%nat
  | Two i j p q _ => (i < k)%nat /\ (j < k)%nat /\ (p < k)%nat /\ (q < k)%nat
  end.
Definition shaped (o : orbtype) (st : dstate K) : Prop := length (fst st) = n_one o /\ length (snd st) = n_two o.
Definition adds (o : orbtype) (n : nat) (st st' : dstate K) (f : (nat -> nat -> K) -> K)
    (g : (nat -> nat -> nat -> nat -> K) -> K) : Prop :=
  (forall w p q, (w < n_one o)%nat -> get1 st' w p q = get1 st w p q + f (w1 o n w p q)) /\
  (forall w p q r s, (w < n_two o)%nat -> get2 st' w p q r s = get2 st w p q r s + g (w2 o n w p q r s)).

Lemma place_bound : forall n i, (i < 2 * n)%nat -> (place n i < n)%nat.
Proof. intros n i H. unfold place, up. destruct (Nat.ltb_spec i n); lia. Qed.

Lemma bump1_ok : forall dim i j (v : K) m, (i < dim)%nat -> (j < dim)%nat ->
  bump1 dim i j v m = Ok (fun p q => if (Nat.eqb p i && Nat.eqb q j)%bool then m p q + v else m p q).
Proof. intros. unfold bump1. now rewrite !(proj2 (Nat.ltb_lt _ _)) by auto. Qed.
Lemma bump2_ok : forall dim i j k l (v : K) m, (i < dim)%nat -> (j < dim)%nat -> (k < dim)%nat -> (l < dim)%nat ->
  bump2 dim i j k l v m = Ok (fun p q r s => if (Nat.eqb p i && Nat.eqb q j && Nat.eqb r k && Nat.eqb s l)%bool
                          then m p q r s + v else m p q r s).
Proof. intros. unfold bump2. now rewrite !(proj2 (Nat.ltb_lt _ _)) by auto. Qed.

Ltac fin := repeat match goal with |- context [if ?b then _ else _] => destruct b end; ring.

Lemma do_one_ok : forall o n i j v (st : dstate K), o <> OtherOrb -> (i < 2 * n)%nat -> (j < 2 * n)%nat -> shaped o st ->
  exists st', do_call o (dm_dim o n) (One i j v) st = Ok st' /\ shaped o st' /\
    adds o n st st' (fun w => w i j * v) (fun _ => 0).
Proof.
  intros o n i j v [ms ts] No Hi Hj [L1 L2]. cbn [fst snd] in L1, L2. cbn [do_call fst snd]. unfold add_one_density.
  pose proof (place_bound n i Hi) as Pi. pose proof (place_bound n j Hj) as Pj.
  destruct o; [| | |congruence]; cbn [n_one n_two dm_dim] in *.
  - destruct ms as [|m [|]]; try discriminate. cbn [orb_check length Nat.eqb bind].
    rewrite !spatial_ok, !alpha_ok by auto. cbn [bind].
    destruct (Bool.eqb (up n i) (up n j)) eqn:E; cbn [upd bind].
    + rewrite bump1_ok by auto. cbn [bind]. eexists. split; [reflexivity|]. split; [split; auto|]. split.
      * intros w p q Hw. assert (w = 0)%nat by (cbn in Hw; lia). subst w. unfold get1, w1, sel1, bi. cbn [nth fst].
        rewrite E. cbn [andb]. fin.
      * intros. unfold get2. cbn [snd]. ring.
    + eexists. split; [reflexivity|]. split; [split; auto|]. split.
      * intros w p q Hw. unfold w1, sel1, bi. rewrite E. cbn [andb]. unfold get1. cbn [fst]. ring.
      * intros. unfold get2. cbn [snd]. ring.
  - destruct ms as [|m [|m' [|]]]; try discriminate. cbn [orb_check length Nat.eqb bind].
    rewrite !spatial_ok, !alpha_ok by auto. cbn [bind].
    destruct (up n i) eqn:E, (up n j) eqn:E'; cbn [upd andb negb bind]; rewrite ?bump1_ok by auto; cbn [bind];
      (eexists; split; [reflexivity|]; split; [split; auto|]; split;
       [intros w p q Hw; assert (w = 0 \/ w = 1)%nat as [-> | ->] by (cbn in Hw; lia); unfold get1, w1, sel1, bi;
        rewrite E, E'; cbn [nth fst andb Bool.eqb Nat.eqb]; fin
       |intros; unfold get2; cbn [snd]; ring]).
  - destruct ms as [|m [|]]; try discriminate. cbn [orb_check length Nat.eqb bind upd].
    rewrite bump1_ok by auto. cbn [bind]. eexists. split; [reflexivity|]. split; [split; auto|]. split.
    + intros w p q Hw. assert (w = 0)%nat by (cbn in Hw; lia). subst w. unfold get1, w1, sel1, bi. cbn [nth fst]. fin.
    + intros. unfold get2. cbn [snd]. ring.
Qed.

Lemma do_two_ok : forall o n i j k l v (st : dstate K), o <> OtherOrb -> (i < 2 * n)%nat -> (j < 2 * n)%nat ->
  (k < 2 * n)%nat -> (l < 2 * n)%nat -> shaped o st ->
  exists st', do_call o (dm_dim o n) (Two i j k l v) st = Ok st' /\ shaped o st' /\
    adds o n st st' (fun _ => 0) (fun w => w i j k l * v).
Proof.
  intros o n i j k l v [ms ts] No Hi Hj Hk Hl [L1 L2]. cbn [fst snd] in L1, L2. cbn [do_call fst snd]. unfold add_two_density.
  pose proof (place_bound n i Hi) as Pi. pose proof (place_bound n j Hj) as Pj.
  pose proof (place_bound n k Hk) as Pk. pose proof (place_bound n l Hl) as Pl.
  destruct o; [| | |congruence]; cbn [n_one n_two dm_dim] in *.
  - destruct ts as [|m [|]]; try discriminate. cbn [orb_check length Nat.eqb bind].
    rewrite !spatial_ok, !alpha_ok by auto. cbn [bind].
    destruct (Bool.eqb (up n i) (up n k) && Bool.eqb (up n j) (up n l))%bool eqn:E; cbn [upd bind].
    + rewrite bump2_ok by auto. cbn [bind]. eexists. split; [reflexivity|]. split; [split; auto|]. split.
      * intros. unfold get1. cbn [fst]. ring.
      * intros w p q r s Hw. assert (w = 0)%nat by (cbn in Hw; lia). subst w. unfold get2, w2, sel2, bi. cbn [nth snd].
        rewrite E. rewrite andb_true_l. fin.
    + eexists. split; [reflexivity|]. split; [split; auto|]. split.
      * intros. unfold get1. cbn [fst]. ring.
      * intros w p q r s Hw. unfold w2, sel2, bi. rewrite E. rewrite andb_false_l. unfold get2. cbn [snd]. ring.
  - destruct ts as [|m [|m' [|m'' [|]]]]; try discriminate. cbn [orb_check length Nat.eqb bind].
    rewrite !spatial_ok, !alpha_ok by auto. cbn [bind].
    destruct (up n i) eqn:E1, (up n j) eqn:E2, (up n k) eqn:E3, (up n l) eqn:E4; cbn [upd andb negb bind]; rewrite ?bump2_ok by auto; cbn [bind];
      (eexists; split; [reflexivity|]; split; [split; auto|]; split;
       [intros; unfold get1; cbn [fst]; ring
       |intros w p q r s Hw; assert (w = 0 \/ w = 1 \/ w = 2)%nat as [-> | [-> | ->]] by (cbn in Hw; lia); unfold get2, w2, sel2, bi;
        rewrite E1, E2, E3, E4; cbn [nth snd andb Bool.eqb Nat.eqb Nat.ltb Nat.leb]; fin]).
  - destruct ts as [|m [|]]; try discriminate. cbn [orb_check length Nat.eqb bind upd].
    rewrite bump2_ok by auto. cbn [bind]. eexists. split; [reflexivity|]. split; [split; auto|]. split.
    + intros. unfold get1. cbn [fst]. ring.
    + intros w p q r s Hw. assert (w = 0)%nat by (cbn in Hw; lia). subst w. unfold get2, w2, sel2, bi. cbn [nth snd]. fin.
Qed.

Lemma do_calls_ok : forall o n es (st : dstate K), o <> OtherOrb -> (forall e, In e es -> in_range (2 * n) e) -> shaped o st ->
  exists st', do_calls o (dm_dim o n) es st = Ok st' /\ shaped o st' /\
    adds o n st st' (fun w => ev1 w es) (fun w => ev2 w es).
Proof.
  intros o n es. induction es as [|e es IH]; intros st No R S.
  - exists st. split; [reflexivity|]. split; auto. split; intros; cbn; ring.
  - assert (X : exists st', do_call o (dm_dim o n) e st = Ok st' /\ shaped o st' /\
      adds o n st st' (fun w => ev1 w [e]) (fun w => ev2 w [e])).
    { assert (Re : in_range (2 * n) e) by (apply R; now left). destruct e as [i j v|i j k l v]; cbn [in_range] in Re.
      - destruct (do_one_ok o n i j v st) as (st' & E & S' & A1 & A2); try tauto. exists st'. split; [auto|]. split; [auto|].
        split; intros; [rewrite A1 by auto|rewrite A2 by auto]; unfold ev1, ev2; cbn; ring.
      - destruct (do_two_ok o n i j k l v st) as (st' & E & S' & A1 & A2); try tauto. exists st'. split; [auto|]. split; [auto|].
        split; intros; [rewrite A1 by auto|rewrite A2 by auto]; unfold ev1, ev2; cbn; ring. }
    destruct X as (st1 & E & S1 & A1 & A2). cbn [do_calls]. rewrite E. cbn [bind].
    destruct (IH st1 No) as (st2 & E2 & S2 & B1 & B2); auto.
    { intros; apply R; now right. }
    exists st2. split; [auto|]. split; [auto|]. split; intros.
    + rewrite B1, A1 by auto. rewrite (ev1_cons _ e es). ring.
    + rewrite B2, A2 by auto. rewrite (ev2_cons _ e es). ring.
Qed.

Lemma pair_calls_range : forall k (x1 x2 : K) m n, fits m k -> fits n k ->
  forall e, In e (pair_calls x1 x2 m n) -> in_range k e.
Proof.
  intros k x1 x2 m n Fm Fn.
  assert (D1 : forall x, In x (fst (diff_orbs m n)) -> (x < k)%nat).
  { intros x H. apply diff_orbs_In1 in H as [H _]. exact (fits_lt m k x Fm H). }
  assert (D2 : forall x, In x (snd (diff_orbs m n)) -> (x < k)%nat).
  { intros x H. apply diff_orbs_In2 in H as [H _]. exact (fits_lt n k x Fn H). }
  assert (D3 : forall x, In x (shared_orbs m n) -> (x < k)%nat).
  { intros x H. apply shared_orbs_In in H as [H _]. exact (fits_lt m k x Fm H). }
  unfold pair_calls. destruct (negb _); [intros e []|].
  set (v := (x1 * x2 * _)). clearbody v. revert D3. generalize (shared_orbs m n). intros sh D3.
  destruct (fst (diff_orbs m n)) as [|a [|b [|]]]; cbn [In] in D1.
  - induction sh as [|i sh IH]; cbn [same_calls]; intros e He; [destruct He|].
    destruct He as [<-|He]; [cbn; split; apply D3; now left|]. apply in_app_iff in He as [He|He].
    + apply in_flat_map in He as (j & Hj & He). assert (i < k)%nat by (apply D3; now left). assert (j < k)%nat by (apply D3; now right).
      cbn [In] in He. decompose [or] He; subst; cbn; tauto.
    + apply IH; auto. intros; apply D3; now right.
  - destruct (snd (diff_orbs m n)) as [|c [|]]; try solve [intros e []]. intros e He.
    assert (a < k)%nat by auto. assert (c < k)%nat by (apply D2; now left).
    unfold single_calls in He. destruct He as [<-|[<-|He]]; cbn [in_range]; auto.
    apply in_flat_map in He as (j & Hj & He). assert (j < k)%nat by auto. cbn [In] in He. decompose [or] He; subst; cbn; tauto.
  - destruct (snd (diff_orbs m n)) as [|c [|d [|]]]; try solve [intros e []]. intros e He.
    assert (a < k)%nat by auto. assert (b < k)%nat by auto. assert (c < k)%nat by (apply D2; now left).
    assert (d < k)%nat by (apply D2; right; now left). unfold double_calls in He. cbn [In] in He. decompose [or] He; subst; cbn; tauto.
  - intros e He. destruct (snd (diff_orbs m n)); destruct He.
Qed.
End State.
