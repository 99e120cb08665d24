From Coq Require Import List ZArith NArith Arith Lia Bool Permutation.
From Verif Require Import Py BitSpec BitLemmas Slater SlaterBits SlaterBits2 Fock FockLemmas SignLemmas SignVec Alg Combos
  PermLemmas HamSpec HamGen HamRes FockInner HamLemmas HamSC HamMain SpinSpec HamSpin Density DensSpec DensLemmas DensCalls DensState.
Import ListNotations.

Section Main.
Context {K : CRing} (lt : K -> K -> bool) (ab : K -> K).
Local Open Scope cr_scope.
Add Ring K_ring40 : (rth K).

Lemma ins_perm : forall x l, Permutation (ins lt ab x l) (x :: l).
Proof.
  intros x l. induction l as [|y l IH]; auto. cbn [ins]. destruct (lt _ _); auto.
  rewrite IH. apply perm_swap.
Qed.
Lemma sort_perm : forall l, Permutation (sort_civec lt ab l) l.
Proof. induction l as [|x l IH]; auto. cbn [sort_civec fold_right]. rewrite ins_perm. now apply perm_skip. Qed.

Definition F1 (w : nat -> nat -> K) (a b : K * N) := ev1 w (pair_calls (fst a) (fst b) (snd a) (snd b)).
Definition F2 w (a b : K * N) := ev2 w (pair_calls (fst a) (fst b) (snd a) (snd b)).
Fixpoint tri (F : K * N -> K * N -> K) (l : list (K * N)) : K :=
  match l with [] => 0 | a :: l' => sumf (F a) l + tri F l' end.

Variable thr : K.
Hypothesis no1 : forall x : K, lt (x * x) thr = false.
Hypothesis no2 : forall x y : K, lt (ab x * (y * y)) thr = false.

Lemma inner_ok : forall o n rem x1 sd1 l (st : dstate K), o <> OtherOrb -> fits sd1 (2 * n) ->
  (forall b, In b l -> fits (snd b) (2 * n)) -> shaped o st ->
  exists st', inner_loop lt ab o (dm_dim o n) thr rem x1 sd1 l st = Ok st' /\ shaped o st' /\
    adds o n st st' (fun w => sumf (F1 w (x1, sd1)) l) (fun w => sumf (F2 w (x1, sd1)) l).
Proof.
  intros o n rem x1 sd1 l. induction l as [|[x2 sd2] l IH]; intros st No F1' Fl S.
  - exists st. split; [reflexivity|]. split; auto. split; intros; cbn; ring.
  - cbn [inner_loop]. rewrite no2. 
    destruct (do_calls_ok o n (pair_calls x1 x2 sd1 sd2) st) as (st1 & E & S1 & A1 & A2); auto.
    { apply pair_calls_range; auto. apply (Fl (x2, sd2)). now left. }
    rewrite E. cbn [bind]. destruct (IH st1) as (st2 & E2 & S2 & B1 & B2); auto.
    { intros; apply Fl; now right. }
    exists st2. split; [auto|]. split; [auto|]. split; intros.
    + rewrite B1, A1 by auto. rewrite sumf_cons. unfold F1 at 2. cbn [fst snd]. ring.
    + rewrite B2, A2 by auto. rewrite sumf_cons. unfold F2 at 2. cbn [fst snd]. ring.
Qed.

Lemma outer_ok : forall o n l (st : dstate K), o <> OtherOrb ->
  (forall b, In b l -> fits (snd b) (2 * n)) -> shaped o st ->
  exists st', outer_loop lt ab o (dm_dim o n) thr l st = Ok st' /\ shaped o st' /\
    adds o n st st' (fun w => tri (F1 w) l) (fun w => tri (F2 w) l).
Proof.
  intros o n l. induction l as [|[x1 sd1] l IH]; intros st No Fl S.
  - exists st. split; [reflexivity|]. split; auto. split; intros; cbn; ring.
  - cbn [outer_loop]. rewrite no1.
    destruct (inner_ok o n (length ((x1, sd1) :: l)) x1 sd1 ((x1, sd1) :: l) st) as (st1 & E & S1 & A1 & A2); auto.
    { apply (Fl (x1, sd1)). now left. }
    rewrite E. cbn [bind]. destruct (IH st1) as (st2 & E2 & S2 & B1 & B2); auto.
    { intros; apply Fl; now right. }
    exists st2. split; [auto|]. split; [auto|]. split; intros; cbn [tri].
    + rewrite B1, A1 by auto. ring.
    + rewrite B2, A2 by auto. ring.
Qed.

(** every unordered pair once is every ordered pair once *)
Lemma tri_full : forall (F A : K * N -> K * N -> K) l, NoDup (map snd l) ->
  (forall a b, In a l -> In b l -> F a b = if N.eqb (snd a) (snd b) then A a b else A a b + A b a) ->
  tri F l = sumf (fun a => sumf (A a) l) l.
Proof.
  intros F A l N H. rewrite sum2_pairs. induction l as [|a l IH]; [cbn; ring|]. cbn [map] in N. inversion N as [|? ? N1 N2]; subst.
  cbn [tri pairs]. rewrite IH; auto.
  2:{ intros; apply H; now right. }
  rewrite sumf_app, sumf_map, !sumf_cons. cbn [fst snd].
  rewrite (H a a) by (now left). rewrite N.eqb_refl.
  rewrite (sumf_ext (F a) (fun x => A a x + A x a) l).
  2:{ intros b Hb. rewrite (H a b) by (cbn [In]; auto).
      destruct (N.eqb_spec (snd a) (snd b)) as [E|E]; auto. exfalso. apply N1. rewrite E. now apply in_map. }
  ring.
Qed.

Definition dens1 k (w : nat -> nat -> K) (psi : list (K * N)) : K :=
  sumf (fun a => sumf (fun b => fst a * fst b * one_body k w (snd a) (snd b)) psi) psi.
Definition dens2 k (w : nat -> nat -> nat -> nat -> K) (psi : list (K * N)) : K :=
  sumf (fun a => sumf (fun b => fst a * fst b * two_body k w (snd a) (snd b)) psi) psi.

Lemma tri_dens1 : forall k w l, NoDup (map snd l) -> (forall b, In b l -> fits (snd b) k) -> tri (F1 w) l = dens1 k w l.
Proof.
  intros k w l N Fl. unfold dens1.
  apply (tri_full (F1 w) (fun a b => fst a * fst b * one_body k w (snd a) (snd b))); auto.
  intros a b Ha Hb. unfold F1. rewrite (pair_ev1 k) by auto. destruct (N.eqb_spec (snd a) (snd b)) as [->|]; auto.
Qed.
Lemma tri_dens2 : forall k w l, NoDup (map snd l) -> (forall b, In b l -> fits (snd b) k) -> tri (F2 w) l = dens2 k w l.
Proof.
  intros k w l N Fl. unfold dens2.
  apply (tri_full (F2 w) (fun a b => fst a * fst b * two_body k w (snd a) (snd b))); auto.
  intros a b Ha Hb. unfold F2. rewrite (pair_ev2 k) by auto. destruct (N.eqb_spec (snd a) (snd b)) as [->|]; auto.
Qed.
Lemma double_perm : forall (G : K * N -> K * N -> K) l l', Permutation l l' ->
  sumf (fun a => sumf (G a) l) l = sumf (fun a => sumf (G a) l') l'.
Proof.
  intros G l l' P. rewrite (sumf_perm _ l l' P). apply sumf_ext. intros a _. now apply sumf_perm.
Qed.

Lemma repeat_nth : forall {A} (x : A) n w, nth w (repeat x n) x = x.
Proof. intros A x n. induction n as [|n IH]; intros [|w]; auto. cbn. apply IH. Qed.

Theorem density_ok : forall cs sds n ch o, o <> OtherOrb -> combine cs sds <> [] ->
  NoDup (map snd (combine cs sds)) -> (forall sd, In sd (map snd (combine cs sds)) -> fits sd (2 * n)) ->
  exists st, density_matrix lt ab cs sds n ch thr o
      = Ok (fst st, if ch then map (to_chemist (K := K)) (snd st) else snd st) /\ shaped o st /\
    (forall w p q, (w < n_one o)%nat -> get1 st w p q = dens1 (2 * n) (w1 o n w p q) (combine cs sds)) /\
    (forall w p q r s, (w < n_two o)%nat -> get2 st w p q r s = dens2 (2 * n) (w2 o n w p q r s) (combine cs sds)).
Proof.
  intros cs sds n ch o No Ne Nd Fl. unfold density_matrix. set (l := combine cs sds) in *.
  pose proof (sort_perm l) as P. set (l' := sort_civec lt ab l) in *.
  assert (Nd' : NoDup (map snd l')) by (rewrite P; auto).
  assert (Fl' : forall b, In b l' -> fits (snd b) (2 * n)).
  { intros b Hb. apply Fl, in_map. now rewrite <- P. }
  set (st0 := (repeat (fun _ _ : nat => 0 : K) (n_one o), repeat (fun _ _ _ _ : nat => 0 : K) (n_two o))).
  assert (S0 : shaped o st0) by (split; cbn; apply repeat_length).
  destruct (outer_ok o n l' st0 No Fl' S0) as (st & E & S & A1 & A2).
  exists st. split.
  - destruct l' as [|x l']; [apply Permutation_nil in P; congruence|].
    rewrite E. destruct o; try congruence; reflexivity.
  - split; auto. split; intros.
    + rewrite A1, (tri_dens1 (2 * n)) by auto. unfold get1 at 1. cbn [fst st0]. rewrite repeat_nth.
      unfold dens1. rewrite (double_perm _ l' l P). ring.
    + rewrite A2, (tri_dens2 (2 * n)) by auto. unfold get2 at 1. cbn [snd st0]. rewrite repeat_nth.
      unfold dens2. rewrite (double_perm _ l' l P). ring.
Qed.
End Main.

Section Entries.
Context {K : CRing}.
Local Open Scope cr_scope.
Add Ring K_ring41 : (rth K).

Lemma one_body_ext : forall k (v w : nat -> nat -> K) m n, (forall i j, (i < k)%nat -> (j < k)%nat -> v i j = w i j) ->
  one_body k v m n = one_body k w m n.
Proof.
  intros k v w m n H. apply sumf_ext. intros i Hi. apply sumf_ext. intros j Hj. apply in_seq in Hi, Hj.
  rewrite H by lia. reflexivity.
Qed.
Lemma two_body_ext : forall k (v w : nat -> nat -> nat -> nat -> K) m n,
  (forall i j p q, (i < k)%nat -> (j < k)%nat -> (p < k)%nat -> (q < k)%nat -> v i j p q = w i j p q) ->
  two_body k v m n = two_body k w m n.
Proof.
  intros k v w m n H. apply sumf_ext. intros i Hi. apply sumf_ext. intros j Hj. apply sumf_ext. intros p Hp. apply sumf_ext. intros q Hq.
  apply in_seq in Hi, Hj, Hp, Hq. rewrite H by lia. reflexivity.
Qed.
Lemma one_body_add : forall k (v w : nat -> nat -> K) m n,
  one_body k (fun i j => v i j + w i j) m n = one_body k v m n + one_body k w m n.
Proof.
  intros. unfold one_body. rewrite <- sumf_add. apply sumf_ext. intros i _. rewrite <- sumf_add. apply sumf_ext. intros j _. ring.
Qed.
Lemma two_body_add : forall k (v w : nat -> nat -> nat -> nat -> K) m n,
  two_body k (fun i j p q => v i j p q + w i j p q) m n = two_body k v m n + two_body k w m n.
Proof.
  intros. unfold two_body. rewrite <- sumf_add. apply sumf_ext. intros i _. rewrite <- sumf_add. apply sumf_ext. intros j _.
  rewrite <- sumf_add. apply sumf_ext. intros p _. rewrite <- sumf_add. apply sumf_ext. intros q _. ring.
Qed.
Definition e1 (p q i j : nat) : K := bi (Nat.eqb p i && Nat.eqb q j).
Definition e2 (p q r s i j k l : nat) : K := bi (Nat.eqb p i && Nat.eqb q j && Nat.eqb r k && Nat.eqb s l).

Lemma sumf_at : forall k p (f : nat -> K), (p < k)%nat -> sumf (fun i => bi (Nat.eqb p i) * f i) (seq 0 k) = f p.
Proof.
  intros k p f H. rewrite (sumf_single _ _ p); [|apply seq_NoDup|apply in_seq; lia|].
  - rewrite Nat.eqb_refl. cbn [bi]. ring.
  - intros y _ Hy. rewrite (proj2 (Nat.eqb_neq p y)) by auto. cbn [bi]. ring.
Qed.
Lemma bi_and : forall a b, bi (K := K) (a && b) = bi a * bi b.
Proof. intros [] []; cbn; ring. Qed.
Lemma one_body_e1 : forall k p q m n, (p < k)%nat -> (q < k)%nat ->
  one_body k (e1 p q) m n = sgnr (melem m [Ann q; Cre p] n).
Proof.
  intros k p q m n Hp Hq. unfold one_body, e1.
  transitivity (sumf (K := K) (fun i => bi (Nat.eqb p i) * sumf (fun j => bi (Nat.eqb q j) * sgnr (melem m [Ann j; Cre i] n)) (seq 0 k)) (seq 0 k)).
  - apply sumf_ext. intros i _. rewrite <- sumf_mul_l. apply sumf_ext. intros j _. rewrite bi_and. ring.
  - rewrite sumf_at by auto. now rewrite sumf_at.
Qed.
Lemma two_body_e2 : forall k p q r s m n, (p < k)%nat -> (q < k)%nat -> (r < k)%nat -> (s < k)%nat ->
  two_body k (e2 p q r s) m n = sgnr (melem m [Ann r; Ann s; Cre q; Cre p] n).
Proof.
  intros k p q r s m n Hp Hq Hr Hs. unfold two_body, e2.
  transitivity (sumf (K := K) (fun i => bi (Nat.eqb p i) * sumf (fun j => bi (Nat.eqb q j) * sumf (fun a => bi (Nat.eqb r a) *
    sumf (fun b => bi (Nat.eqb s b) * sgnr (melem m [Ann a; Ann b; Cre j; Cre i] n)) (seq 0 k)) (seq 0 k)) (seq 0 k)) (seq 0 k)).
  - apply sumf_ext. intros i _. rewrite <- sumf_mul_l. apply sumf_ext. intros j _. rewrite <- !sumf_mul_l. apply sumf_ext. intros a _.
    rewrite <- !sumf_mul_l. apply sumf_ext. intros b _. rewrite !bi_and. ring.
  - rewrite sumf_at by auto. rewrite sumf_at by auto. rewrite sumf_at by auto. now rewrite sumf_at.
Qed.

Lemma dens1_ext : forall k (v w : nat -> nat -> K) psi, (forall i j, (i < k)%nat -> (j < k)%nat -> v i j = w i j) ->
  dens1 k v psi = dens1 k w psi.
Proof. intros. unfold dens1. apply sumf_ext. intros a _. apply sumf_ext. intros b _. f_equal. now apply one_body_ext. Qed.
Lemma dens2_ext : forall k (v w : nat -> nat -> nat -> nat -> K) psi,
  (forall i j p q, (i < k)%nat -> (j < k)%nat -> (p < k)%nat -> (q < k)%nat -> v i j p q = w i j p q) ->
  dens2 k v psi = dens2 k w psi.
Proof. intros. unfold dens2. apply sumf_ext. intros a _. apply sumf_ext. intros b _. f_equal. now apply two_body_ext. Qed.
Lemma dens1_add : forall k (v w : nat -> nat -> K) psi,
  dens1 k (fun i j => v i j + w i j) psi = dens1 k v psi + dens1 k w psi.
Proof.
  intros. unfold dens1. rewrite <- sumf_add. apply sumf_ext. intros a _. rewrite <- sumf_add. apply sumf_ext. intros b _.
  rewrite one_body_add. ring.
Qed.
Lemma dens2_add : forall k (v w : nat -> nat -> nat -> nat -> K) psi,
  dens2 k (fun i j p q => v i j p q + w i j p q) psi = dens2 k v psi + dens2 k w psi.
Proof.
  intros. unfold dens2. rewrite <- sumf_add. apply sumf_ext. intros a _. rewrite <- sumf_add. apply sumf_ext. intros b _.
  rewrite two_body_add. ring.
Qed.
Lemma dens1_e1 : forall k p q psi, (p < k)%nat -> (q < k)%nat -> dens1 (K := K) k (e1 p q) psi = rdm1 psi p q.
Proof.
  intros. unfold dens1, rdm1, expect. apply sumf_ext. intros a _. apply sumf_ext. intros b _. now rewrite one_body_e1.
Qed.
Lemma dens2_e2 : forall k p q r s psi, (p < k)%nat -> (q < k)%nat -> (r < k)%nat -> (s < k)%nat ->
  dens2 (K := K) k (e2 p q r s) psi = rdm2 psi p q r s.
Proof.
  intros. unfold dens2, rdm2, expect. apply sumf_ext. intros a _. apply sumf_ext. intros b _. now rewrite two_body_e2.
Qed.

(** an orbital by spatial orbital and spin *)
Lemma spin_split : forall n p i, (p < n)%nat -> (i < 2 * n)%nat ->
  Nat.eqb p i = (up n i && Nat.eqb p (place n i))%bool /\
  Nat.eqb (p + n) i = (negb (up n i) && Nat.eqb p (place n i))%bool.
Proof.
  intros n p i Hp Hi. unfold place, up. destruct (Nat.ltb_spec i n); cbn [negb andb]; split; auto.
  - apply Nat.eqb_neq. lia.
  - apply Nat.eqb_neq. lia.
  - apply Bool.eq_iff_eq_true. rewrite !Nat.eqb_eq. lia.
Qed.
End Entries.
