From Coq Require Import Ring_theory List ZArith NArith Bool Lia Arith Permutation Sorted.
From Verif Require Import Py Alg Fock PermLemmas HamSpec HamGen HamRot HamRotLemmas HamRotMat HamRotAssign HamRotTaylor DerivSpec DerivHams.
Import ListNotations.

Section DT.
Context {K : CField}.
Local Open Scope cr_scope.
Add Ring K_ring34 : (rth K).

(** ** polynomials *)
Fixpoint padd (a b : list K) : list K := match a, b with [], _ => b | _, [] => a | x :: a, y :: b => (x + y) :: padd a b end.
Definition pscale (c : K) (a : list K) : list K := map (fun x => c * x) a.
Fixpoint pmul (a b : list K) : list K := match a with [] => [] | x :: a => padd (pscale x b) (0 :: pmul a b) end.
Lemma horner_add : forall a b e, horner (padd a b) e = horner a e + horner b e.
Proof. induction a as [|x a IH]; intros [|y b] e; cbn [padd horner]; try rewrite IH; ring. Qed.
Lemma horner_scale : forall c a e, horner (pscale c a) e = c * horner a e.
Proof. intros c a e. unfold pscale. induction a as [|x a IH]; cbn [map horner]; [|rewrite IH]; ring. Qed.
Lemma horner_mul : forall a b e, horner (pmul a b) e = horner a e * horner b e.
Proof. induction a as [|x a IH]; intros b e; cbn [pmul horner]; [ring|]. rewrite horner_add, horner_scale. cbn [horner]. rewrite IH. ring. Qed.

Lemma tan_ext : forall (F G : K -> K) a v, tangent F a v -> (forall e, G e = F e) -> tangent G a v.
Proof. intros F G a v (cs & H) E. exists cs. intros e. now rewrite E, H. Qed.
Lemma tan_const : forall c : K, tangent (fun _ => c) c 0.
Proof. intros c. exists []. intros e. cbn [horner]. ring. Qed.
Lemma tan_id : forall a v : K, tangent (fun e => a + e * v) a v.
Proof. intros a v. exists []. intros e. cbn [horner]. ring. Qed.
Lemma tan_add : forall (F G : K -> K) a v b w, tangent F a v -> tangent G b w -> tangent (fun e => F e + G e) (a + b) (v + w).
Proof. intros F G a v b w (cs & H) (ds & I). exists (padd cs ds). intros e. rewrite H, I, horner_add. ring. Qed.
Lemma tan_mul : forall (F G : K -> K) a v b w, tangent F a v -> tangent G b w -> tangent (fun e => F e * G e) (a * b) (v * b + a * w).
Proof.
  intros F G a v b w (cs & H) (ds & I).
  exists (padd (padd (pscale a ds) (pscale b cs)) (padd [v * w] (padd (0 :: padd (pscale v ds) (pscale w cs)) (0 :: 0 :: pmul cs ds)))).
  intros e. rewrite H, I, !horner_add. cbn [horner]. rewrite !horner_add, !horner_scale, horner_mul. ring.
Qed.
Lemma tan_mul_r : forall (F : K -> K) a v c, tangent F a v -> tangent (fun e => F e * c) (a * c) (v * c).
Proof. intros F a v c H. assert (X := tan_mul F (fun _ => c) a v c 0 H (tan_const c)). replace (v * c) with (v * c + a * 0) by ring. exact X. Qed.
Lemma tan_mul_l : forall (F : K -> K) a v c, tangent F a v -> tangent (fun e => c * F e) (c * a) (c * v).
Proof. intros F a v c H. replace (c * a) with (a * c) by ring. replace (c * v) with (v * c) by ring. eapply tan_ext; [apply tan_mul_r with (c := c); exact H|]. intros; cbv beta; ring. Qed.
Lemma tan_sum {A} : forall (F : K -> A -> K) (f g : A -> K) l, (forall i, In i l -> tangent (fun e => F e i) (f i) (g i)) ->
  tangent (fun e => sumf (F e) l) (sumf f l) (sumf g l).
Proof.
  intros F f g l. induction l as [|i l IH]; intros H.
  - exact (tan_const 0).
  - rewrite !sumf_cons. eapply tan_ext; [apply (tan_add (fun e => F e i) (fun e => sumf (F e) l)); [apply H; now left|apply IH; intros; apply H; now right]|].
    intros e. now rewrite sumf_cons.
Qed.
Lemma tan_at0 : forall (F : K -> K) a v, tangent F a v -> F 0 = a.
Proof. intros F a v (cs & H). rewrite H. ring. Qed.

(** ** contraction with a rotating matrix *)
Section R.
Variables (n x y : nat) (U : K -> nat -> nat -> K).
Hypotheses (HU : rotates n x y U) (Hx : (x < n)%nat) (Hy : (y < n)%nat).

Lemma sum_gen : forall (f : nat -> K) p, (p < n)%nat -> x <> y -> sumf (fun i => f i * gen_xy x y i p) (seq 0 n) = dl x y f p.
Proof.
  intros f p Hp XY. unfold gen_xy, dl.
  rewrite (sumf_ext _ (fun i => (if (Nat.eqb i x && Nat.eqb p y)%bool then f i else 0) - (if (Nat.eqb i y && Nat.eqb p x)%bool then f i else 0)))
    by (intros i _; destruct (Nat.eqb i x), (Nat.eqb i y), (Nat.eqb p x), (Nat.eqb p y); cbn; ring).
  rewrite sumf_sub. f_equal.
  - destruct (Nat.eqb p y).
    + rewrite (sumf_single _ _ x); [now rewrite Nat.eqb_refl|apply seq_NoDup|apply in_seq; lia|]. intros i _ N. destruct (Nat.eqb_spec i x); [contradiction|reflexivity].
    + apply sumf_zero. intros. now rewrite andb_false_r.
  - destruct (Nat.eqb p x).
    + rewrite (sumf_single _ _ y); [now rewrite Nat.eqb_refl|apply seq_NoDup|apply in_seq; lia|]. intros i _ N. destruct (Nat.eqb_spec i y); [contradiction|reflexivity].
    + apply sumf_zero. intros. now rewrite andb_false_r.
Qed.
Lemma tan_ctr : forall (F : K -> nat -> K) f g p, x <> y -> (p < n)%nat -> (forall i, (i < n)%nat -> tangent (fun e => F e i) (f i) (g i)) ->
  tangent (fun e => ctr n (F e) (U e) p) (f p) (g p + dl x y f p).
Proof.
  intros F f g p XY Hp H. unfold ctr.
  assert (X := tan_sum (fun e i => F e i * U e i p) (fun i => f i * (if Nat.eqb i p then 1 else 0)) (fun i => g i * (if Nat.eqb i p then 1 else 0) + f i * gen_xy x y i p) (seq 0 n)).
  cbv beta in X. rewrite sumf_add, sum_gen in X by auto.
  assert (D : forall q : nat -> K, sumf (fun i => q i * (if Nat.eqb i p then 1 else 0)) (seq 0 n) = q p).
  { intros q. rewrite (sumf_single _ _ p); [rewrite Nat.eqb_refl; ring|apply seq_NoDup|apply in_seq; lia|]. intros i _ N. destruct (Nat.eqb_spec i p); [contradiction|ring]. }
  rewrite !D in X. apply X. intros i Hi. apply in_seq in Hi. apply (tan_mul (fun e => F e i) (fun e => U e i p)); [apply H; lia|apply HU; lia].
Qed.
End R.
Lemma tan_ctr_id : forall n (U : K -> nat -> nat -> K) (F : K -> nat -> K) f g p, stays n U -> (p < n)%nat -> (forall i, (i < n)%nat -> tangent (fun e => F e i) (f i) (g i)) ->
  tangent (fun e => ctr n (F e) (U e) p) (f p) (g p).
Proof.
  intros n U F f g p S Hp H. eapply tan_ext; [apply (H p Hp)|]. intros e. cbv beta. rewrite <- (ctr_ident n (F e) p Hp). apply ctr_ext_m.
  intros i Hi. rewrite S by auto. reflexivity.
Qed.

Section Rot.
Variables (n x y : nat) (U V : K -> nat -> nat -> K).
Hypotheses (HU : rotates n x y U) (HV : stays n V) (Hx : (x < n)%nat) (Hy : (y < n)%nat) (XY : x <> y).
Lemma tan_rot1 : forall (h : nat -> nat -> K) p q, (p < n)%nat -> (q < n)%nat ->
  tangent (fun e => rot1 n h (U e) (U e) p q) (h p q) (d1 x y h p q).
Proof.
  intros h p q Hp Hq. eapply tan_ext; [|intros e; apply rot1_E]. unfold d1.
  apply (tan_ctr n x y U HU Hx Hy (fun e j => ctr n (fun i => h i j) (U e) p) (fun j => h p j) (fun j => dl x y (fun i => h i j) p)); auto.
  intros j Hj. assert (X := tan_ctr n x y U HU Hx Hy (fun e i => h i j) (fun i => h i j) (fun _ => 0) p XY Hp (fun i _ => tan_const _)). cbv beta in X.
  replace (dl x y (fun i => h i j) p) with (0 + dl x y (fun i => h i j) p) by ring. exact X.
Qed.
Lemma tan_rot1_id : forall (h : nat -> nat -> K) p q, (p < n)%nat -> (q < n)%nat ->
  tangent (fun e => rot1 n h (V e) (V e) p q) (h p q) 0.
Proof.
  intros h p q Hp Hq. eapply tan_ext; [|intros e; apply rot1_E].
  apply (tan_ctr_id n V (fun e j => ctr n (fun i => h i j) (V e) p) (fun j => h p j) (fun j => 0)); auto.
  intros j Hj. apply (tan_ctr_id n V (fun e i => h i j) (fun i => h i j) (fun _ => 0)); auto. intros; apply tan_const.
Qed.
(** each index rotates or stays *)
Definition pick_m (b : bool) : K -> nat -> nat -> K := if b then U else V.
Definition dlb (b : bool) (f : nat -> K) (p : nat) : K := if b then dl x y f p else 0.
Lemma tan_pick : forall b (F : K -> nat -> K) f g p, (p < n)%nat -> (forall i, (i < n)%nat -> tangent (fun e => F e i) (f i) (g i)) ->
  tangent (fun e => ctr n (F e) (pick_m b e) p) (f p) (g p + dlb b f p).
Proof.
  intros [] F f g p Hp H; cbn [pick_m dlb].
  - now apply tan_ctr.
  - replace (g p + 0) with (g p) by ring. now apply tan_ctr_id.
Qed.
Lemma tan_rot2 : forall (g : nat -> nat -> nat -> nat -> K) b1 b2 b3 b4 p q r s, (p < n)%nat -> (q < n)%nat -> (r < n)%nat -> (s < n)%nat ->
  tangent (fun e => rot2 n g (pick_m b1 e) (pick_m b2 e) (pick_m b3 e) (pick_m b4 e) p q r s) (g p q r s)
    (0 + dlb b1 (fun i => g i q r s) p + dlb b2 (fun i => g p i r s) q + dlb b3 (fun i => g p q i s) r + dlb b4 (fun i => g p q r i) s).
Proof.
  intros g b1 b2 b3 b4 p q r s Hp Hq Hr Hs. eapply tan_ext; [|intros e; apply rot2_E]. unfold E4, E3, E2, E1.
  apply (tan_pick b4 (fun e l => ctr n (fun k => ctr n (fun j => ctr n (fun i => g i j k l) (pick_m b1 e) p) (pick_m b2 e) q) (pick_m b3 e) r)
    (fun l => g p q r l) (fun l => 0 + dlb b1 (fun i => g i q r l) p + dlb b2 (fun i => g p i r l) q + dlb b3 (fun i => g p q i l) r)); auto. intros l Hl.
  apply (tan_pick b3 (fun e k => ctr n (fun j => ctr n (fun i => g i j k l) (pick_m b1 e) p) (pick_m b2 e) q)
    (fun k => g p q k l) (fun k => 0 + dlb b1 (fun i => g i q k l) p + dlb b2 (fun i => g p i k l) q)); auto. intros k Hk.
  apply (tan_pick b2 (fun e j => ctr n (fun i => g i j k l) (pick_m b1 e) p) (fun j => g p j k l) (fun j => 0 + dlb b1 (fun i => g i j k l) p)); auto. intros j Hj.
  apply (tan_pick b1 (fun e i => g i j k l) (fun i => g i j k l) (fun _ => 0)); auto. intros; apply tan_const.
Qed.
Lemma tan_rot2_all : forall g p q r s, (p < n)%nat -> (q < n)%nat -> (r < n)%nat -> (s < n)%nat ->
  tangent (fun e => rot2 n g (U e) (U e) (U e) (U e) p q r s) (g p q r s) (d2 x y g p q r s).
Proof. intros g p q r s Hp Hq Hr Hs. assert (X := tan_rot2 g true true true true p q r s Hp Hq Hr Hs). cbn [pick_m dlb] in X.
  replace (d2 x y g p q r s) with (0 + dl x y (fun i => g i q r s) p + dl x y (fun i => g p i r s) q + dl x y (fun i => g p q i s) r + dl x y (fun i => g p q r i) s) by (unfold d2, d2a, d2b; ring). exact X. Qed.
Lemma tan_rot2_a : forall g p q r s, (p < n)%nat -> (q < n)%nat -> (r < n)%nat -> (s < n)%nat ->
  tangent (fun e => rot2 n g (U e) (V e) (U e) (V e) p q r s) (g p q r s) (d2a x y g p q r s).
Proof. intros g p q r s Hp Hq Hr Hs. assert (X := tan_rot2 g true false true false p q r s Hp Hq Hr Hs). cbn [pick_m dlb] in X.
  replace (d2a x y g p q r s) with (0 + dl x y (fun i => g i q r s) p + 0 + dl x y (fun i => g p q i s) r + 0) by (unfold d2a; ring). exact X. Qed.
Lemma tan_rot2_b : forall g p q r s, (p < n)%nat -> (q < n)%nat -> (r < n)%nat -> (s < n)%nat ->
  tangent (fun e => rot2 n g (V e) (U e) (V e) (U e) p q r s) (g p q r s) (d2b x y g p q r s).
Proof. intros g p q r s Hp Hq Hr Hs. assert (X := tan_rot2 g false true false true p q r s Hp Hq Hr Hs). cbn [pick_m dlb] in X.
  replace (d2b x y g p q r s) with (0 + 0 + dl x y (fun i => g p i r s) q + 0 + dl x y (fun i => g p q r i) s) by (unfold d2b; ring). exact X. Qed.
Lemma tan_rot2_id : forall g p q r s, (p < n)%nat -> (q < n)%nat -> (r < n)%nat -> (s < n)%nat ->
  tangent (fun e => rot2 n g (V e) (V e) (V e) (V e) p q r s) (g p q r s) 0.
Proof. intros g p q r s Hp Hq Hr Hs. assert (X := tan_rot2 g false false false false p q r s Hp Hq Hr Hs). cbn [pick_m dlb] in X.
  replace (0 : K) with (0 + 0 + 0 + 0 + 0 : K) by ring. exact X. Qed.
End Rot.

Lemma tan_one_body : forall k (F : K -> nat -> nat -> K) f g m n, (forall i j, (i < k)%nat -> (j < k)%nat -> tangent (fun e => F e i j) (f i j) (g i j)) ->
  tangent (fun e => one_body k (F e) m n) (one_body k f m n) (one_body k g m n).
Proof.
  intros k F f g m n H. unfold one_body. apply tan_sum. intros i Hi. apply in_seq in Hi. apply tan_sum. intros j Hj. apply in_seq in Hj.
  apply (tan_mul_r (fun e => F e i j)). apply H; lia.
Qed.
Lemma tan_two_body : forall k (F : K -> nat -> nat -> nat -> nat -> K) f g m n,
  (forall i j p q, (i < k)%nat -> (j < k)%nat -> (p < k)%nat -> (q < k)%nat -> tangent (fun e => F e i j p q) (f i j p q) (g i j p q)) ->
  tangent (fun e => two_body k (F e) m n) (two_body k f m n) (two_body k g m n).
Proof.
  intros k F f g m n H. unfold two_body. apply tan_sum. intros i Hi. apply in_seq in Hi. apply tan_sum. intros j Hj. apply in_seq in Hj.
  apply tan_sum. intros p Hp. apply in_seq in Hp. apply tan_sum. intros q Hq. apply in_seq in Hq.
  apply (tan_mul_r (fun e => F e i j p q)). apply H; lia.
Qed.
End DT.

Section DTF.
Context {K : CField}.
Local Open Scope cr_scope.
Add Ring K_ring35 : (rth K).
Lemma tan_ham_elem : forall k (F : K -> nat -> nat -> K) f g (F2 : K -> nat -> nat -> nat -> nat -> K) f2 g2 m n,
  (forall i j, (i < k)%nat -> (j < k)%nat -> tangent (fun e => F e i j) (f i j) (g i j)) ->
  (forall i j p q, (i < k)%nat -> (j < k)%nat -> (p < k)%nat -> (q < k)%nat -> tangent (fun e => F2 e i j p q) (f2 i j p q) (g2 i j p q)) ->
  tangent (fun e => ham_elem k (F e) (F2 e) m n) (ham_elem k f f2 m n) (ham_elem k g g2 m n).
Proof.
  intros. unfold ham_elem. apply tan_add; [now apply tan_one_body|]. apply tan_mul_l. now apply tan_two_body.
Qed.

(** the derivative is unique in characteristic 0 *)
Fixpoint hs (r : K) (cs : list K) : list K := match cs with [] => [] | _ :: t => horner cs r :: hs r t end.
Lemma hs_len : forall r cs, length (hs r cs) = length cs.
Proof. induction cs; cbn; auto. Qed.
Lemma hs_div : forall (r c : K) t e, horner (c :: t) e = (e - r) * horner (hs r t) e + horner (c :: t) r.
Proof.
  intros r c t e. revert c. induction t as [|c' t IH]; intros c; [cbn [horner hs]; ring|].
  change (horner (c :: c' :: t) e) with (c + e * horner (c' :: t) e). change (horner (c :: c' :: t) r) with (c + r * horner (c' :: t) r).
  change (horner (hs r (c' :: t)) e) with (horner (c' :: t) r + e * horner (hs r t) e). rewrite IH. ring.
Qed.
Lemma horner_zero : forall (cs : list K) e, Forall (fun c => c = 0) cs -> horner cs e = 0.
Proof. intros cs e H. induction H as [|c cs -> H IH]; cbn [horner]; [|rewrite IH]; ring. Qed.
Lemma hs_zero : forall (r : K) cs, Forall (fun c => c = 0) (hs r cs) -> Forall (fun c => c = 0) cs.
Proof.
  induction cs as [|c cs IH]; intros H; auto. cbn [hs] in H. inversion H as [|? ? A B]; subst. apply IH in B. constructor; auto.
  cbn [horner] in A. rewrite (horner_zero cs r B) in A. rewrite <- A. ring.
Qed.
Lemma roots : forall (cs rs : list K), length rs = length cs -> NoDup rs -> (forall r, In r rs -> horner cs r = 0) -> Forall (fun c => c = 0) cs.
Proof.
  intros cs. remember (length cs) as k eqn:Hk. revert cs Hk. induction k as [|k IH]; intros [|c t] Hk rs L N H; try discriminate; auto.
  destruct rs as [|r rs]; [discriminate|]. cbn in Hk, L. injection Hk as ->. injection L as L. inversion N as [|? ? Nr N']; subst.
  assert (Z : Forall (fun c => c = 0) (hs r t)).
  { apply (IH (hs r t)) with (rs := rs); auto.
    - now rewrite hs_len.
    - intros s Hs. assert (E := hs_div r c t s). rewrite (H s), (H r) in E by (simpl; auto).
      assert (D : s - r <> 0). { intros D. apply Nr. replace r with s; auto. replace s with (s - r + r) by ring. rewrite D. ring. }
      replace (horner (hs r t) s) with (finv (s - r) * (s - r) * horner (hs r t) s) by (rewrite f_inv by auto; ring).
      transitivity (finv (s - r) * ((s - r) * horner (hs r t) s + 0)); [ring|]. rewrite <- E. ring. }
  apply hs_zero in Z. constructor; auto. assert (E := H r (or_introl eq_refl)). cbn [horner] in E. rewrite horner_zero in E by auto. rewrite <- E. ring.
Qed.
Lemma nat_r_inj : (forall k, nat_r (K := K) (S k) <> 0) -> forall i j, nat_r (K := K) i = nat_r j -> i = j.
Proof.
  intros C. assert (X : forall i d, nat_r (K := K) i = nat_r (i + S d) -> False).
  { intros i d E. rewrite nat_r_add in E. apply (C d). replace (nat_r (K := K) (S d)) with (nat_r i + nat_r (S d) - nat_r (K := K) i) by ring. rewrite <- E. ring. }
  intros i j E. destruct (Nat.lt_trichotomy i j) as [L|[L|L]]; auto; exfalso.
  - apply (X i (j - i - 1)%nat). replace (i + S (j - i - 1))%nat with j by lia. exact E.
  - apply (X j (i - j - 1)%nat). replace (j + S (i - j - 1))%nat with i by lia. congruence.
Qed.
Lemma tangent_unique : (forall k, nat_r (K := K) (S k) <> 0) -> forall (F : K -> K) a v b w, tangent F a v -> tangent F b w -> a = b /\ v = w.
Proof.
  intros C F a v b w H I. assert (a = b) by (rewrite <- (tan_at0 _ _ _ H), <- (tan_at0 _ _ _ I); auto). split; auto. subst b.
  destruct H as (cs & H), I as (ds & I).
  set (ps := (a - a) :: (v - w) :: padd cs (pscale (- (1)) ds)).
  assert (Z : Forall (fun c => c = 0) ps).
  { apply (roots ps (map (nat_r (K := K)) (seq 0 (length ps)))).
    - now rewrite map_length, seq_length.
    - apply FinFun.Injective_map_NoDup; [|apply seq_NoDup]. intros i j. now apply nat_r_inj.
    - intros r _. unfold ps. cbn [horner]. rewrite horner_add, horner_scale. assert (E := H r). rewrite I in E.
      transitivity ((a + r * (v + r * horner cs r)) - (a + r * (w + r * horner ds r))); [ring|]. rewrite E. ring. }
  inversion Z as [|? ? _ Z']; subst. inversion Z' as [|? ? E _]; subst. replace v with (v - w + w) by ring. rewrite E. ring.
Qed.
End DTF.
