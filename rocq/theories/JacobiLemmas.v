From Coq Require Import List ZArith NArith Arith Bool Lia.
From Verif Require Import Py BitSpec BitLemmas Fock FockLemmas Slater SlaterBits SlaterBits2 SignLemmas Alg WfnCI Composite OrbSpec OrbLemmas Jacobi.
Import ListNotations.

Lemma excite2 : forall n x y, bit n x = true -> bit n y = false -> excite (Some n) [x; y] = Ok (Some (flip (flip n x) y)).
Proof.
  intros n x y B C. assert (x <> y) by congruence. unfold excite. cbn [length Nat.modulo Nat.divmod Nat.eqb negb fst snd Nat.sub Nat.div firstn skipn].
  rewrite annihilate_one by auto. rewrite create_one, bit_flip_neq, C by auto. reflexivity.
Qed.
Lemma excite4 : forall n i k j l, NoDup [i; k; j; l] -> bit n i = true -> bit n k = true -> bit n j = false -> bit n l = false ->
  excite (Some n) [i; k; j; l] = Ok (Some (flip (flip (flip (flip n i) j) k) l)).
Proof.
  intros n i k j l D Bi Bk Bj Bl. inversion D as [|? ? D1 D2]; subst. inversion D2 as [|? ? D3 D4]; subst. inversion D4 as [|? ? D5 D6]; subst.
  cbn [In] in *. unfold excite. cbn [length Nat.modulo Nat.divmod Nat.eqb negb fst snd Nat.sub Nat.div firstn skipn].
  assert (A : annihilate (Some n) [i; k] = Some (flip (flip n i) k)).
  { cbn [annihilate]. rewrite !occ_bit, Bi. cbn [negb]. fold (flip n i). rewrite bit_flip_neq, Bk by (intro; subst; tauto). reflexivity. }
  rewrite A. f_equal.
  assert (C : forall m a b, a <> b -> bit m a = false -> bit m b = false -> create (Some m) [a; b] = Some (flip (flip m a) b)).
  { intros m a b H Ba Bb. assert (E : create (Some m) [a; b] = match create (Some m) [a] with None => None | Some k => create (Some k) [b] end).
    { cbn [create]. destruct (negb (occ (Some m) a)); reflexivity. }
    rewrite E, create_one, Ba, create_one, bit_flip_neq, Bb by auto. reflexivity. }
  rewrite C; try tauto.
  - f_equal. rewrite (flip_comm (flip n i) k j). reflexivity.
  - intro; subst; tauto.
  - rewrite !bit_flip_neq by (intro; subst; tauto). auto.
  - rewrite !bit_flip_neq by (intro; subst; tauto). auto.
Qed.

Section Jac.
Context {K : CRing}.
Local Open Scope cr_scope.
Add Ring K_ring84 : (rth K).
Definition eps (b : bool) : K := if b then 1 else - (1).
(** the sign of moving the electron of orbital p or q to the other one *)
Definition msign (n : N) (p q : nat) : K := sg (xorb (xorb (par n p) (par n q)) (bit n p)).
Lemma swap_sign_value : forall n p q, (p < q)%nat -> bit n p <> bit n q ->
  (bit n p = true -> swap_sign (K := K) n p q = Ok (msign n p q)) /\ (bit n q = true -> swap_sign (K := K) n q p = Ok (msign n p q)).
Proof.
  intros n p q H D. split; intros B; unfold swap_sign; rewrite sign_swap_ok by auto; cbn [bind]; rewrite sgnr_sgn, jumped_par by (auto; lia); unfold msign; do 2 f_equal.
  - rewrite (proj2 (Nat.ltb_lt p q)) by auto. rewrite B in *. destruct (bit n q); [congruence|]. reflexivity.
  - rewrite (proj2 (Nat.ltb_ge q p)) by lia. rewrite B in *. destruct (bit n p); [congruence|]. destruct (par n p), (par n q); reflexivity.
Qed.
Lemma rotf_msign : forall p q c s f n, (p < q)%nat -> rotf p q c s f n =
  if Bool.eqb (bit n p) (bit n q) then f n else c * f n + eps (bit n p) * s * (msign n p q * f (flip (flip n p) q)).
Proof.
  intros p q c s f n H. rewrite rotf_value by auto. unfold msign, eps. destruct (bit n p), (bit n q); cbn [Bool.eqb]; try reflexivity.
  - rewrite xorb_true_r, negb_xorb_r. ring.
  - rewrite xorb_false_r. ring.
Qed.

Variable (w : jac K) (f : N -> K).
Hypothesis F : forall m, get_olp (j_wfn w) m = Ok (f m).
Hypothesis PQ : (j_p w < j_q w)%nat.
Let p := j_p w.
Let q := j_q w.
Let ns := Z.to_nat (j_ns w).

Lemma excited_value : forall n x y, bit n x = true -> bit n y = false -> excited w n [x; y] = Ok (f (flip (flip n x) y)).
Proof. intros n x y B C. unfold excited. rewrite excite2 by auto. cbn [bind wfn_at]. apply F. Qed.
Lemma one_move_value : forall n a b m i j x y s, swap_sign (K := K) m i j = Ok s -> bit n x = true -> bit n y = false ->
  one_move w n a b m i j x y = Ok (a * f n + s * b * f (flip (flip n x) y)).
Proof.
  intros n a b m i j x y s S B C. unfold one_move. rewrite S. cbn [bind wfn_at]. rewrite F. cbn [bind]. rewrite excited_value by auto. reflexivity.
Qed.
Definition single (n : N) (x y : nat) (a b : K) : K := a * f n + eps (bit n x) * b * (msign n x y * f (flip (flip n x) y)).

Lemma branches_plain : forall n same a1 b1 a2 b2 c2, j_orb w <> Restricted ->
  branches w n same a1 b1 a2 b2 c2 = if Bool.eqb (bit n p) (bit n q) then same else Ok (single n p q a1 b1).
Proof.
  intros n same a1 b1 a2 b2 c2 O. unfold branches. fold p q. rewrite !occ_bit. unfold single.
  assert (G : (if Bool.eqb (bit n p) (bit n q) then same else if bit n p && negb (bit n q) then one_move w n a1 b1 n p q p q else one_move w n a1 (- b1) n q p q p)
      = if Bool.eqb (bit n p) (bit n q) then same else Ok (a1 * f n + eps (bit n p) * b1 * (msign n p q * f (flip (flip n p) q)))).
  { destruct (bit n p) eqn:B, (bit n q) eqn:C; cbn [Bool.eqb andb negb]; try reflexivity.
    - rewrite (one_move_value n a1 b1 n p q p q (msign n p q)); auto; [f_equal; cbn [eps]; ring|]. apply swap_sign_value; auto. congruence.
    - rewrite (one_move_value n a1 (- b1) n q p q p (msign n p q)); auto; [f_equal; rewrite (flip_comm n q p); cbn [eps]; ring|].
      apply swap_sign_value; auto. congruence. }
  destruct (j_orb w); [congruence|exact G|exact G].
Qed.

Lemma branches_restricted : forall n same a1 b1 a2 b2 c2, j_orb w = Restricted -> (0 < j_ns w)%Z -> (q < ns)%nat ->
  let p' := (p + ns)%nat in let q' := (q + ns)%nat in
  branches w n same a1 b1 a2 b2 c2 =
  if Bool.eqb (bit n p) (bit n q) then if Bool.eqb (bit n p') (bit n q') then same else Ok (single n p' q' a1 b1)
  else if Bool.eqb (bit n p') (bit n q') then Ok (single n p q a1 b1)
  else Ok (a2 * f n + (eps (bit n p) * (msign n p q * f (flip (flip n p) q)) + eps (bit n p') * (msign n p' q' * f (flip (flip n p') q'))) * b2
           + eps (bit n p) * eps (bit n p') * (msign n p q * msign n p' q' * c2 * f (flip (flip (flip (flip n p) q) p') q'))).
Proof.
  intros n same a1 b1 a2 b2 c2 O N0 Q p' q'. unfold branches. rewrite O. destruct (split_spin_ok n (j_ns w) N0) as (al & be & E & HA & HB). rewrite E. cbn [bind fst snd].
  fold p q. fold ns. fold ns in HA, HB. fold p' q'. assert (PQ0 : (p < q)%nat) by exact PQ.
  assert (Ap : bit al p = bit n p) by (rewrite HA, (proj2 (Nat.ltb_lt p ns)) by lia; reflexivity).
  assert (Aq : bit al q = bit n q) by (rewrite HA, (proj2 (Nat.ltb_lt q ns)) by lia; reflexivity).
  assert (Bp : bit be p = bit n p') by apply HB. assert (Bq : bit be q = bit n q') by apply HB.
  assert (MA : msign al p q = msign n p q).
  { unfold msign. rewrite Ap. do 2 f_equal. f_equal; apply par_ext; intros j Hj; rewrite HA, (proj2 (Nat.ltb_lt j ns)) by lia; reflexivity. }
  assert (MB : msign be p q = msign n p' q').
  { unfold msign. rewrite Bp.
    assert (P : forall i, par n (i + ns) = xorb (par n ns) (par be i)).
    { induction i as [|i IH]; [cbn [Nat.add]; rewrite par_0; now destruct (par n ns)|]. cbn [Nat.add]. rewrite !par_S, IH, HB. now rewrite xorb_assoc. }
    unfold p', q'. rewrite !P. f_equal. destruct (par n ns), (par be p), (par be q), (bit n (p + ns)); reflexivity. }
  rewrite !occ_bit, Ap, Aq, Bp, Bq.
  pose proof (swap_sign_value al p q PQ0) as SA. pose proof (swap_sign_value be p q PQ0) as SB. rewrite Ap, Aq in SA. rewrite Bp, Bq in SB. rewrite MA in SA. rewrite MB in SB.
  assert (TM : forall ea eb i j k l sa sb, NoDup [i; (k + ns)%nat; j; (l + ns)%nat] -> swap_sign al i j = Ok sa -> swap_sign be k l = Ok sb ->
     bit n i = true -> bit n (k + ns) = true -> bit n j = false -> bit n (l + ns) = false ->
     two_moves w n al be a2 b2 c2 ea eb i j k l = Ok (a2 * f n + (ea * sa * f (flip (flip n i) j) + eb * sb * f (flip (flip n (k + ns)) (l + ns))) * b2
        + ea * eb * (sa * sb * c2 * f (flip (flip (flip (flip n i) j) (k + ns)) (l + ns))))).
  { intros ea eb i j k l sa sb D S1 S2 X1 X2 X3 X4. unfold two_moves. rewrite S1, S2. cbn [bind]. change (wfn_at w (Some n)) with (get_olp (j_wfn w) n). rewrite F. cbn [bind]. fold ns.
    rewrite !excited_value by auto. cbn [bind]. unfold excited. rewrite excite4 by auto. cbn [bind wfn_at]. rewrite F. reflexivity. }
  assert (DD : NoDup [p; p'; q; q'] /\ NoDup [p; q'; q; p'] /\ NoDup [q; p'; p; q'] /\ NoDup [q; q'; p; p']).
  { unfold p', q'. repeat split; repeat constructor; cbn [In]; lia. }
  destruct DD as (D1 & D2 & D3 & D4). unfold single.
  assert (SA1 : bit n p = true -> bit n q = false -> swap_sign al p q = Ok (msign n p q)) by (intros U V; apply SA; congruence).
  assert (SA2 : bit n p = false -> bit n q = true -> swap_sign al q p = Ok (msign n p q)) by (intros U V; apply SA; congruence).
  assert (SB1 : bit n p' = true -> bit n q' = false -> swap_sign be p q = Ok (msign n p' q')) by (intros U V; apply SB; congruence).
  assert (SB2 : bit n p' = false -> bit n q' = true -> swap_sign be q p = Ok (msign n p' q')) by (intros U V; apply SB; congruence).
  clear SA SB E HA HB MA MB.
  destruct (bit n p) eqn:X1, (bit n q) eqn:X2, (bit n p') eqn:X3, (bit n q') eqn:X4; cbn [Bool.eqb andb negb]; try reflexivity.
  all: first
    [ rewrite (one_move_value n _ _ _ _ _ _ _ (msign n p' q')) by auto
    | rewrite (one_move_value n _ _ _ _ _ _ _ (msign n p q)) by auto
    | rewrite (TM _ _ _ _ _ _ (msign n p q) (msign n p' q')) by auto ].
  all: fold p' q'; rewrite ?(flip_comm n q p), ?(flip_comm n q' p'), ?(flip_comm (flip (flip n p) q) q' p'); f_equal; cbn [eps]; ring.
Qed.
End Jac.
