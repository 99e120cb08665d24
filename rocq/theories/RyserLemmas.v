(** The Gray code loop of permanent_ryser. *)
From Coq Require Import List ZArith Bool Lia Arith Permutation.
From Verif Require Import Py Slater Alg Graphs MathTools BicliqueLemmas Combos PermLemmas.
Import ListNotations.

(** ** the Gray code of a counter (least significant bit first) *)
Fixpoint gray (b : list bool) : list bool :=
  match b with [] => [] | x :: t => xorb x (hd false t) :: gray t end.
Lemma gray_length : forall b, length (gray b) = length b.
Proof. induction b; simpl; auto. Qed.
Lemma gray_inj : forall a b, gray a = gray b -> a = b.
Proof.
  induction a as [|x a IH]; intros [|y b] H; try discriminate; auto. simpl in H. injection H as H1 H2.
  apply IH in H2. subst b. f_equal. destruct x, y, (hd false a); auto; discriminate.
Qed.
Lemma cvecs_In : forall n b, In b (cvecs n) <-> length b = n.
Proof.
  induction n as [|n IH]; intros b; cbn [cvecs].
  - split; [intros [<-|[]]; auto|]. destruct b; [now left|discriminate].
  - rewrite in_flat_map. split.
    + intros (t & Ht & H). apply IH in Ht. destruct H as [<-|[<-|[]]]; simpl; auto.
    + intros L. destruct b as [|x t]; [discriminate|]. exists t. split; [apply IH; auto|]. destruct x; simpl; auto.
Qed.
Lemma cvecs_NoDup : forall n, NoDup (cvecs n).
Proof.
  induction n as [|n IH]; cbn [cvecs]; [repeat constructor; auto|].
  induction IH as [|t l Ht N IHl]; cbn [flat_map]; [constructor|].
  cbn [app]. constructor; [|constructor]; auto.
  - intros [H|H]; [discriminate|]. apply in_flat_map in H as (u & Hu & [E|[E|[]]]); [injection E as ->; auto|discriminate].
  - intros H. apply in_flat_map in H as (u & Hu & [E|[E|[]]]); [discriminate|injection E as ->; auto].
Qed.
Lemma cvecs_length : forall n, length (cvecs n) = 2 ^ n.
Proof.
  induction n as [|n IH]; [reflexivity|]. cbn [cvecs]. rewrite Nat.pow_succ_r', <- IH. clear IH.
  induction (cvecs n) as [|t l IHl]; [reflexivity|]. cbn [flat_map app length]. lia.
Qed.
Lemma gray_perm : forall n, Permutation (map gray (cvecs n)) (cvecs n).
Proof.
  intros n. apply NoDup_Permutation_bis.
  - apply NoDup_map_inj; [|apply cvecs_NoDup]. intros a b _ _. apply gray_inj.
  - now rewrite map_length.
  - intros b H. apply in_map_iff in H as (a & <- & H). apply cvecs_In in H. apply cvecs_In. now rewrite gray_length.
Qed.
Lemma ntrue_nfalse : forall b, ntrue b + nfalse b = length b.
Proof. induction b as [|[] b IH]; unfold ntrue, nfalse in *; simpl in *; lia. Qed.
Lemma gray_parity : forall b, Nat.odd (ntrue (gray b)) = hd false b.
Proof.
  induction b as [|x t IH]; [reflexivity|]. cbn [gray hd]. unfold ntrue in *. cbn [filter].
  destruct (xorb x (hd false t)) eqn:X; cbn [length]; [rewrite Nat.odd_succ, <- Nat.negb_odd|]; rewrite IH;
    destruct x, (hd false t); auto; discriminate.
Qed.

(** ** the counter *)
Inductive next : list bool -> list bool -> Prop :=
| next_intro : forall p t, next (repeat true p ++ false :: t) (repeat false p ++ true :: t).
(** [chain g l]: counting from [g] visits [l] and ends with all bits set *)
Inductive chain : list bool -> list (list bool) -> Prop :=
| chain_end : forall g, forallb (fun b => b) g = true -> chain g []
| chain_step : forall g g' l, next g g' -> chain g' l -> chain g (g' :: l).
Lemma chain_double : forall g l, chain g l ->
  chain (false :: g) ((true :: g) :: flat_map (fun t => [false :: t; true :: t]) l).
Proof.
  induction 1 as [g H|g g' l H C IH].
  - apply chain_step; [apply (next_intro 0)|]. now apply chain_end.
  - apply chain_step; [apply (next_intro 0)|]. cbn [flat_map app]. apply chain_step; auto.
    inversion H as [p t]; subst. apply (next_intro (S p) t).
Qed.
Lemma chain_cvecs : forall n, exists l, cvecs n = repeat false n :: l /\ chain (repeat false n) l.
Proof.
  induction n as [|n (l & E & C)]; [exists []; split; auto; now constructor|].
  cbn [cvecs]. rewrite E. cbn [flat_map app repeat]. eexists. split; [reflexivity|]. now apply chain_double.
Qed.

(** one pass of the inner loop *)
Lemma gray_for_spec : forall n p t k pos val, k + p + S (length t) = n ->
  gray_for n (seq k (n - k)) (repeat false k ++ repeat true p ++ false :: t) pos val
  = (repeat false (k + p) ++ true :: t, k + p, negb (hd false t)).
Proof.
  induction p as [|p IH]; intros t k pos val L.
  - replace (n - k) with (S (length t)) by lia. cbn [seq gray_for repeat app].
    rewrite app_nth2 by (rewrite repeat_length; lia). rewrite repeat_length, Nat.sub_diag. cbn [nth negb].
    assert (U : upd (repeat false k ++ false :: t) k true = repeat false k ++ true :: t).
    { replace k with (length (repeat false k)) at 2 by apply repeat_length. apply upd_app. }
    rewrite U. rewrite Nat.add_0_r. f_equal.
    destruct t as [|y t].
    + cbn [length] in L. replace (n - 1) with k by lia. rewrite Nat.eqb_refl.
      rewrite app_nth2 by (rewrite repeat_length; lia). rewrite repeat_length, Nat.sub_diag. reflexivity.
    + cbn [length] in L. destruct (Nat.eqb_spec k (n - 1)); [lia|].
      rewrite !app_nth2 by (rewrite repeat_length; lia). rewrite repeat_length, Nat.sub_diag.
      replace (k + 1 - k) with 1 by lia. reflexivity.
  - replace (n - k) with (S (n - S k)) by lia. cbn [seq gray_for repeat app].
    rewrite app_nth2 by (rewrite repeat_length; lia). rewrite repeat_length, Nat.sub_diag. cbn [nth negb].
    assert (U : upd (repeat false k ++ true :: repeat true p ++ false :: t) k false
                = repeat false (S k) ++ repeat true p ++ false :: t).
    { replace k with (length (repeat false k)) at 2 by apply repeat_length. rewrite upd_app.
      replace (S k) with (k + 1) by lia. rewrite repeat_app, <- app_assoc. reflexivity. }
    rewrite U. rewrite IH by lia. replace (S k + p) with (k + S p) by lia. reflexivity.
Qed.
(** the Gray code changes in one place *)
Lemma gray_next : forall p t, exists G, length G = p /\
  gray (repeat true p ++ false :: t) = G ++ hd false t :: gray t /\
  gray (repeat false p ++ true :: t) = G ++ negb (hd false t) :: gray t.
Proof.
  induction p as [|p IH]; intros t; [exists []; cbn [repeat app gray length]; destruct (hd false t); auto|]. destruct (IH t) as (G & L & E1 & E2).
  exists ((match p with O => true | S _ => false end) :: G). cbn [repeat app gray length].
  rewrite E1, E2, L. destruct p; auto.
Qed.

Section Machine.
Context {K : CField}.
Local Open Scope cr_scope.
Add Ring K_ring3 : (rth K).

Definition rowsum_of (m : nat -> nat -> K) (n : nat) (g : list bool) (i : nat) : K :=
  selsum (m i) (seq 0 n) (gray g).

Lemma selsum_app : forall (r : nat -> K) G b t a,
  selsum r (seq a (length G + S (length t))) (G ++ b :: t)
  = selsum r (seq a (length G)) G + (if b then r (a + length G)%nat else 0)
    + selsum r (seq (S (a + length G)) (length t)) t.
Proof.
  induction G as [|x G IH]; intros b t a.
  - unfold selsum. cbn [length Nat.add app seq combine]. rewrite sumf_cons. cbn [fst snd sumf fold_right].
    rewrite Nat.add_0_r. ring.
  - unfold selsum in *. cbn [length Nat.add app seq combine]. rewrite !sumf_cons. rewrite IH. cbn [fst snd].
    replace (S a + length G)%nat with (a + S (length G))%nat by lia. ring.
Qed.

Lemma ryser_while_spec : forall n m, (0 < n)%nat -> forall g l, chain g l -> length g = n ->
  forall fuel pos val rs sign acc, (length l < fuel)%nat ->
  (forall i, rs i = rowsum_of m n g i) -> sign = xorb (Nat.odd n) (hd false g) ->
  ryser_while n fuel m g pos val rs sign acc
  = Some (acc + sumf (fun b => m1pow (n + ntrue (gray b)) * prodf (rowsum_of m n b) (seq 0 n)) l).
Proof.
  intros n m Hn g l C. induction C as [g H|g g' l H C IH]; intros L fuel pos val rs sign acc Hf Hrs Hs.
  - destruct fuel as [|f]; [simpl in Hf; lia|]. cbn [ryser_while]. rewrite H. simpl. f_equal. ring.
  - destruct fuel as [|f]; [simpl in Hf; lia|]. cbn [ryser_while]. cbn [length] in Hf.
    assert (HX : exists p t, repeat true p ++ false :: t = g /\ repeat false p ++ true :: t = g') by (inversion H; eauto).
    destruct HX as (p & t & E1 & E2).
    assert (F : forallb (fun b => b) g = false).
    { rewrite <- E1, forallb_app. cbn [forallb]. now rewrite andb_false_r. }
    rewrite F. rewrite <- E1 in L. rewrite app_length, repeat_length in L. cbn [length] in L.
    pose proof (gray_for_spec n p t 0 pos val ltac:(lia)) as GF. cbn [repeat app Nat.add] in GF.
    rewrite Nat.sub_0_r, E1 in GF. rewrite GF, E2. clear GF.
    destruct (gray_next p t) as (G & LG & G1 & G2). rewrite E1 in G1. rewrite E2 in G2.
    assert (Lg' : length g' = n) by (rewrite <- E2, app_length, repeat_length; simpl; lia).
    set (rs' := if negb (hd false t) then fun i => rs i + m i p else fun i => rs i - m i p).
    assert (R : forall i, rs' i = rowsum_of m n g' i).
    { intros i. unfold rs', rowsum_of. rewrite G2.
      replace n with (length G + S (length (gray t)))%nat by (rewrite gray_length; lia).
      rewrite selsum_app, LG. cbn [Nat.add].
      assert (R0 : rs i = selsum (m i) (seq 0 (length G)) G + (if hd false t then m i p else 0)
                    + selsum (m i) (seq (S p) (length (gray t))) (gray t)).
      { rewrite Hrs. unfold rowsum_of. rewrite G1.
        replace n with (length G + S (length (gray t)))%nat by (rewrite gray_length; lia).
        rewrite selsum_app, LG. reflexivity. }
      destruct (hd false t); cbn [negb]; rewrite R0, ?LG; ring. }
    assert (P : pprod rs' (seq 0 n) = prodf (rowsum_of m n g') (seq 0 n)).
    { rewrite pprod_prodf. apply prodf_ext. intros i _. apply R. }
    assert (Hh : hd false g' = negb (hd false g)).
    { rewrite <- E1, <- E2. destruct p; reflexivity. }
    assert (S0 : (m1pow (n + ntrue (gray g')) : K) = if sign then 1 else - (1)).
    { unfold m1pow. rewrite Nat.even_add, <- !Nat.negb_odd, gray_parity, Hh, Hs.
      destruct (Nat.odd n), (hd false g); reflexivity. }
    rewrite P. destruct sign; (rewrite IH; [rewrite sumf_cons, S0; f_equal; ring|auto|lia|exact R|]);
      rewrite Hh; destruct (Nat.odd n), (hd false g); auto; discriminate.
Qed.
End Machine.
