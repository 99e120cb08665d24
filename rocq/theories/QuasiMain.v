(** Lemmas for C68: overlaps and derivatives of products of quasiparticles *)
From Coq Require Import List ZArith NArith Arith Bool Lia Permutation Sorted.
From Verif Require Import Py BitSpec BitLemmas Fock Slater SlaterBits Combos Alg SignSpec SignLemmas MatchSpec MatchLemmas GeneralLemmas MathTools SdLemmas PermLemmas DetLemmas BorchardtLemmas HamLemmas BicliqueLemmas
  CreSpec CreLemmas P_Slater2 P_Permanent P_AP1roG CCGen CILemmas Graphs GraphSpec PartLemmas PartMain P_Graphs CCRows GemMain GemOlp GemFinal WfnCI Geminal GemWf Nonorth NonorthLemmas DetRatioLemmas Quasi QuasiSpec QuasiLemmas.
Import ListNotations.
Local Open Scope nat_scope.
Section Main.
Context {K : CField}.
Local Open Scope cr_scope.
Add Ring K_ring114 : (rth K).
Implicit Types w : quasi K.
Definition qent w (r c : nat) : K := nth (r * qp_cols w + c)%nat (qp_params w) 0.

Lemma filter_none : forall {A} (f : A -> bool) l, (forall x, In x l -> f x = false) -> filter f l = [].
Proof. induction l as [|x l IH]; intros H; [reflexivity|]. cbn [filter]. rewrite H by now left. apply IH. intros y Hy. apply H. now right. Qed.
Lemma filter_all : forall {A} (f : A -> bool) l, (forall x, In x l -> f x = true) -> filter f l = l.
Proof. induction l as [|x l IH]; intros H; [reflexivity|]. cbn [filter]. rewrite H by now left. f_equal. apply IH. intros y Hy. apply H. now right. Qed.
Lemma in_range : forall w (cols rows : list nat), (forall r, In r rows -> (r < qp_num w)%nat) -> (forall c, In c cols -> (c < qp_cols w)%nat) ->
  (forallb (fun r => Nat.ltb r (qp_num w)) rows && forallb (fun c => Nat.ltb c (qp_cols w)) cols)%bool = true.
Proof. intros w cols rows Hr Hc. apply andb_true_intro. split; apply forallb_forall; intros x Hx; apply Nat.ltb_lt; auto. Qed.
Lemma permsum_full : forall w cols rows, cols <> [] -> (length cols <= length rows)%nat -> (forall r, In r rows -> (r < qp_num w)%nat) -> (forall c, In c cols -> (c < qp_cols w)%nat) ->
  permsum w (length cols) cols rows = Ok (permR (map (qent w) (firstn (length cols) rows)) cols).
Proof.
  intros w cols rows Ne L Hr Hc. remember (length cols) as h eqn:Eh. assert (Hh : (0 < h)%nat) by (destruct cols; [congruence|cbn in Eh; lia]).
  assert (V : forall (m : nat -> nat -> K), (forall i j, (i < h)%nat -> (j < h)%nat -> m i (nth j (seq 0 h) 0%nat) = qent w (nth i rows 0%nat) (nth j cols 0%nat)) ->
    permanent_ryser h h (fun i j => m i (nth j (seq 0 h) 0%nat)) = Ok (permR (map (qent w) (firstn h rows)) cols)).
  { intros m Hm. rewrite C25_agrees by congruence. rewrite comb_value by auto. rewrite Nat.ltb_irrefl. f_equal.
    rewrite <- (permR_sub (qent w) (firstn h rows) cols). rewrite firstn_length, (Nat.min_l h (length rows)) by lia. rewrite <- Eh.
    apply permR_ext. apply Forall2_map_both. intros i Hi j Hj. apply in_seq in Hi, Hj. rewrite Hm by lia. f_equal. rewrite <- (firstn_skipn h rows) at 1. rewrite app_nth1; auto. rewrite firstn_length. lia. }
  unfold permsum. destruct cols as [|c0 cols0] eqn:Ec; [congruence|]. rewrite <- Ec in *. destruct rows as [|r0 rows0] eqn:Er; [cbn in L; lia|]. rewrite <- Er in *.
  rewrite in_range by auto. cbn [negb]. cbv zeta. rewrite <- Eh. pose proof (combinations_full (seq 0 h)) as Cf. rewrite seq_length in Cf. rewrite Cf. unfold sumM. cbn [mapM].
  destruct (Nat.eqb_spec h 0); [lia|]. destruct (Nat.ltb_spec (length rows) h); [lia|].
  rewrite (V (m_at _)). cbn [bind]. rewrite filter_none.
  - destruct (seq h (length rows - h)); cbn [bind]; unfold sumf; cbn [fold_right]; f_equal; ring.
  - intros x Hx. apply negb_false_iff. apply existsb_In. auto.
  - intros i j Hi Hj. cbn [m_at]. rewrite seq_nth by auto. reflexivity.
Qed.
Lemma permsum_none : forall w nboson cols rows, cols <> [] -> rows <> [] -> (length cols < nboson)%nat -> (forall r, In r rows -> (r < qp_num w)%nat) -> (forall c, In c cols -> (c < qp_cols w)%nat) ->
  permsum w nboson cols rows = Ok 0.
Proof.
  intros w nb cols rows Nc Nr L Hr Hc. unfold permsum. destruct cols as [|c0 cols0] eqn:Ec; [congruence|]. rewrite <- Ec in *. destruct rows as [|r0 rows0] eqn:Er; [congruence|]. rewrite <- Er in *.
  rewrite in_range by auto. cbn [negb]. cbv zeta. destruct (combinations (seq 0 (length cols)) nb) as [|x l] eqn:E; [reflexivity|].
  assert (X : In x (combinations (seq 0 (length cols)) nb)) by (rewrite E; now left). apply combinations_In in X as [S Ls]. exfalso.
  assert (length x <= length (seq 0 (length cols)))%nat; [|rewrite seq_length in *; lia]. clear -S. induction S; cbn [length]; lia.
Qed.
(** too many columns for the rows *)
Lemma permsum_many : forall w cols rows, rows <> [] -> (length rows < length cols)%nat -> (forall r, In r rows -> (r < qp_num w)%nat) -> (forall c, In c cols -> (c < qp_cols w)%nat) ->
  permsum w (length cols) cols rows = Err IndexError.
Proof.
  intros w cols rows Nr L Hr Hc. unfold permsum. destruct cols as [|c0 cols0] eqn:Ec; [cbn in L; lia|]. rewrite <- Ec in *. destruct rows as [|r0 rows0] eqn:Er; [congruence|]. rewrite <- Er in *.
  rewrite in_range by auto. cbn [negb]. cbv zeta. pose proof (combinations_full (seq 0 (length cols))) as Cf. rewrite seq_length in Cf. rewrite Cf. unfold sumM. cbn [mapM].
  destruct (Nat.eqb_spec (length cols) 0); [lia|]. destruct (Nat.ltb_spec (length rows) (length cols)); [|lia]. reflexivity.
Qed.

(** *** _process_subsets *)
Lemma combine_map : forall {A B} (f : A -> B) l, combine l (map f l) = map (fun x => (x, f x)) l.
Proof. induction l as [|x l IH]; [reflexivity|]. cbn [map combine]. now rewrite IH. Qed.
Lemma process_even : forall w P, incl P (qp_subsets w) -> evens P -> process_subsets w P = Ok (map (cidx (qp_subsets w)) P, P, []).
Proof.
  intros w P I E. unfold process_subsets. rewrite (mapM_ok_of _ (cidx (qp_subsets w)) P) by (intros s Hs; apply cidx_ok; auto). cbn [bind]. cbv zeta. rewrite combine_map.
  rewrite (filter_all (fun x => even_size (fst x))), (filter_none (fun x => negb (even_size (fst x)))).
  - cbn [map]. rewrite app_nil_r, !map_map, map_id. reflexivity.
  - intros x Hx. apply in_map_iff in Hx as (s & <- & Hs). apply E in Hs as [_ Hs]. unfold even_size. cbn [fst]. now rewrite Hs.
  - intros x Hx. apply in_map_iff in Hx as (s & <- & Hs). apply E in Hs as [_ Hs]. exact Hs.
Qed.

(** *** overlaps *)
Variable gen : list Z -> res (list (list (list Z))).
Definition sgn_of (occ : list Z) (P : list (list Z)) : Z := match sign_perm (concat P) (Some occ) true with Ok s => s | Err _ => 0%Z end.
Definition qterm w occ (P : list (list Z)) : K := sgnr (sgn_of occ P) * permR (map (qent w) (seq 0 (length P))) (map (cidx (qp_subsets w)) P).
(** what is needed of a list of partitions *)
Definition fine w (sd : N) (h : nat) (L : list (list (list Z))) : Prop := (0 < h)%nat /\ gen (zocc sd) = Ok L /\ NoDup (qp_subsets w) /\ evens (qp_subsets w) /\
  forall P, In P L -> incl P (qp_subsets w) /\ Permutation (concat P) (zocc sd) /\ length P = h.
Lemma fine_sign : forall w sd h L P, fine w sd h L -> In P L -> sign_perm (concat P) (Some (zocc sd)) true = Ok (sgn_of (zocc sd) P) /\
  exists k, swaps k (concat P) (zocc sd) /\ sgn_of (zocc sd) P = (pow_m1 (length (zocc sd) / 2) * pow_m1 k)%Z.
Proof.
  intros w sd h L P (_ & _ & N & Ev & F) HP. destruct (F P HP) as (I & Pm & _).
  destruct (swaps_exist (concat P) (zocc sd)) as [k Sw]; auto; [eapply Permutation_NoDup; [symmetry; exact Pm|apply occZ_NoDup]|].
  assert (Evn : Nat.even (length (zocc sd)) = true).
  { rewrite <- (Permutation_length Pm). clear -I Ev. induction P as [|s P IH]; [reflexivity|]. cbn [concat]. rewrite app_length, Nat.even_add, IH by (intros x Hx; apply I; now right). destruct (Ev s) as [_ ->]; [apply I; now left|]. reflexivity. }
  pose proof (decreasing_sign _ _ _ (occZ_sorted sd) Sw Evn) as E. unfold sgn_of. rewrite E. split; auto. exists k. auto.
Qed.
Lemma fine_cols : forall w sd h L P, fine w sd h L -> In P L -> NoDup (map (cidx (qp_subsets w)) P) /\ (forall c, In c (map (cidx (qp_subsets w)) P) -> (c < qp_cols w)%nat) /\ length (map (cidx (qp_subsets w)) P) = h /\ evens P.
Proof.
  intros w sd h L P (_ & _ & N & Ev & F) HP. destruct (F P HP) as (I & Pm & Ln). assert (EP : evens P) by (intros s Hs; apply Ev; auto). split; [|split; [|split]]; auto.
  - apply cidx_NoDup; auto. eapply blocks_NoDup; eauto. apply occZ_NoDup.
  - intros c Hc. apply in_map_iff in Hc as (s & <- & Hs). apply cidx_lt. auto.
  - now rewrite map_length.
Qed.
Lemma firstn_seq : forall n m a, (n <= m)%nat -> firstn n (seq a m) = seq a n.
Proof. induction n as [|n IH]; intros m a H; [reflexivity|]. destruct m; [lia|]. cbn [seq firstn]. f_equal. apply IH. lia. Qed.
Lemma olp_terms : forall w sd h L, fine w sd h L -> (h <= qp_num w)%nat -> q_olp gen w sd = Ok (sumf (qterm w (zocc sd)) L).
Proof.
  intros w sd h L F Hh. pose proof F as (H0 & Eg & N & Ev & FP). unfold q_olp. rewrite Eg. cbn [bind]. apply sumM_ok. intros P HP.
  destruct (FP P HP) as (I & Pm & Ln). destruct (fine_cols w sd h L P F HP) as (Nc & Bc & Lc & EP). destruct (fine_sign w sd h L P F HP) as (Es & _).
  rewrite process_even by auto. cbn [bind]. rewrite app_nil_r, Es. cbn [bind]. replace (length P) with (length (map (cidx (qp_subsets w)) P)) by apply map_length.
  rewrite permsum_full; auto.
  - cbn [bind]. unfold qterm. rewrite map_length, firstn_seq by lia. reflexivity.
  - intros X. rewrite X in Lc. cbn in Lc. lia.
  - rewrite seq_length. lia.
  - intros r Hr. apply in_seq in Hr. lia.
Qed.
Lemma olp_product : forall w sd h L C, fine w sd h L -> lists_partitions (qp_subsets w) (zocc sd) h L -> (h <= qp_num w)%nat -> holds_coefficients (qp_num w) (qp_subsets w) (qp_params w) C ->
  q_olp gen w sd = Ok (sgnr (pow_m1 (length (zocc sd) / 2)) * quasi_product (qp_subsets w) (map C (seq 0 h)) sd).
Proof.
  intros w sd h L C F Lp Hh HC. rewrite (olp_terms w sd h L F Hh). f_equal. pose proof F as (H0 & Eg & N & Ev & FP).
  rewrite (product_partitions (qp_subsets w) L (map C (seq 0 h)) sd (fun P => (pow_m1 (length (zocc sd) / 2) * sgn_of (zocc sd) P)%Z)); auto.
  - rewrite <- sumf_mul_l. apply sumf_ext. intros P HP. destruct (fine_sign w sd h L P F HP) as (_ & k & _ & Ek). destruct (FP P HP) as (I & Pm & Ln). unfold qterm.
    rewrite Ln. assert (Q : permR (map (qent w) (seq 0 h)) (map (cidx (qp_subsets w)) P) = permR (map C (seq 0 h)) P).
    { rewrite permR_map, map_map. apply permR_ext. apply Forall2_map_both. intros r Hr s Hs. apply in_seq in Hr. rewrite (HC r (cidx (qp_subsets w) s) s); [reflexivity|lia|]. apply cidx_ok. auto. }
    rewrite Q, Ek. set (g := pow_m1 (length (zocc sd) / 2)). assert (Hg : (g = 1 \/ g = -1)%Z) by apply pow_m1_pm.
    assert (Hk : (pow_m1 k = 1 \/ pow_m1 k = -1)%Z) by apply pow_m1_pm. destruct Hg as [->| ->], Hk as [->| ->]; unfold sgnr; cbn; ring.
  - rewrite map_length, seq_length. exact Lp.
  - intros P HP. destruct (fine_sign w sd h L P F HP) as (_ & k & Sw & Ek). exists k. split; auto. rewrite Ek.
    assert (Hg : (pow_m1 (length (zocc sd) / 2) = 1 \/ pow_m1 (length (zocc sd) / 2) = -1)%Z) by apply pow_m1_pm. destruct Hg as [->| ->]; lia.
Qed.

(** *** derivatives *)
Definition dterm w occ (P : list (list Z)) (r c : nat) : K := sgnr (sgn_of occ P) *
  (if in_dec Nat.eq_dec r (seq 0 (length P)) then if in_dec Nat.eq_dec c (map (cidx (qp_subsets w)) P) then permR (map (qent w) (without r (seq 0 (length P)))) (without c (map (cidx (qp_subsets w)) P)) else 0 else 0).
Lemma inner_ok : forall w nb cols s (f : nat -> nat -> K) rcs output, length output = (qp_num w * qp_cols w)%nat ->
  (forall r c, In (r, c) rcs -> (r < qp_num w)%nat /\ (c < qp_cols w)%nat /\ permsum_deriv w nb cols (seq 0 (qp_num w)) (Z.of_nat (r * qp_cols w + c)) = Ok (f r c)) ->
  exists o, q_deriv_inner w nb cols s rcs output = Ok o /\ length o = length output /\
    forall r c, (r < qp_num w)%nat -> (c < qp_cols w)%nat -> nth (r * qp_cols w + c)%nat o 0 = nth (r * qp_cols w + c)%nat output 0 +
      sumf (fun rc => if (Nat.eqb (fst rc) r && Nat.eqb (snd rc) c)%bool then sgnr s * f (fst rc) (snd rc) else 0) rcs.
Proof.
  intros w nb cols s f. induction rcs as [|[r c] rcs IH]; intros output Lo H.
  - exists output. split; [reflexivity|]. split; [reflexivity|]. intros r c _ _. unfold sumf. cbn [fold_right]. ring.
  - destruct (H r c) as (Hr & Hc & E); [now left|]. cbn [q_deriv_inner]. cbv zeta. rewrite E. cbn [bind].
    destruct (IH (upd output (r * qp_cols w + c) (nth (r * qp_cols w + c) output 0 + sgnr s * f r c))) as (o & Eo & Lo' & Vo).
    { now rewrite upd_length. } { intros r' c' H'. apply H. now right. }
    exists o. split; [exact Eo|]. split; [now rewrite Lo', upd_length|]. intros r' c' Hr' Hc'. rewrite Vo by auto. rewrite sumf_cons. cbn [fst snd].
    destruct (Nat.eqb_spec r r') as [->|D], (Nat.eqb_spec c c') as [->|D']; cbn [andb].
    + rewrite nth_upd_eq; [ring|]. rewrite Lo. nia.
    + rewrite nth_upd_neq; [ring|]. intros X. apply two_digits in X; lia.
    + rewrite nth_upd_neq; [ring|]. intros X. apply two_digits in X; lia.
    + rewrite nth_upd_neq; [ring|]. intros X. apply two_digits in X; lia.
Qed.
Lemma filter_without : forall (x : nat) l, filter (fun r => negb (Z.of_nat r =? Z.of_nat x)%Z) l = without x l.
Proof.
  intros x l. unfold without. apply filter_ext. intros r. f_equal. destruct (Nat.eqb_spec r x), (Z.eqb_spec (Z.of_nat r) (Z.of_nat x)); auto; lia.
Qed.
Lemma without_length : forall x l, NoDup l -> In x l -> S (length (without x l)) = length l.
Proof.
  intros x l N I. apply in_split in I as (pre & post & ->). apply NoDup_remove in N as [N1 N2].
  unfold without. rewrite filter_app. cbn [filter]. rewrite Nat.eqb_refl. cbn [negb]. rewrite <- filter_app.
  change (S (length (without x (pre ++ post))) = length (pre ++ x :: post)). rewrite without_notin by auto. rewrite !app_length. cbn [length]. lia.
Qed.
Lemma firstn_without : forall r h n, (r < h <= n)%nat -> firstn (h - 1) (without r (seq 0 n)) = without r (seq 0 h).
Proof.
  intros r h n H. replace n with (h + (n - h))%nat at 1 by lia. rewrite seq_app. unfold without. rewrite filter_app. rewrite firstn_app.
  pose proof (without_length r (seq 0 h) (seq_NoDup _ _)) as Lw. rewrite seq_length in Lw. assert (In r (seq 0 h)) by (apply in_seq; lia). specialize (Lw H0).
  change (filter (fun x => negb (Nat.eqb x r)) (seq 0 h)) with (without r (seq 0 h)). replace (h - 1 - length (without r (seq 0 h)))%nat with 0%nat by lia. rewrite firstn_O, app_nil_r. apply firstn_all2. lia.
Qed.
Lemma pd_value : forall w h cols r c, (0 < h <= qp_num w)%nat -> ~ (h = 1 /\ 1 < qp_num w)%nat -> NoDup cols -> length cols = h -> (forall c, In c cols -> (c < qp_cols w)%nat) -> (r < qp_num w)%nat -> In c cols ->
  permsum_deriv w h cols (seq 0 (qp_num w)) (Z.of_nat (r * qp_cols w + c)) =
  Ok (if in_dec Nat.eq_dec r (seq 0 h) then permR (map (qent w) (without r (seq 0 h))) (without c cols) else 0).
Proof.
  intros w h cols r c Hh H1 Nc Lc Bc Hr Hc. unfold permsum_deriv. destruct cols as [|c0 cs] eqn:Ec; [destruct Hc|]. rewrite <- Ec in *. clear c0 cs Ec.
  destruct (seq 0 (qp_num w)) as [|r0 rs] eqn:Er; [apply (f_equal (@length nat)) in Er; rewrite seq_length in Er; cbn in Er; lia|]. rewrite <- Er. clear r0 rs Er.
  assert (Bc' := Bc c Hc). rewrite in_range; auto; [|intros x Hx; apply in_seq in Hx; lia]. cbn [negb]. cbv zeta.
  assert (D : (Z.of_nat (r * qp_cols w + c) / Z.of_nat (qp_cols w) = Z.of_nat r)%Z). { rewrite Nat2Z.inj_add, Nat2Z.inj_mul, Z.div_add_l by lia. rewrite Z.div_small by lia. lia. }
  assert (M : (Z.of_nat (r * qp_cols w + c) mod Z.of_nat (qp_cols w) = Z.of_nat c)%Z). { rewrite Nat2Z.inj_add, Nat2Z.inj_mul, Z.add_comm, Z.mod_add by lia. apply Z.mod_small. lia. }
  rewrite D, M, !filter_without.
  pose proof (without_length r (seq 0 (qp_num w)) (seq_NoDup _ _)) as Lr. rewrite seq_length in *. assert (Ir : In r (seq 0 (qp_num w))) by (apply in_seq; lia). specialize (Lr Ir).
  pose proof (without_length c cols Nc Hc) as Lc'. rewrite Lc in *.
  destruct (Nat.eqb_spec (length (without r (seq 0 (qp_num w)))) (qp_num w)); [lia|]. destruct (Nat.eqb_spec (length (without c cols)) h); [lia|]. cbn [orb].
  assert (Br : forall x, In x (without r (seq 0 (qp_num w))) -> (x < qp_num w)%nat) by (intros x Hx; apply without_In in Hx as [Hx _]; apply in_seq in Hx; lia).
  assert (Bw : forall x, In x (without c cols) -> (x < qp_cols w)%nat) by (intros x Hx; apply without_In in Hx as [Hx _]; auto).
  destruct (Nat.eq_dec h 1) as [->|Dh].
  - assert (qp_num w = 1%nat) by lia. destruct (Nat.eqb_spec (length (without r (seq 0 (qp_num w)))) 0); [|lia]. destruct (Nat.eqb_spec (length (without c cols)) 0) as [E0|]; [|lia]. cbn [andb].
    destruct (in_dec _ _ _) as [_|X]; [|exfalso; apply X, in_seq; lia]. assert (r = 0%nat) by lia. subst r. reflexivity.
  - assert (Ne : without c cols <> []) by (intros X; rewrite X in Lc'; cbn in Lc'; lia).
    destruct (Nat.eqb_spec (length (without r (seq 0 (qp_num w)))) 0); [lia|]. cbn [andb]. destruct (Z.ltb_spec (Z.of_nat r) (Z.of_nat h)) as [Lt|Ge].
    + destruct (in_dec _ _ _) as [_|X]; [|exfalso; apply X, in_seq; lia]. replace (h - 1)%nat with (length (without c cols)) by lia. rewrite permsum_full; auto; [|lia].
      replace (length (without c cols)) with (h - 1)%nat by lia. rewrite firstn_without by lia. reflexivity.
    + destruct (in_dec _ _ _) as [X|_]; [exfalso; apply in_seq in X; lia|]. apply permsum_none; auto; [intros X; rewrite X in Lr; cbn in Lr; lia|lia].
Qed.
Lemma dolp_terms : forall w sd h L, fine w sd h L -> (h <= qp_num w)%nat -> ~ (h = 1 /\ 1 < qp_num w)%nat -> length (qp_params w) = (qp_num w * qp_cols w)%nat ->
  exists D, q_dolp gen w sd = Ok D /\ length D = length (qp_params w) /\
    forall r c, (r < qp_num w)%nat -> (c < qp_cols w)%nat -> nth (r * qp_cols w + c)%nat D 0 = sumf (fun P => dterm w (zocc sd) P r c) L.
Proof.
  intros w sd h L F Hh H1 Len. pose proof F as (H0 & Eg & N & Ev & FP). unfold q_dolp. rewrite Eg. cbn [bind].
  assert (G : forall L', incl L' L -> forall output, length output = (qp_num w * qp_cols w)%nat -> exists D, q_deriv_loop w (zocc sd) L' output = Ok D /\ length D = length output /\
    forall r c, (r < qp_num w)%nat -> (c < qp_cols w)%nat -> nth (r * qp_cols w + c)%nat D 0 = nth (r * qp_cols w + c)%nat output 0 + sumf (fun P => dterm w (zocc sd) P r c) L').
  { induction L' as [|P L' IH]; intros I output Lo.
    - exists output. split; [reflexivity|]. split; [reflexivity|]. intros r c _ _. unfold sumf. cbn [fold_right]. ring.
    - assert (HP : In P L) by (apply I; now left). destruct (FP P HP) as (IP & Pm & Ln). destruct (fine_cols w sd h L P F HP) as (Nc & Bc & Lc & EP). destruct (fine_sign w sd h L P F HP) as (Es & _).
      cbn [q_deriv_loop]. rewrite process_even by auto. cbn [bind]. rewrite app_nil_r, Es. cbn [bind]. set (cols := map (cidx (qp_subsets w)) P) in *.
      destruct (inner_ok w (length P) cols (sgn_of (zocc sd) P) (fun r c => if in_dec Nat.eq_dec r (seq 0 h) then permR (map (qent w) (without r (seq 0 h))) (without c cols) else 0) (list_prod (seq 0 (qp_num w)) cols) output) as (o & Eo & Lo' & Vo); auto.
      { intros r c X. apply in_prod_iff in X as [X1 X2]. apply in_seq in X1. split; [lia|]. split; [now apply Bc|]. rewrite Ln. apply pd_value; auto; lia. }
      rewrite Eo. cbn [bind]. destruct (IH (fun x Hx => I x (or_intror Hx)) o) as (D & ED & LD & VD); [lia|]. exists D. split; [exact ED|]. split; [lia|].
      intros r c Hr Hc. rewrite VD, Vo, sumf_cons by auto. unfold dterm at 2. rewrite Ln. fold cols. destruct (in_dec Nat.eq_dec c cols) as [Ic|Ic].
      + rewrite (sumf_single _ _ (r, c)).
        * cbn [fst snd]. rewrite !Nat.eqb_refl. cbn [andb]. ring.
        * apply BulkLemmas.NoDup_prod; auto. apply seq_NoDup.
        * apply in_prod; auto. apply in_seq. lia.
        * intros [r' c'] _ X. cbn [fst snd]. destruct (Nat.eqb_spec r' r), (Nat.eqb_spec c' c); cbn [andb]; auto. subst. congruence.
      + rewrite sumf_zero; [destruct (in_dec Nat.eq_dec r (seq 0 h)); ring|]. intros [r' c'] X. apply in_prod_iff in X as [_ X]. cbn [fst snd]. destruct (Nat.eqb_spec c' c); [subst; contradiction|]. now rewrite andb_false_r. }
  destruct (G L (fun x H => H) (zeros (length (qp_params w)))) as (D & ED & LD & VD); [unfold zeros; now rewrite repeat_length|].
  exists D. split; [exact ED|]. split; [rewrite LD; unfold zeros; now rewrite repeat_length|]. intros r c Hr Hc. rewrite VD by auto.
  replace (nth (r * qp_cols w + c) (zeros (length (qp_params w))) 0) with (0 : K); [ring|]. unfold zeros. symmetry. apply nth_repeat.
Qed.
Definition qput w (k : nat) (y : K) : quasi K := mkqp (qp_nelec w) (qp_nspin w) (qp_num w) (qp_subsets w) (upd (qp_params w) k y).
Lemma olp_affine : forall w sd h L D r c t, fine w sd h L -> (h <= qp_num w)%nat -> ~ (h = 1 /\ 1 < qp_num w)%nat -> length (qp_params w) = (qp_num w * qp_cols w)%nat -> q_dolp gen w sd = Ok D ->
  (r < qp_num w)%nat -> (c < qp_cols w)%nat ->
  q_olp gen (qput w (r * qp_cols w + c) (nth (r * qp_cols w + c) (qp_params w) 0 + t)) sd = (do v <- q_olp gen w sd; Ok (v + t * nth (r * qp_cols w + c)%nat D 0)).
Proof.
  intros w sd h L D r c t F Hh H1 Len ED Hr Hc. destruct (dolp_terms w sd h L F Hh H1 Len) as (D' & ED' & LD & VD). rewrite ED in ED'. apply Ok_inj in ED'. subst D'.
  rewrite (olp_terms w sd h L F Hh). cbn [bind]. set (w' := qput w _ _). assert (F' : fine w' sd h L) by exact F. rewrite (olp_terms w' sd h L F' Hh). f_equal. rewrite VD by auto.
  rewrite <- sumf_mul_l, <- sumf_add. apply sumf_ext. intros P HP. destruct F as (_ & _ & _ & _ & FP). destruct (FP P HP) as (I & Pm & Ln). unfold qterm, dterm. change (qp_subsets w') with (qp_subsets w).
  set (cols := map (cidx (qp_subsets w)) P) in *. destruct (fine_cols w' sd h L P F' HP) as (Nc & Bc & Lc & _). change (qp_subsets w') with (qp_subsets w) in *. fold cols in Nc, Bc, Lc.
  rewrite (permR_ext (map (qent w') (seq 0 (length P))) (map (bump (qent w) r c t) (seq 0 (length P))) cols).
  - rewrite permR_bump by (auto; apply seq_NoDup). ring.
  - apply Forall2_map_both. intros i Hi j Hj. apply in_seq in Hi. apply Bc in Hj. change (qp_cols w') with (qp_cols w) in Hj. unfold qent, bump, w'. cbn [qp_params qput]. change (qp_cols (qput w (r * qp_cols w + c) (nth (r * qp_cols w + c) (qp_params w) 0 + t))) with (qp_cols w).
    destruct (Nat.eqb_spec i r) as [->|Di], (Nat.eqb_spec j c) as [->|Dj]; cbn [andb].
    + rewrite nth_upd_eq; [reflexivity|]. rewrite Len. nia.
    + rewrite nth_upd_neq; [reflexivity|]. intros X. apply two_digits in X; lia.
    + rewrite nth_upd_neq; [reflexivity|]. intros X. apply two_digits in X; lia.
    + rewrite nth_upd_neq; [reflexivity|]. intros X. apply two_digits in X; lia.
Qed.
End Main.
