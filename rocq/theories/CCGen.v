(** The table of excitation operators as one list of rows, and the signs of the rows *)
From Coq Require Import List ZArith NArith Arith Bool Lia Permutation Sorted.
From Verif Require Import Py BitSpec Slater SignSpec SignLemmas MatchLemmas Graphs GraphSpec MatchSpec MathTools PermLemmas SdLemmas Combos
  GeneralLemmas BicliqueLemmas BicliqueMain Fock FockLemmas P_Graphs P_Slater2 CC CCRows CCRows2.
Import ListNotations.
Local Open Scope nat_scope.

Definition cat (p : list Z * list Z) : list Z := fst p ++ snd p.
Definition AnnZ (z : Z) : op := Ann (Z.to_nat z).
Definition CreZ (z : Z) : op := Cre (Z.to_nat z).
Definition eops (e : list Z) : list op := map AnnZ (annihilators e) ++ map CreZ (creators e).

(** ** exchanges *)
Lemma swaps_map : forall {A B} (f : A -> B) k l l', swaps k l l' -> swaps k (map f l) (map f l').
Proof.
  induction 1 as [|k l1 a b l2 l' H IH]; [constructor|]. rewrite map_app. cbn [map]. constructor. rewrite map_app in IH. exact IH.
Qed.
Lemma swaps_block : forall {A} (p q : list A), swaps (length p * length q) (p ++ q) (q ++ p).
Proof.
  intros A p q. induction p as [|x p IH]; cbn [app length Nat.mul].
  - rewrite app_nil_r. constructor.
  - rewrite Nat.add_comm. eapply swaps_trans; [apply swaps_cons; exact IH|].
    change (x :: q ++ p) with ((x :: q) ++ p). replace (q ++ x :: p) with ((q ++ [x]) ++ p) by now rewrite <- app_assoc.
    apply swaps_app_r, swaps_move.
Qed.
Fixpoint kr (n : nat) : nat := match n with 0 => 0 | S m => kr m + m end.
Lemma swaps_reverse : forall {A} (l : list A), swaps (kr (length l)) l (rev l).
Proof.
  induction l as [|x l IH]; [constructor|]. cbn [length kr rev]. eapply swaps_trans; [apply swaps_cons; exact IH|].
  rewrite <- (rev_length l). apply swaps_move.
Qed.
Lemma applys_swaps : forall k l l' kt, swaps k l l' -> NoDup (map snd l) -> applys l kt = xor_ket (Nat.odd k) (applys l' kt).
Proof.
  induction 1 as [|k l1 [d i] [e j] l2 l' H IH]; intros N; [symmetry; apply xor_ket_false|].
  rewrite applys_swap.
  - rewrite IH, xor_ket_xor, Nat.odd_succ, <- Nat.negb_odd.
    + now destruct (Nat.odd k).
    + eapply Permutation_NoDup; [|exact N]. rewrite !map_app. apply Permutation_app_head. cbn [map]. apply perm_swap.
  - rewrite map_app in N. apply NoDup_app_iff in N as (_ & N & _). cbn [map snd] in N. inversion N; subst. intros ->. apply H2. now left.
Qed.
Lemma hops_swaps : forall combs (P : list op), (forall e, In e combs -> length (annihilators e) = length e / 2 /\ length (creators e) = length e / 2) ->
  swaps (hops (length P) combs) (P ++ flat_map eops combs)
        (flat_map (fun e => map AnnZ (annihilators e)) combs ++ P ++ flat_map (fun e => map CreZ (creators e)) combs).
Proof.
  induction combs as [|e combs IH]; intros P H; cbn [hops flat_map app]; [constructor|].
  destruct (H e (or_introl eq_refl)) as [HA HC]. unfold eops at 1. rewrite <- HA.
  eapply swaps_trans.
  - rewrite <- !app_assoc, app_assoc. apply swaps_app_r. rewrite <- (map_length AnnZ). apply swaps_block.
  - rewrite <- !app_assoc. apply swaps_app_l. specialize (IH (P ++ map CreZ (creators e))).
    rewrite app_length, map_length, HC, <- HA in IH. rewrite <- !app_assoc in IH. apply IH. intros x Hx. apply H. now right.
Qed.
Lemma cat_halves : forall p, length (fst p) = length (snd p) -> annihilators (cat p) = fst p /\ creators (cat p) = snd p /\ length (cat p) / 2 = length (fst p).
Proof.
  intros [x y] L. cbn [fst snd] in *. assert (E : length (cat (x, y)) / 2 = length x).
  { unfold cat. cbn [fst snd]. rewrite app_length, <- L. replace (length x + length x) with (length x * 2) by lia. apply Nat.div_mul. lia. }
  unfold annihilators, creators. rewrite E. unfold cat. cbn [fst snd]. split; [|split; [|reflexivity]].
  - rewrite firstn_app, Nat.sub_diag, firstn_all. cbn. apply app_nil_r.
  - rewrite skipn_app, Nat.sub_diag, skipn_all. reflexivity.
Qed.
Lemma swaps_of_perm : forall l l', Permutation l l' -> StronglySorted Z.lt l' -> exists k, swaps k l l'.
Proof.
  intros l l' P S. destruct (C10_sortable l) as (k & m & W & S'). { eapply Permutation_NoDup; [symmetry; exact P|now apply SS_NoDup]. }
  exists k. replace l' with m; auto. apply sorted_perm_eq; auto. apply swaps_perm in W. now rewrite <- W.
Qed.
Lemma pow_odd : forall m n, Nat.odd m = Nat.odd n -> pow_m1 m = pow_m1 n.
Proof. intros m n H. unfold pow_m1. now rewrite H. Qed.
Lemma flat_map_map : forall {A B C} (f : B -> list C) (g : A -> B) l, flat_map f (map g l) = flat_map (fun x => f (g x)) l.
Proof. induction l; cbn; [reflexivity|]. now rewrite IHl. Qed.
Lemma flat_map_ext_in : forall {A B} (f g : A -> list B) l, (forall x, In x l -> f x = g x) -> flat_map f l = flat_map g l.
Proof. induction l; intros H; cbn; [reflexivity|]. rewrite H, IHl; auto; [intros; apply H; now right|now left]. Qed.
Lemma map_flat_map : forall {A B C} (f : B -> C) (g : A -> list B) l, map f (flat_map g l) = flat_map (fun x => map f (g x)) l.
Proof. induction l; cbn; [reflexivity|]. now rewrite map_app, IHl. Qed.

Section Sign.
Variables (ranks a c : list Z).
Hypothesis Sa : StronglySorted Z.lt a.
Hypothesis Sc : StronglySorted Z.lt c.
Lemma row_parts : forall r, row_of ranks a c r ->
  flat_map annihilators (map cat r) = concat (map fst r) /\ flat_map creators (map cat r) = concat (map snd r).
Proof.
  intros r (F & _ & _). rewrite Forall_forall in F. rewrite !flat_map_map, <- !flat_map_concat_map.
  split; apply flat_map_ext_in; intros p Hp; apply F in Hp as (_ & _ & L & _); now apply cat_halves in L.
Qed.
Lemma row_sign_swaps : forall r, row_of ranks a c r -> exists k,
  row_sign a c (map cat r) = Ok (pow_m1 k) /\ swaps k (flat_map eops (map cat r)) (map AnnZ a ++ map CreZ c).
Proof.
  intros r R. pose proof (row_parts r R) as [E1 E2]. pose proof (row_lengths ranks a c r R) as L. destruct R as (F & P1 & P2).
  assert (N1 : NoDup (concat (map fst r))) by (eapply Permutation_NoDup; [symmetry; exact P1|now apply SS_NoDup]).
  assert (N2 : NoDup (concat (map snd r))) by (eapply Permutation_NoDup; [symmetry; exact P2|now apply SS_NoDup]).
  destruct (swaps_of_perm _ _ P1 Sa) as [k1 W1]. destruct (swaps_of_perm _ _ P2 Sc) as [k2 W2].
  exists (hops 0 (map cat r) + (k1 + k2)). split.
  - unfold row_sign. rewrite E1, E2. rewrite !sign_perm_ord_None; auto.
    rewrite (C10_sign_perm_decreasing _ (k1 + kr (length a)) (rev a)); auto.
    2:{ eapply swaps_trans; [exact W1|apply swaps_reverse]. } 2:{ now rewrite rev_involutive. }
    rewrite (C10_sign_perm_decreasing _ (k2 + kr (length c)) (rev c)); auto.
    2:{ eapply swaps_trans; [exact W2|apply swaps_reverse]. } 2:{ now rewrite rev_involutive. }
    cbn [bind]. f_equal. change (if Nat.odd (hops 0 (map cat r)) then (-1)%Z else 1%Z) with (pow_m1 (hops 0 (map cat r))).
    rewrite <- !pow_m1_add. apply pow_odd. rewrite <- L, !Nat.odd_add. destruct (Nat.odd (kr (length a))), (Nat.odd k1), (Nat.odd k2), (Nat.odd (hops 0 (map cat r))); reflexivity.
  - eapply swaps_trans.
    + apply (hops_swaps (map cat r) []). intros e He. apply in_map_iff in He as (p & <- & Hp). rewrite Forall_forall in F.
      apply F in Hp as (_ & _ & Lp & _). destruct (cat_halves p Lp) as (-> & -> & ->). auto.
    + cbn [app]. rewrite <- !map_flat_map, E1, E2. eapply swaps_trans; [apply swaps_app_r; eapply swaps_map; exact W1|].
      apply swaps_app_l. now apply swaps_map.
Qed.
End Sign.

(** ** the table *)
Lemma multi_add_rows : forall m n row, Permutation (all_rows (multi_add m n row)) (all_rows m ++ [row]).
Proof.
  unfold all_rows. induction m as [|[n' rows] m IH]; intros n row; [reflexivity|]. cbn [multi_add]. destruct (Nat.eqb n n'); cbn [flat_map snd].
  - rewrite <- !app_assoc. apply Permutation_app_head. apply Permutation_app_comm.
  - rewrite <- app_assoc. apply Permutation_app_head, IH.
Qed.
Lemma foldM_rows : forall {A} (f : A -> multi -> res multi) (g : A -> list (list nat * Z)) l m,
  (forall x m, In x l -> exists m', f x m = Ok m' /\ Permutation (all_rows m') (all_rows m ++ g x)) ->
  exists m', foldM f l m = Ok m' /\ Permutation (all_rows m') (all_rows m ++ flat_map g l).
Proof.
  intros A f g. induction l as [|x l IH]; intros m H.
  - exists m. split; [reflexivity|]. cbn. now rewrite app_nil_r.
  - destruct (H x m (or_introl eq_refl)) as (m1 & E1 & P1). destruct (IH m1) as (m2 & E2 & P2); [intros; apply H; now right|].
    exists m2. cbn [foldM]. rewrite E1. cbn [bind]. split; [exact E2|]. cbn [flat_map]. rewrite P2, P1, <- app_assoc. reflexivity.
Qed.
Definition known (d : exops) (e : list Z) : bool := match dict_get d e with Some _ => true | None => false end.
Definition ind_of (d : exops) (e : list Z) : nat := match dict_get d e with Some i => i | None => 0 end.
Definition row_ok (d : exops) (r : row) : bool := forallb (known d) (map cat r).
Definition info (d : exops) (a c : list Z) (r : row) : list nat * Z :=
  (map (ind_of d) (map cat r), match row_sign a c (map cat r) with Ok s => if (s =? -1)%Z then 0%Z else s | Err _ => 0%Z end).
Lemma one_row_eq : forall d ranks a c r m, StronglySorted Z.lt a -> StronglySorted Z.lt c -> row_of ranks a c r ->
  exists m', one_row d a c r m = Ok m' /\ Permutation (all_rows m') (all_rows m ++ (if row_ok d r then [info d a c r] else [])).
Proof.
  intros d ranks a c r m Sa Sc R. unfold one_row. change (map (fun p => fst p ++ snd p) r) with (map cat r).
  change (forallb _ (map cat r)) with (row_ok d r).
  destruct (row_ok d r) eqn:E.
  - destruct (row_sign_swaps ranks a c Sa Sc r R) as (k & Es & _). unfold info. rewrite Es. cbn [bind].
    assert (Em : mapM (get_ind d) (map cat r) = Ok (map (ind_of d) (map cat r))).
    { unfold row_ok in E. rewrite forallb_forall in E. revert E. generalize (map cat r). induction l as [|e l IH]; intros E; [reflexivity|].
      cbn [mapM map]. pose proof (E e (or_introl eq_refl)) as X. unfold known in X. unfold get_ind, ind_of at 1. destruct (dict_get d e); [|discriminate].
      cbn [bind]. fold (get_ind d). unfold get_ind in IH. unfold get_ind. rewrite IH; [reflexivity|]. intros; apply E; now right. }
    rewrite Em. cbn [bind]. eexists. split; [reflexivity|]. apply multi_add_rows.
  - exists m. split; [reflexivity|]. now rewrite app_nil_r.
Qed.

Section Gen.
Variables (d : exops) (ranks a c : list Z).
Hypothesis Sa : StronglySorted Z.lt a.
Hypothesis Sc : StronglySorted Z.lt c.
Hypothesis Hpos : forall r, In r ranks -> (0 < r)%Z.
Hypothesis Hnd : NoDup ranks.
Hypothesis Lac : length a <= length c.
Lemma flat_map_flat_map : forall {A B C} (f : B -> list C) (g : A -> list B) l, flat_map f (flat_map g l) = flat_map (fun x => flat_map f (g x)) l.
Proof. induction l; cbn; [reflexivity|]. now rewrite flat_map_app, IHl. Qed.
Lemma filter_flat_map : forall {A B} (p : B -> bool) (f : A -> list B) l, filter p (flat_map f l) = flat_map (fun x => filter p (f x)) l.
Proof. induction l; cbn; [reflexivity|]. now rewrite filter_app, IHl. Qed.
Lemma map_filter_flat : forall {A B} (p : A -> bool) (f : A -> B) l, map f (filter p l) = flat_map (fun x => if p x then [f x] else []) l.
Proof. induction l as [|x l IH]; cbn; [reflexivity|]. destruct (p x); cbn; now rewrite IH. Qed.
Lemma gen_exops_rows : exists m parts, gen_exops d ranks a c = Ok m /\ parts_ok ranks a parts /\
  Permutation (all_rows m) (map (info d a c) (filter (row_ok d) (flat_map (part_rows a c) (rev parts)))).
Proof.
  destruct (parts_exist ranks a c Hpos Hnd Lac) as (parts & Ep & Hp). unfold gen_exops. rewrite Ep. cbn [bind].
  set (G := fun r => if row_ok d r then [info d a c r] else []).
  assert (X : exists m, foldM (fun partition m =>
    let bsn := bins_of partition in
    do As <- generate_unordered_partition a bsn;
    foldM (fun annhs m =>
      do Cs <- generate_unordered_partition c bsn;
      foldM (fun creas m =>
        do rows <- pairings bsn annhs creas;
        foldM (one_row d a c) rows m) Cs m) As m) (rev parts) [] = Ok m /\
    Permutation (all_rows m) (all_rows [] ++ flat_map (fun p => flat_map G (part_rows a c p)) (rev parts))).
  { apply foldM_rows. intros p m Hin. apply in_rev in Hin. destruct (part_pos ranks a Hpos parts Hp p) as [Pp Ps]; auto.
    cbv zeta. destruct (Nat.eq_dec (length a) (length c)) as [L|L].
    - destruct (part_facts a c Sa Sc p Pp Ps L) as (As & Cs & EA & EC & FA & FC & _ & _ & _ & _). unfold part_rows. rewrite EA, EC. cbn [bind].
      rewrite flat_map_flat_map. rewrite (flat_map_ext_in _ _ As (fun annhs _ => flat_map_flat_map G _ Cs)).
      assert (Y : exists m', foldM (fun annhs m => foldM (fun creas m => do rows <- pairings (bins_of p) annhs creas; foldM (one_row d a c) rows m) Cs m) As m = Ok m' /\
        Permutation (all_rows m') (all_rows m ++ flat_map (fun annhs => flat_map (fun creas => flat_map G
          (match pairings (bins_of p) annhs creas with Ok rs => rs | Err _ => [] end)) Cs) As)).
      { apply foldM_rows. intros annhs m1 HA. apply foldM_rows. intros creas m2 HC.
        destruct (FA annhs HA) as (QA & LA & _). destruct (FC creas HC) as (QC & LC & _).
        destruct (part_pairings a c Sc p Pp Ps L annhs creas QA QC LA LC) as (rs & E & _ & I). rewrite E. cbn [bind].
        apply foldM_rows. intros r m3 Hr. apply (one_row_eq d ranks); auto.
        apply (part_row_sound ranks a c Sa Sc Hpos parts Hp p r L Hin). unfold part_rows. rewrite EA, EC.
        apply in_flat_map. exists annhs. split; auto. apply in_flat_map. exists creas. split; auto. now rewrite E. }
      destruct Y as (m' & E & P). exists m'. split; [exact E|]. exact P.
    - destruct (part_rows_more a c Sa Sc p Pp Ps) as (As & E1 & E2); [lia|]. unfold part_rows. rewrite E1, E2. cbn [bind].
      exists m. assert (Z : forall (l : list (list (list Z))), flat_map (fun annhs : list (list Z) => flat_map (fun creas : list (list Z) => match pairings (bins_of p) annhs creas with Ok rs => rs | Err _ => [] end) []) l = []).
      { induction l; auto. }
      rewrite Z. cbn [flat_map]. rewrite app_nil_r. split; [|reflexivity]. clear. induction As; auto. }
  destruct X as (m & E & P). exists m, parts. split; [exact E|]. split; [exact Hp|]. rewrite map_filter_flat. fold G. rewrite flat_map_flat_map. exact P.
Qed.
End Gen.
