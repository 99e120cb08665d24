(** Lemmas on the names of files. *)
From Coq Require Import Ascii String Arith Bool Lia Decimal DecimalString DecimalNat List Permutation.
From Verif Require Import Py Combos BicliqueLemmas SaveNames SaveNamesSpec.
Import ListNotations.
Local Open Scope char_scope.

Lemma ptree_ind' : forall P : ptree -> Prop, (forall n, P (Plain n)) -> (forall n, P (Rot n)) ->
  (forall n t, P t -> P (One n t)) -> (forall n l, Forall P l -> P (Comb n l)) -> forall t, P t.
Proof.
  intros P H1 H2 H3 H4. fix IH 1. intros [n|n|n t|n l]; [apply H1|apply H2|apply H3, IH|apply H4].
  induction l as [|t l IHl]; constructor; auto.
Qed.

(** * splitext *)
Lemma rindex_None : forall c p, rindex c p = None <-> ~ In c p.
Proof.
  intros c p. induction p as [|x t IH]; simpl; [tauto|]. destruct (rindex c t) as [i|].
  - split; [discriminate|]. intros H. exfalso. assert (~ In c t) by tauto. apply IH in H0. discriminate.
  - destruct (ascii_dec x c) as [->|N]; [split; [discriminate|intros H; exfalso; auto]|].
    split; auto. intros _ [E|I]; [congruence|]. apply (proj1 IH); auto.
Qed.

Lemma rindex_app : forall c a b, ~ In c b -> rindex c (a ++ c :: b) = Some (length a).
Proof.
  intros c a b N. induction a as [|x t IH]; simpl.
  - rewrite (proj2 (rindex_None c b) N). destruct (ascii_dec c c); congruence.
  - rewrite IH. reflexivity.
Qed.

Lemma last_split : forall c (p : str), In c p -> exists a b, p = a ++ c :: b /\ ~ In c b.
Proof.
  intros c p. induction p as [|x t IH]; simpl; [intros []|]. intros I.
  destruct (in_dec ascii_dec c t) as [J|J].
  - destruct (IH J) as (a & b & -> & N). exists (x :: a), b. auto.
  - destruct I as [->|I]; [|contradiction]. exists [], t. auto.
Qed.

Definition stem (pre : str) : Prop := pre = [] \/ exists q, pre = q ++ ["/"].
Definition nodot (p : str) : Prop :=
  exists pre dots rest, p = pre ++ dots ++ rest /\ stem pre /\ Forall (eq ".") dots /\ ~ In "." rest /\ ~ In "/" rest.
Definition dotted (r e : str) : Prop :=
  exists x pre b, e = "." :: x /\ ~ In "." x /\ ~ In "/" x /\ r = pre ++ b /\ stem pre /\ ~ In "/" b /\ Exists (fun c => c <> ".") b.

Lemma start_stem : forall pre b, stem pre -> ~ In "/" b ->
  match rindex "/" (pre ++ b) with None => O | Some s => S s end = length pre.
Proof.
  intros pre b [->|[q ->]] N; simpl.
  - rewrite (proj2 (rindex_None "/" b) N). reflexivity.
  - rewrite <- app_assoc. simpl. rewrite rindex_app by auto. rewrite app_length. simpl. lia.
Qed.

Lemma forall_dots_slash : forall dots, Forall (eq ".") dots -> ~ In "/" dots.
Proof. intros dots F I. rewrite Forall_forall in F. specialize (F _ I). discriminate. Qed.

Lemma splitext_nodot : forall p, nodot p -> splitext p = (p, []).
Proof.
  intros p (pre & dots & rest & -> & St & D & N1 & N2). unfold splitext.
  destruct (rindex "." (pre ++ dots ++ rest)) as [d|] eqn:E; auto.
  rewrite start_stem; auto. 2:{ rewrite in_app_iff. intros [I|I]; auto. apply (forall_dots_slash dots D I). }
  destruct (Nat.leb_spec (length pre) d) as [L|L]; simpl; auto.
  match goal with |- (if ?b then _ else _) = _ => destruct b eqn:X end; auto. exfalso.
  apply existsb_exists in X. destruct X as (c & I & Hc). unfold slice in I.
  assert (Ed : d < length pre + length dots).
  { destruct (in_dec ascii_dec "." (pre ++ dots)) as [J|J].
    - destruct (last_split _ _ J) as (a & b & Eq & Nb). rewrite app_assoc, Eq, <- app_assoc in E. simpl in E.
      rewrite rindex_app in E by (rewrite in_app_iff; tauto). injection E as <-.
      apply (f_equal (@length ascii)) in Eq. rewrite !app_length in Eq. simpl in Eq. lia.
    - rewrite (proj2 (rindex_None "." (pre ++ dots ++ rest))) in E by (rewrite app_assoc, in_app_iff; tauto). discriminate. }
  rewrite skipn_app, skipn_all2, Nat.sub_diag in I by lia. simpl in I.
  rewrite firstn_app in I. replace (d - length pre - length dots) with 0 in I by lia. simpl in I. rewrite app_nil_r in I.
  assert (c = "."). { rewrite Forall_forall in D. symmetry. apply D. rewrite <- (firstn_skipn (d - length pre) dots). apply in_app_iff; auto. }
  subst c. discriminate.
Qed.

Lemma splitext_dotted : forall r e, dotted r e -> splitext (r ++ e) = (r, e).
Proof.
  intros r e (x & pre & b & -> & N1 & N2 & -> & St & N3 & Ex). unfold splitext.
  rewrite rindex_app by auto. rewrite <- app_assoc. rewrite start_stem; auto.
  2:{ rewrite in_app_iff. intros [I|[I|I]]; auto; discriminate. }
  rewrite app_length. destruct (Nat.leb_spec (length pre) (length pre + length b)); [|lia]. cbn [andb].
  match goal with |- (if ?b then _ else _) = _ => assert (X : b = true) end.
  { apply existsb_exists. apply Exists_exists in Ex. destruct Ex as (c & I & Hc). exists c. split.
    - unfold slice. rewrite skipn_app, skipn_all2, Nat.sub_diag by lia. simpl. rewrite firstn_app.
      replace (length pre + length b - length pre) with (length b) by lia. rewrite firstn_all. apply in_app_iff; auto.
    - destruct (ascii_dec c "."); [congruence|auto]. }
  rewrite X. rewrite app_assoc, <- app_length. rewrite firstn_app, firstn_all, Nat.sub_diag. simpl. rewrite app_nil_r.
  rewrite skipn_app, skipn_all, Nat.sub_diag. reflexivity.
Qed.

Lemma nodot_or_dotted : forall p, nodot p \/ exists r e, p = r ++ e /\ dotted r e.
Proof.
  intros p. assert (S : exists pre b, p = pre ++ b /\ stem pre /\ ~ In "/" b).
  { destruct (in_dec ascii_dec "/" p) as [I|I].
    - destruct (last_split _ _ I) as (a & b & -> & N). exists (a ++ ["/"]), b. rewrite <- app_assoc. repeat split; auto.
      right; eauto.
    - exists [], p. repeat split; auto. left; auto. }
  destruct S as (pre & b & -> & St & N).
  assert (D : exists dots rest, b = dots ++ rest /\ Forall (eq ".") dots /\ (rest = [] \/ exists c q, rest = c :: q /\ c <> ".")).
  { clear. induction b as [|c b IH]; [exists [], []; auto|]. destruct (ascii_dec c ".") as [->|N].
    - destruct IH as (dots & rest & -> & F & R). exists ("." :: dots), rest. repeat split; auto.
    - exists [], (c :: b). repeat split; auto. right. eauto. }
  destruct D as (dots & rest & -> & F & R). rewrite in_app_iff in N.
  destruct (in_dec ascii_dec "." rest) as [I|I].
  - right. destruct (last_split _ _ I) as (a & x & E & Nx). exists (pre ++ dots ++ a), ("." :: x).
    split; [subst rest; rewrite <- !app_assoc; reflexivity|].
    exists x, pre, (dots ++ a). split; [reflexivity|]. split; [exact Nx|]. split; [|split; [reflexivity|split; [exact St|split]]].
    + intros J. apply N. right. subst rest. apply in_app_iff. right; right; auto.
    + rewrite in_app_iff. intros [J|J]; apply N; auto. right. subst rest. apply in_app_iff; auto.
    + apply Exists_app. right. rewrite E in R. destruct R as [R|(c & q & R & Hc)]; [destruct a; discriminate|].
      destruct a as [|c' a]; injection R as R1 R2; [congruence|]. constructor. congruence.
  - left. exists pre, dots, rest. repeat split; auto.
Qed.

Lemma splitext_app : forall p r e, splitext p = (r, e) -> p = r ++ e.
Proof.
  intros p r e H. destruct (nodot_or_dotted p) as [N|(r' & e' & -> & D)].
  - rewrite splitext_nodot in H by auto. injection H as <- <-. rewrite app_nil_r. reflexivity.
  - rewrite splitext_dotted in H by auto. injection H as <- <-. reflexivity.
Qed.

Lemma splitext_joined : forall p r e n, splitext p = (r, e) -> tame n -> splitext (joined r n e) = (r ++ "_" :: n, e).
Proof.
  intros p r e n H (T1 & T2 & T3). unfold joined.
  replace (r ++ "_" :: n ++ e) with ((r ++ "_" :: n) ++ e) by (rewrite <- app_assoc; reflexivity).
  destruct (nodot_or_dotted p) as [N|(r' & e' & -> & D)].
  - rewrite splitext_nodot in H by auto. injection H as <- <-. rewrite !app_nil_r.
    apply splitext_nodot. destruct N as (pre & dots & rest & -> & St & F & N1 & N2).
    exists pre, dots, (rest ++ "_" :: n). split; [rewrite <- !app_assoc; reflexivity|]. split; auto. split; auto.
    rewrite !in_app_iff. simpl. split; intros [I|[I|I]]; auto; discriminate.
  - rewrite splitext_dotted in H by auto. injection H as <- <-. apply splitext_dotted.
    destruct D as (x & pre & b & -> & N1 & N2 & -> & St & N3 & Ex). exists x, pre, (b ++ "_" :: n).
    split; [reflexivity|]. split; auto. split; auto. split; [rewrite <- app_assoc; reflexivity|]. split; auto. split.
    + rewrite in_app_iff. simpl. intros [I|[I|I]]; auto; discriminate.
    + apply Exists_app. auto.
Qed.

Lemma splitext_ext : forall p r e, splitext p = (r, e) -> e = [] \/ exists x, e = "." :: x /\ ~ In "." x.
Proof.
  intros p r e H. destruct (nodot_or_dotted p) as [N|(r' & e' & -> & D)].
  - rewrite splitext_nodot in H by auto. injection H as <- <-. auto.
  - rewrite splitext_dotted in H by auto. injection H as <- <-. destruct D as (x & pre & b & -> & N1 & _). right. eauto.
Qed.

(** * decimal numbers *)
Lemma dec_digits : forall n, Forall digit (dec n).
Proof.
  intros n. unfold dec. generalize (Nat.to_uint n). unfold digit.
  induction u; simpl; constructor; auto; vm_compute; lia.
Qed.

Lemma list_ascii_inj : forall a b, list_ascii_of_string a = list_ascii_of_string b -> a = b.
Proof. intros a b H. rewrite <- (string_of_list_ascii_of_string a), <- (string_of_list_ascii_of_string b), H. reflexivity. Qed.

Lemma dec_inj : forall n m, dec n = dec m -> n = m.
Proof.
  intros n m H. apply list_ascii_inj in H. apply DecimalNat.Unsigned.to_uint_inj.
  assert (E := f_equal NilEmpty.uint_of_string H). rewrite !NilEmpty.usu in E. congruence.
Qed.

Lemma dec_nonempty : forall n, dec n <> [].
Proof.
  intros n H. unfold dec in H. destruct (Nat.to_uint n) eqn:E; try discriminate.
  assert (T := DecimalNat.Unsigned.to_of (Nat.to_uint n)). rewrite DecimalNat.Unsigned.of_to in T. rewrite E in T. discriminate.
Qed.

Lemma digit_tame : forall q, Forall digit q -> tame q.
Proof.
  intros q F. rewrite Forall_forall in F. repeat split; intros I; specialize (F _ I); unfold digit in F; vm_compute in F; lia.
Qed.

Lemma tame_app : forall a b, tame a -> tame b -> tame (a ++ b).
Proof. intros a b (A1 & A2 & A3) (B1 & B2 & B3). repeat split; rewrite in_app_iff; tauto. Qed.

(** * numbering *)
Lemma str_eqb_iff : forall a b, str_eqb a b = true <-> a = b.
Proof. intros a b. unfold str_eqb. destruct (list_eq_dec ascii_dec a b); split; auto; discriminate. Qed.

Lemma count_cons : forall n m l, count_name n (m :: l) = (if str_eqb n m then 1 else 0) + count_name n l.
Proof. intros n m l. unfold count_name. simpl. destruct (str_eqb n m); reflexivity. Qed.

Lemma count_In : forall n l, In n l -> 1 <= count_name n l.
Proof.
  intros n l. induction l as [|m t IH]; [intros []|]. rewrite count_cons. intros [->|I].
  - rewrite (proj2 (str_eqb_iff n n) eq_refl). lia.
  - specialize (IH I). lia.
Qed.

Definition lbl (all : list str) (n : str) (k : nat) : str := if Nat.ltb 1 (count_name n all) then n ++ dec (S k) else n.

Lemma number_In : forall all l seen x, In x (number all seen l) -> exists n k, In n l /\ x = lbl all n k /\ count_name n seen <= k.
Proof.
  induction l as [|m t IH]; intros seen x I; simpl in I; [contradiction|]. destruct I as [E|I].
  - exists m, (count_name m seen). repeat split; [left; auto|auto|auto].
  - destruct (IH _ _ I) as (n & k & J & E & L). exists n, k. rewrite count_cons in L. split; [right; auto|]. split; auto. lia.
Qed.

Lemma lbl_inj : forall all n m k k', siblings all -> In n all -> In m all -> lbl all n k = lbl all m k' ->
  n = m /\ (k = k' \/ count_name n all <= 1).
Proof.
  intros all n m k k' [_ S] In_ Im E. unfold lbl in E.
  destruct (Nat.ltb_spec 1 (count_name n all)) as [L1|L1], (Nat.ltb_spec 1 (count_name m all)) as [L2|L2].
  - destruct (app_eq_app _ _ _ _ E) as (q & [[E1 E2]|[E1 E2]]).
    + destruct q as [|c q].
      * rewrite app_nil_r in E1. simpl in E2. subst. split; auto. left. apply dec_inj in E2. lia.
      * exfalso. apply (S n m (c :: q)); auto; [discriminate|]. assert (F := dec_digits (Datatypes.S k')). rewrite E2 in F. apply Forall_app in F. tauto.
    + destruct q as [|c q].
      * rewrite app_nil_r in E1. simpl in E2. subst. split; auto. left. apply dec_inj in E2. lia.
      * exfalso. apply (S m n (c :: q)); auto; [discriminate|]. assert (F := dec_digits (Datatypes.S k)). rewrite E2 in F. apply Forall_app in F. tauto.
  - exfalso. apply (S m n (dec (Datatypes.S k))); auto; [apply dec_nonempty|apply dec_digits].
  - exfalso. apply (S n m (dec (Datatypes.S k'))); auto; [apply dec_nonempty|apply dec_digits].
  - auto.
Qed.

Lemma number_NoDup : forall all, siblings all -> forall l seen,
  incl l all -> (forall n, count_name n all = count_name n seen + count_name n l) -> NoDup (number all seen l).
Proof.
  intros all S. induction l as [|m t IH]; intros seen I C; simpl; constructor.
  - intros J. destruct (number_In _ _ _ _ J) as (n & k & J1 & E & L). rewrite count_cons in L.
    change (lbl all m (count_name m seen) = lbl all n k) in E.
    destruct (lbl_inj all m n _ _ S (I m (or_introl eq_refl)) (I n (or_intror J1)) E) as [-> [Ek|Ec]].
    + rewrite (proj2 (str_eqb_iff n n) eq_refl) in L. lia.
    + specialize (C n). rewrite count_cons, (proj2 (str_eqb_iff n n) eq_refl) in C. assert (H := count_In n t J1). lia.
  - apply IH; [intros x J; apply I; right; auto|]. intros n. rewrite (C n), !count_cons. lia.
Qed.

Lemma numbered_NoDup : forall l, siblings l -> NoDup (numbered l).
Proof. intros l S. apply number_NoDup; [exact S|apply incl_refl|intros n; reflexivity]. Qed.

Lemma numbered_length : forall l, length (numbered l) = length l.
Proof.
  intros l. unfold numbered. generalize (@nil str). generalize l at 1. induction l as [|m t IH]; intros all seen; simpl; auto.
Qed.

Lemma numbered_tame : forall l, Forall tame l -> Forall tame (numbered l).
Proof.
  intros l F. rewrite Forall_forall in *. intros x I. destruct (number_In _ _ _ _ I) as (n & k & J & -> & _).
  unfold lbl. destruct (Nat.ltb 1 (count_name n l)); auto. apply tame_app; auto. apply digit_tame, dec_digits.
Qed.

(** * paths *)
Definition zipf {A B C} (f : A -> B -> list C) := fix go (ns : list A) (l : list B) {struct l} : list C :=
  match ns, l with n :: ns', t :: l' => f n t ++ go ns' l' | _, _ => [] end.
Fixpoint paths (t : ptree) : list (list str) :=
  match t with
  | Plain _ => [[]]
  | Rot _ => [[]; [["u"; "m"]]]
  | One _ t' => [] :: map (cons (tname t')) (paths t')
  | Comb _ l => [] :: zipf (fun n t' => map (cons n) (paths t')) (numbered (map tname l)) l
  end.
Definition join (p : list str) : str := flat_map (fun n => "_" :: n) p.

Lemma files_comb : forall fn r e n l, splitext fn = (r, e) ->
  files fn (Comb n l) = fn :: zipf (fun n t' => files (joined r n e) t') (numbered (map tname l)) l.
Proof. intros fn r e n l H. cbn [files]. rewrite H. f_equal. Qed.

Lemma zipf_map : forall A B C D (g : C -> D) (f : A -> B -> list C) ns l, map g (zipf f ns l) = zipf (fun a b => map g (f a b)) ns l.
Proof. intros A B C D g f ns l. revert ns. induction l as [|b l IH]; intros [|a ns]; simpl; auto. rewrite map_app, IH. reflexivity. Qed.

Lemma files_paths : forall t fn r e, splitext fn = (r, e) -> tame_tree t ->
  files fn t = map (fun p => r ++ join p ++ e) (paths t).
Proof.
  induction t as [n|n|n t IH|n l IH] using ptree_ind'; intros fn r e H T; assert (E := splitext_app _ _ _ H).
  - cbn [files]. rewrite H. simpl. rewrite E. reflexivity.
  - cbn [files]. rewrite H. simpl. rewrite E. reflexivity.
  - inversion T; subst. cbn [files paths map]. rewrite H. f_equal.
    rewrite (IH (joined r (tname t) e) (r ++ "_" :: tname t) e).
    + rewrite map_map. apply map_ext. intros p. unfold join. simpl. rewrite <- !app_assoc. reflexivity.
    + eapply splitext_joined; eauto.
    + auto.
  - inversion T as [| | |? ? S F]; subst. rewrite (files_comb _ r e) by auto. cbn [paths map]. f_equal.
    assert (Tm := numbered_tame _ (proj1 S)). clear S T. revert Tm. generalize (numbered (map tname l)).
    induction l as [|t l IHl]; intros [|m ns] Tm; simpl; auto. inversion Tm; inversion IH; inversion F; subst. rewrite map_app. f_equal.
    + rewrite (H6 (joined r m e) (r ++ "_" :: m) e); [|eapply splitext_joined; eauto|auto].
      rewrite map_map. apply map_ext. intros p. unfold join. simpl. rewrite <- !app_assoc. reflexivity.
    + apply IHl; auto.
Qed.

Lemma paths_tame : forall t, tame_tree t -> Forall (Forall tame) (paths t).
Proof.
  induction t as [n|n|n t IH|n l IH] using ptree_ind'; intros T; simpl.
  - repeat constructor.
  - repeat constructor; simpl; intuition discriminate.
  - inversion T; subst. constructor; auto. apply Forall_map. eapply Forall_impl; [|apply IH; auto]. intros p Hp. constructor; auto.
  - inversion T as [| | |? ? S F]; subst. constructor; auto.
    assert (Tm := numbered_tame _ (proj1 S)). clear S T. revert Tm. generalize (numbered (map tname l)).
    induction l as [|t l IHl]; intros [|m ns] Tm; simpl; auto. inversion Tm; inversion IH; inversion F; subst. apply Forall_app. split; auto.
    apply Forall_map. eapply Forall_impl; [|apply H5; auto]. intros p Hp. constructor; auto.
Qed.

Lemma zipf_heads : forall (l : list ptree) ns (p : list str), In p (zipf (fun n t' => map (cons n) (paths t')) ns l) -> exists n q, p = n :: q /\ In n ns.
Proof.
  induction l as [|t l IH]; intros [|n ns] p I; simpl in I; try contradiction.
  apply in_app_iff in I. destruct I as [I|I].
  - apply in_map_iff in I. destruct I as (q & <- & _). exists n, q. split; auto. left; auto.
  - destruct (IH _ _ I) as (m & q & -> & J). exists m, q. split; auto. right; auto.
Qed.

Lemma zipf_NoDup : forall (l : list ptree) ns, NoDup ns -> Forall (fun t => NoDup (paths t)) l ->
  NoDup (zipf (fun n t' => map (cons n) (paths t')) ns l).
Proof.
  induction l as [|t l IH]; intros [|n ns] N F; simpl; try constructor. inversion N; inversion F; subst.
  apply NoDup_app_iff. split; [|split].
  - apply FinFun.Injective_map_NoDup; auto. intros a b E. congruence.
  - auto.
  - intros p I J. apply in_map_iff in I. destruct I as (q & <- & _). destruct (zipf_heads _ _ _ J) as (m & q' & E & K). congruence.
Qed.

Lemma paths_NoDup : forall t, tame_tree t -> NoDup (paths t).
Proof.
  induction t as [n|n|n t IH|n l IH] using ptree_ind'; intros T; simpl.
  - repeat constructor; auto.
  - repeat constructor; simpl; intuition discriminate.
  - inversion T; subst. constructor.
    + intros I. apply in_map_iff in I. destruct I as (q & E & _). discriminate.
    + apply FinFun.Injective_map_NoDup; auto. intros a b E. congruence.
  - inversion T as [| | |? ? S F]; subst. constructor.
    + intros I. destruct (zipf_heads _ _ _ I) as (m & q & E & _). discriminate.
    + apply zipf_NoDup; [apply numbered_NoDup; auto|]. rewrite Forall_forall in *. intros t I. apply IH; auto.
Qed.

Lemma join_inj : forall p q, Forall tame p -> Forall tame q -> join p = join q -> p = q.
Proof.
  induction p as [|n p IH]; intros [|m q] Fp Fq E; simpl in E; auto; try discriminate.
  inversion Fp; inversion Fq; subst. injection E as E.
  assert (G : forall a b x y, ~ In "_" a -> ~ In "_" b -> (x = [] \/ exists x', x = "_" :: x') -> (y = [] \/ exists y', y = "_" :: y') ->
     a ++ x = b ++ y -> a = b /\ x = y :> str).
  { clear. induction a as [|c a IH]; intros [|d b] x y Na Nb Hx Hy E; simpl in E.
    - auto.
    - exfalso. destruct Hx as [->|[x' ->]]; [discriminate|]. injection E as E _. apply Nb. left; auto.
    - exfalso. destruct Hy as [->|[y' ->]]; [discriminate|]. injection E as E _. apply Na. left; auto.
    - injection E as -> E. destruct (IH b x y) as [-> ->]; auto; simpl in *; tauto. }
  assert (J : forall r, join r = [] \/ exists x', join r = "_" :: x') by (intros [|r rs]; simpl; eauto).
  destruct (G n m (join p) (join q)) as [-> E2]; auto; try (apply H1 || apply H5).
  f_equal. apply IH; auto.
Qed.

(** * np.save *)
Lemma ends_npy : forall p, str_eqb (skipn (length p - 4) p) npy = true <-> exists u, p = u ++ npy.
Proof.
  intros p. rewrite str_eqb_iff. split.
  - intros H. exists (firstn (length p - 4) p). rewrite <- H. symmetry. apply firstn_skipn.
  - intros [u ->]. rewrite app_length. simpl. replace (length u + 4 - 4) with (length u) by lia.
    rewrite skipn_app, skipn_all, Nat.sub_diag. reflexivity.
Qed.

Lemma last_dot : forall a b x y, ~ In "." x -> ~ In "." y -> a ++ "." :: x = b ++ "." :: y -> a = b /\ x = y :> str.
Proof.
  intros a b x y Nx Ny E. assert (L := rindex_app "." a x Nx). rewrite E, rindex_app in L by auto. injection L as L.
  assert (a = b) by (apply (f_equal (firstn (length a))) in E; rewrite firstn_app, firstn_all, Nat.sub_diag in E; simpl in E;
    rewrite app_nil_r in E; rewrite <- L in E at 1; rewrite firstn_app, firstn_all, Nat.sub_diag in E; simpl in E; rewrite app_nil_r in E; auto).
  subst. apply app_inv_head in E. injection E as ->. auto.
Qed.

Lemma npy_name_inj : forall fn r e p q, splitext fn = (r, e) -> p <> [] -> q <> [] -> Forall tame p -> Forall tame q ->
  npy_name (r ++ join p ++ e) = npy_name (r ++ join q ++ e) -> r ++ join p ++ e = r ++ join q ++ e.
Proof.
  intros fn r e p q H Np Nq Tp Tq.
  assert (G : forall p, p <> [] -> Forall tame p -> ((exists u, r ++ join p ++ e = u ++ npy) <-> e = npy)).
  { clear p q Np Nq Tp Tq. intros p Np Tp. split; [|intros ->; exists (r ++ join p); rewrite <- app_assoc; reflexivity].
    intros [u E]. destruct (splitext_ext _ _ _ H) as [->|(x & -> & Nx)].
    - exfalso. rewrite app_nil_r in E. destruct (exists_last Np) as (p' & n & ->). unfold join in E. rewrite flat_map_app in E. simpl in E.
      rewrite app_nil_r, app_assoc in E. apply Forall_app in Tp. destruct Tp as [_ Tn]. inversion Tn as [|? ? (T1 & _ & T3)]; subst.
      destruct (app_eq_app _ _ _ _ E) as (l & [[E1 E2]|[E1 E2]]).
      + assert (I : In "_" npy) by (rewrite E2; apply in_app_iff; right; left; auto). simpl in I. intuition discriminate.
      + assert (I : In "." ("_" :: n)) by (rewrite E2; apply in_app_iff; right; left; auto). destruct I as [I|I]; [discriminate|auto].
    - rewrite app_assoc in E. destruct (last_dot (r ++ join p) u x ["n"; "p"; "y"] Nx ltac:(simpl; intuition discriminate) E) as [_ ->]. reflexivity. }
  unfold npy_name. intros E.
  destruct (str_eqb (skipn (length (r ++ join p ++ e) - 4) (r ++ join p ++ e)) npy) eqn:E1;
  destruct (str_eqb (skipn (length (r ++ join q ++ e) - 4) (r ++ join q ++ e)) npy) eqn:E2; auto.
  - apply ends_npy in E1. apply (G p Np Tp) in E1. apply (G q Nq Tq) in E1. apply ends_npy in E1. congruence.
  - apply ends_npy in E2. apply (G q Nq Tq) in E2. apply (G p Np Tp) in E2. apply ends_npy in E2. congruence.
  - apply app_inv_tail in E. auto.
Qed.
