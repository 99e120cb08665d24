(** The energy and the rows of the Jacobian do not depend on the stored energy. *)
From Coq Require Import List ZArith NArith Arith Bool Lia Ring.
From Verif Require Import Py Slater BitSpec BitLemmas Alg BicliqueLemmas ParamSel ParamSelSpec ParamSelLemmas P_ParamSel EqnBase EqnSpec EqnLemmas EqnMain EqnObj EqnObjSpec P_Eqn EqnJac ProjSpec.
Import ListNotations.

Section A.
Context {K : CField}.
Local Open Scope cr_scope.

Lemma put_one_ext : forall s c (g1 g2 : list nat -> res (list K)) out, (forall l, g1 l = g2 l) -> put_one s c g1 out = put_one s c g2 out.
Proof. intros s c g1 g2 out H. unfold put_one. destruct (get_item s (KComp c)); auto. rewrite H. reflexivity. Qed.
Lemma put_wfn_ext : forall (y : sys K) s (g1 g2 : nat -> list nat -> res (list K)) out, (forall c l, g1 c l = g2 c l) -> put_wfn y s g1 out = put_wfn y s g2 out.
Proof.
  intros y s g1 g2 out H. unfold put_wfn. destruct (y_parts y) as [l|]; [|apply put_one_ext; auto].
  revert out. induction l as [|c l IH]; intros out; simpl; auto. destruct (has_key s c); auto.
  rewrite (put_one_ext s c (g1 c) (g2 c)) by auto. destruct (put_one s c (g2 c) out); simpl; auto.
Qed.
Variables (exc : option nat) (P : N -> Prop) (y : sys K).
Hypothesis Ig : ignores exc P y.
Lemma dov_agree : forall s w1 w2 sd, agree exc w1 w2 -> P sd -> wrapped_dov y s w1 sd = wrapped_dov y s w2 sd.
Proof. intros s w1 w2 sd A H. destruct (Ig w1 w2 sd A H) as (_ & _ & H3 & _). unfold wrapped_dov. apply put_wfn_ext. auto. Qed.
Lemma dint_agree : forall s w1 w2 sd, agree exc w1 w2 -> P sd -> wrapped_dint y s w1 sd = wrapped_dint y s w2 sd.
Proof.
  intros s w1 w2 sd A H. destruct (Ig w1 w2 sd A H) as (_ & _ & _ & H4 & H5). unfold wrapped_dint.
  rewrite (put_wfn_ext y s (y_dint y w1 sd) (y_dint y w2 sd)) by auto. destruct (put_wfn y s (y_dint y w2 sd) _); simpl; auto.
  apply put_one_ext. auto.
Qed.
Section R.
Variables (r : refwfn) (w1 w2 : world K).
Hypothesis Ag : agree exc w1 w2.
Hypothesis Hp : forall sd, In sd (ref_sds r) -> P sd.
Hypothesis Ho : ref_out exc r.
Lemma ovs_agree : forall l, (forall sd, In sd l -> P sd) -> mapM (wrapped_ov y w1) l = mapM (wrapped_ov y w2) l.
Proof. intros l H. apply mapM_fun. intros sd I. apply (Ig w1 w2 sd Ag (H sd I)). Qed.
Lemma ints_agree : forall l, (forall sd, In sd l -> P sd) -> mapM (wrapped_int y w1) l = mapM (wrapped_int y w2) l.
Proof. intros l H. apply mapM_fun. intros sd I. apply (Ig w1 w2 sd Ag (H sd I)). Qed.
Lemma dovs_agree : forall s l, (forall sd, In sd l -> P sd) -> mapM (wrapped_dov y s w1) l = mapM (wrapped_dov y s w2) l.
Proof. intros s l H. apply mapM_fun. intros sd I. apply dov_agree; auto. Qed.
Lemma dints_agree : forall s l, (forall sd, In sd l -> P sd) -> mapM (wrapped_dint y s w1) l = mapM (wrapped_dint y s w2) l.
Proof. intros s l H. apply mapM_fun. intros sd I. apply dint_agree; auto. Qed.
Lemma coeffs_agree : ref_coeffs y w1 r = ref_coeffs y w2 r.
Proof. destruct r as [l|c l]; simpl in *; [apply ovs_agree; auto|rewrite (Ag c Ho); reflexivity]. Qed.
Lemma dcoeffs_agree : forall s, d_ref_coeffs y s w1 r = d_ref_coeffs y s w2 r.
Proof. intros s. destruct r as [l|c l]; simpl in *; [apply dovs_agree; auto|rewrite (Ag c Ho); reflexivity]. Qed.
Lemma norm_agree : one_norm y w1 r = one_norm y w2 r.
Proof. unfold one_norm. rewrite coeffs_agree, ovs_agree by auto. reflexivity. Qed.
Lemma energy_agree : one_energy y w1 r = one_energy y w2 r.
Proof. unfold one_energy. rewrite coeffs_agree, ovs_agree, ints_agree by auto. reflexivity. Qed.
Lemma norm_deriv_agree : forall s, norm_deriv y s w1 r = norm_deriv y s w2 r.
Proof. intros s. unfold norm_deriv. rewrite coeffs_agree, ovs_agree, dcoeffs_agree, dovs_agree by auto. reflexivity. Qed.
End R.
Lemma jac_rows_agree : forall s ps E v w1 w2, agree exc w1 w2 -> (forall sd, In sd ps -> P sd) -> jac_rows y s ps E v w1 = jac_rows y s ps E v w2.
Proof. intros s ps E v w1 w2 A H. unfold jac_rows. rewrite (dints_agree w1 w2 A), (dovs_agree w1 w2 A), (ovs_agree w1 w2 A) by auto. reflexivity. Qed.
End A.

Section E.
Context {K : CField}.
Variables (P : N -> Prop) (e : eqns K).
Hypothesis Ig : ignores (energy_store e) P (o_sys (e_obj e)).
Hypothesis Hp : forall sd, In sd (ref_sds (e_ref e)) -> P sd.
Hypothesis Ho : ref_out (energy_store e) (e_ref e).
Variables (w1 w2 : world K).
Hypothesis Ag : agree (energy_store e) w1 w2.
Lemma comp_agree : e_type e <> Compute -> w1 (e_comp e) = w2 (e_comp e).
Proof. intros H. apply Ag. unfold energy_store. destruct (e_type e); try discriminate. contradiction. Qed.
Lemma jac_energy_agree : jac_energy e w1 = jac_energy e w2.
Proof.
  unfold jac_energy. rewrite (coeffs_agree _ P _ Ig _ w1 w2 Ag Hp Ho), (dcoeffs_agree _ P _ Ig _ w1 w2 Ag Hp Ho), (ovs_agree _ P _ Ig w1 w2 Ag _ Hp),
    (dovs_agree _ P _ Ig w1 w2 Ag _ _ Hp), (ints_agree _ P _ Ig w1 w2 Ag _ Hp), (dints_agree _ P _ Ig w1 w2 Ag _ _ Hp).
  assert (X := comp_agree). destruct (e_type e); try (rewrite X by discriminate; reflexivity). reflexivity.
Qed.
Lemma energy_of_agree : energy_of e w1 = energy_of e w2.
Proof.
  unfold energy_of. assert (X := comp_agree). destruct (e_type e); try (rewrite X by discriminate; reflexivity). apply (energy_agree _ P _ Ig _ w1 w2 Ag Hp Ho).
Qed.
End E.
Lemma agree_trans : forall (K : CField) exc (a b c : world K), agree exc a b -> agree exc b c -> agree exc a c.
Proof. intros K exc a b c H1 H2 d Hd. rewrite H1, H2; auto. Qed.
Lemma agree_refl : forall (K : CField) exc (a : world K), agree exc a a.
Proof. intros K exc a d Hd. reflexivity. Qed.
Lemma agree_sym : forall (K : CField) exc (a b : world K), agree exc a b -> agree exc b a.
Proof. intros K exc a b H d Hd. symmetry. auto. Qed.
Lemma with_energy_agree : forall (K : CField) (e : eqns K) E w, agree (energy_store e) w (with_energy e E w).
Proof.
  intros K e E w c Hc. unfold with_energy, energy_store in *. destruct (e_type e); auto. unfold set_world.
  destruct (Nat.eqb_spec c (e_comp e)); auto. subst. contradiction.
Qed.
