(** Property C65, third part: derivatives of real functions *)
From Coq Require Import Reals Lra List ZArith NArith Arith Bool Lia.
From Verif Require Import Py BitSpec Alg WfnCI Geminal GemSpec EqnSpec EqnReal P_CI Rank2 Rank2Spec P_Rank2 P_Rank2b.
Import ListNotations.
Lemma avoid_near : forall (l : list R) x, ~ In x l -> exists d, (0 < d)%R /\ forall h, (Rabs h < d)%R -> ~ In (x + h)%R l.
Proof.
  induction l as [|a l IH]; intros x H.
  - exists 1%R. split; [lra|]. intros h _ [].
  - destruct (IH x) as (d & Pd & Hd); [intros I; apply H; now right|]. assert (Na : (x - a)%R <> 0%R). { intros E. apply H. left. lra. }
    exists (Rmin d (Rabs (x - a))). split; [apply Rmin_glb_lt; auto; now apply Rabs_pos_lt|]. intros h Hh [E|I].
    + pose proof (Rmin_r d (Rabs (x - a))) as M. assert (X : h = (- (x - a))%R) by lra. rewrite X, Rabs_Ropp in Hh. lra.
    + apply (Hd h); auto. pose proof (Rmin_l d (Rabs (x - a))). lra.
Qed.
Lemma real_local : local (K := R_field) real_der.
Proof.
  intros f f' x g l Nx E H. change (derivable_pt_lim f' x g). change (derivable_pt_lim f x g) in H. intros e Pe. destruct (H e Pe) as [d Hd].
  destruct (avoid_near l x Nx) as (d' & Pd' & Hd'). assert (Pm : (0 < Rmin d d')%R) by (apply Rmin_glb_lt; auto; apply cond_pos).
  exists (mkposreal _ Pm). intros h Nh Bh. cbn [pos] in Bh. pose proof (Rmin_l d d') as M1. pose proof (Rmin_r d d') as M2.
  rewrite <- (E x Nx). rewrite <- E by (apply Hd'; lra). apply Hd; auto. lra.
Qed.
Lemma R_char_zero : char_zero R_field.
Proof.
  intros n Hn. assert (X : forall k, (0 <= nat_r (K := R_field) k)%R /\ ((0 < k)%nat -> (0 < nat_r (K := R_field) k)%R)).
  { induction k as [|k [IH1 IH2]]; cbn; split; try lra; intros; try lia; cbn in *; lra. }
  destruct (X n) as [_ P]. specialize (P Hn). intros E. change (nat_r (K := R_field) n = 0%R) in E. rewrite E in P. lra.
Qed.
(** Real parameters: the entries of the array that is returned are the derivatives of the overlap as a function of a real
    variable, except for the lambdas beyond the number of pairs. *)
Theorem C65_real : forall small lstsq far nelec nspin ngem o ps (w : gem R_field) sd h,
  new_r2 small lstsq far nelec nspin ngem o ps = Ok w -> admissible (gm_ngem w) (norbpair w) (gm_params w) ->
  nelec = Z.of_nat (2 * h) -> has_electrons sd (2 * h) -> (h = 1%nat -> gm_ngem w = 1%nat) ->
  forall ds ks, Forall2 (selects (length (gm_params w))) ds ks -> (forall k, In k ks -> ~ (h <= k < gm_ngem w)%nat) ->
  exists l, r2_overlap_deriv w sd ds = Ok l /\
    Forall2 (fun k v => derivable_pt_lim (fun x => okv (r2_overlap (with_entry w k x) sd)) (nth k (gm_params w) 0%R) v) ks l.
Proof.
  intros small lstsq far nelec nspin ngem o ps w sd h E A Hn He H1 ds ks Hd Hk.
  destruct (C65_derivative real_der real_calculus real_local _ _ _ _ _ _ _ _ w sd h R_char_zero E A Hn He H1) as (D & LD & VD & V & _).
  exists (map (fun k => nth k D 0%R) ks). split; [now apply V|]. clear V.
  assert (B : forall k, In k ks -> (k < length (gm_params w))%nat).
  { clear - Hd. induction Hd as [|d k ds ks Hs F IH]; intros k' [].  - subst k'. destruct Hs as [? ?]. lia. - auto. }
  clear Hd. induction ks as [|k ks IH]; cbn [map]; constructor.
  - apply (VD k); [apply B; now left|apply Hk; now left].
  - apply IH; intros; [apply Hk|apply B]; now right.
Qed.

Print Assumptions C65_real.
