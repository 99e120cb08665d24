(** C73: Hamiltonians, options, steps and resummation of the perturbation theory. *)
From Coq Require Import List ZArith Arith Bool Lia Ring QArith Qcanon.
From Verif Require Import Py Slater Alg BicliqueLemmas Fanci Fanpt FanptSpec FanptSpec2 FanptLemmas FanptPoly FanptOrders FanptMain FanciLemmas FanptFree SolverEx FanptEx FanptEx3.
From Verif Require P_Fanpt P_Fanci P_FanptFree.
Import ListNotations.
Local Open Scope nat_scope.

Section Drive.
Context {F : CField}.
Local Notation K := (fring F).
Local Open Scope cr_scope.
Add Ring K_ring133 : (rth K).
Variable sop : pham F -> nat -> nat -> K.
Variable lstsq : nat -> nat -> (nat -> nat -> K) -> (nat -> K) -> nat -> K.
Variable inv : nat -> (nat -> nat -> K) -> nat -> nat -> K.
Variable lt le : K -> K -> bool.
Variable isz : K -> bool.
Variable mk : pham F -> list bool -> fobj K.
Variable opt : fobj K -> list K -> list K.
Variable chunk : nat.

(** * the Hamiltonians *)
Theorem C73_hamiltonians : forall (h : pham F) (l : K),
  same_ham (linear_comb_ham h (ideal_ham h) 1 (1 - 1)) h /\ same_ham (linear_comb_ham h (ideal_ham h) 0 (1 - 0)) (ideal_ham h) /\
  same_ham (linear_comb_ham h (ideal_ham h) l (1 - l)) (mkpham (h_core h) (h_one h) (reduce_to_fock (h_two h) l)) /\
  (forall i j k m, (m = j \/ k = j -> h_two (ideal_ham h) i j k m = h_two h i j k m) /\ (m <> j -> k <> j -> h_two (ideal_ham h) i j k m = 0)).
Proof.
  intros h l. split; [|split; [|split]].
  - split; [|split]; cbn; intros; ring.
  - split; [|split]; cbn; intros; ring.
  - split; [|split]; cbn; intros; [ring|ring|]. unfold reduce_to_fock. destruct (_ || _)%bool; ring.
  - intros i j k m. unfold ideal_ham, reduce_to_fock. cbn [h_two]. split.
    + intros [-> | ->]; [now rewrite Nat.eqb_refl|now rewrite Nat.eqb_refl, orb_true_r].
    + intros A B. apply Nat.eqb_neq in A, B. rewrite A, B. cbn [orb]. ring.
Qed.

(** * the options *)
Theorem C73_options : forall (o : fobj K) h eact resum ref order li lf steps qao p, fo_mask o <> [] -> new_fanpt o h eact resum ref order li lf steps qao = Ok p ->
  p_eact p = eact /\ p_resum p = resum /\ p_h1 p = h /\ p_h0 p = ideal_ham h /\ last (p_mask p) false = eact /\ (p_three p = true <-> qao = Some 3%Z) /\ (p_three p = true -> eact = true) /\
  (resum = true -> eact = false /\ p_steps p = 1%nat /\ p_inorm p = false /\ fo_nequation o = fo_nactive (freeze_energy o)) /\
  (resum = false -> p_steps p = steps /\ p_inorm p = has_con o (NDet ref)).
Proof.
  intros o h eact resum ref order li lf steps qao p Nm H. unfold new_fanpt in H. cbv zeta in H.
  destruct (P_Fanci.C72_energy_mask o Nm) as (Fe & Ue & _ & _ & _ & _ & Fq & _). unfold fo_eact in Fe, Ue.
  set (o' := if eact then unfreeze_energy o else freeze_energy o) in *. assert (Lo : last (fo_mask o') false = eact) by (unfold o'; destruct eact; auto). assert (Hc : has_con o' (NDet ref) = has_con o (NDet ref)) by (unfold o'; destruct eact; reflexivity).
  assert (G : exists st : nat * bool, (resum = true -> eact = false /\ fst st = 1%nat /\ snd st = false /\ fo_nequation o = fo_nactive (freeze_energy o)) /\ (resum = false -> st = (steps, has_con o (NDet ref))) /\
    (let '(steps0, inorm) := st in match qao with None => Err ValueError | Some v => if negb ((v =? 2) || (v =? 3))%Z then Err ValueError else if ((v =? 3)%Z && negb eact)%bool then Err ValueError
       else Ok (mkfanpt eact resum inorm ref order li lf steps0 (v =? 3)%Z (ideal_ham h) h (fo_mask o')) end) = Ok p).
  { destruct resum.
    - destruct eact; [discriminate H|]. destruct (negb (has_con o (NDet ref)) && (fo_nequation o' =? fo_nactive o'))%bool eqn:C.
      + cbn [bind] in H. apply andb_true_iff in C. destruct C as [C1 C2]. apply Nat.eqb_eq in C2. apply negb_true_iff in C1. exists (1%nat, false). rewrite C1 in H. split; [intros _; repeat split; auto|]. split; [intros E; discriminate E|exact H].
      + destruct (has_con o (NDet ref) && _)%bool in H; discriminate H.
    - cbn [bind] in H. exists (steps, has_con o (NDet ref)). split; [intros E; discriminate E|]. split; [reflexivity|exact H]. }
  destruct G as ([s i] & G1 & G2 & G3). destruct qao as [v|]; [|discriminate G3]. destruct ((v =? 2) || (v =? 3))%Z eqn:V; [|discriminate G3]. cbn [negb] in G3. destruct ((v =? 3)%Z && negb eact)%bool eqn:T; [discriminate G3|].
  injection G3 as <-. cbn. split; [reflexivity|]. split; [reflexivity|]. split; [reflexivity|]. split; [reflexivity|]. split; [exact Lo|].
  split; [rewrite Z.eqb_eq; split; [now intros ->|intros E; now injection E]|]. split; [intros E; rewrite E in T; now destruct eact|]. split; [exact G1|]. intros E. specialize (G2 E). injection G2 as -> ->. auto.
Qed.
(** what the constructor refuses; among it the documented None, and a resummation with a constrained reference *)
Theorem C73_refusals : forall (o : fobj K) h eact resum ref order li lf steps qao,
  (qao = None -> exists e, new_fanpt o h eact resum ref order li lf steps qao = Err e) /\
  (qao = Some 3%Z -> eact = false -> exists e, new_fanpt o h eact resum ref order li lf steps qao = Err e) /\
  (resum = true -> eact = true -> new_fanpt o h eact resum ref order li lf steps qao = Err ValueError) /\
  (resum = true -> has_con o (NDet ref) = true -> exists e, new_fanpt o h eact resum ref order li lf steps qao = Err e).
Proof.
  intros o h eact resum ref order li lf steps qao. unfold new_fanpt. cbv zeta. split; [|split; [|split]].
  - intros ->. destruct (if resum then _ else _ : res (nat * bool)) as [[s i]|e]; cbn [bind]; eexists; reflexivity.
  - intros -> ->. destruct (if resum then _ else _ : res (nat * bool)) as [[s i]|e]; cbn [bind]; eexists; reflexivity.
  - intros -> ->. reflexivity.
  - intros -> E. rewrite E. destruct eact; cbn [negb andb]; [eexists; reflexivity|]. destruct (_ =? _)%nat; cbn [bind remove_constraint]; eexists; reflexivity.
Qed.
(** when an updater is made *)
Theorem C73_updater_accepts : forall (q : cont F) order fl given resum three,
  let rs := (negb (q_eact q) && resum && Nat.eqb (q_nequation q) (q_nactive q))%bool in
  (exists u, new_updater sop lstsq inv lt le q order fl given resum three = Ok u) <->
  (lt (q_l q) fl = true /\ le fl 1 = true /\ (rs = true \/ (0 <= order /\ (given = false \/ order = 0))%Z)).
Proof.
  intros q order fl given resum three rs. unfold new_updater. fold rs. destruct (lt (q_l q) fl), (le fl 1); cbn [andb negb]; try (split; [intros (u & E); discriminate E|intros (A & B & _); discriminate]).
  destruct rs; [split; [auto|intros _; eexists; reflexivity]|]. destruct (Z.ltb_spec order 0) as [L|L]; [split; [intros (u & E); discriminate E|intros (_ & _ & [A|[A _]]); [discriminate A|lia]]|].
  destruct given; cbn [andb].
  - destruct (Z.eqb_spec order 0) as [->|N]; cbn [negb].
    + split; [intros _; split; [reflexivity|split; [reflexivity|right; split; [lia|now right]]]|intros _; eexists; reflexivity].
    + split; [intros (u & E); discriminate E|]. intros (_ & _ & [A|[_ [A|A]]]); [discriminate A|discriminate A|contradiction].
  - split; [intros _; split; [reflexivity|split; [reflexivity|right; split; [lia|now left]]]|intros _; eexists; reflexivity].
Qed.
(** a solver that is given is not used: the responses need the attribute *)
Theorem C73_solver_refuted : forall (q : cont F) order fl three, (1 <= order)%Z -> lt (q_l q) fl = true -> le fl 1 = true ->
  new_updater sop lstsq inv lt le q order fl true false three = Err AttributeError.
Proof.
  intros q order fl three H A B. unfold new_updater. rewrite A, B, andb_false_r. cbn [andb negb]. destruct (Z.ltb_spec order 0); [lia|]. destruct (Z.eqb_spec order 0); [lia|]. reflexivity.
Qed.
(** resummation is dropped without a message *)
Theorem C73_resum_dropped_refuted : forall (q : cont F) order fl given three, (q_eact q = true \/ q_nequation q <> q_nactive q) ->
  new_updater sop lstsq inv lt le q order fl given true three = new_updater sop lstsq inv lt le q order fl given false three.
Proof.
  intros q order fl given three H. unfold new_updater. replace (negb (q_eact q) && true && (q_nequation q =? q_nactive q))%bool with false; [now rewrite andb_false_r|].
  destruct H as [-> | H]; [reflexivity|]. apply Nat.eqb_neq in H. now rewrite H, andb_false_r.
Qed.
(** when a container is made *)
Theorem C73_container_accepts : forall free (o : fobj K) x h0 h1 l ref inorm qao3, let three := (qao3 && negb free)%bool in
  (exists q, new_cont sop free o chunk x h0 h1 l ref inorm qao3 = Ok q) <->
  (free = true -> fo_eact o = false /\ (ref < fo_nproj o)%nat) /\ (inorm = true -> exists c, In (NDet ref, c) (fo_cons o)) /\
  (three = true -> fo_ddovlp o <> None /\ fo_eact o = true /\ (fo_nactive o = fo_nparam o \/ fo_nparam o = 2)%nat).
Proof.
  intros free o x h0 h1 l ref inorm qao3 three.
  assert (Hc : has_con o (NDet ref) = true <-> exists c, In (NDet ref, c) (fo_cons o)).
  { unfold has_con. rewrite existsb_exists. split.
    - intros ([n c] & H1 & H2). cbn [fst] in H2. destruct n; try discriminate H2. cbn in H2. apply Nat.eqb_eq in H2. subst. eauto.
    - intros (c & H). exists (NDet ref, c). split; [exact H|]. cbn. apply Nat.eqb_refl. }
  assert (Le : (fo_nactive o <= fo_nparam o)%nat) by (unfold fo_nactive, fo_nparam, ntrue; apply filter_length_le).
  unfold new_cont. cbv zeta. fold three. rewrite <- Hc. destruct free; cbn [andb negb].
  - assert (T : three = false) by (unfold three; now rewrite andb_false_r). rewrite T. destruct (fo_eact o).
    + split; [intros (q & E); discriminate E|]. intros (A & _). destruct (A eq_refl). discriminate.
    + cbn [bind]. destruct inorm; cbn [andb].
      * destruct (has_con o (NDet ref)); cbn [negb]; [|split; [intros (q & E); discriminate E|intros (_ & A & _); specialize (A eq_refl); discriminate A]].
        destruct (Nat.leb_spec (fo_nproj o) ref); [split; [intros (q & E); discriminate E|intros (A & _); destruct (A eq_refl); lia]|]. cbn [andb]. split; [intros _; repeat split; auto; discriminate|intros _; eexists; reflexivity].
      * destruct (Nat.leb_spec (fo_nproj o) ref); [split; [intros (q & E); discriminate E|intros (A & _); destruct (A eq_refl); lia]|]. cbn [andb]. split; [intros _; repeat split; auto; discriminate|intros _; eexists; reflexivity].
  - assert (T : three = qao3) by (unfold three; now rewrite andb_true_r). rewrite T. clear T.
    assert (I : forall b : bool, (inorm && negb b = false)%bool <-> (inorm = true -> b = true)) by (intros b; destruct inorm, b; cbn; split; auto; try discriminate; intros H; exfalso; discriminate (H eq_refl)).
    specialize (I (has_con o (NDet ref))). destruct qao3.
    + destruct (fo_ddovlp o) as [f|]; [|cbn [bind]; split; [intros (q & E); discriminate E|intros (_ & _ & A); destruct (A eq_refl) as (A' & _); now contradiction A']]. cbn [bind].
      destruct (inorm && negb (has_con o (NDet ref)))%bool; [split; [intros (q & E); discriminate E|intros (_ & A & _); apply I in A; discriminate A]|].
      cbn [andb]. destruct (fo_eact o) eqn:Ea; cbn [negb]; [|split; [intros (q & E); discriminate E|intros (_ & _ & A); destruct (A eq_refl) as (_ & A' & _); discriminate A']].
      assert (P1 : (1 <= fo_nactive o)%nat).
      { unfold fo_eact in Ea. assert (Nm : fo_mask o <> []) by (intros Z; rewrite Z in Ea; discriminate Ea). rewrite (nactive_split o Nm). unfold fo_eact. rewrite Ea. lia. }
      destruct (Nat.eqb_spec (fo_nactive o - 1) (fo_nparam o - 1)) as [E1|E1]; cbn [orb negb].
      * split; [intros _|intros _; eexists; reflexivity]. split; [discriminate|]. split; [now apply I|]. intros _. split; [discriminate|]. split; [reflexivity|left; lia].
      * destruct (Nat.eqb_spec (fo_nparam o - 1) 1) as [E2|E2]; cbn [negb].
        -- split; [intros _|intros _; eexists; reflexivity]. split; [discriminate|]. split; [now apply I|]. intros _. split; [discriminate|]. split; [reflexivity|right; lia].
        -- split; [intros (q & E); discriminate E|]. intros (_ & _ & A). destruct (A eq_refl) as (_ & _ & [A'|A']); lia.
    + cbn [bind]. destruct (inorm && negb (has_con o (NDet ref)))%bool; [split; [intros (q & E); discriminate E|intros (_ & A & _); apply I in A; discriminate A]|].
      cbn [andb]. split; [intros _|intros _; eexists; reflexivity]. split; [discriminate|]. split; [now apply I|discriminate].
Qed.
(** the constant terms of an order: with all previous responses and an order of the quasi approximation of None, 2 or 3; they are
    those whose equations the updater solves *)
Theorem C73_constant_terms : forall (q : cont F) order prev qao,
  ((exists v, const_terms q order prev qao = Ok v) <-> ((qao = None \/ qao = Some 2 \/ qao = Some 3) /\ 0 <= order /\ (order = 1 \/ exists l, prev = Some l /\ Z.of_nat (length l) = order - 1))%Z) /\
  (forall m, (1 <= m)%nat -> const_terms q (Z.of_nat m) (Some (responses lstsq q false (m - 1))) (Some 2%Z) = Ok (gen_const q false m (responses lstsq q false (m - 1))) /\
                             const_terms q (Z.of_nat m) (Some (responses lstsq q true (m - 1))) (Some 3%Z) = Ok (gen_const q true m (responses lstsq q true (m - 1)))).
Proof.
  intros q order prev qao. split.
  - unfold const_terms. destruct (Z.ltb_spec order 0); [split; [intros (v & E); discriminate E|lia]|].
    assert (Q : (exists b, check_qao qao = Ok b) <-> (qao = None \/ qao = Some 2 \/ qao = Some 3)%Z).
    { unfold check_qao. destruct qao as [v|]; [|split; eauto]. destruct (Z.eqb_spec v 2) as [->|N2]; [split; eauto|]. destruct (Z.eqb_spec v 3) as [->|N3]; [split; eauto|].
      split; [intros (b & E); discriminate E|]. intros [E|[E|E]]; try discriminate E; injection E as E; contradiction. }
    rewrite <- Q. clear Q. destruct (check_qao qao) as [b|e]; cbn [bind]; [|split; [intros (v & E); discriminate E|intros ((b & E) & _); discriminate E]].
    destruct (Z.eqb_spec order 1) as [->|N1]; [split; [intros _; repeat split; eauto; lia|eauto]|]. destruct prev as [l|].
    + destruct (Z.eqb_spec (Z.of_nat (length l)) (order - 1)) as [E|E]; cbn [negb]; [split; [intros _; repeat split; eauto|eauto]|].
      split; [intros (v & E'); discriminate E'|]. intros (_ & _ & [E'|(l' & E' & E2)]); [contradiction|injection E' as <-; contradiction].
    + split; [intros (v & E'); discriminate E'|]. intros (_ & _ & [E'|(l' & E' & E2)]); [contradiction|discriminate E'].
  - intros m Hm. assert (G : forall b qo, check_qao qo = Ok b -> const_terms q (Z.of_nat m) (Some (responses lstsq q b (m - 1))) qo = Ok (gen_const q b m (responses lstsq q b (m - 1)))).
    { intros b qo Hb. unfold const_terms. destruct (Z.ltb_spec (Z.of_nat m) 0); [lia|]. rewrite Hb. cbn [bind]. destruct (Z.eqb_spec (Z.of_nat m) 1) as [E|E].
      - assert (m = 1)%nat by lia. subst. reflexivity.
      - rewrite responses_length. destruct (Z.eqb_spec (Z.of_nat (m - 1)) (Z.of_nat m - 1)) as [_|N]; [|lia]. cbn [negb]. now rewrite Nat2Z.id. }
    split; apply G; reflexivity.
Qed.
(** the energy of the updater is that of the reference with the updated parameters *)
Theorem C73_energy : forall o x free h0 h1 l ref inorm three (q : cont F) order fl given resum u, new_cont sop free o chunk x h0 h1 l ref inorm three = Ok q -> new_updater sop lstsq inv lt le q order fl given resum three = Ok u ->
  (forall n, free_equation sop o h0 h1 ref inorm fl (u_params u) n = braket sop o h0 h1 fl (u_params u) n - u_energy u * fo_ovlp o (u_params u) n) /\
  (inorm = false -> fo_ovlp o (u_params u) ref <> 0 -> u_energy u * fo_ovlp o (u_params u) ref = braket sop o h0 h1 fl (u_params u) ref).
Proof.
  intros o x free h0 h1 l ref inorm three q order fl given resum u Hq Hu. destruct (cont_fields sop _ _ _ _ _ _ _ _ _ _ _ Hq) as (E1 & E2 & E3 & E4 & E5 & E6 & E7 & E8 & _).
  assert (Ue : u_energy u = new_energy_of sop q fl (u_params u)).
  { unfold new_updater in Hu. destruct (negb _) in Hu; [discriminate Hu|]. destruct (negb (q_eact q) && _ && _)%bool in Hu; [injection Hu as <-; reflexivity|].
    destruct (order <? 0)%Z; [discriminate Hu|]. destruct (given && _)%bool in Hu; [discriminate Hu|]. injection Hu as <-. reflexivity. }
  unfold new_energy_of, opdot, new_ham_of, q_ns in Ue. rewrite E1, E5, E6, E7, E8 in Ue. cbv zeta in Ue. split.
  - intros n. unfold free_equation. cbv zeta. rewrite Ue. destruct inorm; reflexivity.
  - intros -> N. rewrite Ue. unfold braket. set (b := sumf _ _). transitivity (b * (fo_ovlp o (u_params u) ref * finv (fo_ovlp o (u_params u) ref))); [ring|]. rewrite finv_r by exact N. ring.
Qed.
(** order zero keeps the parameters *)
Theorem C73_order_zero : forall (q : cont F) fl given three u, length (q_x q) = fo_nparam (q_o q) -> new_updater sop lstsq inv lt le q 0 fl given false three = Ok u ->
  forall k, nth k (u_params u) 0 = nth k (wpar (q_x q)) 0.
Proof.
  intros q fl given three u Hx H k. unfold new_updater in H. destruct (negb _) in H; [discriminate H|]. rewrite andb_false_r in H. cbn [andb Z.ltb Z.compare Z.eqb negb] in H. rewrite andb_false_r in H. injection H as <-. cbn [u_params Z.to_nat responses].
  assert (Lw : length (wpar (q_x q)) = (fo_nparam (q_o q) - 1)%nat) by (unfold wpar; now rewrite removelast_len, Hx).
  destruct (add_corr_nth (q_o q) (wpar (q_x q)) (series_corr q fl []) Lw) as (_ & A & B). destruct (in_dec Nat.eq_dec k (fo_act (q_o q))) as [Y|Y]; [|now apply B].
  destruct (In_nth _ _ 0%nat Y) as (p & Hp & <-). rewrite A by exact Hp. unfold series_corr. cbn [length seq]. change (sumf _ []) with (@rO K). ring.
Qed.

(** * the steps *)
Theorem C73_lambdas : forall (li lf : K) steps, nat_r (K := K) steps <> 0 -> (1 <= steps)%nat ->
  length (lambdas li lf steps) = steps /\ nth 0 (lambdas li lf steps) 0 = li /\
  (forall i, (S i < steps)%nat -> nth i (lambdas li lf steps) 0 + lstep li lf steps = nth (S i) (lambdas li lf steps) 0) /\
  nth (steps - 1) (lambdas li lf steps) 0 + lstep li lf steps = lf.
Proof.
  intros li lf steps Nz Hs. assert (N : forall i, (i < steps)%nat -> nth i (lambdas li lf steps) 0 = li + nat_r i * lstep li lf steps).
  { intros i Hi. unfold lambdas. set (g := fun i : nat => li + nat_r i * lstep li lf steps). rewrite (nth_indep _ 0 (g 0%nat)) by (now rewrite map_length, seq_length). rewrite map_nth, seq_nth by exact Hi. reflexivity. }
  split; [unfold lambdas; now rewrite map_length, seq_length|]. split; [rewrite N by lia; cbn [nat_r]; ring|]. split.
  - intros i Hi. rewrite !N by lia. cbn [nat_r]. ring.
  - rewrite N by lia. transitivity (li + nat_r (S (steps - 1)) * lstep li lf steps); [cbn [nat_r]; ring|]. replace (S (steps - 1)) with steps by lia. unfold lstep.
    transitivity (li + (lf - li) * (nat_r steps * finv (nat_r steps))); [ring|]. rewrite finv_r by exact Nz. ring.
Qed.
Definition at_ham (p : fanpt F) (h : pham F) (st : fobj K * list K) : Prop :=
  exists mask, fst st = if p_eact p then mk h mask else freeze_energy (unfreeze_energy (mk h mask)).
Lemma resolve_at : forall p h mask x, at_ham p h (resolve mk opt p h mask x).
Proof. intros p h mask x. exists mask. unfold resolve. cbn [fst]. destruct (p_eact p); reflexivity. Qed.
Lemma step_at : forall p order st l fl st', fanpt_step sop lstsq inv lt le mk opt chunk p order st l fl = Ok st' -> at_ham p (linear_comb_ham (p_h1 p) (p_h0 p) fl (1 - fl)) st' /\ lt l fl = true /\ le fl 1 = true.
Proof.
  intros p order [o x] l fl st' H. unfold fanpt_step in H. destruct (new_cont sop (negb (p_eact p)) o chunk x (p_h0 p) (p_h1 p) l (p_ref p) (p_inorm p) (p_three p)) as [q|e] eqn:Q; [|discriminate H]. cbn [bind] in H.
  destruct (new_updater sop lstsq inv lt le q order fl false (p_resum p) (p_three p)) as [u|e] eqn:U; [|discriminate H]. cbn [bind] in H. injection H as <-.
  destruct (cont_fields sop _ _ _ _ _ _ _ _ _ _ _ Q) as (_ & _ & E3 & _ & E5 & E6 & _).
  assert (X := proj1 (C73_updater_accepts q order fl false (p_resum p) (p_three p)) (ex_intro _ u U)). destruct X as (X1 & X2 & _). rewrite E3 in X1.
  split; [|auto]. assert (Hu : u_ham u = linear_comb_ham (p_h1 p) (p_h0 p) fl (1 - fl)).
  { unfold new_updater in U. destruct (negb _) in U; [discriminate U|]. destruct (negb (q_eact q) && _ && _)%bool in U; [injection U as <-; unfold new_ham_of; cbn; now rewrite E5, E6|].
    destruct (order <? 0)%Z; [discriminate U|]. cbn [andb] in U. injection U as <-. unfold new_ham_of; cbn; now rewrite E5, E6. }
  rewrite <- Hu. apply resolve_at.
Qed.
(** the result of optimize is that of the Hamiltonian at the last lambda; the energy is the last parameter *)
Theorem C73_optimize_result : forall p guess energy order li lf steps o x e,
  nat_r (K := K) (or_n steps (p_steps p)) <> 0 -> fanpt_optimize sop lstsq inv lt le isz mk opt chunk p guess energy order li lf steps = Ok (o, x, e) ->
  let fl := or_k isz lf (p_lf p) in
  e = epar x /\ le fl 1 = true /\ exists mask, o = if p_eact p then mk (linear_comb_ham (p_h1 p) (p_h0 p) fl (1 - fl)) mask else freeze_energy (unfreeze_energy (mk (linear_comb_ham (p_h1 p) (p_h0 p) fl (1 - fl)) mask)).
Proof.
  intros p guess energy order li lf steps o x e Nz H fl. unfold fanpt_optimize in H. cbv zeta in H. fold fl in H. set (n := or_n steps (p_steps p)) in *. set (a := or_k isz li (p_li p)) in *. set (od := or_z order (p_order p)) in *.
  destruct (Nat.eqb_spec n 0) as [E0|E0]; [destruct (foldM _ _ _) in H; discriminate H|].
  destruct (C73_lambdas a fl n Nz ltac:(lia)) as (L1 & _ & _ & L4).
  assert (D : exists ls, lambdas a fl n = ls ++ [nth (n - 1) (lambdas a fl n) 0]).
  { exists (firstn (n - 1) (lambdas a fl n)). rewrite <- (firstn_skipn (n - 1) (lambdas a fl n)) at 1. f_equal. assert (L : length (skipn (n - 1) (lambdas a fl n)) = 1%nat) by (rewrite skipn_length, L1; lia).
    destruct (skipn (n - 1) (lambdas a fl n)) as [|z [|z' s]] eqn:S; try discriminate L. f_equal. rewrite <- (firstn_skipn (n - 1) (lambdas a fl n)), app_nth2; rewrite firstn_length, L1; [|lia]. rewrite S. replace (n - 1 - Nat.min (n - 1) n)%nat with 0%nat by lia. reflexivity. }
  destruct D as (ls & Dl). set (z := nth (n - 1) (lambdas a fl n) 0) in *. rewrite Dl in H.
  assert (FM : forall (f : fobj K * list K -> K -> res (fobj K * list K)) l1 b st st', foldM f (l1 ++ [b]) st = Ok st' -> exists st1, f st1 b = Ok st').
  { intros f l1 b. induction l1 as [|c l1 IH]; intros st st' E; cbn [app foldM] in E.
    - destruct (f st b) as [s|] eqn:Es; [|discriminate E]. cbn [bind foldM] in E. injection E as <-. eauto.
    - destruct (f st c) as [s|]; [|discriminate E]. cbn [bind] in E. eauto. }
  destruct (foldM _ (ls ++ [z]) _) as [r|er] eqn:Fo; [|discriminate H]. cbn [bind] in H. injection H as <- <- <-. split; [reflexivity|].
  apply FM in Fo. destruct Fo as (st1 & Fo). apply step_at in Fo. rewrite L4 in Fo. destruct Fo as ((mask & A) & _ & B). split; [exact B|]. exists mask. exact A.
Qed.
(** from the second step on, the objective is that of the lambda of the container *)
Theorem C73_later_steps : makes sop mk -> forall p order st l fl st', fanpt_step sop lstsq inv lt le mk opt chunk p order st l fl = Ok st' ->
  forall q, new_cont sop (negb (p_eact p)) (fst st') chunk (snd st') (p_h0 p) (p_h1 p) fl (p_ref p) (p_inorm p) (p_three p) = Ok q -> at_lambda q.
Proof.
  intros Hm p order st l fl st' H q Hq n j _ _. apply step_at in H. destruct H as ((mask & A) & _). destruct (cont_fields sop _ _ _ _ _ _ _ _ _ _ _ Hq) as (E1 & _ & _ & _ & _ & _ & _ & _ & _ & E6 & _).
  rewrite E1, E6, A. destruct (p_eact p); apply Hm.
Qed.
(** the first one is that of the ideal Hamiltonian *)
Theorem C73_first_step : makes sop mk -> forall p guess energy l,
  let st := resolve mk opt p (p_h0 p) (p_mask p) (guess ++ [energy]) in
  forall q, new_cont sop (negb (p_eact p)) (fst st) chunk (snd st) (p_h0 p) (p_h1 p) l (p_ref p) (p_inorm p) (p_three p) = Ok q ->
  (linear_op sop -> l = 0 -> at_lambda q) /\
  (at_lambda q -> forall n j, (n < q_nproj q)%nat -> (j < q_ns q)%nat -> sop (p_h0 p) n j = sop (linear_comb_ham (p_h1 p) (p_h0 p) l (1 - l)) n j).
Proof.
  intros Hm p guess energy l st q Hq. destruct (cont_fields sop _ _ _ _ _ _ _ _ _ _ _ Hq) as (E1 & _ & _ & _ & _ & _ & _ & _ & _ & E6 & _). destruct (resolve_at p (p_h0 p) (p_mask p) (guess ++ [energy])) as (mask & A). fold st in A.
  assert (C : forall n j, fo_ci (q_o q) n j = sop (p_h0 p) n j) by (intros n j; rewrite E1, A; destruct (p_eact p); apply Hm). split.
  - intros Lin -> n j _ _. rewrite C, E6, Lin. ring.
  - intros At n j Hn Hj. rewrite <- C, (At n j Hn Hj), E6. reflexivity.
Qed.
(** given zeros are replaced by the options of the constructor *)
Theorem C73_zero_arguments_refuted : forall p guess energy order li lf steps z, isz z = true ->
  fanpt_optimize sop lstsq inv lt le isz mk opt chunk p guess energy order (Some z) lf steps = fanpt_optimize sop lstsq inv lt le isz mk opt chunk p guess energy order None lf steps /\
  fanpt_optimize sop lstsq inv lt le isz mk opt chunk p guess energy order li (Some z) steps = fanpt_optimize sop lstsq inv lt le isz mk opt chunk p guess energy order li None steps /\
  fanpt_optimize sop lstsq inv lt le isz mk opt chunk p guess energy (Some 0%Z) li lf steps = fanpt_optimize sop lstsq inv lt le isz mk opt chunk p guess energy None li lf steps /\
  fanpt_optimize sop lstsq inv lt le isz mk opt chunk p guess energy order li lf (Some 0%nat) = fanpt_optimize sop lstsq inv lt le isz mk opt chunk p guess energy order li lf None.
Proof. intros p guess energy order li lf steps z H. unfold fanpt_optimize, or_k. rewrite H. repeat split. Qed.

(** * resummation *)
(** the resummed parameters solve (C + t D) x = - t g for t the final lambda *)
Lemma mulvec_assoc : forall n (a b : nat -> nat -> K) v i, mulvec n (mulmat n a b) v i = mulvec n a (mulvec n b v) i.
Proof.
  intros n a b v i. unfold mulvec, mulmat. transitivity (sumf (fun k => sumf (fun m => a i m * (b m k * v k)) (seq 0 n)) (seq 0 n)).
  - apply sumf_ext. intros k _. rewrite <- sumf_mul_r. apply sumf_ext. intros; ring.
  - rewrite sumf_swap. apply sumf_ext. intros m _. now rewrite sumf_mul_l.
Qed.
Lemma mulvec_id : forall n (m b : nat -> nat -> K) v i, right_inverse n m b -> (i < n)%nat -> mulvec n m (mulvec n b v) i = v i.
Proof.
  intros n m b v i R Hi. rewrite <- mulvec_assoc. unfold mulvec, mulmat. rewrite (sumf_ext _ (fun k => (if Nat.eqb i k then 1 else 0) * v k)).
  - rewrite (sumf_single _ (seq 0 n) i); [rewrite Nat.eqb_refl; ring|apply seq_NoDup|apply in_seq; lia|]. intros k _ Nk. destruct (Nat.eqb_spec i k); [congruence|ring].
  - intros k Hk. apply in_seq in Hk. rewrite (R i k) by lia. reflexivity.
Qed.
Theorem C73_resummed : forall (q : cont F) fl, let n := q_nequation q in
  right_inverse n (q_cmat q) (inv n (q_cmat q)) -> right_inverse n (fun i j => fl * resum_A inv q i j + idmat i j) (inv n (fun i j => fl * resum_A inv q i j + idmat i j)) ->
  forall i, (i < n)%nat -> sumf (fun p => (q_cmat q i p + fl * q_d2lp q i p) * resum_corr inv q fl p) (seq 0 n) = - (fl * q_dgl q i).
Proof.
  intros q fl n R1 R2 i Hi. set (x := resum_corr inv q fl). set (w := mulvec n (inv n (fun i j => fl * resum_A inv q i j + idmat i j)) (resum_b inv q)).
  assert (Ex : forall p, x p = - (fl * w p)) by reflexivity.
  assert (Y : forall k, (k < n)%nat -> fl * mulvec n (resum_A inv q) w k + w k = resum_b inv q k).
  { intros k Hk. assert (M := mulvec_id n _ _ (resum_b inv q) k R2 Hk). fold w in M. refine (eq_trans _ M). unfold mulvec. symmetry. transitivity (sumf (fun p => fl * (resum_A inv q k p * w p) + idmat k p * w p) (seq 0 n)); [apply sumf_ext; intros; ring|]. rewrite sumf_add, sumf_mul_l. f_equal.
    rewrite (sumf_single _ (seq 0 n) k); [unfold idmat; rewrite Nat.eqb_refl; ring|apply seq_NoDup|apply in_seq; lia|]. intros p _ Np. unfold idmat. destruct (Nat.eqb_spec k p); [congruence|ring]. }
  assert (A1 : mulvec n (q_cmat q) (mulvec n (resum_A inv q) w) i = mulvec n (q_d2lp q) w i).
  { transitivity (mulvec n (q_cmat q) (mulvec n (inv n (q_cmat q)) (mulvec n (q_d2lp q) w)) i); [|now apply mulvec_id]. apply sumf_ext. intros k _. f_equal. apply mulvec_assoc. }
  assert (A2 : mulvec n (q_cmat q) (resum_b inv q) i = q_dgl q i) by (now apply mulvec_id).
  assert (A3 : mulvec n (q_cmat q) (fun k => fl * mulvec n (resum_A inv q) w k + w k) i = q_dgl q i).
  { refine (eq_trans _ A2). apply sumf_ext. intros k Hk. apply in_seq in Hk. now rewrite Y by lia. }
  assert (A4 : fl * mulvec n (q_d2lp q) w i + mulvec n (q_cmat q) w i = q_dgl q i).
  { refine (eq_trans _ A3). rewrite <- A1. generalize (mulvec n (resum_A inv q) w). intros v. unfold mulvec. rewrite <- sumf_mul_l, <- sumf_add. apply sumf_ext. intros; ring. }
  rewrite <- A4. unfold mulvec. rewrite (sumf_ext _ (fun p => (- fl) * (fl * (q_d2lp q i p * w p) + q_cmat q i p * w p))) by (intros p _; rewrite Ex; ring). rewrite sumf_mul_l, sumf_add, sumf_mul_l. ring.
Qed.
(** without the energy, a series of order M >= 1 solves (C + t D) x = - t g, for t the step, up to the power M+1 of t *)
Theorem C73_series : char0 (F := F) -> forall (q : cont F) three M fl, q_eact q = false -> exact_orders lstsq q three M -> (1 <= M)%nat ->
  forall i, (i < q_nequation q)%nat ->
  sumf (fun p => (q_cmat q i p + (fl - q_l q) * q_d2lp q i p) * series_corr q fl (responses lstsq q three M) p) (seq 0 (q_nactive q)) =
  - ((fl - q_l q) * q_dgl q i) + (fl - q_l q) * dlam q fl M * sumf (fun p => q_d2lp q i p * rsp (responses lstsq q three M) M p) (seq 0 (q_nactive q)).
Proof.
  intros C0 q three M fl Ea Hex HM i Hi. set (t := fl - q_l q). set (r := responses lstsq q three M). set (D := fun o => sumf (fun p => q_d2lp q i p * rsp r o p) (seq 0 (q_nactive q))). set (C := fun o => sumf (fun p => q_cmat q i p * rsp r o p) (seq 0 (q_nactive q))).
  assert (Sx : sumf (fun p => (q_cmat q i p + t * q_d2lp q i p) * series_corr q fl r p) (seq 0 (q_nactive q)) = sumf (fun o => (C o + t * D o) * dlam q fl o) (seq 1 M)).
  { unfold series_corr. assert (Lr : length r = M) by apply responses_length. rewrite Lr.
    transitivity (sumf (fun p => sumf (fun o => (q_cmat q i p * rsp r o p + t * (q_d2lp q i p * rsp r o p)) * dlam q fl o) (seq 1 M)) (seq 0 (q_nactive q))).
    - apply sumf_ext. intros p _. rewrite <- sumf_mul_l. apply sumf_ext. intros; ring.
    - rewrite sumf_swap. apply sumf_ext. intros o _. rewrite sumf_mul_r, sumf_add, sumf_mul_l. reflexivity. }
  rewrite Sx.
  assert (Nw : q_nw q = q_nactive q) by (unfold q_nw; now rewrite Ea).
  assert (E1 : C 1%nat = - q_dgl q i) by (refine (eq_trans (Hex 1%nat _ i Hi) _); [lia|reflexivity]).
  assert (Eo : forall o, (2 <= o <= M)%nat -> C o = - nat_r o * D (o - 1)%nat).
  { intros o Ho. refine (eq_trans (Hex o _ i Hi) _); [lia|]. rewrite (gen_const_ext q three o _ r) by (intros k Hk; symmetry; unfold r; apply rsp_le; lia). unfold gen_const. destruct (Nat.eqb_spec o 1); [lia|]. rewrite Ea, Nw. reflexivity. }
  assert (Dl : forall o, (2 <= o)%nat -> nat_r o * dlam q fl o = t * dlam q fl (o - 1)).
  { intros o Ho. unfold dlam. fold t. destruct o as [|o]; [lia|]. cbn [fpow]. rewrite <- (fact_pred C0 (S o)) by lia. cbn [Nat.sub]. rewrite Nat.sub_0_r. ring. }
  assert (D1 : dlam q fl 1 = t).
  { unfold dlam. fold t. change (fact 1) with 1%nat. assert (N1 : nat_r (K := K) 1 = 1) by (cbn [nat_r]; ring). rewrite N1. cbn [fpow]. transitivity (t * (finv 1 * 1)); [ring|]. rewrite f_inv by apply f_one. ring. }
  clear Sx. assert (G : forall m, (m < M)%nat -> sumf (fun o => (C o + t * D o) * dlam q fl o) (seq 1 (S m)) = - (t * q_dgl q i) + t * dlam q fl (S m) * D (S m)).
  { induction m as [|m IH]; intros Hm.
    - cbn [seq]. rewrite sumf_cons. change (sumf _ []) with (@rO K). rewrite E1, D1. ring.
    - rewrite List.seq_S, sumf_app, IH, sumf_cons by lia. change (sumf _ []) with (@rO K). replace (1 + S m)%nat with (S (S m)) by lia. rewrite Eo by lia. cbn [Nat.sub]. replace (S m - 0)%nat with (S m) by lia.
      transitivity (- (t * q_dgl q i) + (t * dlam q fl (S (S m) - 1) - nat_r (S (S m)) * dlam q fl (S (S m))) * D (S m) + t * dlam q fl (S (S m)) * D (S (S m))); [cbn [Nat.sub]; ring|]. rewrite Dl by lia. ring. }
  assert (G' := G (M - 1)%nat). replace (S (M - 1)) with M in G' by lia. apply G'. lia.
Qed.
End Drive.
Print Assumptions C73_container_accepts. Print Assumptions C73_constant_terms. Print Assumptions C73_energy. Print Assumptions C73_hamiltonians. Print Assumptions C73_options. Print Assumptions C73_refusals. Print Assumptions C73_updater_accepts. Print Assumptions C73_solver_refuted.
Print Assumptions C73_resum_dropped_refuted. Print Assumptions C73_order_zero. Print Assumptions C73_lambdas. Print Assumptions C73_optimize_result. Print Assumptions C73_later_steps.
Print Assumptions C73_first_step. Print Assumptions C73_zero_arguments_refuted. Print Assumptions C73_resummed. Print Assumptions C73_series.

Local Ltac qv := apply Qc_is_canon; vm_compute; reflexivity.
(** integrals with the symmetry of exchanging the electrons do not keep it in the ideal Hamiltonian *)
Theorem C73_fock_symmetry_refuted : exists (h : pham Qc_field), exchange_symmetric (h_two h) /\ ~ exchange_symmetric (h_two (ideal_ham h)).
Proof.
  exists ex_full. split; [intros i j k l; reflexivity|]. intros H. specialize (H 0 1 1 2). apply (f_equal this) in H. vm_compute in H. discriminate H.
Qed.
(** a start at another lambda than zero: the objective of the first step is not that of the container *)
Theorem C73_first_step_refuted : makes ex_sop2 ex_mk /\ linear_op ex_sop2 /\
  exists p q, new_fanpt (ex_mk ex_full [true; true]) ex_full true false 0 1 ex_half 1%Qc 1 (Some 2%Z) = Ok p /\
  let st := resolve ex_mk ex_opt p (p_h0 p) (p_mask p) ([0%Qc : Qc_field] ++ [0%Qc : Qc_field]) in
  new_cont ex_sop2 (negb (p_eact p)) (fst st) 1 (snd st) (p_h0 p) (p_h1 p) (p_li p) (p_ref p) (p_inorm p) (p_three p) = Ok q /\ ~ at_lambda q.
Proof.
  split; [intros h m n j; reflexivity|]. split; [intros h1 h0 a1 a0 n j; unfold ex_sop2; destruct (Nat.eqb n j); reflexivity|].
  do 2 eexists. split; [reflexivity|]. split; [reflexivity|]. intros H. assert (E : (0 < 2)%nat) by lia. specialize (H 0 1 E ltac:(cbn; lia)). apply (f_equal this) in H. vm_compute in H. discriminate H.
Qed.
(** the step of a resummation is taken from zero: with lambda 1/2 and final lambda 1 the equation for the step 1/2 does not hold *)
Theorem C73_resummed_refuted : exists q, new_cont ex_sop false (ex_obj 1 (ex_sop ex_g2) [true; false]) 1 ex_x1 ex_g0 ex_g2 ex_half 0 false false = Ok q /\
  let n := q_nequation q in let A := fun i j => @radd Qc_field (@rmul Qc_field 1%Qc (resum_A ex_inv q i j)) (idmat i j) in
  n = q_nactive q /\ q_eact q = false /\ right_inverse n (q_cmat q) (ex_inv n (q_cmat q)) /\ right_inverse n A (ex_inv n A) /\
  let t := @rsub Qc_field 1%Qc (q_l q) in
  sumf (fun p => @rmul Qc_field (@radd Qc_field (q_cmat q 0 p) (@rmul Qc_field t (q_d2lp q 0 p))) (resum_corr ex_inv q (1%Qc : Qc_field) p)) (seq 0 n) <> @ropp Qc_field (@rmul Qc_field t (q_dgl q 0)).
Proof.
  eexists. split; [reflexivity|]. cbv zeta. split; [reflexivity|]. split; [reflexivity|].
  split; [intros i j Hi Hj; cbn in Hi, Hj; assert (i = 0) by lia; assert (j = 0) by lia; subst; qv|].
  split; [intros i j Hi Hj; cbn in Hi, Hj; assert (i = 0) by lia; assert (j = 0) by lia; subst; qv|].
  intros H. apply (f_equal this) in H. vm_compute in H. discriminate H.
Qed.
Print Assumptions C73_fock_symmetry_refuted. Print Assumptions C73_first_step_refuted. Print Assumptions C73_resummed_refuted.
(** two steps of first order, with an optimizer that returns where it starts: values after the two steps *)
Example C73_ex : exists p, new_fanpt (ex_mk ex_full [true; true]) ex_full true false 0 1 (0%Qc : Qc_field) 1%Qc 2 (Some 2%Z) = Ok p /\
  (match fanpt_optimize ex_sop2 ex_lstsq ex_inv ex_lt ex_le ex_isz ex_mk ex_opt 1 p [0%Qc : Qc_field] (0%Qc : Qc_field) None None None None with Ok (o, x, e) => Some (map this (x : list Qc), this e) | Err _ => None end) = Some ([(-3 # 4)%Q; (-3 # 4)%Q], (-3 # 4)%Q).
Proof. eexists. split; [reflexivity|vm_compute; reflexivity]. Qed.
(** the conditions of the series without the energy *)
Example C73_series_ex : exists q, ex_fq = Ok q /\ q_eact q = false /\ exact_orders ex_lstsq1 q false 2 /\ char0 (F := Qc_field).
Proof. destruct P_FanptFree.C71_free_ex as (q & Hq & _ & B & _). exists q. split; [exact Hq|]. split; [injection Hq as <-; reflexivity|]. split; [exact B|exact P_Fanpt.ex_char]. Qed.
