(** Approximate searches for floating point coordinates. *)
From Coq Require Import List ZArith Reals Bool Arith Permutation Sorted Lia Lra.
From Flocq Require Import Core.Core IEEE754.BinarySingleNaN Plus_error Relative.
From Verif Require Import Base ModelBox ModelBuild ModelSearch Spec SpecRound SpecApprox Lemmas BuildProofs
  BuildShape BuildThms SearchProofs Visitors QueryThms TopThms OrdThms Floats FloatThms FloatSearch FloatQuery.
Import ListNotations.
Local Open Scope R_scope.

Section Approx.
Variables (prec emax : Z).
Context (Hprec : Prec_gt_0 prec) (Hmax : Prec_lt_emax prec emax) (P2 : (2 <= prec)%Z).
Local Notation F := (binary_float prec emax).
Local Notation fin := (finite prec emax).
Local Notation fexp := (SpecFloat.fexp prec emax).
Local Notation emin := (SpecFloat.emin prec emax).
Local Notation rnd := (round radix2 fexp ZnearestE).
Local Notation pow2 := (bpow radix2).
Local Notation u := (bpow radix2 (- prec)).
Local Existing Instance SF.
Let OL := float_ord prec emax Hprec Hmax.

Variable ea : F.
Hypothesis EA : factor_ok prec emax ea.
Let c : R := rnd (1 / B2R ea).
Let einv : F := s_div s_one ea.

Lemma u_small2 : 0 < u <= / 4. Proof. apply u_bounds; auto. Qed.

Lemma c_range : 0 < c <= 1 /\ (1 - u) <= B2R ea * c.
Proof.
  destruct EA as [Fe [E1 E2]]. pose proof u_small2 as [U0 U1]. pose proof (prec_emax prec emax Hmax) as PE.
  assert (I1 : 1 / B2R ea <= 1).
  { unfold Rdiv. rewrite Rmult_1_l. rewrite <- Rinv_1. apply Rinv_le; lra. }
  assert (I0 : pow2 (2 - emax) <= 1 / B2R ea).
  { unfold Rdiv. rewrite Rmult_1_l. replace (2 - emax)%Z with (- (emax - 2))%Z by ring. rewrite bpow_opp.
    apply Rinv_le; lra. }
  assert (C1 : c <= 1).
  { unfold c. assert (E : rnd 1 = 1).
    { apply rnd_fmt. change 1 with (pow2 0). apply fmt_pow; auto. apply emin_lt; auto. lia. }
    eapply Rle_trans; [apply rnd_le; auto; exact I1|]. rewrite E. apply Rle_refl. }
  destruct (relative_error_N_FLT_ex radix2 emin prec (prec_pos prec Hprec) (fun x => negb (Z.even x)) (1 / B2R ea))
    as (d & Hd & Ed).
  { rewrite Rabs_pos_eq by (pose proof (bpow_ge_0 radix2 (2 - emax)); lra). eapply Rle_trans; [|exact I0]. apply bpow_le.
    rewrite emin_eq. lia. }
  change (round radix2 (FLT_exp emin prec) (Znearest (fun x => negb (Z.even x)))) with rnd in Ed. fold c in Ed.
  replace (/ 2 * pow2 (- prec + 1)) with u in Hd by (rewrite bpow_plus; cbn; lra).
  apply Rabs_le_inv in Hd.
  assert (E : B2R ea * c = 1 + d) by (rewrite Ed; field; lra).
  split; [split|]; auto.
  - rewrite Ed. apply Rmult_lt_0_compat; [|lra]. pose proof (bpow_gt_0 radix2 (2 - emax)). lra.
  - lra.
Qed.

Lemma einv_R : fin einv /\ B2R einv = c.
Proof.
  destruct EA as [Fe [E1 E2]]. destruct c_range as ([C0 C1] & _).
  unfold einv, c in *.
  destruct (div_R prec emax Hprec Hmax s_one ea) as [A B].
  - apply fin_one.
  - lra.
  - rewrite R_one. rewrite Rabs_pos_eq by lra. apply Rle_lt_trans with (pow2 0); [exact C1|]. apply bpow_lt.
    pose proof (prec_emax prec emax Hmax). lia.
  - rewrite R_one in B. auto.
Qed.

Lemma scale_R (x : F) : fin x -> 0 <= B2R x -> fin (s_mul x einv) /\ B2R (s_mul x einv) = scaled prec emax ea (B2R x)
  /\ 0 <= B2R (s_mul x einv) <= B2R x.
Proof.
  intros Fx X0. destruct einv_R as [F1 E1]. destruct c_range as ([C0 C1] & _).
  assert (R0 : 0 <= rnd (B2R x * c)) by (apply rnd_ge_0; auto; apply Rmult_le_pos; lra).
  assert (R1 : rnd (B2R x * c) <= B2R x).
  { rewrite <- (rnd_fmt prec emax (B2R x)) at 2 by apply fmt_B2R. apply rnd_le; auto. nra. }
  destruct (mul_R prec emax Hprec Hmax x einv Fx F1) as [A B].
  - rewrite E1, Rabs_pos_eq by auto. eapply Rle_lt_trans; [exact R1|]. eapply Rle_lt_trans; [apply Rle_abs|].
    apply abs_B2R_lt_emax.
  - rewrite E1 in B. split; auto. split; [exact B|]. rewrite B. auto.
Qed.

(** What the rounding of the scaled distance hides. *)
Lemma scaled_ge x : 0 <= x -> (1 - 2 * u) * x - B2R ea * pow2 emin <= B2R ea * scaled prec emax ea x.
Proof.
  intros X0. destruct EA as [Fe [E1 E2]]. destruct c_range as ([C0 C1] & C2). pose proof u_small2 as [U0 U1].
  destruct (error_N_FLT radix2 emin prec (prec_pos prec Hprec) (fun x => negb (Z.even x)) (x * c))
    as (ep & et & Hep & Het & _ & EE).
  change (round radix2 (FLT_exp emin prec) (Znearest (fun x => negb (Z.even x)))) with rnd in EE.
  unfold scaled. fold c. rewrite EE. clear EE.
  replace (/ 2 * pow2 (- prec + 1)) with u in Hep by (rewrite bpow_plus; cbn; lra).
  apply Rabs_le_inv in Hep, Het. pose proof (bpow_gt_0 radix2 emin) as M0.
  assert (A : B2R ea * et >= - (B2R ea * pow2 emin)) by nra.
  assert (B : (1 - u) * (1 - u) <= (B2R ea * c) * (1 + ep)) by (apply Rmult_le_compat; lra).
  assert (B' : (1 - 2 * u) * x <= (B2R ea * c) * (1 + ep) * x) by (apply Rmult_le_compat_r; nra).
  nra.
Qed.

Lemma tolerated_intro f x y : 0 <= x -> scaled prec emax ea x <= f * y -> tolerated prec emax ea f x y.
Proof.
  intros X0 H. unfold tolerated. pose proof (scaled_ge x X0) as K. destruct EA as [Fe [E1 E2]].
  assert (B2R ea * scaled prec emax ea x <= B2R ea * (f * y)) by (apply Rmult_le_compat_l; lra). lra.
Qed.

(** ** Queries *)
Variables (em : exact_metric) (e : Z) (sp : space F) (bnds : start_bounds F) (q : list F).
Hypothesis FI : float_input prec emax em e sp bnds q.
Let n := sp_sdim sp.
Let N := length (sp_pts sp).
Let D := computed prec emax Hprec Hmax em sp q.
Let Dh (j : nat) : F := m_dist (metric_of em) q (sp_at sp j).
Let Sh (j : nat) : F := s_mul (Dh j) einv.

Variables (alg : std_algos) (SL : std_laws alg).
Variables (it : index_type) (fuel : nat) (stop : stop_condition) (ru : rule) (tree : kd_tree F).
Hypothesis (NM : ru <> midpoint_max_side).
Hypothesis HM : kd_tree_make alg it (metric_of em) fuel sp stop bnds ru = Ok tree.
Let h := node_height (kd_root (kt_data tree)).
Hypothesis FEW : few_steps prec n h.
Let f : R := slack prec n h.

Lemma Dpos j : 0 <= D j.
Proof.
  destruct (Nat.lt_ge_cases j N) as [H|H].
  - apply (D_facts prec emax Hprec Hmax P2 em e sp bnds q FI tree FEW 0%Z j H).
  - unfold D, computed, sp_at. rewrite nth_overflow by auto.
    destruct (fi_metric _ _ _ _ _ _ _ FI) as [-> | ->]; cbn [metric_of m_dist metric_l1 metric_l2_squared];
      unfold sum_op; rewrite combine_nil; cbn; lra.
Qed.
Lemma Dfin j : fin (Dh j).
Proof. exact (D_fin prec emax Hprec Hmax P2 em e sp bnds q FI alg it fuel stop ru tree HM FEW 0%Z j). Qed.
Lemma Sfin j : fin (Sh j). Proof. apply scale_R; [apply Dfin|exact (Dpos j)]. Qed.
Lemma S_R j : B2R (Sh j) = scaled prec emax ea (D j). Proof. apply scale_R; [apply Dfin|exact (Dpos j)]. Qed.
Lemma S_le j : 0 <= B2R (Sh j) <= D j. Proof. apply scale_R; [apply Dfin|exact (Dpos j)]. Qed.
Lemma f_bounds : 1 <= f <= 2. Proof. apply (slack_bounds prec emax P2 sp tree FEW). Qed.
Lemma S_self j : B2R (Sh j) <= f * D j.
Proof. pose proof (S_le j). pose proof f_bounds. nra. Qed.
Lemma too_far j : (j < N)%nat -> B2R (s_max : F) <= f * D j -> False.
Proof.
  apply (max_far prec emax Hprec Hmax P2 em e sp bnds q FI tree FEW 0%Z f). apply f_bounds. apply f_bounds.
Qed.

Lemma contract {V} (vis : visitor F V) (Inv : V -> Prop) v0 :
  (forall st i, Inv st -> (i < N)%nat -> Inv (v_visit vis i (Dh i) st)) ->
  (forall st, Inv st -> fin (v_max vis st)) ->
  (forall st i, Inv st -> (i < N)%nat -> s_leb (v_max vis (v_visit vis i (Dh i) st)) (v_max vis st) = true) ->
  Inv v0 ->
  exists tr rest, Permutation (tr ++ rest) (seq 0 N)
    /\ search_nearest tree vis q v0 = Ok (visits (metric_of em) vis sp q tr v0)
    /\ Inv (visits (metric_of em) vis sp q tr v0)
    /\ forall j, In j rest -> B2R (v_max vis (visits (metric_of em) vis sp q tr v0)) <= f * D j.
Proof.
  intros A B C I0.
  destruct (search_contract prec emax Hprec Hmax P2 em e sp bnds q FI alg SL it fuel stop ru tree NM HM FEW 0%Z vis Inv v0
    A B C I0) as (tr & rest & P & E & I1 & HF).
  exists tr, rest. split; auto. split; auto. split; auto. intros j Hj.
  apply perm_in_seq in P as (_ & Prest & _).
  apply (skip_slack prec emax Hprec Hmax P2 em e sp bnds q FI tree FEW 0%Z); auto.
Qed.

Lemma nn_float_approx nn0 : exists i d, search_nn_approx tree q ea nn0 = Ok (Neighbor i d)
  /\ (i < N)%nat /\ B2R d = scaled prec emax ea (D i) /\ forall j, (j < N)%nat -> tolerated prec emax ea f (D i) (D j).
Proof.
  destruct (contract (visitor_approximate_nn ea) (fun st => fin (n_distance st)) (visitor_nn_init nn0))
    as (tr & rest & P & E & I1 & HF).
  - intros st i Hst Hi. cbn [v_visit visitor_approximate_nn]. fold einv. fold (Sh i).
    destruct (s_ltb _ _); [apply Sfin|auto].
  - auto.
  - intros st i Hst Hi. cbn [v_visit v_max visitor_approximate_nn]. fold einv. fold (Sh i).
    destruct (s_ltb (Sh i) (n_distance st)) eqn:EL.
    + apply (ltb_leb fin OL); auto. apply Sfin.
    + apply (leb_refl fin OL); auto.
  - reflexivity.
  - unfold search_nn_approx.
    assert (EV : visits (metric_of em) (visitor_approximate_nn ea) sp q tr (visitor_nn_init nn0)
                 = fold_left (nn_step Sh) tr (visitor_nn_init nn0)) by reflexivity.
    rewrite E, EV in *. cbn [v_max visitor_approximate_nn] in HF.
    set (r := fold_left (nn_step Sh) tr (visitor_nn_init nn0)) in *.
    apply perm_in_seq in P as (Ptr & Prest & Pall & _).
    destruct (nn_minimal Sh OL Sfin tr (visitor_nn_init nn0) (fin_max prec emax Hprec Hmax)) as (A1 & A2 & A3). fold r in A1, A2, A3.
    assert (ALL : forall j, (j < N)%nat -> B2R (n_distance r) <= f * D j).
    { intros j Hj. destruct (Pall j Hj) as [H|H]; [|apply HF; auto].
      specialize (A3 j H). apply leb_R in A3; auto; [|apply Sfin]. pose proof (S_self j). lra. }
    pose proof (N_pos prec emax Hprec Hmax em sp bnds alg it fuel stop ru tree HM) as HN.
    destruct (nn_genuine Sh tr (visitor_nn_init nn0)) as [G|(i & Hi & G)]; fold r in G.
    + exfalso. specialize (ALL 0%nat HN). rewrite G in ALL. apply (too_far 0%nat HN). exact ALL.
    + exists i, (Sh i). rewrite G. split; [reflexivity|]. split; auto. split; [apply S_R|].
      intros j Hj. specialize (ALL j Hj). rewrite G in ALL. cbn [as_neighbor n_distance] in ALL. rewrite S_R in ALL.
      apply tolerated_intro; auto. apply Dpos.
Qed.

Lemma rnd_lt_inv x y : rnd x < rnd y -> x < y.
Proof. intros H. apply Rnot_le_lt. intros K. apply (rnd_le prec emax Hprec) in K. lra. Qed.

Lemma radius_float_approx r sort : fin r -> 0 <= B2R r -> exists l,
  search_radius_approx alg tree q r ea sort = Ok l
  /\ radius_tolerated N D (scaled prec emax ea) (B2R r) (within_inner prec emax ea f (B2R r)) (real_answers prec emax l)
  /\ (sort = true -> StronglySorted Rle (map snd (real_answers prec emax l))).
Proof.
  intros Fr R0. destruct (scale_R r Fr R0) as (FR & ER & _). set (rr := s_mul r einv) in *.
  destruct (contract (visitor_approximate_radius ea r) (fun _ => True) []) as (tr & rest & P & E & _ & HF); auto.
  { intros st i _ _. apply (leb_refl fin OL); auto. }
  assert (EV : forall l st, visits (metric_of em) (visitor_approximate_radius ea r) sp q l st = fold_left (radius_step Sh rr) l st)
    by reflexivity.
  rewrite EV, radius_result in E. cbn [app] in E.
  change (forall j, In j rest -> B2R rr <= f * D j) in HF.
  apply perm_in_seq in P as (Ptr & Prest & Pall & ND & _).
  set (l0 := map (as_neighbor Sh) (filter (fun i => s_ltb (Sh i) rr) tr)) in *.
  destruct c_range as ([C0 C1] & C2).
  assert (A0 : radius_tolerated N D (scaled prec emax ea) (B2R r) (within_inner prec emax ea f (B2R r)) (real_answers prec emax l0)).
  { unfold l0, real_answers. rewrite map_map. cbn [as_neighbor n_index n_distance].
    assert (LT : forall i, s_ltb (Sh i) rr = true <-> B2R (Sh i) < B2R rr).
    { intros i. apply ltb_R; auto. apply Sfin. }
    constructor.
    - rewrite map_map. cbn. rewrite map_id. apply NoDup_filter. auto.
    - intros i d Hi. apply in_map_iff in Hi as (j & Ej & Hj). injection Ej as <- <-.
      apply filter_In in Hj as [Hj L]. apply LT in L. split; auto. split; [|apply S_R].
      rewrite S_R, ER in L. apply rnd_lt_inv in L. fold c in L. nra.
    - intros i Hi HR. rewrite map_map. cbn. rewrite map_id. apply filter_In. unfold within_inner in HR.
      pose proof (scaled_ge (B2R r) R0) as K. rewrite <- ER in K.
      assert (X : f * D i < B2R rr).
      { destruct EA as [_ [E1 _]]. apply Rmult_lt_reg_l with (B2R ea); lra. }
      pose proof (S_self i).
      destruct (Pall i Hi) as [H0|H0].
      + split; auto. apply LT. lra.
      + exfalso. pose proof (HF i H0). lra. }
  assert (O0 : forall x, In x l0 -> fin (n_distance x)).
  { intros x Hx. apply in_map_iff in Hx as (i & <- & _). apply Sfin. }
  unfold search_radius_approx. rewrite E. cbn [bind]. eexists. split; [reflexivity|].
  destruct sort; [|split; [exact A0|discriminate]].
  destruct (sort_result fin OL alg SL l0 O0) as [PS SS].
  split.
  - destruct A0 as [R1 R2 R3].
    assert (PA : Permutation (real_answers prec emax (std_sort alg (neighbor F) neighbor_lt l0)) (real_answers prec emax l0))
      by (apply Permutation_map; auto).
    assert (PI := Permutation_map fst PA).
    constructor.
    + eapply Permutation_NoDup; [symmetry; exact PI|auto].
    + intros i d Hi. apply R2. eapply Permutation_in; eauto.
    + intros i Hi HR. eapply Permutation_in; [symmetry; exact PI|auto].
  - intros _. assert (O1 : forall x, In x (std_sort alg (neighbor F) neighbor_lt l0) -> fin (n_distance x)).
    { intros x Hx. apply O0. eapply Permutation_in; eauto. }
    unfold real_answers. rewrite map_map. cbn [snd].
    clear - SS O1. induction SS as [|a l SS IH FA]; cbn [map]; constructor.
    + apply IH. intros; apply O1; right; auto.
    + rewrite Forall_forall in *. intros x Hx. apply in_map_iff in Hx as (b & <- & Hb).
      apply (leb_R prec emax Hprec Hmax); [apply O1; left; auto|apply O1; right; auto|auto].
Qed.

Lemma knn_range_approx l0 : (0 < length l0)%nat -> knn_max (l0, 0%nat) = s_max ->
  exists st, search_nearest tree (visitor_approximate_knn ea) q (l0, 0%nat) = Ok st
  /\ length (fst st) = length l0
  /\ knn_tolerated N (length l0) D (scaled prec emax ea) (tolerated prec emax ea f)
       (real_answers prec emax (firstn (Nat.min (length l0) N) (fst st))).
Proof.
  intros H0 HX.
  set (Inv := fun st => exists tr kept dropped,
                knn_holds Sh l0 tr st kept dropped /\ knn_sorted Sh st kept dropped).
  assert (MF : forall st, Inv st -> fin (knn_max st)).
  { intros st (tr & kept & dropped & A & C).
    destruct (le_lt_dec (length l0) (length kept)) as [L|L].
    - destruct (exists_last (l := kept)) as (X & o & EX). { apply length_nonnil. lia. }
      subst kept. pose proof (kh_le _ _ _ _ _ _ A).
      rewrite (knn_max_full _ _ _ _ _ _ _ A) by lia. apply Sfin.
    - rewrite (knn_max_short _ _ _ _ _ _ A) by auto. rewrite HX. apply fin_max. }
  destruct (contract (visitor_approximate_knn ea) Inv (l0, 0%nat)) as (tr & rest & P & E & _ & HF).
  { intros st i (tr & kept & dropped & A & C) _.
    destruct (knn_order_step Sh OL Sfin l0 tr st kept dropped i H0 HX A C) as (k' & d' & A' & C' & _).
    exists (tr ++ [i]), k', d'. auto. }
  { auto. }
  { intros st i (tr & kept & dropped & A & C) _.
    destruct (knn_order_step Sh OL Sfin l0 tr st kept dropped i H0 HX A C) as (k' & d' & _ & _ & C').
    exact C'. }
  { exists [], [], []. split; [apply knn_start|]. constructor; simpl; try tauto. constructor. }
  assert (EV : forall l st, visits (metric_of em) (visitor_approximate_knn ea) sp q l st = fold_left (knn_step Sh) l st)
    by reflexivity.
  rewrite EV in *. cbn [v_max visitor_approximate_knn] in HF.
  destruct (knn_order Sh OL Sfin l0 tr H0 HX) as (kept & dropped & A & C).
  set (st := fold_left (knn_step Sh) tr (l0, 0%nat)) in *.
  assert (Fm : fin (knn_max st)) by (apply MF; exists tr, kept, dropped; auto).
  exists st. split; auto. split; [apply (kh_len _ _ _ _ _ _ A)|].
  pose proof P as P0. apply perm_in_seq in P as (Ptr & Prest & Pall & ND & Pdis).
  assert (Hk : forall i, In i kept -> (i < N)%nat).
  { intros i Hi. apply Ptr. eapply Permutation_in; [apply (kh_perm _ _ _ _ _ _ A)|]. apply in_or_app; auto. }
  assert (Hd : forall i, In i dropped -> (i < N)%nat).
  { intros i Hi. apply Ptr. eapply Permutation_in; [apply (kh_perm _ _ _ _ _ _ A)|]. apply in_or_app; auto. }
  assert (NDk : NoDup kept).
  { eapply NoDup_app_l. eapply Permutation_NoDup; [symmetry; apply (kh_perm _ _ _ _ _ _ A)|auto]. }
  assert (DRP : forall j, In j dropped -> B2R (knn_max st) <= f * D j).
  { intros j Hj. pose proof (ks_dropped _ _ _ _ C j Hj) as K. apply leb_R in K; auto; [|apply Sfin].
    pose proof (S_self j). lra. }
  assert (LK : length kept = Nat.min (length l0) N).
  { pose proof (kh_le _ _ _ _ _ _ A) as L.
    assert (LN : (length kept + length dropped + length rest = N)%nat).
    { apply Permutation_length in P0. rewrite app_length, seq_length in P0.
      pose proof (Permutation_length (kh_perm _ _ _ _ _ _ A)) as L2. rewrite app_length in L2. lia. }
    destruct (le_lt_dec (length l0) (length kept)) as [L1|L1]; [lia|].
    pose proof (knn_max_short Sh l0 tr st kept dropped A L1) as M. rewrite HX in M.
    assert (dropped = []) as ->.
    { destruct dropped as [|i dr]; auto. exfalso. specialize (DRP i (or_introl eq_refl)). rewrite M in DRP.
      apply (too_far i); auto. apply Hd. left; auto. }
    assert (rest = []) as ->.
    { destruct rest as [|i dr]; auto. exfalso. specialize (HF i (or_introl eq_refl)). rewrite M in HF.
      apply (too_far i); auto. apply Prest. left; auto. }
    simpl in LN. lia. }
  rewrite <- LK. pose proof (kh_first _ _ _ _ _ _ A) as G1.
  rewrite (kh_active _ _ _ _ _ _ A) in G1. rewrite G1.
  unfold real_answers. rewrite map_map. cbn [as_neighbor n_index n_distance].
  constructor.
  - rewrite map_length. auto.
  - rewrite map_map. cbn. rewrite map_id. auto.
  - intros i d Hi. apply in_map_iff in Hi as (j & Ej & Hj). injection Ej as <- <-. split; auto. apply S_R.
  - rewrite map_map. cbn [snd]. pose proof (ks_sorted _ _ _ _ C) as SS. revert SS. generalize kept. intros kk SS.
    induction SS as [|a l SS IH FA]; cbn [map]; constructor; auto. rewrite Forall_forall in *.
    intros x Hx. apply in_map_iff in Hx as (j & <- & Hj).
    apply (leb_R prec emax Hprec Hmax (Sh a) (Sh j)); [apply Sfin|apply Sfin|exact (FA j Hj)].
  - intros i d j Hi Hj Hn. apply in_map_iff in Hi as (i' & Ej & Hi'). injection Ej as <- <-.
    rewrite map_map in Hn. cbn in Hn. rewrite map_id in Hn.
    apply tolerated_intro; [apply Dpos|]. rewrite <- S_R.
    apply Rle_trans with (B2R (knn_max st)).
    + destruct (le_lt_dec (length l0) (length kept)) as [L1|L1].
      * destruct (exists_last (l := kept)) as (X & o & EX'). { apply length_nonnil. lia. }
        subst kept. pose proof (kh_le _ _ _ _ _ _ A).
        rewrite (knn_max_full _ _ _ _ _ _ _ A) by lia.
        apply in_app_or in Hi' as [Hi'|[<-|[]]]; [|apply Rle_refl].
        pose proof (ks_sorted _ _ _ _ C) as SS. apply StronglySorted_app_inv in SS as (_ & _ & K).
        apply (leb_R prec emax Hprec Hmax (Sh i') (Sh o)); [apply Sfin|apply Sfin|apply (K i' o); simpl; auto].
      * rewrite (knn_max_short _ _ _ _ _ _ A) by auto. rewrite HX.
        pose proof (ks_max _ _ _ _ C i' Hi') as K. apply ltb_R in K; [lra|apply Sfin|apply fin_max].
    + destruct (Pall j Hj) as [H|H]; auto.
      eapply Permutation_in in H; [|symmetry; apply (kh_perm _ _ _ _ _ _ A)].
      apply in_app_or in H as [H|H]; [tauto|auto].
Qed.

Lemma knn_float_approx k knn0 : (0 < k)%nat -> exists out, search_knn_approx tree q k ea knn0 = Ok out
  /\ knn_tolerated N k D (scaled prec emax ea) (tolerated prec emax ea f) (real_answers prec emax out).
Proof.
  intros Hk. pose proof (N_pos prec emax Hprec Hmax em sp bnds alg it fuel stop ru tree HM) as HN. fold N in HN.
  assert (TS : kt_space tree = sp) by (destruct (kd_tree_make_inv _ _ _ _ _ _ _ _ _ HM) as (data & Et & _); rewrite Et; reflexivity).
  unfold search_knn_approx. rewrite TS. change (sp_size sp) with N.
  set (range := vector_resize knn0 (Nat.min k N)).
  assert (LR : length range = Nat.min k N) by apply length_resize.
  destruct (knn_init_ok range ltac:(lia)) as (l0 & EI & L0 & M0 & _ & _).
  destruct (knn_range_approx l0) as (st & E & L & A); [lia|auto|].
  unfold search_knn_range_approx. rewrite EI. cbn [bind]. rewrite E. cbn [bind].
  exists (fst st). split; auto.
  rewrite firstn_all2 in A by lia.
  destruct A as [A1 A2 A3 A4 A5]. constructor; auto. rewrite A1. lia.
Qed.
End Approx.
