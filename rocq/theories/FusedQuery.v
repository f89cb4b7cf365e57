(** Answers of the contracted query functions. *)
From Coq Require Import List ZArith Reals Bool Arith Permutation Sorted Lia Lra.
From Flocq Require Import Core.Core IEEE754.BinarySingleNaN Plus_error Relative.
From Verif Require Import Base ModelBox ModelBuild ModelSearch Spec SpecRound Lemmas BuildProofs
  BuildShape BuildThms SearchProofs Visitors QueryThms TopThms OrdThms Floats FloatThms FloatSearch FloatQuery
  ModelFused SpecFused FusedThms.
Import ListNotations.
Local Open Scope R_scope.

Section Query.
Variables (prec emax : Z).
Context (Hprec : Prec_gt_0 prec) (Hmax : Prec_lt_emax prec emax) (P2 : (2 <= prec)%Z).
Local Notation F := (binary_float prec emax).
Local Notation fin := (finite prec emax).
Local Notation pow2 := (bpow radix2).
Local Notation u := (bpow radix2 (- prec)).
Local Existing Instance SF.
Let OL := float_ord prec emax Hprec Hmax.

Variables (ct : contraction) (e : Z) (sp : space F) (bnds : start_bounds F) (q : list F).
Hypothesis FI : float_input prec emax L2Squared e sp bnds q.
Let n := sp_sdim sp.
Let N := length (sp_pts sp).
Let mf := metric_fused prec emax Hprec Hmax ct.
Let D := fused_computed prec emax Hprec Hmax ct sp q.
Let Dh (j : nat) : F := m_dist mf q (sp_at sp j).

Variables (alg : std_algos) (SL : std_laws alg).
Variables (it : index_type) (fuel : nat) (stop : stop_condition) (ru : rule) (t : kd_tree_data Euclidean F).
Hypothesis (NM : ru <> midpoint_max_side).
Hypothesis HM : kd_tree_make alg it metric_l2_squared fuel sp stop bnds ru = Ok (KdTree sp metric_l2_squared t).

(** The tree is true of the points. *)
Lemma made_tight : Permutation (kd_indices t) (seq 0 N) /\ node_spans (R_tight fin sp Euclidean) (kd_root t) 0 (kd_indices t).
Proof.
  assert (HB : build Euclidean alg it fuel sp stop bnds ru = Ok t).
  { pose proof HM as H. unfold kd_tree_make in H. cbn [m_cat metric_l2_squared] in H.
    destruct (build Euclidean alg it fuel sp stop bnds ru) as [x| |]; try discriminate. cbn [bind] in H.
    set (f := fun k : kd_tree F => match kt_metric k as m return kd_tree_data (m_cat m) F -> kd_tree_data Euclidean F with
                 | Metric c d g w => match c return (kd_tree_data c F -> kd_tree_data Euclidean F) with
                                     | Euclidean => fun x => x | Topological => fun _ => t end end (kt_data k)).
    assert (E : f (KdTree sp metric_l2_squared x) = f (KdTree sp metric_l2_squared t)) by congruence.
    cbn in E. rewrite E. reflexivity. }
  assert (Q : forall x, below prec emax e x -> quarter prec emax x).
  { intros x [A C]. split; auto. eapply Rle_trans; [exact C|]. apply bpow_le.
    pose proof (fi_exp _ _ _ _ _ _ _ FI). lia. }
  assert (GC : all_coords (quarter prec emax) sp).
  { pose proof (fi_coords _ _ _ _ _ _ _ FI) as C. unfold all_coords in *. eapply Forall_impl; [|exact C].
    intros p Hp. eapply Forall_impl; [|exact Hp]. auto. }
  apply (build_tight_ord fin OL (float_finite prec emax Hprec Hmax) (quarter prec emax)
           (float_range prec emax Hprec Hmax P2) (quarter_fin prec emax) sp (fi_space _ _ _ _ _ _ _ FI) GC alg SL)
    in HB as [P NS]; auto. apply (fi_bounds _ _ _ _ _ _ _ FI).
Qed.

Section Generic.
(** What is known of skipped points. *)
Variable skip : F -> nat -> Prop.
Hypothesis D_facts : forall j, (j < N)%nat -> fin (Dh j) /\ 0 <= D j <= pow2 (emax - 2).
Hypothesis fused_contract : forall (V : Type) (vis : visitor F V) (Inv : V -> Prop) v0,
  (forall st i, Inv st -> (i < N)%nat -> Inv (v_visit vis i (Dh i) st)) ->
  (forall st, Inv st -> fin (v_max vis st)) ->
  (forall st i, Inv st -> (i < N)%nat -> s_leb (v_max vis (v_visit vis i (Dh i) st)) (v_max vis st) = true) ->
  Inv v0 ->
  exists tr rest, Permutation (tr ++ rest) (seq 0 N)
    /\ search_fused prec emax Hprec Hmax ct sp t vis q v0 = Ok (visits mf vis sp q tr v0)
    /\ Inv (visits mf vis sp q tr v0)
    /\ forall j, In j rest -> skip (v_max vis (visits mf vis sp q tr v0)) j.

Lemma D_fin j : fin (Dh j).
Proof.
  destruct (Nat.lt_ge_cases j N) as [H|H]; [apply D_facts; auto|].
  unfold Dh, mf, sp_at. rewrite nth_overflow by auto. cbn [metric_fused m_dist]. unfold fused_distance.
  rewrite combine_nil. reflexivity.
Qed.

Section Factor.
Variable f : R.
Hypotheses (F1 : 1 <= f) (F2 : f <= 2) (SK : forall x j, (j < N)%nat -> fin x -> skip x j -> B2R x <= f * D j).

Lemma D_self j : (j < N)%nat -> D j <= f * D j.
Proof. intros Hj. destruct (D_facts j Hj) as [_ [A _]]. nra. Qed.

(** No distance comes near the largest number. *)
Lemma max_far j : (j < N)%nat -> B2R (s_max : F) <= f * D j -> False.
Proof.
  intros Hj H. destruct (D_facts j Hj) as [_ [A C]]. pose proof (max_gt_pow prec emax Hprec Hmax P2).
  assert (pow2 (emax - 1) = 2 * pow2 (emax - 2)).
  { replace (emax - 1)%Z with (1 + (emax - 2))%Z by ring. rewrite bpow_plus. reflexivity. }
  assert (f * D j <= 2 * pow2 (emax - 2)) by (apply Rmult_le_compat; lra). lra.
Qed.

Lemma visits_nn tr v0 : visits (mf) visitor_nn sp q tr v0 = fold_left (nn_step Dh) tr v0.
Proof. reflexivity. Qed.

Lemma N_pos : (0 < N)%nat.
Proof.
  destruct (kd_tree_make_inv _ _ _ _ _ _ _ _ _ HM) as (data & _ & HB). apply build_inv in HB as (_ & (H & _) & _). exact H.
Qed.

Lemma nn_fused nn0 : exists i d, search_nn_fused prec emax Hprec Hmax ct sp t q nn0 = Ok (Neighbor i d)
  /\ d = Dh i /\ nearest_within N D f i.
Proof.
  destruct (fused_contract _ visitor_nn (fun st => fin (n_distance st)) (visitor_nn_init nn0))
    as (tr & rest & P & E & I1 & HF).
  - intros st i Hst Hi. cbn. destruct (Bltb _ _); [apply D_fin|auto].
  - auto.
  - intros st i Hst Hi. cbn [v_visit v_max visitor_nn]. destruct (s_ltb (Dh i) (n_distance st)) eqn:EL.
    + apply (ltb_leb fin OL); auto. apply D_fin.
    + apply (leb_refl fin OL); auto.
  - reflexivity.
  - unfold search_nn_fused. change (SFu prec emax Hprec Hmax) with (SF prec emax Hprec Hmax).
    rewrite E. rewrite visits_nn in *.
    set (r := fold_left (nn_step Dh) tr (visitor_nn_init nn0)) in *.
    apply perm_in_seq in P as (Ptr & Prest & Pall & _).
    destruct (nn_minimal Dh OL D_fin tr (visitor_nn_init nn0) (fin_max prec emax Hprec Hmax)) as (A1 & A2 & A3). fold r in A1, A2, A3.
    assert (ALL : forall j, (j < N)%nat -> B2R (n_distance r) <= f * D j).
    { intros j Hj. destruct (Pall j Hj) as [H|H].
      - specialize (A3 j H). apply leb_R in A3; auto; [|apply D_fin]. change (B2R (Dh j)) with (D j) in A3.
        pose proof (D_self j Hj). lra.
      - apply SK; auto. }
    destruct (nn_genuine Dh tr (visitor_nn_init nn0)) as [G|(i & Hi & G)]; fold r in G.
    + exfalso. specialize (ALL 0%nat N_pos). rewrite G in ALL. apply (max_far 0%nat N_pos). exact ALL.
    + exists i, (Dh i). rewrite G. split; [reflexivity|]. split; auto. split; auto.
      intros j Hj. specialize (ALL j Hj). rewrite G in ALL. exact ALL.
Qed.

Lemma radius_fused r sort : fin r -> exists l,
  search_radius_fused prec emax Hprec Hmax ct alg sp t q r sort = Ok l
  /\ radius_within N D f (B2R r) (real_answers prec emax l)
  /\ (sort = true -> StronglySorted Rle (map (fun x => B2R (n_distance x)) l)).
Proof.
  intros Fr.
  destruct (fused_contract _ (visitor_radius r) (fun _ => True) []) as (tr & rest & P & E & _ & HF); auto.
  { intros st i _ _. apply (leb_refl fin OL); auto. }
  assert (EV : forall l st, visits (mf) (visitor_radius r) sp q l st = fold_left (radius_step Dh r) l st)
    by reflexivity.
  rewrite EV, radius_result in E. cbn [app] in E.
  apply perm_in_seq in P as (Ptr & Prest & Pall & ND & _).
  set (l0 := map (as_neighbor Dh) (filter (fun i => s_ltb (Dh i) r) tr)) in *.
  assert (A0 : radius_within N D f (B2R r) (real_answers prec emax l0)).
  { unfold l0, real_answers. rewrite map_map. cbn [as_neighbor n_index n_distance].
    assert (LT : forall i, s_ltb (Dh i) r = true <-> D i < B2R r).
    { intros i. apply ltb_R; auto. apply D_fin. }
    constructor.
    - rewrite map_map. cbn. rewrite map_id. apply NoDup_filter. auto.
    - intros i d Hi. apply in_map_iff in Hi as (j & Ej & Hj). injection Ej as <- <-.
      apply filter_In in Hj as [Hj L]. apply LT in L. split; auto.
    - intros i Hi HR. rewrite map_map. cbn. rewrite map_id. apply filter_In.
      pose proof (D_self i Hi). destruct (Pall i Hi) as [H0|H0].
      + split; auto. apply LT. lra.
      + exfalso. pose proof (SK r i Hi Fr (HF i H0)). lra. }
  assert (O0 : forall x, In x l0 -> fin (n_distance x)).
  { intros x Hx. apply in_map_iff in Hx as (i & <- & _). apply D_fin. }
  unfold search_radius_fused. change (SFu prec emax Hprec Hmax) with (SF prec emax Hprec Hmax). rewrite E. cbn [bind]. eexists. split; [reflexivity|].
  destruct sort; [|split; [exact A0|discriminate]].
  destruct (sort_result fin OL alg SL l0 O0) as [PS SS].
  split.
  - destruct A0 as [R1 R2 R3].
    assert (PA : Permutation (real_answers prec emax (std_sort alg (neighbor F) neighbor_lt l0)) (real_answers prec emax l0))
      by (apply Permutation_map; auto).
    assert (PI := Permutation_map fst PA).
    constructor.
    + eapply Permutation_NoDup; [symmetry; exact PI|auto].
    + intros i d Hi. apply R2. eapply Permutation_in; eauto.
    + intros i Hi HR. eapply Permutation_in; [symmetry; exact PI|auto].
  - intros _. assert (O1 : forall x, In x (std_sort alg (neighbor F) neighbor_lt l0) -> fin (n_distance x)).
    { intros x Hx. apply O0. eapply Permutation_in; eauto. }
    clear - SS O1. induction SS as [|a l SS IH FA]; cbn [map]; constructor.
    + apply IH. intros; apply O1; right; auto.
    + rewrite Forall_forall in *. intros x Hx. apply in_map_iff in Hx as (b & <- & Hb).
      apply (leb_R prec emax Hprec Hmax); [apply O1; left; auto|apply O1; right; auto|auto].
Qed.

Lemma knn_fused_range l0 : (0 < length l0)%nat -> knn_max (l0, 0%nat) = s_max ->
  exists st, search_fused prec emax Hprec Hmax ct sp t visitor_knn q (l0, 0%nat) = Ok st
  /\ length (fst st) = length l0
  /\ knn_within N (length l0) D f (real_answers prec emax (firstn (Nat.min (length l0) N) (fst st)))
  /\ skipn (Nat.min (length l0) N) (fst st) = skipn (Nat.min (length l0) N) l0.
Proof.
  intros H0 HX.
  set (Inv := fun st => exists tr kept dropped,
                knn_holds Dh l0 tr st kept dropped /\ knn_sorted Dh st kept dropped).
  assert (MF : forall st, Inv st -> fin (knn_max st)).
  { intros st (tr & kept & dropped & A & C).
    destruct (le_lt_dec (length l0) (length kept)) as [L|L].
    - destruct (exists_last (l := kept)) as (X & o & EX). { apply length_nonnil. lia. }
      subst kept. pose proof (kh_le _ _ _ _ _ _ A).
      rewrite (knn_max_full _ _ _ _ _ _ _ A) by lia. apply D_fin.
    - rewrite (knn_max_short _ _ _ _ _ _ A) by auto. rewrite HX. apply fin_max. }
  destruct (fused_contract _ visitor_knn Inv (l0, 0%nat)) as (tr & rest & P & E & _ & HF).
  { intros st i (tr & kept & dropped & A & C) _.
    destruct (knn_order_step Dh OL D_fin l0 tr st kept dropped i H0 HX A C) as (k' & d' & A' & C' & _).
    exists (tr ++ [i]), k', d'. auto. }
  { auto. }
  { intros st i (tr & kept & dropped & A & C) _.
    destruct (knn_order_step Dh OL D_fin l0 tr st kept dropped i H0 HX A C) as (k' & d' & _ & _ & C').
    exact C'. }
  { exists [], [], []. split; [apply knn_start|]. constructor; simpl; try tauto. constructor. }
  assert (EV : forall l st, visits (mf) visitor_knn sp q l st = fold_left (knn_step Dh) l st)
    by reflexivity.
  rewrite EV in *.
  destruct (knn_order Dh OL D_fin l0 tr H0 HX) as (kept & dropped & A & C).
  set (st := fold_left (knn_step Dh) tr (l0, 0%nat)) in *.
  assert (Fm : fin (knn_max st)) by (apply MF; exists tr, kept, dropped; auto).
  exists st. split; auto. split; [apply (kh_len _ _ _ _ _ _ A)|].
  pose proof P as P0. apply perm_in_seq in P as (Ptr & Prest & Pall & ND & Pdis).
  assert (Hk : forall i, In i kept -> (i < N)%nat).
  { intros i Hi. apply Ptr. eapply Permutation_in; [apply (kh_perm _ _ _ _ _ _ A)|]. apply in_or_app; auto. }
  assert (Hd : forall i, In i dropped -> (i < N)%nat).
  { intros i Hi. apply Ptr. eapply Permutation_in; [apply (kh_perm _ _ _ _ _ _ A)|]. apply in_or_app; auto. }
  assert (NDk : NoDup kept).
  { eapply NoDup_app_l. eapply Permutation_NoDup; [symmetry; apply (kh_perm _ _ _ _ _ _ A)|auto]. }
  assert (FAR : forall j, In j rest -> B2R (knn_max st) <= f * D j).
  { intros j Hj. apply SK; auto. }
  assert (DRP : forall j, In j dropped -> B2R (knn_max st) <= f * D j).
  { intros j Hj. pose proof (ks_dropped _ _ _ _ C j Hj) as K. apply leb_R in K; auto; [|apply D_fin].
    change (B2R (Dh j)) with (D j) in K. pose proof (D_self j (Hd j Hj)). lra. }
  assert (LK : length kept = Nat.min (length l0) N).
  { pose proof (kh_le _ _ _ _ _ _ A) as L.
    assert (LN : (length kept + length dropped + length rest = N)%nat).
    { apply Permutation_length in P0. rewrite app_length, seq_length in P0.
      pose proof (Permutation_length (kh_perm _ _ _ _ _ _ A)) as L2. rewrite app_length in L2. lia. }
    destruct (le_lt_dec (length l0) (length kept)) as [L1|L1]; [lia|].
    pose proof (knn_max_short Dh l0 tr st kept dropped A L1) as M. rewrite HX in M.
    assert (dropped = []) as ->.
    { destruct dropped as [|i dr]; auto. exfalso. specialize (DRP i (or_introl eq_refl)). rewrite M in DRP.
      apply (max_far i); auto. apply Hd. left; auto. }
    assert (rest = []) as ->.
    { destruct rest as [|i dr]; auto. exfalso. specialize (FAR i (or_introl eq_refl)). rewrite M in FAR.
      apply (max_far i); auto. apply Prest. left; auto. }
    simpl in LN. lia. }
  rewrite <- LK. pose proof (kh_first _ _ _ _ _ _ A) as G1. pose proof (kh_rest _ _ _ _ _ _ A) as G2.
  rewrite (kh_active _ _ _ _ _ _ A) in G1, G2. split; [|exact G2]. rewrite G1.
  unfold real_answers. rewrite map_map. cbn [as_neighbor n_index n_distance].
  constructor.
  - rewrite map_length. auto.
  - rewrite map_map. cbn. rewrite map_id. auto.
  - intros i d Hi. apply in_map_iff in Hi as (j & Ej & Hj). injection Ej as <- <-. split; auto.
  - rewrite map_map. cbn [snd]. pose proof (ks_sorted _ _ _ _ C) as SS. revert SS. generalize kept. intros kk SS.
    induction SS as [|a l SS IH FA]; cbn [map]; constructor; auto. rewrite Forall_forall in *.
    intros x Hx. apply in_map_iff in Hx as (j & <- & Hj).
    apply (leb_R prec emax Hprec Hmax (Dh a) (Dh j)); [apply D_fin|apply D_fin|exact (FA j Hj)].
  - intros i d j Hi Hj Hn. apply in_map_iff in Hi as (i' & Ej & Hi'). injection Ej as <- <-.
    rewrite map_map in Hn. cbn in Hn. rewrite map_id in Hn.
    apply Rle_trans with (B2R (knn_max st)).
    + destruct (le_lt_dec (length l0) (length kept)) as [L1|L1].
      * destruct (exists_last (l := kept)) as (X & o & EX'). { apply length_nonnil. lia. }
        subst kept. pose proof (kh_le _ _ _ _ _ _ A).
        rewrite (knn_max_full _ _ _ _ _ _ _ A) by lia.
        apply in_app_or in Hi' as [Hi'|[<-|[]]]; [|apply Rle_refl].
        pose proof (ks_sorted _ _ _ _ C) as SS. apply StronglySorted_app_inv in SS as (_ & _ & K).
        apply (leb_R prec emax Hprec Hmax (Dh i') (Dh o)); [apply D_fin|apply D_fin|apply (K i' o); simpl; auto].
      * rewrite (knn_max_short _ _ _ _ _ _ A) by auto. rewrite HX.
        pose proof (ks_max _ _ _ _ C i' Hi') as K. apply ltb_R in K; [lra|apply D_fin|apply fin_max].
    + destruct (Pall j Hj) as [H|H]; auto.
      eapply Permutation_in in H; [|symmetry; apply (kh_perm _ _ _ _ _ _ A)].
      apply in_app_or in H as [H|H]; [tauto|auto].
Qed.

Lemma knn_fused k knn0 : (0 < k)%nat -> exists out, search_knn_fused prec emax Hprec Hmax ct sp t q k knn0 = Ok out
  /\ knn_within N k D f (real_answers prec emax out).
Proof.
  intros Hk. pose proof N_pos as HN.
  unfold search_knn_fused. change (sp_size sp) with N.
  set (range := vector_resize knn0 (Nat.min k N)).
  assert (LR : length range = Nat.min k N) by apply length_resize.
  destruct (knn_init_ok range ltac:(lia)) as (l0 & EI & L0 & M0 & _ & _).
  destruct (knn_fused_range l0) as (st & E & L & A & _); [lia|auto|].
  change (SFu prec emax Hprec Hmax) with (SF prec emax Hprec Hmax). fold range. rewrite EI. cbn [bind]. rewrite E. cbn [bind].
  exists (fst st). split; auto.
  rewrite firstn_all2 in A by lia.
  destruct A as [A1 A2 A3 A4 A5]. constructor; auto. rewrite A1. lia.
Qed.
End Factor.

End Generic.

(** ** With rounding errors *)
Section Rounded.
Variable ea : Z.
Hypothesis AP : apart prec emax ea sp q.
Let h := node_height (kd_root t).
Hypothesis FEW : fused_few prec n h.

Lemma NUf : INR (n + 1) * u <= / 2.
Proof.
  apply Rle_trans with (/ 16); [|lra]. eapply Rle_trans; [|exact FEW].
  apply Rmult_le_compat_r; [apply bpow_ge_0|]. apply le_INR. lia.
Qed.
Lemma HUf : INR (3 * h) * u <= / 16.
Proof.
  eapply Rle_trans; [|exact FEW]. apply Rmult_le_compat_r; [apply bpow_ge_0|]. apply le_INR. lia.
Qed.

Definition skip : F -> nat -> Prop := skippedf prec emax Hprec Hmax ct sp q h.

Lemma fused_contract {V} (vis : visitor F V) (Inv : V -> Prop) v0 :
  (forall st i, Inv st -> (i < N)%nat -> Inv (v_visit vis i (Dh i) st)) ->
  (forall st, Inv st -> fin (v_max vis st)) ->
  (forall st i, Inv st -> (i < N)%nat -> s_leb (v_max vis (v_visit vis i (Dh i) st)) (v_max vis st) = true) ->
  Inv v0 ->
  exists tr rest, Permutation (tr ++ rest) (seq 0 N)
    /\ search_fused prec emax Hprec Hmax ct sp t vis q v0 = Ok (visits mf vis sp q tr v0)
    /\ Inv (visits mf vis sp q tr v0)
    /\ forall j, In j rest -> skip (v_max vis (visits mf vis sp q tr v0)) j.
Proof.
  intros VI VF VM I0. unfold skip.
  destruct made_tight as [P NS].
  apply (search_fused_contract prec emax Hprec Hmax P2 ct e ea sp bnds q FI AP NUf h HUf vis Inv t v0); auto.
  intros st i HI Hi. specialize (VM st i HI Hi). apply leb_R in VM; auto.
Qed.

Lemma D_facts j : (j < N)%nat -> fin (Dh j) /\ 0 <= D j <= pow2 (emax - 2).
Proof.
  intros Hj.
  destruct (Df_bounds prec emax Hprec Hmax P2 ct e ea sp bnds q FI AP NUf j Hj) as (A & C & S0 & SB).
  split; [exact A|].
  change (B2R (Df prec emax Hprec Hmax ct sp q j)) with (D j) in C. fold n in C, S0, SB.
  set (S := sumR n _) in *.
  pose proof (u_bounds prec P2) as [U0 U1].
  destruct (pow_prod u ltac:(lra) ltac:(lra) (n + 1)) as [L0 _].
  pose proof (pow_upper u ltac:(lra) ltac:(lra) (n + 1) NUf) as L1.
  pose proof (pow_ge_1 u ltac:(lra) (n + 1)) as L2.
  split.
  - eapply Rle_trans; [|apply C]. apply Rmult_le_pos; auto.
  - eapply Rle_trans; [apply C|].
    replace (pow2 (emax - 2)) with (2 * pow2 (emax - 3)).
    { pose proof (fitB prec emax e sp bnds q FI). fold n in H. apply Rmult_le_compat; lra. }
    replace (emax - 2)%Z with (1 + (emax - 3))%Z by ring. rewrite bpow_plus. reflexivity.
Qed.

Lemma fslack_bounds : 1 <= fused_slack prec n h <= 2.
Proof.
  unfold fused_slack. pose proof FEW as K. unfold fused_few in K. pose proof (bpow_ge_0 radix2 (- prec)).
  assert (0 <= INR (3 * h + (n + 1)) * u) by (apply Rmult_le_pos; [apply pos_INR|lra]). lra.
Qed.

Lemma fskip_slack x j : (j < N)%nat -> fin x -> skip x j -> B2R x <= fused_slack prec n h * D j.
Proof.
  intros Hj Fx S1. pose proof (u_bounds prec P2).
  apply (pow_slack u ltac:(lra) ltac:(lra) (3 * h) (n + 1) (B2R x) (D j)).
  - apply Rle_trans with (/ 16); [exact FEW|lra].
  - apply D_facts; auto.
  - left. exact S1.
Qed.
End Rounded.
End Query.
