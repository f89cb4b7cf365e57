(** Answers of the query functions for floating point coordinates on circles. *)
From Coq Require Import List ZArith Reals Bool Arith Permutation Sorted Lia Lra.
From Flocq Require Import Core.Core IEEE754.BinarySingleNaN Plus_error Relative.
From Verif Require Import Base ModelBox ModelBuild ModelSearch Spec SpecRound SpecCircle Lemmas BuildProofs
  BuildShape BuildThms SearchProofs Visitors QueryThms TopThms OrdThms Floats FloatThms FloatSearch FloatTopo FloatCircle.
Import ListNotations.
Local Open Scope R_scope.

Section Query.
Variables (prec emax : Z).
Context (Hprec : Prec_gt_0 prec) (Hmax : Prec_lt_emax prec emax) (P2 : (2 <= prec)%Z).
Local Notation F := (binary_float prec emax).
Local Notation fin := (finite prec emax).
Local Notation fexp := (SpecFloat.fexp prec emax).
Local Notation emin := (SpecFloat.emin prec emax).
Local Notation rnd := (round radix2 fexp ZnearestE).
Local Notation fmt := (generic_format radix2 fexp).
Local Notation pow2 := (bpow radix2).
Local Notation u := (bpow radix2 (- prec)).
Local Existing Instance SF.
Let OL := float_ord prec emax Hprec Hmax.

Variables (cm : circle_metric) (e : Z) (sp : space F) (bnds : start_bounds F) (q : list F).
Hypothesis CI : circle_input prec emax cm e sp bnds q.
Let n := sp_sdim sp.
Let N := length (sp_pts sp).
Let D := computed_on prec emax Hprec Hmax cm sp q.
Let Dh (j : nat) : F := m_dist (circle_of cm) q (sp_at sp j).
Let B := circle_bound cm e.
Let ok := okc e cm.
Let dt := dtc prec emax cm.
Let WF := ci_space _ _ _ _ _ _ _ CI.
Let LQ := ci_length _ _ _ _ _ _ _ CI.
Let FIT := ci_fit _ _ _ _ _ _ _ CI.

Lemma n_pos_c : (0 < n)%nat.
Proof. pose proof (ci_dims _ _ _ _ _ _ _ CI). unfold circle_dims in *. fold n in H. destruct cm; lia. Qed.
Lemma u_small_c : 0 < u <= / 4. Proof. apply u_bounds; auto. Qed.

Lemma coords_c j k : (j < N)%nat -> (k < n)%nat -> okF prec emax ok k (coord sp k j).
Proof.
  intros Hj Hk. destruct (ci_coords _ _ _ _ _ _ _ CI (sp_at sp j) k) as [A C]; auto.
  { apply nth_In. exact Hj. }
  split; [exact A|]. unfold ok, okc. exact C.
Qed.
Lemma query_c k : (k < n)%nat -> okF prec emax ok k (get q k).
Proof. intros Hk. destruct (ci_query _ _ _ _ _ _ _ CI k Hk) as [A C]. split; [exact A|exact C]. Qed.

Lemma TM : topo_float prec emax Hprec Hmax (circle_of cm) n ok dt B.
Proof.
  destruct (ci_exp _ _ _ _ _ _ _ CI) as [E0 E2]. constructor.
  - destruct cm; reflexivity.
  - intros x y Lx Ly Hx Hy.
    destruct (dist_R prec emax Hprec Hmax P2 e E0 E2 cm n x y (ci_dims _ _ _ _ _ _ _ CI) Lx Ly Hx Hy)
      as (ts & Lt & Ht & Et).
    exists ts. split; [exact Lt|]. split; [exact Ht|]. rewrite Et.
    destruct cm eqn:Ecm.
    + pose proof (ci_dims _ _ _ _ _ _ _ CI) as Dn. cbn in Dn. fold n in Dn. rewrite Dn in Lt.
      destruct ts as [|t [|]]; try discriminate. cbn [get nth fold_left].
      destruct (Ht 0%nat ltac:(lia)) as [Ft _]. destruct (zero_plus prec emax Hprec Hmax t Ft) as [A C]. rewrite C. split; auto.
    + split; auto.
    + split; auto.
  - intros k x y Hk Hx Hy. apply (dtc_bounds prec emax Hprec Hmax e E0); auto.
  - intros k mn mx v Hk F1 F2 F3 O1 O2 O3 L. apply (box_R prec emax Hprec Hmax P2 e E0 E2 cm); auto.
  - intros k v a c b Hk Ov Oa Ob Hv Hc. apply (dtc_concave prec emax Hprec Hmax e); auto.
Qed.

Section Tree.
Variables (alg : std_algos) (SL : std_laws alg).
Variables (it : index_type) (fuel : nat) (stop : stop_condition) (ru : rule) (tree : kd_tree F).
Hypothesis (NM : ru <> midpoint_max_side).
Hypothesis HM : kd_tree_make alg it (circle_of cm) fuel sp stop bnds ru = Ok tree.
Let h := node_height (kd_root (kt_data tree)).
Hypothesis FEW : few_steps prec n h.
Lemma NUc : INR n * u <= / 2.
Proof.
  eapply Rle_trans; [|exact FEW]. apply Rmult_le_compat_r; [pose proof u_small_c; lra|]. apply le_INR. lia.
Qed.
Lemma HUc : INR (2 * h) * u <= / 2.
Proof.
  eapply Rle_trans; [|exact FEW]. apply Rmult_le_compat_r; [pose proof u_small_c; lra|]. apply le_INR. lia.
Qed.

Variable g : Z.   (* the exponent of the grid, if there is one *)
Definition exact_casec : Prop := exactlyt prec emax Hprec Hmax sp dt B q g.
Definition skip : F -> nat -> Prop := skippedt prec emax Hprec Hmax (circle_of cm) sp dt B q g h.

Lemma search_contract {V} (vis : visitor F V) (Inv : V -> Prop) v0 :
  (forall st i, Inv st -> (i < N)%nat -> Inv (v_visit vis i (Dh i) st)) ->
  (forall st, Inv st -> fin (v_max vis st)) ->
  (forall st i, Inv st -> (i < N)%nat -> s_leb (v_max vis (v_visit vis i (Dh i) st)) (v_max vis st) = true) ->
  Inv v0 ->
  exists tr rest, Permutation (tr ++ rest) (seq 0 N)
    /\ search_nearest tree vis q v0 = Ok (visits (circle_of cm) vis sp q tr v0)
    /\ Inv (visits (circle_of cm) vis sp q tr v0)
    /\ forall j, In j rest -> skip (v_max vis (visits (circle_of cm) vis sp q tr v0)) j.
Proof.
  intros VI VF VM I0. unfold skip.
  destruct (kd_tree_make_inv _ _ _ _ _ _ _ _ _ HM) as (data & Et & HB).
  assert (GC : all_coords (quarter prec emax) sp).
  { apply Forall_forall. intros p Hp. apply Forall_forall. intros x Hx.
    apply (In_nth _ _ (B754_zero false)) in Hx as (k & Hk & <-).
    assert (Lp : length p = n) by (destruct WF as [_ W]; rewrite Forall_forall in W; apply W; auto).
    rewrite Lp in Hk. destruct (ci_coords _ _ _ _ _ _ _ CI p k Hp Hk) as [A C]. split; [exact A|].
    destruct (ci_exp _ _ _ _ _ _ _ CI) as [E0 E2]. pose proof (emax_pos prec emax Hmax P2) as EP.
    destruct (circular cm k).
    - rewrite Rabs_pos_eq by lra. eapply Rle_trans; [apply C|]. change 1 with (pow2 0). apply bpow_le. lia.
    - eapply Rle_trans; [exact C|]. apply bpow_le. lia. }
  apply (build_tight_ord fin OL (float_finite prec emax Hprec Hmax) (quarter prec emax)
           (float_range prec emax Hprec Hmax P2) (quarter_fin prec emax) sp WF GC alg SL)
    in HB as [P NS]; auto; [|apply (ci_bounds _ _ _ _ _ _ _ CI)].
  clear GC.
  destruct (search_topo prec emax Hprec Hmax P2 (circle_of cm) sp WF ok dt B TM n_pos_c coords_c q LQ query_c
    FIT NUc g h HUc vis Inv)
    with (c := m_cat (circle_of (T := F) cm)) (root := kd_root data) (idx := kd_indices data) (v0 := v0)
    as (tr & rest & Pt & E & I1 & HF); auto.
  { intros st i HI Hi. specialize (VM st i HI Hi). apply leb_R in VM; auto. }
  { unfold h. rewrite Et. apply le_n. }
  exists tr, rest. split; auto. split; auto.
  rewrite Et. unfold search_nearest. cbn [kt_space kt_metric kt_data]. rewrite LQ, Nat.eqb_refl.
  exact E.
Qed.

Lemma D_facts j : (j < N)%nat -> fin (Dh j) /\ 0 <= D j <= pow2 (emax - 2).
Proof.
  intros Hj.
  destruct (Dhatt_bounds prec emax Hprec Hmax P2 (circle_of cm) sp WF ok dt B TM n_pos_c coords_c q LQ query_c
    FIT NUc g j Hj) as (A & C & _).
  split; [exact A|].
  change (B2R (Dhatt prec emax (circle_of cm) sp q j)) with (D j) in C.
  assert (TB : forall k, (k < n)%nat -> 0 <= termt prec emax Hprec Hmax sp dt q j k <= B).
  { intros k Hk. apply (tm_bound _ _ _ _ _ _ _ _ _ TM); auto; [apply query_c; auto|apply coords_c; auto]. }
  fold n in C. set (S := sumR n (termt prec emax Hprec Hmax sp dt q j)) in *.
  assert (S0 : 0 <= S) by (apply sumR_nonneg; intros; apply TB; auto).
  assert (SB : S <= INR n * B) by (apply sumR_bound; intros; apply TB; auto).
  pose proof u_small_c as [U0 U1].
  destruct (pow_prod u ltac:(lra) ltac:(lra) n) as [L0 _].
  pose proof (pow_upper u ltac:(lra) ltac:(lra) n NUc) as L1.
  pose proof (pow_ge_1 u ltac:(lra) n) as L2.
  split.
  - eapply Rle_trans; [|apply C]. apply Rmult_le_pos; auto.
  - eapply Rle_trans; [apply C|].
    replace (pow2 (emax - 2)) with (2 * pow2 (emax - 3)).
    { pose proof FIT as FB. fold n B in FB. apply Rmult_le_compat; lra. }
    replace (emax - 2)%Z with (1 + (emax - 3))%Z by ring. rewrite bpow_plus. reflexivity.
Qed.

(** Also for an index out of range, whose "point" has no coordinates. *)
Lemma D_fin j : fin (Dh j).
Proof.
  destruct (Nat.lt_ge_cases j N) as [H|H]; [apply D_facts; auto|].
  assert (S1F : forall k, (k < n)%nat -> circular cm k = true -> fin (s1_distance (get q k) (get [] k))
     /\ 0 <= B2R (s1_distance (get q k) (get [] k)) <= 1).
  { intros k Hk Ck. destruct (query_c k Hk) as [A C]. unfold ok, okc in C. rewrite Ck in C.
    assert (Z : get (@nil F) k = s_zero) by (destruct k; reflexivity). rewrite Z.
    destruct (s1_R prec emax Hprec Hmax P2 (get q k) s_zero A) as [G K]; auto.
    { reflexivity. } { rewrite R_zero. unfold angle. lra. }
    rewrite K. split; auto. apply ang_bounds; auto. rewrite R_zero. unfold angle. lra. }
  pose proof (ci_dims _ _ _ _ _ _ _ CI) as DM. fold n in DM.
  unfold Dh, sp_at. rewrite nth_overflow by auto.
  revert S1F DM. destruct cm; cbn [circle_of m_dist metric_so2 metric_se2_squared metric_t2_squared circle_dims]; intros S1F DM.
  - apply S1F; [lia|reflexivity].
  - destruct (S1F 2%nat) as [A C]; [lia|reflexivity|].
    rewrite firstn_nil. unfold sum_op. rewrite combine_nil. cbn [fold_left].
    apply zero_plus. unfold squared_s1_distance. apply (squared_R1 prec emax Hprec Hmax P2); auto.
  - unfold sum_op. rewrite combine_nil. reflexivity.
Qed.

Section Factor.
Variable f : R.
Hypotheses (F1 : 1 <= f) (F2 : f <= 2) (SK : forall x j, (j < N)%nat -> fin x -> skip x j -> B2R x <= f * D j).

Lemma D_self j : (j < N)%nat -> D j <= f * D j.
Proof. intros Hj. destruct (D_facts j Hj) as [_ [A _]]. nra. Qed.

(** No distance comes near the largest number. *)
Lemma max_far j : (j < N)%nat -> B2R (s_max : F) <= f * D j -> False.
Proof.
  intros Hj H. destruct (D_facts j Hj) as [_ [A C]]. pose proof (max_gt_pow prec emax Hprec Hmax P2).
  assert (pow2 (emax - 1) = 2 * pow2 (emax - 2)).
  { replace (emax - 1)%Z with (1 + (emax - 2))%Z by ring. rewrite bpow_plus. reflexivity. }
  assert (f * D j <= 2 * pow2 (emax - 2)) by (apply Rmult_le_compat; lra). lra.
Qed.

Lemma visits_nn tr v0 : visits (circle_of cm) visitor_nn sp q tr v0 = fold_left (nn_step Dh) tr v0.
Proof. reflexivity. Qed.

Lemma N_pos : (0 < N)%nat.
Proof.
  apply kd_tree_make_inv in HM as (data & _ & HB). apply build_inv in HB as (_ & (H & _) & _). exact H.
Qed.

Lemma nn_float nn0 : exists i d, search_nn tree q nn0 = Ok (Neighbor i d)
  /\ d = Dh i /\ nearest_within N D f i.
Proof.
  destruct (search_contract visitor_nn (fun st => fin (n_distance st)) (visitor_nn_init nn0))
    as (tr & rest & P & E & I1 & HF).
  - intros st i Hst Hi. cbn. destruct (Bltb _ _); [apply D_fin|auto].
  - auto.
  - intros st i Hst Hi. cbn [v_visit v_max visitor_nn]. destruct (s_ltb (Dh i) (n_distance st)) eqn:EL.
    + apply (ltb_leb fin OL); auto. apply D_fin.
    + apply (leb_refl fin OL); auto.
  - reflexivity.
  - unfold search_nn. rewrite E, visits_nn in *.
    set (r := fold_left (nn_step Dh) tr (visitor_nn_init nn0)) in *.
    apply perm_in_seq in P as (Ptr & Prest & Pall & _).
    destruct (nn_minimal Dh OL D_fin tr (visitor_nn_init nn0) (fin_max prec emax Hprec Hmax)) as (A1 & A2 & A3). fold r in A1, A2, A3.
    assert (ALL : forall j, (j < N)%nat -> B2R (n_distance r) <= f * D j).
    { intros j Hj. destruct (Pall j Hj) as [H|H].
      - specialize (A3 j H). apply leb_R in A3; auto; [|apply D_fin]. change (B2R (Dh j)) with (D j) in A3.
        pose proof (D_self j Hj). lra.
      - apply SK; auto. }
    destruct (nn_genuine Dh tr (visitor_nn_init nn0)) as [G|(i & Hi & G)]; fold r in G.
    + exfalso. specialize (ALL 0%nat N_pos). rewrite G in ALL. apply (max_far 0%nat N_pos). exact ALL.
    + exists i, (Dh i). rewrite G. split; [reflexivity|]. split; auto. split; auto.
      intros j Hj. specialize (ALL j Hj). rewrite G in ALL. exact ALL.
Qed.

Lemma radius_float r sort : fin r -> exists l,
  search_radius alg tree q r sort = Ok l
  /\ radius_within N D f (B2R r) (real_answers prec emax l)
  /\ (sort = true -> StronglySorted Rle (map (fun x => B2R (n_distance x)) l)).
Proof.
  intros Fr.
  destruct (search_contract (visitor_radius r) (fun _ => True) []) as (tr & rest & P & E & _ & HF); auto.
  { intros st i _ _. apply (leb_refl fin OL); auto. }
  assert (EV : forall l st, visits (circle_of cm) (visitor_radius r) sp q l st = fold_left (radius_step Dh r) l st)
    by reflexivity.
  rewrite EV, radius_result in E. cbn [app] in E.
  apply perm_in_seq in P as (Ptr & Prest & Pall & ND & _).
  set (l0 := map (as_neighbor Dh) (filter (fun i => s_ltb (Dh i) r) tr)) in *.
  assert (A0 : radius_within N D f (B2R r) (real_answers prec emax l0)).
  { unfold l0, real_answers. rewrite map_map. cbn [as_neighbor n_index n_distance].
    assert (LT : forall i, s_ltb (Dh i) r = true <-> D i < B2R r).
    { intros i. apply ltb_R; auto. apply D_fin. }
    constructor.
    - rewrite map_map. cbn. rewrite map_id. apply NoDup_filter. auto.
    - intros i d Hi. apply in_map_iff in Hi as (j & Ej & Hj). injection Ej as <- <-.
      apply filter_In in Hj as [Hj L]. apply LT in L. split; auto.
    - intros i Hi HR. rewrite map_map. cbn. rewrite map_id. apply filter_In.
      pose proof (D_self i Hi). destruct (Pall i Hi) as [H0|H0].
      + split; auto. apply LT. lra.
      + exfalso. pose proof (SK r i Hi Fr (HF i H0)). lra. }
  assert (O0 : forall x, In x l0 -> fin (n_distance x)).
  { intros x Hx. apply in_map_iff in Hx as (i & <- & _). apply D_fin. }
  unfold search_radius. rewrite E. cbn [bind]. eexists. split; [reflexivity|].
  destruct sort; [|split; [exact A0|discriminate]].
  destruct (sort_result fin OL alg SL l0 O0) as [PS SS].
  split.
  - destruct A0 as [R1 R2 R3].
    assert (PA : Permutation (real_answers prec emax (std_sort alg (neighbor F) neighbor_lt l0)) (real_answers prec emax l0))
      by (apply Permutation_map; auto).
    assert (PI := Permutation_map fst PA).
    constructor.
    + eapply Permutation_NoDup; [symmetry; exact PI|auto].
    + intros i d Hi. apply R2. eapply Permutation_in; eauto.
    + intros i Hi HR. eapply Permutation_in; [symmetry; exact PI|auto].
  - intros _. assert (O1 : forall x, In x (std_sort alg (neighbor F) neighbor_lt l0) -> fin (n_distance x)).
    { intros x Hx. apply O0. eapply Permutation_in; eauto. }
    clear - SS O1. induction SS as [|a l SS IH FA]; cbn [map]; constructor.
    + apply IH. intros; apply O1; right; auto.
    + rewrite Forall_forall in *. intros x Hx. apply in_map_iff in Hx as (b & <- & Hb).
      apply (leb_R prec emax Hprec Hmax); [apply O1; left; auto|apply O1; right; auto|auto].
Qed.

Lemma knn_float_range l0 : (0 < length l0)%nat -> knn_max (l0, 0%nat) = s_max ->
  exists st, search_nearest tree visitor_knn q (l0, 0%nat) = Ok st
  /\ length (fst st) = length l0
  /\ knn_within N (length l0) D f (real_answers prec emax (firstn (Nat.min (length l0) N) (fst st)))
  /\ skipn (Nat.min (length l0) N) (fst st) = skipn (Nat.min (length l0) N) l0.
Proof.
  intros H0 HX.
  set (Inv := fun st => exists tr kept dropped,
                knn_holds Dh l0 tr st kept dropped /\ knn_sorted Dh st kept dropped).
  assert (MF : forall st, Inv st -> fin (knn_max st)).
  { intros st (tr & kept & dropped & A & C).
    destruct (le_lt_dec (length l0) (length kept)) as [L|L].
    - destruct (exists_last (l := kept)) as (X & o & EX). { apply length_nonnil. lia. }
      subst kept. pose proof (kh_le _ _ _ _ _ _ A).
      rewrite (knn_max_full _ _ _ _ _ _ _ A) by lia. apply D_fin.
    - rewrite (knn_max_short _ _ _ _ _ _ A) by auto. rewrite HX. apply fin_max. }
  destruct (search_contract visitor_knn Inv (l0, 0%nat)) as (tr & rest & P & E & _ & HF).
  { intros st i (tr & kept & dropped & A & C) _.
    destruct (knn_order_step Dh OL D_fin l0 tr st kept dropped i H0 HX A C) as (k' & d' & A' & C' & _).
    exists (tr ++ [i]), k', d'. auto. }
  { auto. }
  { intros st i (tr & kept & dropped & A & C) _.
    destruct (knn_order_step Dh OL D_fin l0 tr st kept dropped i H0 HX A C) as (k' & d' & _ & _ & C').
    exact C'. }
  { exists [], [], []. split; [apply knn_start|]. constructor; simpl; try tauto. constructor. }
  assert (EV : forall l st, visits (circle_of cm) visitor_knn sp q l st = fold_left (knn_step Dh) l st)
    by reflexivity.
  rewrite EV in *.
  destruct (knn_order Dh OL D_fin l0 tr H0 HX) as (kept & dropped & A & C).
  set (st := fold_left (knn_step Dh) tr (l0, 0%nat)) in *.
  assert (Fm : fin (knn_max st)) by (apply MF; exists tr, kept, dropped; auto).
  exists st. split; auto. split; [apply (kh_len _ _ _ _ _ _ A)|].
  pose proof P as P0. apply perm_in_seq in P as (Ptr & Prest & Pall & ND & Pdis).
  assert (Hk : forall i, In i kept -> (i < N)%nat).
  { intros i Hi. apply Ptr. eapply Permutation_in; [apply (kh_perm _ _ _ _ _ _ A)|]. apply in_or_app; auto. }
  assert (Hd : forall i, In i dropped -> (i < N)%nat).
  { intros i Hi. apply Ptr. eapply Permutation_in; [apply (kh_perm _ _ _ _ _ _ A)|]. apply in_or_app; auto. }
  assert (NDk : NoDup kept).
  { eapply NoDup_app_l. eapply Permutation_NoDup; [symmetry; apply (kh_perm _ _ _ _ _ _ A)|auto]. }
  assert (FAR : forall j, In j rest -> B2R (knn_max st) <= f * D j).
  { intros j Hj. apply SK; auto. }
  assert (DRP : forall j, In j dropped -> B2R (knn_max st) <= f * D j).
  { intros j Hj. pose proof (ks_dropped _ _ _ _ C j Hj) as K. apply leb_R in K; auto; [|apply D_fin].
    change (B2R (Dh j)) with (D j) in K. pose proof (D_self j (Hd j Hj)). lra. }
  assert (LK : length kept = Nat.min (length l0) N).
  { pose proof (kh_le _ _ _ _ _ _ A) as L.
    assert (LN : (length kept + length dropped + length rest = N)%nat).
    { apply Permutation_length in P0. rewrite app_length, seq_length in P0.
      pose proof (Permutation_length (kh_perm _ _ _ _ _ _ A)) as L2. rewrite app_length in L2. lia. }
    destruct (le_lt_dec (length l0) (length kept)) as [L1|L1]; [lia|].
    pose proof (knn_max_short Dh l0 tr st kept dropped A L1) as M. rewrite HX in M.
    assert (dropped = []) as ->.
    { destruct dropped as [|i dr]; auto. exfalso. specialize (DRP i (or_introl eq_refl)). rewrite M in DRP.
      apply (max_far i); auto. apply Hd. left; auto. }
    assert (rest = []) as ->.
    { destruct rest as [|i dr]; auto. exfalso. specialize (FAR i (or_introl eq_refl)). rewrite M in FAR.
      apply (max_far i); auto. apply Prest. left; auto. }
    simpl in LN. lia. }
  rewrite <- LK. pose proof (kh_first _ _ _ _ _ _ A) as G1. pose proof (kh_rest _ _ _ _ _ _ A) as G2.
  rewrite (kh_active _ _ _ _ _ _ A) in G1, G2. split; [|exact G2]. rewrite G1.
  unfold real_answers. rewrite map_map. cbn [as_neighbor n_index n_distance].
  constructor.
  - rewrite map_length. auto.
  - rewrite map_map. cbn. rewrite map_id. auto.
  - intros i d Hi. apply in_map_iff in Hi as (j & Ej & Hj). injection Ej as <- <-. split; auto.
  - rewrite map_map. cbn [snd]. pose proof (ks_sorted _ _ _ _ C) as SS. revert SS. generalize kept. intros kk SS.
    induction SS as [|a l SS IH FA]; cbn [map]; constructor; auto. rewrite Forall_forall in *.
    intros x Hx. apply in_map_iff in Hx as (j & <- & Hj).
    apply (leb_R prec emax Hprec Hmax (Dh a) (Dh j)); [apply D_fin|apply D_fin|exact (FA j Hj)].
  - intros i d j Hi Hj Hn. apply in_map_iff in Hi as (i' & Ej & Hi'). injection Ej as <- <-.
    rewrite map_map in Hn. cbn in Hn. rewrite map_id in Hn.
    apply Rle_trans with (B2R (knn_max st)).
    + destruct (le_lt_dec (length l0) (length kept)) as [L1|L1].
      * destruct (exists_last (l := kept)) as (X & o & EX'). { apply length_nonnil. lia. }
        subst kept. pose proof (kh_le _ _ _ _ _ _ A).
        rewrite (knn_max_full _ _ _ _ _ _ _ A) by lia.
        apply in_app_or in Hi' as [Hi'|[<-|[]]]; [|apply Rle_refl].
        pose proof (ks_sorted _ _ _ _ C) as SS. apply StronglySorted_app_inv in SS as (_ & _ & K).
        apply (leb_R prec emax Hprec Hmax (Dh i') (Dh o)); [apply D_fin|apply D_fin|apply (K i' o); simpl; auto].
      * rewrite (knn_max_short _ _ _ _ _ _ A) by auto. rewrite HX.
        pose proof (ks_max _ _ _ _ C i' Hi') as K. apply ltb_R in K; [lra|apply D_fin|apply fin_max].
    + destruct (Pall j Hj) as [H|H]; auto.
      eapply Permutation_in in H; [|symmetry; apply (kh_perm _ _ _ _ _ _ A)].
      apply in_app_or in H as [H|H]; [tauto|auto].
Qed.

Lemma knn_float k knn0 : (0 < k)%nat -> exists out, search_knn tree q k knn0 = Ok out
  /\ knn_within N k D f (real_answers prec emax out).
Proof.
  intros Hk. pose proof N_pos as HN.
  assert (TS : kt_space tree = sp) by (destruct (kd_tree_make_inv _ _ _ _ _ _ _ _ _ HM) as (data & Et & _); rewrite Et; reflexivity).
  unfold search_knn. rewrite TS. change (sp_size sp) with N.
  set (range := vector_resize knn0 (Nat.min k N)).
  assert (LR : length range = Nat.min k N) by apply length_resize.
  destruct (knn_init_ok range ltac:(lia)) as (l0 & EI & L0 & M0 & _ & _).
  destruct (knn_float_range l0) as (st & E & L & A & _); [lia|auto|].
  unfold search_knn_range. rewrite EI. cbn [bind]. rewrite E. cbn [bind].
  exists (fst st). split; auto.
  rewrite firstn_all2 in A by lia.
  destruct A as [A1 A2 A3 A4 A5]. constructor; auto. rewrite A1. lia.
Qed.
End Factor.


Lemma slack_bounds_c : 1 <= slack prec n h <= 2.
Proof.
  unfold slack. pose proof FEW as K. unfold few_steps in K. pose proof u_small_c.
  assert (0 <= INR (2 * h + n) * u) by (apply Rmult_le_pos; [apply pos_INR|lra]). lra.
Qed.

Lemma skip_slack_c x j : (j < N)%nat -> fin x -> skip x j -> B2R x <= slack prec n h * D j.
Proof.
  intros Hj Fx [S1 _]. pose proof u_small_c.
  apply (pow_slack u ltac:(lra) ltac:(lra) (2 * h) n (B2R x) (D j)).
  - exact FEW.
  - apply D_facts; auto.
  - fold n in S1. left. exact S1.
Qed.

Lemma skip_exact_c x j : exact_casec -> (j < N)%nat -> fin x -> skip x j -> B2R x <= 1 * D j.
Proof. intros X Hj Fx [_ S2]. specialize (S2 X). rewrite Rmult_1_l. left. exact S2. Qed.

(** The three searches at once, for a factor. *)
Local Notation searches D f := (searches_within prec emax Hprec Hmax alg tree N q D f).
Lemma all_within f : 1 <= f -> f <= 2 -> (forall x j, (j < N)%nat -> fin x -> skip x j -> B2R x <= f * D j) ->
  searches D f.
Proof.
  intros F1 F2 SK. split; [|split].
  - intros nn0. destruct (nn_float f F1 F2 SK nn0) as (i & d & A & -> & C). exists i, (Dh i). auto.
  - intros k knn0 Hk. apply knn_float; auto.
  - intros r sort Fr. destruct (radius_float f F1 SK r sort Fr) as (l & A & C & E).
    exists l. split; auto. split; auto. unfold real_answers. rewrite map_map. exact E.
Qed.
Lemma within_slack : searches D (slack prec n h).
Proof. destruct slack_bounds_c. apply all_within; auto. apply skip_slack_c. Qed.
Lemma within_exact : exact_casec -> searches D 1.
Proof. intros X. apply all_within; try lra. intros x j. apply skip_exact_c; auto. Qed.
End Tree.
End Query.
