(** The theorems of PropFloat.v. *)
From Coq Require Import List ZArith Reals Bool Arith Permutation Sorted Lia Lra.
From Flocq Require Import Core.Core IEEE754.BinarySingleNaN.
From Verif Require Import Base ModelBox ModelBuild ModelSearch Spec SpecRound Instances Lemmas BuildProofs BuildThms
  BuildShape SearchProofs Visitors BoxThms SafeThms ExtraThms Floats FloatThms FloatSearch FloatQuery FloatEx Examples.
Import ListNotations.
Local Open Scope R_scope.

Section Top.
Variables (prec emax : Z).
Context (Hprec : Prec_gt_0 prec) (Hmax : Prec_lt_emax prec emax).
Local Notation F := (binary_float prec emax).
Local Notation FS := (Float_scalar prec emax Hprec Hmax).

Lemma top_one_dimension : (2 <= prec)%Z ->
  forall em e (sp : space F) (bnds : start_bounds F) (q : list F),
  float_input prec emax em e sp bnds q -> sp_sdim sp = 1%nat ->
  forall alg : std_algos, std_laws alg ->
  forall it fuel stop ru (tree : kd_tree F),
  ru <> midpoint_max_side ->
  @kd_tree_make _ FS alg it (@metric_of _ FS em) fuel sp stop bnds ru = Ok tree ->
  few_steps prec 1 (node_height (kd_root (kt_data tree))) ->
  (forall nn0, exists i d, @search_nn _ FS tree q nn0 = Ok (Neighbor i d)
    /\ B2R d = computed prec emax Hprec Hmax em sp q i
    /\ nearest_within (npts sp) (computed prec emax Hprec Hmax em sp q) 1 i)
  /\ (forall k knn0, (0 < k)%nat ->
      exists out, @search_knn _ FS tree q k knn0 = Ok out
        /\ knn_within (npts sp) k (computed prec emax Hprec Hmax em sp q) 1 (real_answers prec emax out))
  /\ (forall r sort, finite prec emax r ->
      exists l, @search_radius _ FS alg tree q r sort = Ok l
        /\ radius_within (npts sp) (computed prec emax Hprec Hmax em sp q) 1 (B2R r) (real_answers prec emax l)
        /\ (sort = true -> StronglySorted Rle (map snd (real_answers prec emax l)))).
Proof.
  intros P2 em e sp bnds q FI D1 alg SL it fuel stop ru tree NM HM FEW. rewrite <- D1 in FEW.
  pose proof (one_dim_exact prec emax Hprec Hmax em e sp q D1) as EC.
  split; [|split]; intros.
  - eapply top_nn_exact; eauto.
  - eapply top_knn_exact; eauto.
  - eapply top_radius_exact; eauto.
Qed.

Lemma top_grid : (2 <= prec)%Z ->
  forall em g e (sp : space F) (bnds : start_bounds F) (q : list F),
  float_input prec emax em e sp bnds q -> grid_input prec emax em g e sp q ->
  forall alg : std_algos, std_laws alg ->
  forall it fuel stop ru (tree : kd_tree F),
  ru <> midpoint_max_side ->
  @kd_tree_make _ FS alg it (@metric_of _ FS em) fuel sp stop bnds ru = Ok tree ->
  few_steps prec (sp_sdim sp) (node_height (kd_root (kt_data tree))) ->
  (forall nn0, exists i d, @search_nn _ FS tree q nn0 = Ok (Neighbor i d)
    /\ B2R d = true_dist prec emax em sp q i
    /\ nearest_within (npts sp) (true_dist prec emax em sp q) 1 i)
  /\ (forall k knn0, (0 < k)%nat ->
      exists out, @search_knn _ FS tree q k knn0 = Ok out
        /\ knn_within (npts sp) k (true_dist prec emax em sp q) 1 (real_answers prec emax out))
  /\ (forall r sort, finite prec emax r ->
      exists l, @search_radius _ FS alg tree q r sort = Ok l
        /\ radius_within (npts sp) (true_dist prec emax em sp q) 1 (B2R r) (real_answers prec emax l)
        /\ (sort = true -> StronglySorted Rle (map snd (real_answers prec emax l)))).
Proof.
  intros P2 em g e sp bnds q FI GI alg SL it fuel stop ru tree NM HM FEW.
  split; [|split]; intros.
  - eapply top_nn_grid; eauto.
  - eapply top_knn_grid; eauto.
  - eapply top_radius_grid; eauto.
Qed.

Lemma float_build : (2 <= prec)%Z ->
  forall sp : space F, wf_space sp -> all_coords (below prec emax (emax - 2)) sp ->
  forall alg : std_algos, std_laws alg ->
  forall c it stop (bnds : start_bounds F) ru,
  bounds_coords (below prec emax (emax - 2)) sp bnds ->
  ru <> midpoint_max_side -> index_type_ok it -> stop_fits it stop ->
  sp_pts sp <> [] -> (Z.of_nat (npts sp) <= it_max it)%Z ->
  exists t, (forall fuel, (npts sp <= fuel)%nat -> @build _ FS c alg it fuel sp stop bnds ru = Ok t)
    /\ Permutation (kd_indices t) (seq 0 (npts sp))
    /\ consecutive 0 (leaf_intervals (kd_root t)) (npts sp)
    /\ Forall (fun '(_, len) => (1 <= len)%nat) (leaf_levels 0 (kd_root t)).
Proof.
  intros P2 sp WF CO alg SL c it stop bnds ru BC NM IT ST NE LE.
  assert (OKS : all_coords (finite prec emax) sp).
  { eapply Forall_impl; [|exact CO]. intros p Hp. eapply Forall_impl; [|exact Hp]. intros x [A _]. exact A. }
  destruct (build_total_any (finite prec emax) (float_ord prec emax Hprec Hmax) sp WF OKS alg SL
    (below prec emax (emax - 2)) c it stop bnds ru (float_range prec emax Hprec Hmax P2) CO BC NM IT ST NE LE) as (t & Ht).
  exists t. split; [exact Ht|].
  destruct (build_c01 (finite prec emax) (float_ord prec emax Hprec Hmax) sp WF OKS alg SL c it (npts sp) stop bnds ru t
    ltac:(intros; contradiction) (Ht _ (le_n _))) as [A B].
  split; auto. split; auto.
  apply (build_no_empty (finite prec emax) (float_ord prec emax Hprec Hmax) sp WF OKS alg SL c it (npts sp) stop bnds ru t
    NM (Ht _ (le_n _))).
Qed.

Lemma float_box :
  forall sp : space F, wf_space sp -> all_coords (finite prec emax) sp ->
  forall alg : std_algos, std_laws alg ->
  forall (m : metric F) it fuel stop (bnds : start_bounds F) ru (tree : kd_tree F) (mn mx : list F),
  @kd_tree_make _ FS alg it m fuel sp stop bnds ru = Ok tree ->
  bounds_coords (finite prec emax) sp bnds -> @bounds_enclose _ FS sp bnds ->
  length mn = sp_sdim sp -> length mx = sp_sdim sp -> Forall (finite prec emax) mn -> Forall (finite prec emax) mx ->
  ru <> midpoint_max_side -> m_cat m = Euclidean ->
  exists ans, @search_box _ FS tree mn mx = Ok ans
    /\ index_answer (npts sp) (fun i => float_inside prec emax mn mx (nth i (sp_pts sp) [])) ans.
Proof.
  intros sp WF OKS alg SL m it fuel stop bnds ru tree mn mx HM BC BE L1 L2 F1 F2 NM MC.
  destruct (search_box_euclidean (finite prec emax) (float_ord prec emax Hprec Hmax) sp WF OKS alg SL m it fuel stop bnds
    ru tree mn mx HM BC BE L1 L2 F1 F2 ltac:(intros; contradiction) MC) as (ans & E & [A B]).
  exists ans. split; [exact E|]. split; auto. intros i. rewrite B. clear B.
  assert (IFF : forall p, In p (sp_pts sp) -> @inside _ FS mn mx p <-> float_inside prec emax mn mx p).
  { intros p Hp.
    assert (K : forall d, (d < length mn)%nat ->
      finite prec emax (nth d mn (B754_zero false)) /\ finite prec emax (nth d p (B754_zero false))
      /\ finite prec emax (nth d mx (B754_zero false))).
    { intros d Hd. unfold all_coords in OKS. rewrite Forall_forall in F1, F2, OKS.
      specialize (OKS p Hp). rewrite Forall_forall in OKS.
      destruct WF as [_ WF]. rewrite Forall_forall in WF. specialize (WF p Hp).
      split; [|split]; [apply F1|apply OKS|apply F2]; apply nth_In; lia. }
    split; intros H d Hd; destruct (K d Hd) as (K1 & K2 & K3); specialize (H d Hd).
    - split; apply (leb_R prec emax Hprec Hmax); auto; apply H.
    - split; apply (leb_R prec emax Hprec Hmax); auto; apply H. }
  split; intros [Hi H]; split; auto; apply IFF; auto; apply nth_In; auto.
Qed.
End Top.

Lemma c41_refutation : ~ (
  forall (em : exact_metric) (e : Z) (sp : space double) (bnds : start_bounds double) (q : list double),
  float_input 53 1024 em e sp bnds q ->
  forall alg : std_algos, std_laws alg ->
  forall (it : index_type) (fuel : nat) (stop : stop_condition) (ru : rule) (tree : kd_tree double),
  ru <> midpoint_max_side ->
  @kd_tree_make double F64 alg it (@metric_of double F64 em) fuel sp stop bnds ru = Ok tree ->
  forall nn0 : neighbor double,
  exists i d, @search_nn double F64 tree q nn0 = Ok (Neighbor i d)
    /\ nearest_within (npts sp) (computed 53 1024 prec_gt_53 prec_lt_1024 em sp q) 1 i).
Proof.
  intros H.
  destruct (make_exists (@metric_l2_squared double F64) std_example it_int 9 fx_sp (max_leaf_size 1) bounds_from_space sliding_midpoint_max_side
    (fun d => match @search_nn double F64 (KdTree fx_sp (@metric_l2_squared double F64) d) fx_q (Neighbor 0 (f64 0 0)) with
              Ok x => (n_index x =? 0)%nat | _ => false end)) as (data & EM & K); [vm_compute; reflexivity|].
  destruct (H L2Squared 0%Z fx_sp bounds_from_space fx_q (fx_input _ (or_intror eq_refl)) std_example std_example_laws
    it_int 9%nat (max_leaf_size 1) sliding_midpoint_max_side _ ltac:(discriminate) EM (Neighbor 0 (f64 0 0)))
    as (i & d & ES & _ & HN).
  rewrite ES in K. apply Nat.eqb_eq in K. cbn [n_index] in K. subst i. specialize (HN 1%nat ltac:(cbn; lia)). rewrite Rmult_1_l in HN. unfold computed in HN.
  apply (leb_R 53 1024 prec_gt_53 prec_lt_1024) in HN; [|vm_compute; reflexivity..].
  vm_compute in HN. discriminate.
Qed.

Lemma c60_refutation : ~ (
  forall (sp : space double) (bnds : start_bounds double) (q : list double),
  wf_space sp -> all_coords (finite 53 1024) sp -> bounds_coords (finite 53 1024) sp bnds ->
  length q = sp_sdim sp -> Forall (finite 53 1024) q ->
  forall alg : std_algos, std_laws alg ->
  forall (it : index_type) (fuel : nat) (stop : stop_condition) (ru : rule) (tree : kd_tree double),
  @kd_tree_make double F64 alg it (@metric_l2_squared double F64) fuel sp stop bnds ru = Ok tree ->
  forall nn0 : neighbor double,
  exists i d, @search_nn double F64 tree q nn0 = Ok (Neighbor i d) /\ (i < npts sp)%nat).
Proof.
  intros H. set (sp := Space 1 [[f64 1 600]; [f64 3 600]]).
  destruct (make_exists (@metric_l2_squared double F64) std_example it_int 9 sp (max_leaf_size 1) bounds_from_space median_max_side
    (fun d => match @search_nn double F64 (KdTree sp (@metric_l2_squared double F64) d) [f64 0 0] (Neighbor 77 (f64 0 0)) with
              Ok x => (n_index x =? 77)%nat | _ => false end)) as (data & EM & K); [vm_compute; reflexivity|].
  destruct (H sp bounds_from_space [f64 0 0] ltac:(apply wf_space_check; reflexivity) ltac:(repeat constructor) I
    eq_refl ltac:(repeat constructor) std_example std_example_laws it_int 9%nat (max_leaf_size 1) median_max_side _ EM
    (Neighbor 77%nat (f64 0 0))) as (i & d & ES & Hi).
  rewrite ES in K. apply Nat.eqb_eq in K. cbn [n_index] in K. subst i. cbn in Hi. lia.
Qed.

Lemma nothing_nearer :
  forall (T : Type) (S : Scalar T) (ok : T -> Prop), ord_laws S ok ->
  forall sp : space T, wf_space sp -> all_coords ok sp ->
  forall alg : std_algos, std_laws alg ->
  forall (m : metric T) (it : index_type) (fuel : nat) (stop : stop_condition) (bnds : start_bounds T)
    (ru : rule) (tree : kd_tree T),
  kd_tree_make alg it m fuel sp stop bnds ru = Ok tree ->
  (ru = midpoint_max_side -> mid_ok S ok /\ bounds_coords ok sp bnds) ->
  (m_cat m = Topological -> ok_finite S ok /\ (ru = midpoint_max_side -> mid_between S ok)) ->
  forall q : list T, length q = sp_sdim sp ->
  (forall p, In p (sp_pts sp) -> s_ltb (m_dist m q p) s_max = false) ->
  forall nn0 : neighbor T, search_nn tree q nn0 = Ok (Neighbor (n_index nn0) s_max).
Proof.
  intros T S ok OL sp WF OKS alg SL m it fuel stop bnds ru tree HM MID TOPO q LQ FAR nn0.
  destruct (search_nearest_total ok OL sp WF OKS alg SL m it fuel stop bnds ru tree HM MID TOPO visitor_nn q LQ
    (visitor_nn_init nn0)) as (tr & rest & P & E).
  unfold search_nn. rewrite E. f_equal. clear E.
  assert (FT : forall i, In i tr -> In (nth i (sp_pts sp) []) (sp_pts sp)).
  { intros i Hi. apply nth_In. apply (in_seq (length (sp_pts sp)) 0 i). eapply Permutation_in; [exact P|].
    apply in_or_app; auto. }
  clear P. induction tr as [|i tr IH]; [reflexivity|]. cbn [fold_left]. cbn [v_visit visitor_nn].
  change (n_distance (visitor_nn_init nn0)) with (s_max : T). rewrite FAR by (apply FT; left; auto).
  apply IH. intros j Hj. apply FT. right; auto.
Qed.
