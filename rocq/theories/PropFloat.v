(** Properties for floating point coordinates: C41, C57-C61.  [binary_float prec
    emax] is any IEEE 754 binary format; 53, 1024 is [double], 24, 128 [float]. *)
From Coq Require Import List ZArith Reals Bool Arith Permutation Sorted Lia Lra.
From Flocq Require Import Core.Core IEEE754.BinarySingleNaN.
From Verif Require Import Base ModelBox ModelBuild ModelSearch Spec SpecRound Instances BuildThms BoxThms
  Floats FloatThms FloatQuery FloatTop FloatEx Examples.
Import ListNotations.
Local Open Scope R_scope.

(** ** C41: the nearest of the computed distances *)
(** The full statement. *)
Definition C41_statement : Prop :=
  forall (em : exact_metric) (e : Z) (sp : space double) (bnds : start_bounds double) (q : list double),
  float_input 53 1024 em e sp bnds q ->
  forall alg : std_algos, std_laws alg ->
  forall (it : index_type) (fuel : nat) (stop : stop_condition) (ru : rule) (tree : kd_tree double),
  ru <> midpoint_max_side ->
  @kd_tree_make double F64 alg it (@metric_of double F64 em) fuel sp stop bnds ru = Ok tree ->
  forall nn0 : neighbor double,
  exists i d, @search_nn double F64 tree q nn0 = Ok (Neighbor i d)
    /\ nearest_within (npts sp) (computed 53 1024 prec_gt_53 prec_lt_1024 em sp q) 1 i.

Theorem C41_refuted : ~ C41_statement.
Proof. exact c41_refutation. Qed.
Print Assumptions C41_refuted.

(** It holds up to a factor close to one. *)
Theorem C41_nn_within_factor :
  forall (prec emax : Z) (Hprec : Prec_gt_0 prec) (Hmax : Prec_lt_emax prec emax), (2 <= prec)%Z ->
  forall (em : exact_metric) (e : Z) (sp : space (binary_float prec emax))
    (bnds : start_bounds (binary_float prec emax)) (q : list (binary_float prec emax)),
  float_input prec emax em e sp bnds q ->
  forall alg : std_algos, std_laws alg ->
  forall (it : index_type) (fuel : nat) (stop : stop_condition) (ru : rule) (tree : kd_tree (binary_float prec emax)),
  ru <> midpoint_max_side ->
  @kd_tree_make _ (Float_scalar prec emax Hprec Hmax) alg it (@metric_of _ (Float_scalar prec emax Hprec Hmax) em)
    fuel sp stop bnds ru = Ok tree ->
  few_steps prec (sp_sdim sp) (node_height (kd_root (kt_data tree))) ->
  forall nn0 : neighbor (binary_float prec emax),
  exists i d, @search_nn _ (Float_scalar prec emax Hprec Hmax) tree q nn0 = Ok (Neighbor i d)
    /\ B2R d = computed prec emax Hprec Hmax em sp q i
    /\ nearest_within (npts sp) (computed prec emax Hprec Hmax em sp q)
         (slack prec (sp_sdim sp) (node_height (kd_root (kt_data tree)))) i.
Proof. exact top_nn_within. Qed.
Print Assumptions C41_nn_within_factor.

Theorem C41_knn_within_factor :
  forall (prec emax : Z) (Hprec : Prec_gt_0 prec) (Hmax : Prec_lt_emax prec emax), (2 <= prec)%Z ->
  forall (em : exact_metric) (e : Z) (sp : space (binary_float prec emax))
    (bnds : start_bounds (binary_float prec emax)) (q : list (binary_float prec emax)),
  float_input prec emax em e sp bnds q ->
  forall alg : std_algos, std_laws alg ->
  forall (it : index_type) (fuel : nat) (stop : stop_condition) (ru : rule) (tree : kd_tree (binary_float prec emax)),
  ru <> midpoint_max_side ->
  @kd_tree_make _ (Float_scalar prec emax Hprec Hmax) alg it (@metric_of _ (Float_scalar prec emax Hprec Hmax) em)
    fuel sp stop bnds ru = Ok tree ->
  few_steps prec (sp_sdim sp) (node_height (kd_root (kt_data tree))) ->
  forall (k : nat) (knn0 : list (neighbor (binary_float prec emax))), (0 < k)%nat ->
  exists out, @search_knn _ (Float_scalar prec emax Hprec Hmax) tree q k knn0 = Ok out
    /\ knn_within (npts sp) k (computed prec emax Hprec Hmax em sp q)
         (slack prec (sp_sdim sp) (node_height (kd_root (kt_data tree)))) (real_answers prec emax out).
Proof. exact top_knn_within. Qed.
Print Assumptions C41_knn_within_factor.

Theorem C41_radius_within_factor :
  forall (prec emax : Z) (Hprec : Prec_gt_0 prec) (Hmax : Prec_lt_emax prec emax), (2 <= prec)%Z ->
  forall (em : exact_metric) (e : Z) (sp : space (binary_float prec emax))
    (bnds : start_bounds (binary_float prec emax)) (q : list (binary_float prec emax)),
  float_input prec emax em e sp bnds q ->
  forall alg : std_algos, std_laws alg ->
  forall (it : index_type) (fuel : nat) (stop : stop_condition) (ru : rule) (tree : kd_tree (binary_float prec emax)),
  ru <> midpoint_max_side ->
  @kd_tree_make _ (Float_scalar prec emax Hprec Hmax) alg it (@metric_of _ (Float_scalar prec emax Hprec Hmax) em)
    fuel sp stop bnds ru = Ok tree ->
  few_steps prec (sp_sdim sp) (node_height (kd_root (kt_data tree))) ->
  forall (r : binary_float prec emax) (sort : bool), finite prec emax r ->
  exists l, @search_radius _ (Float_scalar prec emax Hprec Hmax) alg tree q r sort = Ok l
    /\ radius_within (npts sp) (computed prec emax Hprec Hmax em sp q)
         (slack prec (sp_sdim sp) (node_height (kd_root (kt_data tree)))) (B2R r) (real_answers prec emax l)
    /\ (sort = true -> StronglySorted Rle (map snd (real_answers prec emax l))).
Proof. exact top_radius_within. Qed.
Print Assumptions C41_radius_within_factor.

(** The points of the refutation meet the hypotheses; the factor is 1 + 16/2^53. *)
Example C41_example : exists data, let t := KdTree fx_sp (@metric_l2_squared double F64) data in
  @kd_tree_make double F64 std_example it_int (@metric_of double F64 L2Squared) 9 fx_sp (max_leaf_size 1)
    bounds_from_space sliding_midpoint_max_side = Ok t
  /\ float_input 53 1024 L2Squared 0 fx_sp bounds_from_space fx_q
  /\ node_height (kd_root (kt_data t)) = 3%nat
  /\ few_steps 53 2 (node_height (kd_root (kt_data t)))
  /\ slack 53 2 3 = 1 + IZR 16 * bpow radix2 (-53)
  /\ @search_nn double F64 t fx_q (Neighbor 9 (f64 0 0))
     = Ok (Neighbor 0%nat (f64 9007199254740991 (-53)))
  /\ @m_dist double (@metric_l2_squared double F64) fx_q (nth 1 fx_points []) = f64 9007199254740990 (-53).
Proof.
  destruct (make_exists (@metric_l2_squared double F64) std_example it_int 9 fx_sp (max_leaf_size 1) bounds_from_space
    sliding_midpoint_max_side (fun d => (node_height (kd_root d) =? 3)%nat
      && nn_is (@search_nn double F64 (KdTree fx_sp (@metric_l2_squared double F64) d) fx_q (Neighbor 9 (f64 0 0)))
           0 (f64 9007199254740991 (-53)))) as (data & EM & K); [vm_compute; reflexivity|].
  apply andb_true_iff in K as [K1 K2]. apply Nat.eqb_eq in K1. apply nn_is_eq in K2.
  exists data. cbv zeta. split; [exact EM|]. split; [apply fx_input; auto|]. split; [exact K1|].
  split; [pose proof (few_small 2 3 ltac:(lia)) as W; rewrite <- K1 in W; exact W|].
  split; [unfold slack; rewrite INR_IZR_INZ; cbn [Z.of_nat]; f_equal; f_equal; cbn; lra|].
  split; [exact K2|]. apply B2SF_inj; vm_compute; reflexivity.
Qed.

(** In terms of distances in exact arithmetic. *)
Theorem C41_nn_true_distance :
  forall (prec emax : Z) (Hprec : Prec_gt_0 prec) (Hmax : Prec_lt_emax prec emax), (2 <= prec)%Z ->
  forall (em : exact_metric) (e : Z) (sp : space (binary_float prec emax))
    (bnds : start_bounds (binary_float prec emax)) (q : list (binary_float prec emax)),
  float_input prec emax em e sp bnds q ->
  forall alg : std_algos, std_laws alg ->
  forall (it : index_type) (fuel : nat) (stop : stop_condition) (ru : rule) (tree : kd_tree (binary_float prec emax)),
  ru <> midpoint_max_side ->
  @kd_tree_make _ (Float_scalar prec emax Hprec Hmax) alg it (@metric_of _ (Float_scalar prec emax Hprec Hmax) em)
    fuel sp stop bnds ru = Ok tree ->
  few_steps prec (sp_sdim sp) (node_height (kd_root (kt_data tree))) ->
  forall nn0 : neighbor (binary_float prec emax),
  INR (sp_sdim sp + 3) * bpow radix2 (- prec) <= / 2 ->
  exists i d, @search_nn _ (Float_scalar prec emax Hprec Hmax) tree q nn0 = Ok (Neighbor i d) /\ (i < npts sp)%nat
    /\ forall j, (j < npts sp)%nat ->
       let a := 2 * INR (sp_sdim sp + 3) * bpow radix2 (- prec) in
       let f := slack prec (sp_sdim sp) (node_height (kd_root (kt_data tree))) in
       (1 - a) * true_dist prec emax em sp q i
         <= f * (1 + a) * true_dist prec emax em sp q j
            + (1 + f) * match em with L1 => 0 | _ => INR (sp_sdim sp) * bpow radix2 (SpecFloat.emin prec emax) end.
Proof. exact top_nn_true. Qed.
Print Assumptions C41_nn_true_distance.

(** ** C57: exact answers in one dimension and on grids *)
Theorem C57_one_dimension :
  forall (prec emax : Z) (Hprec : Prec_gt_0 prec) (Hmax : Prec_lt_emax prec emax), (2 <= prec)%Z ->
  forall (em : exact_metric) (e : Z) (sp : space (binary_float prec emax))
    (bnds : start_bounds (binary_float prec emax)) (q : list (binary_float prec emax)),
  float_input prec emax em e sp bnds q -> sp_sdim sp = 1%nat ->
  forall alg : std_algos, std_laws alg ->
  forall (it : index_type) (fuel : nat) (stop : stop_condition) (ru : rule) (tree : kd_tree (binary_float prec emax)),
  ru <> midpoint_max_side ->
  @kd_tree_make _ (Float_scalar prec emax Hprec Hmax) alg it (@metric_of _ (Float_scalar prec emax Hprec Hmax) em)
    fuel sp stop bnds ru = Ok tree ->
  few_steps prec 1 (node_height (kd_root (kt_data tree))) ->
  (forall nn0, exists i d, @search_nn _ (Float_scalar prec emax Hprec Hmax) tree q nn0 = Ok (Neighbor i d)
    /\ B2R d = computed prec emax Hprec Hmax em sp q i
    /\ nearest_within (npts sp) (computed prec emax Hprec Hmax em sp q) 1 i)
  /\ (forall k knn0, (0 < k)%nat ->
      exists out, @search_knn _ (Float_scalar prec emax Hprec Hmax) tree q k knn0 = Ok out
        /\ knn_within (npts sp) k (computed prec emax Hprec Hmax em sp q) 1 (real_answers prec emax out))
  /\ (forall r sort, finite prec emax r ->
      exists l, @search_radius _ (Float_scalar prec emax Hprec Hmax) alg tree q r sort = Ok l
        /\ radius_within (npts sp) (computed prec emax Hprec Hmax em sp q) 1 (B2R r) (real_answers prec emax l)
        /\ (sort = true -> StronglySorted Rle (map snd (real_answers prec emax l)))).
Proof. exact top_one_dimension. Qed.
Print Assumptions C57_one_dimension.

Example C57_one_dimension_example : exists data, let t := KdTree f1_sp (@metric_l1 double F64) data in
  @kd_tree_make double F64 std_example it_int (@metric_of double F64 L1) 9 f1_sp (max_leaf_size 1)
    bounds_from_space median_max_side = Ok t
  /\ float_input 53 1024 L1 0 f1_sp bounds_from_space f1_q
  /\ few_steps 53 1 (node_height (kd_root (kt_data t)))
  /\ match @search_nn double F64 t f1_q (Neighbor 9 (f64 0 0)) with Ok x => n_index x = 0%nat | _ => False end.
Proof.
  destruct (make_exists (@metric_l1 double F64) std_example it_int 9 f1_sp (max_leaf_size 1) bounds_from_space
    median_max_side (fun d => (node_height (kd_root d) =? 2)%nat
      && match @search_nn double F64 (KdTree f1_sp (@metric_l1 double F64) d) f1_q (Neighbor 9 (f64 0 0)) with
         Ok x => (n_index x =? 0)%nat | _ => false end)) as (data & EM & K); [vm_compute; reflexivity|].
  apply andb_true_iff in K as [K1 K2]. apply Nat.eqb_eq in K1.
  exists data. cbv zeta. split; [exact EM|]. split; [apply f1_input; auto|].
  split; [pose proof (few_small 1 2 ltac:(lia)) as W; rewrite <- K1 in W; exact W|].
  destruct (@search_nn double F64 _ _ _); try discriminate. apply Nat.eqb_eq. exact K2.
Qed.

Theorem C57_grid :
  forall (prec emax : Z) (Hprec : Prec_gt_0 prec) (Hmax : Prec_lt_emax prec emax), (2 <= prec)%Z ->
  forall (em : exact_metric) (g e : Z) (sp : space (binary_float prec emax))
    (bnds : start_bounds (binary_float prec emax)) (q : list (binary_float prec emax)),
  float_input prec emax em e sp bnds q -> grid_input prec emax em g e sp q ->
  forall alg : std_algos, std_laws alg ->
  forall (it : index_type) (fuel : nat) (stop : stop_condition) (ru : rule) (tree : kd_tree (binary_float prec emax)),
  ru <> midpoint_max_side ->
  @kd_tree_make _ (Float_scalar prec emax Hprec Hmax) alg it (@metric_of _ (Float_scalar prec emax Hprec Hmax) em)
    fuel sp stop bnds ru = Ok tree ->
  few_steps prec (sp_sdim sp) (node_height (kd_root (kt_data tree))) ->
  (forall nn0, exists i d, @search_nn _ (Float_scalar prec emax Hprec Hmax) tree q nn0 = Ok (Neighbor i d)
    /\ B2R d = true_dist prec emax em sp q i
    /\ nearest_within (npts sp) (true_dist prec emax em sp q) 1 i)
  /\ (forall k knn0, (0 < k)%nat ->
      exists out, @search_knn _ (Float_scalar prec emax Hprec Hmax) tree q k knn0 = Ok out
        /\ knn_within (npts sp) k (true_dist prec emax em sp q) 1 (real_answers prec emax out))
  /\ (forall r sort, finite prec emax r ->
      exists l, @search_radius _ (Float_scalar prec emax Hprec Hmax) alg tree q r sort = Ok l
        /\ radius_within (npts sp) (true_dist prec emax em sp q) 1 (B2R r) (real_answers prec emax l)
        /\ (sort = true -> StronglySorted Rle (map snd (real_answers prec emax l)))).
Proof. exact top_grid. Qed.
Print Assumptions C57_grid.

Example C57_example : exists data, let t := KdTree fg_sp (@metric_l2_squared double F64) data in
  @kd_tree_make double F64 std_example it_int (@metric_of double F64 L2Squared) 9 fg_sp (max_leaf_size 1)
    bounds_from_space median_max_side = Ok t
  /\ float_input 53 1024 L2Squared 4 fg_sp bounds_from_space fg_q
  /\ grid_input 53 1024 L2Squared 0 4 fg_sp fg_q
  /\ few_steps 53 2 (node_height (kd_root (kt_data t)))
  /\ @search_nn double F64 t fg_q (Neighbor 9 (f64 0 0)) = Ok (Neighbor 4%nat (f64 37 0)).
Proof.
  destruct (make_exists (@metric_l2_squared double F64) std_example it_int 9 fg_sp (max_leaf_size 1) bounds_from_space
    median_max_side (fun d => (node_height (kd_root d) =? 3)%nat
      && nn_is (@search_nn double F64 (KdTree fg_sp (@metric_l2_squared double F64) d) fg_q (Neighbor 9 (f64 0 0)))
           4 (f64 37 0))) as (data & EM & K); [vm_compute; reflexivity|].
  apply andb_true_iff in K as [K1 K2]. apply Nat.eqb_eq in K1. apply nn_is_eq in K2.
  exists data. cbv zeta. split; [exact EM|]. split; [apply fg_input; auto|]. split; [apply fg_grid; auto|].
  split; [pose proof (few_small 2 3 ltac:(lia)) as W; rewrite <- K1 in W; exact W|]. exact K2.
Qed.

(** ** C58: construction *)
Theorem C58_build :
  forall (prec emax : Z) (Hprec : Prec_gt_0 prec) (Hmax : Prec_lt_emax prec emax), (2 <= prec)%Z ->
  forall sp : space (binary_float prec emax), wf_space sp -> all_coords (below prec emax (emax - 2)) sp ->
  forall alg : std_algos, std_laws alg ->
  forall (c : category) (it : index_type) (stop : stop_condition) (bnds : start_bounds (binary_float prec emax)) (ru : rule),
  bounds_coords (below prec emax (emax - 2)) sp bnds ->
  ru <> midpoint_max_side -> index_type_ok it -> stop_fits it stop ->
  sp_pts sp <> [] -> (Z.of_nat (npts sp) <= it_max it)%Z ->
  exists t, (forall fuel, (npts sp <= fuel)%nat ->
      @build _ (Float_scalar prec emax Hprec Hmax) c alg it fuel sp stop bnds ru = Ok t)
    /\ Permutation (kd_indices t) (seq 0 (npts sp))
    /\ consecutive 0 (leaf_intervals (kd_root t)) (npts sp)
    /\ Forall (fun '(_, len) => (1 <= len)%nat) (leaf_levels 0 (kd_root t)).
Proof. exact float_build. Qed.
Print Assumptions C58_build.

Example C58_example : exists t,
  (forall fuel, (4 <= fuel)%nat ->
     @build double F64 Euclidean std_example it_int fuel fx_sp (max_leaf_size 1) bounds_from_space
       sliding_midpoint_max_side = Ok t)
  /\ kd_indices t = [3; 0; 2; 1]%nat.
Proof.
  destruct (C58_build 53 1024 prec_gt_53 prec_lt_1024 ltac:(lia) fx_sp ltac:(apply wf_space_check; reflexivity)
    ltac:(apply below_top; vm_compute; reflexivity) std_example std_example_laws Euclidean it_int
    (max_leaf_size 1) bounds_from_space sliding_midpoint_max_side I ltac:(discriminate) ltac:(vm_compute; congruence)
    ltac:(vm_compute; split; congruence) ltac:(discriminate) ltac:(vm_compute; discriminate)) as (t & A & _).
  exists t. split; [exact A|]. specialize (A 4%nat (le_n _)).
  assert (K : match @build double F64 Euclidean std_example it_int 4 fx_sp (max_leaf_size 1) bounds_from_space
    sliding_midpoint_max_side with Ok d => kd_indices d = [3; 0; 2; 1]%nat | _ => False end) by (vm_compute; reflexivity).
  unfold F64 in K. rewrite A in K. exact K.
Qed.

(** ** C59: box search *)
Theorem C59_box_search :
  forall (prec emax : Z) (Hprec : Prec_gt_0 prec) (Hmax : Prec_lt_emax prec emax),
  forall sp : space (binary_float prec emax), wf_space sp -> all_coords (finite prec emax) sp ->
  forall alg : std_algos, std_laws alg ->
  forall (m : metric (binary_float prec emax)) (it : index_type) (fuel : nat) (stop : stop_condition)
    (bnds : start_bounds (binary_float prec emax)) (ru : rule) (tree : kd_tree (binary_float prec emax))
    (mn mx : list (binary_float prec emax)),
  @kd_tree_make _ (Float_scalar prec emax Hprec Hmax) alg it m fuel sp stop bnds ru = Ok tree ->
  bounds_coords (finite prec emax) sp bnds -> @bounds_enclose _ (Float_scalar prec emax Hprec Hmax) sp bnds ->
  length mn = sp_sdim sp -> length mx = sp_sdim sp -> Forall (finite prec emax) mn -> Forall (finite prec emax) mx ->
  ru <> midpoint_max_side -> m_cat m = Euclidean ->
  exists ans, @search_box _ (Float_scalar prec emax Hprec Hmax) tree mn mx = Ok ans
    /\ index_answer (npts sp) (fun i => float_inside prec emax mn mx (nth i (sp_pts sp) [])) ans.
Proof. exact float_box. Qed.
Print Assumptions C59_box_search.

Example C59_example : exists data, let t := KdTree fg_sp (@metric_l1 double F64) data in
  @kd_tree_make double F64 std_example it_int (@metric_l1 double F64) 9 fg_sp (max_leaf_size 1)
    bounds_from_space median_max_side = Ok t
  /\ @search_box double F64 t [f64 (-1) (-1); f64 (-9) 0] [f64 7 0; f64 5 (-1)] = Ok [0; 4; 3]%nat.
Proof.
  destruct (make_exists (@metric_l1 double F64) std_example it_int 9 fg_sp (max_leaf_size 1) bounds_from_space
    median_max_side (fun d =>
      match @search_box double F64 (KdTree fg_sp (@metric_l1 double F64) d) [f64 (-1) (-1); f64 (-9) 0] [f64 7 0; f64 5 (-1)]
      with Ok l => if list_eq_dec Nat.eq_dec l [0; 4; 3]%nat then true else false | _ => false end))
    as (data & EM & K); [vm_compute; reflexivity|].
  exists data. cbv zeta. split; [exact EM|].
  destruct (@search_box double F64 _ _ _) as [l| |]; try discriminate.
  destruct (list_eq_dec Nat.eq_dec l [0; 4; 3]%nat) as [->|]; [reflexivity|discriminate].
Qed.

(** ** C60: distances that overflow *)
(** The full statement: search_nn of a tree (of at least one point) names a point. *)
Definition C60_statement : Prop :=
  forall (sp : space double) (bnds : start_bounds double) (q : list double),
  wf_space sp -> all_coords (finite 53 1024) sp -> bounds_coords (finite 53 1024) sp bnds ->
  length q = sp_sdim sp -> Forall (finite 53 1024) q ->
  forall alg : std_algos, std_laws alg ->
  forall (it : index_type) (fuel : nat) (stop : stop_condition) (ru : rule) (tree : kd_tree double),
  @kd_tree_make double F64 alg it (@metric_l2_squared double F64) fuel sp stop bnds ru = Ok tree ->
  forall nn0 : neighbor double,
  exists i d, @search_nn double F64 tree q nn0 = Ok (Neighbor i d) /\ (i < npts sp)%nat.

Theorem C60_refuted : ~ C60_statement.
Proof. exact c60_refutation. Qed.
Print Assumptions C60_refuted.

(** What happens instead: nothing is stored. *)
Theorem C60_untouched :
  forall (T : Type) (S : Scalar T) (ok : T -> Prop), ord_laws S ok ->
  forall sp : space T, wf_space sp -> all_coords ok sp ->
  forall alg : std_algos, std_laws alg ->
  forall (m : metric T) (it : index_type) (fuel : nat) (stop : stop_condition) (bnds : start_bounds T)
    (ru : rule) (tree : kd_tree T),
  kd_tree_make alg it m fuel sp stop bnds ru = Ok tree ->
  (ru = midpoint_max_side -> mid_ok S ok /\ bounds_coords ok sp bnds) ->
  (m_cat m = Topological -> ok_finite S ok /\ (ru = midpoint_max_side -> mid_between S ok)) ->
  forall q : list T, length q = sp_sdim sp ->
  (forall p, In p (sp_pts sp) -> s_ltb (m_dist m q p) s_max = false) ->
  forall nn0 : neighbor T, search_nn tree q nn0 = Ok (Neighbor (n_index nn0) s_max).
Proof. exact @nothing_nearer. Qed.
Print Assumptions C60_untouched.

Example C60_example : exists data,
  let sp := Space 1 [[f64 1 600]; [f64 3 600]] in
  let t := KdTree sp (@metric_l2_squared double F64) data in
  @kd_tree_make double F64 std_example it_int (@metric_l2_squared double F64) 9 sp (max_leaf_size 1)
    bounds_from_space median_max_side = Ok t
  /\ @search_nn double F64 t [f64 0 0] (Neighbor 77 (f64 0 0)) = Ok (Neighbor 77%nat (@s_max double F64)).
Proof.
  destruct (make_exists (@metric_l2_squared double F64) std_example it_int 9 (Space 1 [[f64 1 600]; [f64 3 600]])
    (max_leaf_size 1) bounds_from_space median_max_side (fun d =>
      nn_is (@search_nn double F64 (KdTree (Space 1 [[f64 1 600]; [f64 3 600]]) (@metric_l2_squared double F64) d) [f64 0 0]
               (Neighbor 77 (f64 0 0))) 77 (@s_max double F64))) as (data & EM & K); [vm_compute; reflexivity|].
  exists data. cbv zeta. split; [exact EM|]. apply nn_is_eq. exact K.
Qed.

(** ** C61: accuracy of the reported distances *)
Theorem C61_accuracy :
  forall (prec emax : Z) (Hprec : Prec_gt_0 prec) (Hmax : Prec_lt_emax prec emax), (2 <= prec)%Z ->
  forall (em : exact_metric) (e : Z) (sp : space (binary_float prec emax))
    (bnds : start_bounds (binary_float prec emax)) (q : list (binary_float prec emax)),
  float_input prec emax em e sp bnds q ->
  forall j, (j < npts sp)%nat -> INR (sp_sdim sp + 3) * bpow radix2 (- prec) <= / 2 ->
  accurate prec emax em (sp_sdim sp) (true_dist prec emax em sp q j) (computed prec emax Hprec Hmax em sp q j).
Proof. exact computed_accurate. Qed.
Print Assumptions C61_accuracy.

Example C61_example : float_input 53 1024 L2Squared 0 fx_sp bounds_from_space fx_q
  /\ INR (2 + 3) * bpow radix2 (- 53) <= / 2
  /\ accurate 53 1024 L2Squared 2 (true_dist 53 1024 L2Squared fx_sp fx_q 1) (B2R (f64 9007199254740990 (-53))).
Proof.
  split; [apply fx_input; auto|]. assert (H : few_steps 53 5 0) by (apply few_small; lia). split; [exact H|].
  replace (B2R (f64 9007199254740990 (-53)))
    with (computed 53 1024 prec_gt_53 prec_lt_1024 L2Squared fx_sp fx_q 1).
  - apply (C61_accuracy 53 1024 prec_gt_53 prec_lt_1024 ltac:(lia) L2Squared 0 fx_sp bounds_from_space fx_q); auto.
    + apply fx_input; auto.
    + cbn; lia.
  - unfold computed. f_equal. apply B2SF_inj. vm_compute. reflexivity.
Qed.
