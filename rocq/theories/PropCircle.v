(** Properties of searches on circles with floating point coordinates: C140.
    [binary_float prec emax] is any IEEE 754 binary format; 53, 1024 is [double]. *)
From Coq Require Import List ZArith Reals Bool Arith Permutation Sorted Lia Lra.
From Flocq Require Import Core.Core IEEE754.BinarySingleNaN.
From Verif Require Import Base ModelBox ModelBuild ModelSearch Spec SpecRound SpecCircle Instances BuildThms
  Floats FloatThms FloatEx CircleThms CircleEx Examples.
Import ListNotations.
Local Open Scope R_scope.

(** ** C140 *)
(** Every search is correct up to the factor [slack] for the computed distances. *)
Theorem C140_within_factor :
  forall (prec emax : Z) (Hprec : Prec_gt_0 prec) (Hmax : Prec_lt_emax prec emax), (2 <= prec)%Z ->
  forall (cm : circle_metric) (e : Z) (sp : space (binary_float prec emax))
    (bnds : start_bounds (binary_float prec emax)) (q : list (binary_float prec emax)),
  circle_input prec emax cm e sp bnds q ->
  forall alg : std_algos, std_laws alg ->
  forall (it : index_type) (fuel : nat) (stop : stop_condition) (ru : rule) (tree : kd_tree (binary_float prec emax)),
  ru <> midpoint_max_side ->
  @kd_tree_make _ (Float_scalar prec emax Hprec Hmax) alg it (@circle_of _ (Float_scalar prec emax Hprec Hmax) cm)
    fuel sp stop bnds ru = Ok tree ->
  few_steps prec (sp_sdim sp) (node_height (kd_root (kt_data tree))) ->
  searches_within prec emax Hprec Hmax alg tree (npts sp) q (computed_on prec emax Hprec Hmax cm sp q)
    (slack prec (sp_sdim sp) (node_height (kd_root (kt_data tree)))).
Proof. exact top_within. Qed.
Print Assumptions C140_within_factor.

(** On one circle there is no such factor. *)
Theorem C140_circle_exact :
  forall (prec emax : Z) (Hprec : Prec_gt_0 prec) (Hmax : Prec_lt_emax prec emax), (2 <= prec)%Z ->
  forall (cm : circle_metric) (e : Z) (sp : space (binary_float prec emax))
    (bnds : start_bounds (binary_float prec emax)) (q : list (binary_float prec emax)),
  circle_input prec emax cm e sp bnds q ->
  forall alg : std_algos, std_laws alg ->
  forall (it : index_type) (fuel : nat) (stop : stop_condition) (ru : rule) (tree : kd_tree (binary_float prec emax)),
  ru <> midpoint_max_side ->
  @kd_tree_make _ (Float_scalar prec emax Hprec Hmax) alg it (@circle_of _ (Float_scalar prec emax Hprec Hmax) cm)
    fuel sp stop bnds ru = Ok tree ->
  few_steps prec (sp_sdim sp) (node_height (kd_root (kt_data tree))) ->
  cm = OnCircle ->
  searches_within prec emax Hprec Hmax alg tree (npts sp) q (computed_on prec emax Hprec Hmax cm sp q) 1.
Proof. exact top_circle. Qed.
Print Assumptions C140_circle_exact.

(** The computed distances on a circle are off by one rounding of a number of [0, 1]. *)
Theorem C140_circle_accuracy :
  forall (prec emax : Z) (Hprec : Prec_gt_0 prec) (Hmax : Prec_lt_emax prec emax), (2 <= prec)%Z ->
  forall (cm : circle_metric) (e : Z) (sp : space (binary_float prec emax))
    (bnds : start_bounds (binary_float prec emax)) (q : list (binary_float prec emax)),
  circle_input prec emax cm e sp bnds q ->
  forall j, cm = OnCircle -> (j < npts sp)%nat ->
  Rabs (computed_on prec emax Hprec Hmax cm sp q j - true_on prec emax cm sp q j) <= bpow radix2 (- prec).
Proof. exact circle_accuracy. Qed.
Print Assumptions C140_circle_accuracy.

(** Hence the nearest neighbour in exact arithmetic, up to two such roundings. *)
Theorem C140_circle_true_distance :
  forall (prec emax : Z) (Hprec : Prec_gt_0 prec) (Hmax : Prec_lt_emax prec emax), (2 <= prec)%Z ->
  forall (cm : circle_metric) (e : Z) (sp : space (binary_float prec emax))
    (bnds : start_bounds (binary_float prec emax)) (q : list (binary_float prec emax)),
  circle_input prec emax cm e sp bnds q ->
  forall alg : std_algos, std_laws alg ->
  forall (it : index_type) (fuel : nat) (stop : stop_condition) (ru : rule) (tree : kd_tree (binary_float prec emax)),
  ru <> midpoint_max_side ->
  @kd_tree_make _ (Float_scalar prec emax Hprec Hmax) alg it (@circle_of _ (Float_scalar prec emax Hprec Hmax) cm)
    fuel sp stop bnds ru = Ok tree ->
  few_steps prec (sp_sdim sp) (node_height (kd_root (kt_data tree))) ->
  cm = OnCircle ->
  forall nn0 : neighbor (binary_float prec emax),
  exists i d, @search_nn _ (Float_scalar prec emax Hprec Hmax) tree q nn0 = Ok (Neighbor i d) /\ (i < npts sp)%nat
    /\ forall j, (j < npts sp)%nat ->
       true_on prec emax cm sp q i <= true_on prec emax cm sp q j + 2 * bpow radix2 (- prec).
Proof. exact top_circle_true. Qed.
Print Assumptions C140_circle_true_distance.

(** When no coordinate is one, also up to a factor. *)
Theorem C140_circle_below_one :
  forall (prec emax : Z) (Hprec : Prec_gt_0 prec) (Hmax : Prec_lt_emax prec emax), (2 <= prec)%Z ->
  forall (cm : circle_metric) (e : Z) (sp : space (binary_float prec emax))
    (bnds : start_bounds (binary_float prec emax)) (q : list (binary_float prec emax)),
  circle_input prec emax cm e sp bnds q ->
  forall alg : std_algos, std_laws alg ->
  forall (it : index_type) (fuel : nat) (stop : stop_condition) (ru : rule) (tree : kd_tree (binary_float prec emax)),
  ru <> midpoint_max_side ->
  @kd_tree_make _ (Float_scalar prec emax Hprec Hmax) alg it (@circle_of _ (Float_scalar prec emax Hprec Hmax) cm)
    fuel sp stop bnds ru = Ok tree ->
  few_steps prec (sp_sdim sp) (node_height (kd_root (kt_data tree))) ->
  cm = OnCircle ->
  (forall x p, In p (q :: sp_pts sp) -> In x p -> B2R x < 1) ->
  (forall j, (j < npts sp)%nat ->
     / 2 * true_on prec emax cm sp q j <= computed_on prec emax Hprec Hmax cm sp q j
       <= 3 / 2 * true_on prec emax cm sp q j)
  /\ forall nn0 : neighbor (binary_float prec emax),
     exists i d, @search_nn _ (Float_scalar prec emax Hprec Hmax) tree q nn0 = Ok (Neighbor i d)
       /\ nearest_within (npts sp) (true_on prec emax cm sp q) 3 i.
Proof. exact top_below_one. Qed.
Print Assumptions C140_circle_below_one.

(** When a coordinate is one there is no factor at all. *)
Theorem C140_circle_factor_refuted :
  ~ exists c : R, forall (sp : space double) (bnds : start_bounds double) (q : list double),
    circle_input 53 1024 OnCircle 0 sp bnds q ->
    forall alg : std_algos, std_laws alg ->
    forall (it : index_type) (fuel : nat) (stop : stop_condition) (ru : rule) (tree : kd_tree double),
    ru <> midpoint_max_side ->
    @kd_tree_make double F64 alg it (@circle_of double F64 OnCircle) fuel sp stop bnds ru = Ok tree ->
    forall nn0 : neighbor double,
    exists i d, @search_nn double F64 tree q nn0 = Ok (Neighbor i d)
      /\ nearest_within (npts sp) (true_on 53 1024 OnCircle sp q) c i.
Proof. exact circle_refutation. Qed.
Print Assumptions C140_circle_factor_refuted.

(** Two points, 2^-55 and one: the search for one returns the former, at distance zero. *)
Example C140_refuted_example : exists data, let t := KdTree ce_sp (@metric_so2 double F64) data in
  @kd_tree_make double F64 std_example it_int (@circle_of double F64 OnCircle) 9 ce_sp (max_leaf_size 2)
    bounds_from_space sliding_midpoint_max_side = Ok t
  /\ circle_input 53 1024 OnCircle 0 ce_sp bounds_from_space ce_q
  /\ (exists d, @search_nn double F64 t ce_q (Neighbor 9 (f64 0 0)) = Ok (Neighbor 0%nat d))
  /\ true_on 53 1024 OnCircle ce_sp ce_q 0 = bpow radix2 (-55)
  /\ true_on 53 1024 OnCircle ce_sp ce_q 1 = 0.
Proof.
  destruct (make_exists (@metric_so2 double F64) std_example it_int 9 ce_sp (max_leaf_size 2) bounds_from_space
    sliding_midpoint_max_side (fun d =>
      nn_index_is (@search_nn double F64 (KdTree ce_sp (@metric_so2 double F64) d) ce_q (Neighbor 9 (f64 0 0))) 0))
    as (data & EM & K); [vm_compute; reflexivity|].
  apply nn_index_eq in K. exists data. split; [exact EM|]. split; [exact ce_input|]. split; [exact K|]. exact ce_true.
Qed.

(** Four angles; the nearest of 0.96 is 0.03, which is nearer than 0.875. *)
Example C140_circle_example : exists data, let t := KdTree cx_sp (@metric_so2 double F64) data in
  @kd_tree_make double F64 std_example it_int (@circle_of double F64 OnCircle) 9 cx_sp (max_leaf_size 1)
    bounds_from_space sliding_midpoint_max_side = Ok t
  /\ circle_input 53 1024 OnCircle 0 cx_sp bounds_from_space cx_q
  /\ node_height (kd_root (kt_data t)) = 2%nat
  /\ few_steps 53 1 (node_height (kd_root (kt_data t)))
  /\ (exists d, @search_nn double F64 t cx_q (Neighbor 9 (f64 0 0)) = Ok (Neighbor 0%nat d))
  /\ (forall x p, In p (cx_q :: sp_pts cx_sp) -> In x p -> B2R x < 1).
Proof.
  destruct (make_exists (@metric_so2 double F64) std_example it_int 9 cx_sp (max_leaf_size 1) bounds_from_space
    sliding_midpoint_max_side (fun d => (node_height (kd_root d) =? 2)%nat
      && nn_index_is (@search_nn double F64 (KdTree cx_sp (@metric_so2 double F64) d) cx_q (Neighbor 9 (f64 0 0))) 0))
    as (data & EM & K); [vm_compute; reflexivity|].
  apply andb_true_iff in K as [K1 K2]. apply Nat.eqb_eq in K1. apply nn_index_eq in K2. exists data. cbv zeta.
  split; [exact EM|]. split; [exact cx_input|]. split; [exact K1|].
  split; [exact (eq_ind_r (few_steps 53 1) (few_small 1 2 ltac:(lia)) K1)|].
  split; [exact K2|]. exact cx_below_one.
Qed.

(** The computed distances on a torus. *)
Theorem C140_torus_accuracy :
  forall (prec emax : Z) (Hprec : Prec_gt_0 prec) (Hmax : Prec_lt_emax prec emax), (2 <= prec)%Z ->
  forall (cm : circle_metric) (e : Z) (sp : space (binary_float prec emax))
    (bnds : start_bounds (binary_float prec emax)) (q : list (binary_float prec emax)),
  circle_input prec emax cm e sp bnds q ->
  forall j, cm = OnTorus -> INR (sp_sdim sp) * bpow radix2 (- prec) <= / 2 -> (j < npts sp)%nat ->
  Rabs (computed_on prec emax Hprec Hmax cm sp q j - true_on prec emax cm sp q j)
    <= INR (sp_sdim sp * (sp_sdim sp + 3)) / 2 * bpow radix2 (- prec).
Proof. exact torus_accuracy. Qed.
Print Assumptions C140_torus_accuracy.

(** Coordinates on a coarse grid: correct answers in exact arithmetic. *)
Theorem C140_grid :
  forall (prec emax : Z) (Hprec : Prec_gt_0 prec) (Hmax : Prec_lt_emax prec emax), (2 <= prec)%Z ->
  forall (cm : circle_metric) (e : Z) (sp : space (binary_float prec emax))
    (bnds : start_bounds (binary_float prec emax)) (q : list (binary_float prec emax)),
  circle_input prec emax cm e sp bnds q ->
  forall alg : std_algos, std_laws alg ->
  forall (it : index_type) (fuel : nat) (stop : stop_condition) (ru : rule) (tree : kd_tree (binary_float prec emax)),
  ru <> midpoint_max_side ->
  @kd_tree_make _ (Float_scalar prec emax Hprec Hmax) alg it (@circle_of _ (Float_scalar prec emax Hprec Hmax) cm)
    fuel sp stop bnds ru = Ok tree ->
  few_steps prec (sp_sdim sp) (node_height (kd_root (kt_data tree))) ->
  forall g : Z, circle_grid prec emax cm g e sp q ->
  searches_within prec emax Hprec Hmax alg tree (npts sp) q (true_on prec emax cm sp q) 1.
Proof. exact top_grid. Qed.
Print Assumptions C140_grid.

(** Five poses of the plane; two of them are equally far but for their angles. *)
Example C140_plane_example : exists data, let t := KdTree cp_sp (@metric_se2_squared double F64) data in
  @kd_tree_make double F64 std_example it_int (@circle_of double F64 OnPlane) 9 cp_sp (max_leaf_size 1)
    bounds_from_space sliding_midpoint_max_side = Ok t
  /\ circle_input 53 1024 OnPlane 4 cp_sp bounds_from_space cp_q
  /\ circle_grid 53 1024 OnPlane (-4) 4 cp_sp cp_q
  /\ node_height (kd_root (kt_data t)) = 3%nat
  /\ few_steps 53 3 (node_height (kd_root (kt_data t)))
  /\ (exists d, @search_nn double F64 t cp_q (Neighbor 9 (f64 0 0)) = Ok (Neighbor 3%nat d)).
Proof.
  destruct (make_exists (@metric_se2_squared double F64) std_example it_int 9 cp_sp (max_leaf_size 1) bounds_from_space
    sliding_midpoint_max_side (fun d => (node_height (kd_root d) =? 3)%nat
      && nn_index_is (@search_nn double F64 (KdTree cp_sp (@metric_se2_squared double F64) d) cp_q (Neighbor 9 (f64 0 0))) 3))
    as (data & EM & K); [vm_compute; reflexivity|].
  apply andb_true_iff in K as [K1 K2]. apply Nat.eqb_eq in K1. apply nn_index_eq in K2. exists data. cbv zeta.
  split; [exact EM|]. split; [exact cp_input|]. split; [exact cp_grid|]. split; [exact K1|].
  split; [exact (eq_ind_r (few_steps 53 3) (few_small 3 3 ltac:(lia)) K1)|].
  exact K2.
Qed.

(** Four points of a torus; the query is at the end of its second circle. *)
Example C140_torus_example : exists data, let t := KdTree ct_sp (@metric_t2_squared double F64) data in
  @kd_tree_make double F64 std_example it_int (@circle_of double F64 OnTorus) 9 ct_sp (max_leaf_size 1)
    bounds_from_space sliding_midpoint_max_side = Ok t
  /\ circle_input 53 1024 OnTorus 0 ct_sp bounds_from_space ct_q
  /\ circle_grid 53 1024 OnTorus (-4) 0 ct_sp ct_q
  /\ node_height (kd_root (kt_data t)) = 2%nat
  /\ few_steps 53 2 (node_height (kd_root (kt_data t)))
  /\ (exists d, @search_nn double F64 t ct_q (Neighbor 9 (f64 0 0)) = Ok (Neighbor 0%nat d)).
Proof.
  destruct (make_exists (@metric_t2_squared double F64) std_example it_int 9 ct_sp (max_leaf_size 1) bounds_from_space
    sliding_midpoint_max_side (fun d => (node_height (kd_root d) =? 2)%nat
      && nn_index_is (@search_nn double F64 (KdTree ct_sp (@metric_t2_squared double F64) d) ct_q (Neighbor 9 (f64 0 0))) 0))
    as (data & EM & K); [vm_compute; reflexivity|].
  apply andb_true_iff in K as [K1 K2]. apply Nat.eqb_eq in K1. apply nn_index_eq in K2. exists data. cbv zeta.
  split; [exact EM|]. split; [exact ct_input|]. split; [exact ct_grid|]. split; [exact K1|].
  split; [exact (eq_ind_r (few_steps 53 2) (few_small 2 2 ltac:(lia)) K1)|].
  exact K2.
Qed.
