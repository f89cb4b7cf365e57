(** Approximate searches with floating point coordinates: C129. *)
From Coq Require Import List ZArith Reals Bool Arith Permutation Sorted Lia Lra.
From Flocq Require Import Core.Core IEEE754.BinarySingleNaN.
From Verif Require Import Base ModelBox ModelBuild ModelSearch Spec SpecRound SpecApprox Instances BuildThms
  Floats FloatThms FloatQuery FloatTop FloatEx FloatApprox ApproxTop Examples.
Import ListNotations.
Local Open Scope R_scope.

(** ** C129: approximate searches of rounded distances *)
(** The full statement for the nearest neighbour: the factor bounds the computed distances. *)
Definition C129_statement : Prop :=
  forall (em : exact_metric) (e : Z) (sp : space double) (bnds : start_bounds double) (q : list double) (ea : double),
  float_input 53 1024 em e sp bnds q -> factor_ok 53 1024 ea ->
  forall alg : std_algos, std_laws alg ->
  forall (it : index_type) (fuel : nat) (stop : stop_condition) (ru : rule) (tree : kd_tree double),
  ru <> midpoint_max_side ->
  @kd_tree_make double F64 alg it (@metric_of double F64 em) fuel sp stop bnds ru = Ok tree ->
  forall nn0 : neighbor double,
  exists i d, @search_nn_approx double F64 tree q ea nn0 = Ok (Neighbor i d)
    /\ nearest_within (npts sp) (computed 53 1024 prec_gt_53 prec_lt_1024 em sp q) (B2R ea) i.

Theorem C129_refuted : ~ C129_statement.
Proof. exact c129_refutation. Qed.
Print Assumptions C129_refuted.

(** It holds up to the rounding of the search and of the reciprocal of the factor. *)
Theorem C129_nn_tolerated :
  forall (prec emax : Z) (Hprec : Prec_gt_0 prec) (Hmax : Prec_lt_emax prec emax), (2 <= prec)%Z ->
  forall ea : binary_float prec emax, factor_ok prec emax ea ->
  forall (em : exact_metric) (e : Z) (sp : space (binary_float prec emax))
    (bnds : start_bounds (binary_float prec emax)) (q : list (binary_float prec emax)),
  float_input prec emax em e sp bnds q ->
  forall alg : std_algos, std_laws alg ->
  forall (it : index_type) (fuel : nat) (stop : stop_condition) (ru : rule) (tree : kd_tree (binary_float prec emax)),
  ru <> midpoint_max_side ->
  @kd_tree_make _ (Float_scalar prec emax Hprec Hmax) alg it (@metric_of _ (Float_scalar prec emax Hprec Hmax) em)
    fuel sp stop bnds ru = Ok tree ->
  few_steps prec (sp_sdim sp) (node_height (kd_root (kt_data tree))) ->
  forall nn0 : neighbor (binary_float prec emax),
  exists i d, @search_nn_approx _ (Float_scalar prec emax Hprec Hmax) tree q ea nn0 = Ok (Neighbor i d)
    /\ (i < npts sp)%nat
    /\ B2R d = scaled prec emax ea (computed prec emax Hprec Hmax em sp q i)
    /\ forall j, (j < npts sp)%nat ->
         tolerated prec emax ea (slack prec (sp_sdim sp) (node_height (kd_root (kt_data tree))))
           (computed prec emax Hprec Hmax em sp q i) (computed prec emax Hprec Hmax em sp q j).
Proof. exact nn_float_approx. Qed.
Print Assumptions C129_nn_tolerated.

Theorem C129_knn_tolerated :
  forall (prec emax : Z) (Hprec : Prec_gt_0 prec) (Hmax : Prec_lt_emax prec emax), (2 <= prec)%Z ->
  forall ea : binary_float prec emax, factor_ok prec emax ea ->
  forall (em : exact_metric) (e : Z) (sp : space (binary_float prec emax))
    (bnds : start_bounds (binary_float prec emax)) (q : list (binary_float prec emax)),
  float_input prec emax em e sp bnds q ->
  forall alg : std_algos, std_laws alg ->
  forall (it : index_type) (fuel : nat) (stop : stop_condition) (ru : rule) (tree : kd_tree (binary_float prec emax)),
  ru <> midpoint_max_side ->
  @kd_tree_make _ (Float_scalar prec emax Hprec Hmax) alg it (@metric_of _ (Float_scalar prec emax Hprec Hmax) em)
    fuel sp stop bnds ru = Ok tree ->
  few_steps prec (sp_sdim sp) (node_height (kd_root (kt_data tree))) ->
  forall (k : nat) (knn0 : list (neighbor (binary_float prec emax))), (0 < k)%nat ->
  exists out, @search_knn_approx _ (Float_scalar prec emax Hprec Hmax) tree q k ea knn0 = Ok out
    /\ knn_tolerated (npts sp) k (computed prec emax Hprec Hmax em sp q) (scaled prec emax ea)
         (tolerated prec emax ea (slack prec (sp_sdim sp) (node_height (kd_root (kt_data tree))))) (real_answers prec emax out).
Proof. exact knn_float_approx. Qed.
Print Assumptions C129_knn_tolerated.

Theorem C129_radius_tolerated :
  forall (prec emax : Z) (Hprec : Prec_gt_0 prec) (Hmax : Prec_lt_emax prec emax), (2 <= prec)%Z ->
  forall ea : binary_float prec emax, factor_ok prec emax ea ->
  forall (em : exact_metric) (e : Z) (sp : space (binary_float prec emax))
    (bnds : start_bounds (binary_float prec emax)) (q : list (binary_float prec emax)),
  float_input prec emax em e sp bnds q ->
  forall alg : std_algos, std_laws alg ->
  forall (it : index_type) (fuel : nat) (stop : stop_condition) (ru : rule) (tree : kd_tree (binary_float prec emax)),
  ru <> midpoint_max_side ->
  @kd_tree_make _ (Float_scalar prec emax Hprec Hmax) alg it (@metric_of _ (Float_scalar prec emax Hprec Hmax) em)
    fuel sp stop bnds ru = Ok tree ->
  few_steps prec (sp_sdim sp) (node_height (kd_root (kt_data tree))) ->
  forall (r : binary_float prec emax) (sort : bool), finite prec emax r -> 0 <= B2R r ->
  exists l, @search_radius_approx _ (Float_scalar prec emax Hprec Hmax) alg tree q r ea sort = Ok l
    /\ radius_tolerated (npts sp) (computed prec emax Hprec Hmax em sp q) (scaled prec emax ea) (B2R r)
         (within_inner prec emax ea (slack prec (sp_sdim sp) (node_height (kd_root (kt_data tree)))) (B2R r))
         (real_answers prec emax l)
    /\ (sort = true -> StronglySorted Rle (map snd (real_answers prec emax l))).
Proof. exact radius_float_approx. Qed.
Print Assumptions C129_radius_tolerated.

(** With factor one the approximate searches are the exact ones, bit for bit. *)
Theorem C129_factor_one :
  forall (prec emax : Z) (Hprec : Prec_gt_0 prec) (Hmax : Prec_lt_emax prec emax)
    (tree : kd_tree (binary_float prec emax)) (q : list (binary_float prec emax)) (alg : std_algos),
  (forall nn0, @search_nn_approx _ (Float_scalar prec emax Hprec Hmax) tree q (@s_one _ (Float_scalar prec emax Hprec Hmax)) nn0 = @search_nn _ (Float_scalar prec emax Hprec Hmax) tree q nn0)
  /\ (forall k knn0, @search_knn_approx _ (Float_scalar prec emax Hprec Hmax) tree q k (@s_one _ (Float_scalar prec emax Hprec Hmax)) knn0 = @search_knn _ (Float_scalar prec emax Hprec Hmax) tree q k knn0)
  /\ (forall r sort, @search_radius_approx _ (Float_scalar prec emax Hprec Hmax) alg tree q r (@s_one _ (Float_scalar prec emax Hprec Hmax)) sort = @search_radius _ (Float_scalar prec emax Hprec Hmax) alg tree q r sort).
Proof. exact float_approx_one. Qed.
Print Assumptions C129_factor_one.

(** Factor 3/2 on the points of C41: all four points are at distance about one; the radius
    search within 5/4 reports two of them, within 7/4 all. *)
Example C129_example : exists data, let t := KdTree fx_sp (@metric_l2_squared double F64) data in
  @kd_tree_make double F64 std_example it_int (@metric_of double F64 L2Squared) 9 fx_sp (max_leaf_size 1)
    bounds_from_space sliding_midpoint_max_side = Ok t
  /\ factor_ok 53 1024 (f64 3 (-1))
  /\ float_input 53 1024 L2Squared 0 fx_sp bounds_from_space fx_q
  /\ few_steps 53 2 (node_height (kd_root (kt_data t)))
  /\ @search_nn_approx double F64 t fx_q (f64 3 (-1)) (Neighbor 9 (f64 0 0))
     = Ok (Neighbor 0%nat (f64 6004799503160660 (-53)))
  /\ (exists a, @search_radius_approx double F64 std_example t fx_q (f64 5 (-2)) (f64 3 (-1)) true = Ok a
        /\ map n_index a = [0; 3]%nat)
  /\ (exists b, @search_radius_approx double F64 std_example t fx_q (f64 7 (-2)) (f64 3 (-1)) true = Ok b
        /\ map n_index b = [0; 1; 3; 2]%nat).
Proof.
  destruct (make_exists (@metric_l2_squared double F64) std_example it_int 9 fx_sp (max_leaf_size 1) bounds_from_space
    sliding_midpoint_max_side (fun d => let t := KdTree fx_sp (@metric_l2_squared double F64) d in
      (node_height (kd_root d) =? 3)%nat
      && nn_is (@search_nn_approx double F64 t fx_q (f64 3 (-1)) (Neighbor 9 (f64 0 0))) 0 (f64 6004799503160660 (-53))
      && indices_are (@search_radius_approx double F64 std_example t fx_q (f64 5 (-2)) (f64 3 (-1)) true) [0; 3]%nat
      && indices_are (@search_radius_approx double F64 std_example t fx_q (f64 7 (-2)) (f64 3 (-1)) true) [0; 1; 3; 2]%nat))
    as (data & EM & K); [vm_compute; reflexivity|].
  cbv zeta in K. apply andb_true_iff in K as [K K4]. apply andb_true_iff in K as [K K3].
  apply andb_true_iff in K as [K1 K2].
  apply Nat.eqb_eq in K1. apply nn_is_eq in K2. apply indices_are_eq in K3, K4.
  exists data. cbv zeta. split; [exact EM|]. split.
  { destruct (f64_R 3 (-1)) as [F1 E1]; [reflexivity|lia|lia|]. split; [exact F1|]. rewrite E1. split; [cbn; lra|].
    apply Rle_trans with (bpow radix2 1); [cbn; lra|]. apply bpow_le. lia. }
  split; [apply fx_input; auto|].
  split; [pose proof (few_small 2 3 ltac:(lia)) as W; rewrite <- K1 in W; exact W|].
  split; [exact K2|]. split; [exact K3|exact K4].
Qed.
