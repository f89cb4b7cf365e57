(** Properties of searches in floating point when the compiler contracts sums
    and products: C148. *)
From Coq Require Import List ZArith Reals Bool Arith Permutation Sorted Lia Lra.
From Flocq Require Import Core.Core IEEE754.BinarySingleNaN.
From Verif Require Import Base ModelBox ModelBuild ModelSearch Spec SpecRound Instances Floats FloatThms FloatEx
  Examples ModelFused SpecFused FusedTop FusedGrid FusedEx.
Import ListNotations.
Local Open Scope R_scope.

(** ** C148: answers whatever the compiler contracts *)
Theorem C148_nn_within_factor :
  forall (prec emax : Z) (Hprec : Prec_gt_0 prec) (Hmax : Prec_lt_emax prec emax), (2 <= prec)%Z ->
  forall (ct : contraction) (e a : Z) (sp : space (binary_float prec emax))
    (bnds : start_bounds (binary_float prec emax)) (q : list (binary_float prec emax)),
  float_input prec emax L2Squared e sp bnds q -> apart prec emax a sp q ->
  forall alg : std_algos, std_laws alg ->
  forall (it : index_type) (fuel : nat) (stop : stop_condition) (ru : rule)
    (t : kd_tree_data Euclidean (binary_float prec emax)),
  ru <> midpoint_max_side ->
  let m := @metric_l2_squared _ (Float_scalar prec emax Hprec Hmax) in
  @kd_tree_make _ (Float_scalar prec emax Hprec Hmax) alg it m fuel sp stop bnds ru = Ok (KdTree sp m t) ->
  fused_few prec (sp_sdim sp) (node_height (kd_root t)) ->
  forall nn0 : neighbor (binary_float prec emax),
  exists i d, search_nn_fused prec emax Hprec Hmax ct sp t q nn0 = Ok (Neighbor i d)
    /\ B2R d = fused_computed prec emax Hprec Hmax ct sp q i
    /\ nearest_within (npts sp) (fused_computed prec emax Hprec Hmax ct sp q)
         (fused_slack prec (sp_sdim sp) (node_height (kd_root t))) i.
Proof. exact fused_nn_within. Qed.
Print Assumptions C148_nn_within_factor.

Theorem C148_knn_within_factor :
  forall (prec emax : Z) (Hprec : Prec_gt_0 prec) (Hmax : Prec_lt_emax prec emax), (2 <= prec)%Z ->
  forall (ct : contraction) (e a : Z) (sp : space (binary_float prec emax))
    (bnds : start_bounds (binary_float prec emax)) (q : list (binary_float prec emax)),
  float_input prec emax L2Squared e sp bnds q -> apart prec emax a sp q ->
  forall alg : std_algos, std_laws alg ->
  forall (it : index_type) (fuel : nat) (stop : stop_condition) (ru : rule)
    (t : kd_tree_data Euclidean (binary_float prec emax)),
  ru <> midpoint_max_side ->
  let m := @metric_l2_squared _ (Float_scalar prec emax Hprec Hmax) in
  @kd_tree_make _ (Float_scalar prec emax Hprec Hmax) alg it m fuel sp stop bnds ru = Ok (KdTree sp m t) ->
  fused_few prec (sp_sdim sp) (node_height (kd_root t)) ->
  forall (k : nat) (knn0 : list (neighbor (binary_float prec emax))), (0 < k)%nat ->
  exists out, search_knn_fused prec emax Hprec Hmax ct sp t q k knn0 = Ok out
    /\ knn_within (npts sp) k (fused_computed prec emax Hprec Hmax ct sp q)
         (fused_slack prec (sp_sdim sp) (node_height (kd_root t))) (real_answers prec emax out).
Proof. exact fused_knn_within. Qed.
Print Assumptions C148_knn_within_factor.

Theorem C148_radius_within_factor :
  forall (prec emax : Z) (Hprec : Prec_gt_0 prec) (Hmax : Prec_lt_emax prec emax), (2 <= prec)%Z ->
  forall (ct : contraction) (e a : Z) (sp : space (binary_float prec emax))
    (bnds : start_bounds (binary_float prec emax)) (q : list (binary_float prec emax)),
  float_input prec emax L2Squared e sp bnds q -> apart prec emax a sp q ->
  forall alg : std_algos, std_laws alg ->
  forall (it : index_type) (fuel : nat) (stop : stop_condition) (ru : rule)
    (t : kd_tree_data Euclidean (binary_float prec emax)),
  ru <> midpoint_max_side ->
  let m := @metric_l2_squared _ (Float_scalar prec emax Hprec Hmax) in
  @kd_tree_make _ (Float_scalar prec emax Hprec Hmax) alg it m fuel sp stop bnds ru = Ok (KdTree sp m t) ->
  fused_few prec (sp_sdim sp) (node_height (kd_root t)) ->
  forall (r : binary_float prec emax) (sort : bool), finite prec emax r ->
  exists l, search_radius_fused prec emax Hprec Hmax ct alg sp t q r sort = Ok l
    /\ radius_within (npts sp) (fused_computed prec emax Hprec Hmax ct sp q)
         (fused_slack prec (sp_sdim sp) (node_height (kd_root t))) (B2R r) (real_answers prec emax l)
    /\ (sort = true -> StronglySorted Rle (map snd (real_answers prec emax l))).
Proof. exact fused_radius_within. Qed.
Print Assumptions C148_radius_within_factor.

(** Almost equal distances, searched with every sum contracted, with those of
    distances only, and with those of boxes at even depths only. *)
Example C148_example : exists t, let m := @metric_l2_squared double F64 in
  @kd_tree_make double F64 std_example it_int m 9 fx_sp (max_leaf_size 1) bounds_from_space
    sliding_midpoint_max_side = Ok (KdTree fx_sp m t)
  /\ float_input 53 1024 L2Squared 0 fx_sp bounds_from_space fx_q
  /\ apart 53 1024 (-10) fx_sp fx_q
  /\ node_height (kd_root t) = 3%nat
  /\ fused_few 53 2 (node_height (kd_root t))
  /\ (forall ct, In ct [contract_all; contract_terms; contract_even] ->
      search_nn_fused 53 1024 prec_gt_53 prec_lt_1024 ct fx_sp t fx_q (Neighbor 9 (f64 0 0))
      = Ok (Neighbor 0%nat (f64 9007199254740991 (-53)))).
Proof.
  destruct (make_exists (@metric_l2_squared double F64) std_example it_int 9 fx_sp (max_leaf_size 1) bounds_from_space
    sliding_midpoint_max_side (fun t => (node_height (kd_root t) =? 3)%nat
      && forallb (fun ct =>
           nn_is (search_nn_fused 53 1024 prec_gt_53 prec_lt_1024 ct fx_sp t fx_q (Neighbor 9 (f64 0 0)))
             0 (f64 9007199254740991 (-53))) [contract_all; contract_terms; contract_even]))
    as (t & EM & K); [vm_compute; reflexivity|].
  apply andb_true_iff in K as [K1 K2]. apply Nat.eqb_eq in K1.
  exists t. cbv zeta. split; [exact EM|]. split; [apply fx_input; auto|]. split; [exact fx_apart|]. split; [exact K1|].
  split; [pose proof (fused_few_small 2 3 ltac:(lia)) as W; rewrite <- K1 in W; exact W|].
  intros ct Hct. rewrite forallb_forall in K2. apply nn_is_eq. apply K2. exact Hct.
Qed.

(** Distances have a relative error only. *)
Theorem C148_distances_accurate :
  forall (prec emax : Z) (Hprec : Prec_gt_0 prec) (Hmax : Prec_lt_emax prec emax), (2 <= prec)%Z ->
  forall (ct : contraction) (e a : Z) (sp : space (binary_float prec emax))
    (bnds : start_bounds (binary_float prec emax)) (q : list (binary_float prec emax)),
  float_input prec emax L2Squared e sp bnds q -> apart prec emax a sp q ->
  forall i, (i < npts sp)%nat -> INR (sp_sdim sp + 3) * bpow radix2 (- prec) <= / 2 ->
  Rabs (fused_computed prec emax Hprec Hmax ct sp q i - true_dist prec emax L2Squared sp q i)
    <= 2 * INR (sp_sdim sp + 3) * bpow radix2 (- prec) * true_dist prec emax L2Squared sp q i.
Proof. exact fused_accurate. Qed.
Print Assumptions C148_distances_accurate.

(** A compiler that does not contract gives the searches of C41. *)
Theorem C148_uncontracted :
  forall (prec emax : Z) (Hprec : Prec_gt_0 prec) (Hmax : Prec_lt_emax prec emax)
    (sp : space (binary_float prec emax)) (t : kd_tree_data Euclidean (binary_float prec emax))
    (alg : std_algos) (q : list (binary_float prec emax)),
  let FS := Float_scalar prec emax Hprec Hmax in
  let tree := KdTree sp (@metric_l2_squared _ FS) t in
  (forall nn0, search_nn_fused prec emax Hprec Hmax uncontracted sp t q nn0 = @search_nn _ FS tree q nn0)
  /\ (forall k knn0, search_knn_fused prec emax Hprec Hmax uncontracted sp t q k knn0 = @search_knn _ FS tree q k knn0)
  /\ (forall r sort, search_radius_fused prec emax Hprec Hmax uncontracted alg sp t q r sort
        = @search_radius _ FS alg tree q r sort).
Proof. exact uncontracted_same. Qed.
Print Assumptions C148_uncontracted.

(** One that does can give another nearest neighbour. *)
Theorem C148_same_answer_refuted :
  ~ (forall (ct : contraction) (sp : space double) (bnds : start_bounds double) (q : list double) (e : Z),
     float_input 53 1024 L2Squared e sp bnds q ->
     forall (alg : std_algos), std_laws alg ->
     forall (it : index_type) (fuel : nat) (stop : stop_condition) (ru : rule) (t : kd_tree_data Euclidean double),
     @kd_tree_make double F64 alg it (@metric_l2_squared double F64) fuel sp stop bnds ru
       = Ok (KdTree sp (@metric_l2_squared double F64) t) ->
     forall nn0 i d j d',
     search_nn_fused 53 1024 prec_gt_53 prec_lt_1024 ct sp t q nn0 = Ok (Neighbor i d) ->
     @search_nn double F64 (KdTree sp (@metric_l2_squared double F64) t) q nn0 = Ok (Neighbor j d') ->
     i = j).
Proof. exact contraction_matters. Qed.
Print Assumptions C148_same_answer_refuted.

(** Coordinates on a grid that leaves room for squares: nothing is rounded,
    contracted or not, and the answers are exact.  Nothing need be [apart]. *)
Theorem C148_grid_exact :
  forall (prec emax : Z) (Hprec : Prec_gt_0 prec) (Hmax : Prec_lt_emax prec emax), (2 <= prec)%Z ->
  forall (ct : contraction) (e g : Z) (sp : space (binary_float prec emax))
    (bnds : start_bounds (binary_float prec emax)) (q : list (binary_float prec emax)),
  float_input prec emax L2Squared e sp bnds q -> grid_input prec emax L2Squared g e sp q ->
  forall alg : std_algos, std_laws alg ->
  forall (it : index_type) (fuel : nat) (stop : stop_condition) (ru : rule)
    (t : kd_tree_data Euclidean (binary_float prec emax)),
  ru <> midpoint_max_side ->
  let m := @metric_l2_squared _ (Float_scalar prec emax Hprec Hmax) in
  @kd_tree_make _ (Float_scalar prec emax Hprec Hmax) alg it m fuel sp stop bnds ru = Ok (KdTree sp m t) ->
  let D := true_dist prec emax L2Squared sp q in
  (forall nn0, exists i d, search_nn_fused prec emax Hprec Hmax ct sp t q nn0 = Ok (Neighbor i d)
     /\ B2R d = D i /\ nearest_within (npts sp) D 1 i)
  /\ (forall k knn0, (0 < k)%nat -> exists out, search_knn_fused prec emax Hprec Hmax ct sp t q k knn0 = Ok out
     /\ knn_within (npts sp) k D 1 (real_answers prec emax out))
  /\ (forall r sort, finite prec emax r ->
     exists l, search_radius_fused prec emax Hprec Hmax ct alg sp t q r sort = Ok l
     /\ radius_within (npts sp) D 1 (B2R r) (real_answers prec emax l)
     /\ (sort = true -> StronglySorted Rle (map snd (real_answers prec emax l)))).
Proof. exact fused_grid. Qed.
Print Assumptions C148_grid_exact.

Example C148_grid_example : exists t, let m := @metric_l2_squared double F64 in
  @kd_tree_make double F64 std_example it_int m 9 fg_sp (max_leaf_size 1) bounds_from_space
    sliding_midpoint_max_side = Ok (KdTree fg_sp m t)
  /\ float_input 53 1024 L2Squared 4 fg_sp bounds_from_space fg_q
  /\ grid_input 53 1024 L2Squared 0 4 fg_sp fg_q
  /\ (forall ct, In ct [contract_all; contract_terms; contract_even] ->
      search_nn_fused 53 1024 prec_gt_53 prec_lt_1024 ct fg_sp t fg_q (Neighbor 9 (f64 0 0))
      = Ok (Neighbor 4%nat (f64 37 0))).
Proof.
  destruct (make_exists (@metric_l2_squared double F64) std_example it_int 9 fg_sp (max_leaf_size 1) bounds_from_space
    sliding_midpoint_max_side (fun t => forallb (fun ct =>
           nn_is (search_nn_fused 53 1024 prec_gt_53 prec_lt_1024 ct fg_sp t fg_q (Neighbor 9 (f64 0 0)))
             4 (f64 37 0)) [contract_all; contract_terms; contract_even]))
    as (t & EM & K); [vm_compute; reflexivity|].
  exists t. cbv zeta. split; [exact EM|]. split; [apply fg_input; auto|]. split; [apply fg_grid; auto|].
  intros ct Hct. rewrite forallb_forall in K. apply nn_is_eq. apply K. exact Hct.
Qed.
