(** C143: points with infinite coordinates, or with NaN.  [binary_float prec emax]
    is any IEEE 754 binary format; 53, 1024 is [double], 24, 128 [float]. *)
From Coq Require Import List ZArith Reals Bool Arith Permutation Sorted Lia Lra.
From Flocq Require Import Core.Core IEEE754.BinarySingleNaN.
From Verif Require Import Base ModelBox ModelBuild ModelSearch Spec Instances BuildThms BoxThms
  Floats FloatThms FloatEx Examples InfThms InfQuery InfEx SpecRound SpecInf.
Import ListNotations.
Local Open Scope R_scope.

(** ** Construction *)
(** Infinite coordinates are not enough to build a tree on. *)
Theorem C143_build_refuted :
  ~ (forall sp : space double, wf_space sp -> sp_pts sp <> [] -> all_coords (number 53 1024) sp ->
     forall alg : std_algos, std_laws alg ->
     exists fuel tree, @kd_tree_make double F64 alg it_int (@metric_l2_squared double F64) fuel sp (max_leaf_size 1)
       bounds_from_space sliding_midpoint_max_side = Ok tree).
Proof. exact c143_build_refutation. Qed.
Print Assumptions C143_build_refuted.

(** They are harmless when the coordinates are moderate in one dimension. *)
Theorem C143_build :
  forall (prec emax : Z) (Hprec : Prec_gt_0 prec) (Hmax : Prec_lt_emax prec emax), (2 <= prec)%Z ->
  forall sp : space (binary_float prec emax), wf_space sp -> all_coords (number prec emax) sp ->
  forall alg : std_algos, std_laws alg ->
  forall (c : category) (it : index_type) (stop : stop_condition) (bnds : start_bounds (binary_float prec emax))
    (ru : rule) (k : nat),
  (k < sp_sdim sp)%nat -> coords_at prec emax (below prec emax (emax - 2)) k sp bnds ->
  @bounds_dim (binary_float prec emax) sp bnds = true ->
  ru <> midpoint_max_side -> index_type_ok it -> stop_fits it stop ->
  sp_pts sp <> [] -> (Z.of_nat (npts sp) <= it_max it)%Z ->
  exists t, (forall fuel, (npts sp <= fuel)%nat ->
      @build _ (Float_scalar prec emax Hprec Hmax) c alg it fuel sp stop bnds ru = Ok t)
    /\ Permutation (kd_indices t) (seq 0 (npts sp))
    /\ consecutive 0 (leaf_intervals (kd_root t)) (npts sp)
    /\ Forall (fun '(_, len) => (1 <= len)%nat) (leaf_levels 0 (kd_root t)).
Proof. exact inf_build. Qed.
Print Assumptions C143_build.

Example C143_build_example :
  wf_space iy_sp /\ all_coords (number 53 1024) iy_sp
  /\ coords_at 53 1024 (below 53 1024 (1024 - 2)) 0 iy_sp bounds_from_space
  /\ nth 1 (nth 0 (sp_pts iy_sp) []) (f64 0 0) = B754_infinity false
  /\ exists data, @kd_tree_make double F64 std_example it_int (@metric_l2_squared double F64) 4 iy_sp (max_leaf_size 1)
       bounds_from_space sliding_midpoint_max_side = Ok (KdTree iy_sp (@metric_l2_squared double F64) data)
     /\ kd_indices data = [2; 3; 0; 1]%nat.
Proof.
  split; [apply wf_space_check; reflexivity|]. split; [exact iy_numbers|]. split; [exact iy_first|].
  split; [reflexivity|].
  destruct (make_exists (@metric_l2_squared double F64) std_example it_int 4 iy_sp (max_leaf_size 1) bounds_from_space
    sliding_midpoint_max_side (fun d => if list_eq_dec Nat.eq_dec (kd_indices d) [2; 3; 0; 1]%nat then true else false))
    as (data & EM & K); [vm_compute; reflexivity|].
  exists data. split; [exact EM|]. destruct (list_eq_dec _ _ _); auto; discriminate.
Qed.

(** ** Boxes: every point is treated alike, also if the box is infinite *)
Theorem C143_box :
  forall (prec emax : Z) (Hprec : Prec_gt_0 prec) (Hmax : Prec_lt_emax prec emax),
  forall sp : space (binary_float prec emax), wf_space sp -> all_coords (number prec emax) sp ->
  forall alg : std_algos, std_laws alg ->
  forall (m : metric (binary_float prec emax)) (it : index_type) (fuel : nat) (stop : stop_condition)
    (bnds : start_bounds (binary_float prec emax)) (ru : rule) (tree : kd_tree (binary_float prec emax))
    (mn mx : list (binary_float prec emax)),
  @kd_tree_make _ (Float_scalar prec emax Hprec Hmax) alg it m fuel sp stop bnds ru = Ok tree ->
  bounds_coords (number prec emax) sp bnds ->
  @bounds_enclose _ (Float_scalar prec emax Hprec Hmax) sp bnds ->
  length mn = sp_sdim sp -> length mx = sp_sdim sp -> Forall (number prec emax) mn -> Forall (number prec emax) mx ->
  ru <> midpoint_max_side -> m_cat m = Euclidean ->
  exists ans, @search_box _ (Float_scalar prec emax Hprec Hmax) tree mn mx = Ok ans
    /\ index_answer (npts sp)
         (fun i => @inside _ (Float_scalar prec emax Hprec Hmax) mn mx (nth i (sp_pts sp) [])) ans.
Proof. exact inf_box. Qed.
Print Assumptions C143_box.

Example C143_box_example :
  all_coords (number 53 1024) ix_sp
  /\ exists data, @kd_tree_make double F64 std_example it_int (@metric_l2_squared double F64) 9 ix_sp (max_leaf_size 1)
       bounds_from_space sliding_midpoint_max_side = Ok (KdTree ix_sp (@metric_l2_squared double F64) data)
     /\ @search_box double F64 (KdTree ix_sp (@metric_l2_squared double F64) data)
          [f64 4 0; f64 1 0] [B754_infinity false; f64 9 0] = Ok [4; 1]%nat.
Proof.
  split; [exact ix_numbers|].
  destruct (make_exists (@metric_l2_squared double F64) std_example it_int 9 ix_sp (max_leaf_size 1) bounds_from_space
    sliding_midpoint_max_side (fun d => match @search_box double F64 (KdTree ix_sp (@metric_l2_squared double F64) d)
          [f64 4 0; f64 1 0] [B754_infinity false; f64 9 0] with
        Ok l => if list_eq_dec Nat.eq_dec l [4; 1]%nat then true else false | _ => false end))
    as (data & EM & K); [vm_compute; reflexivity|].
  exists data. split; [exact EM|].
  destruct (@search_box double F64 _ _ _) as [l| |]; [|discriminate K|discriminate K].
  destruct (list_eq_dec _ _ _) as [->|]; [reflexivity|discriminate K].
Qed.

(** ** Searches by distance: the points with an infinite coordinate are ignored *)
Theorem C143_nn :
  forall (prec emax : Z) (Hprec : Prec_gt_0 prec) (Hmax : Prec_lt_emax prec emax), (2 <= prec)%Z ->
  forall (em : exact_metric) (e : Z) (sp : space (binary_float prec emax)) (q : list (binary_float prec emax)),
  inf_input prec emax em e sp q ->
  forall alg : std_algos, std_laws alg ->
  forall (it : index_type) (fuel : nat) (stop : stop_condition) (bnds : start_bounds (binary_float prec emax))
    (ru : rule) (tree : kd_tree (binary_float prec emax)),
  ru <> midpoint_max_side ->
  @kd_tree_make _ (Float_scalar prec emax Hprec Hmax) alg it (@metric_of _ (Float_scalar prec emax Hprec Hmax) em)
    fuel sp stop bnds ru = Ok tree ->
  few_steps prec (sp_sdim sp) (node_height (kd_root (kt_data tree))) ->
  forall nn0 : neighbor (binary_float prec emax),
  exists r, @search_nn _ (Float_scalar prec emax Hprec Hmax) tree q nn0 = Ok r
    /\ (finite_points prec emax sp = [] ->
          r = Neighbor (n_index nn0) (@s_max _ (Float_scalar prec emax Hprec Hmax)))
    /\ (finite_points prec emax sp <> [] ->
          nearest_among (finite_points prec emax sp) (computed prec emax Hprec Hmax em sp q)
            (slack prec (sp_sdim sp) (node_height (kd_root (kt_data tree)))) (n_index r)
          /\ B2R (n_distance r) = computed prec emax Hprec Hmax em sp q (n_index r)).
Proof. exact nn_inf. Qed.
Print Assumptions C143_nn.

Theorem C143_radius :
  forall (prec emax : Z) (Hprec : Prec_gt_0 prec) (Hmax : Prec_lt_emax prec emax), (2 <= prec)%Z ->
  forall (em : exact_metric) (e : Z) (sp : space (binary_float prec emax)) (q : list (binary_float prec emax)),
  inf_input prec emax em e sp q ->
  forall alg : std_algos, std_laws alg ->
  forall (it : index_type) (fuel : nat) (stop : stop_condition) (bnds : start_bounds (binary_float prec emax))
    (ru : rule) (tree : kd_tree (binary_float prec emax)),
  ru <> midpoint_max_side ->
  @kd_tree_make _ (Float_scalar prec emax Hprec Hmax) alg it (@metric_of _ (Float_scalar prec emax Hprec Hmax) em)
    fuel sp stop bnds ru = Ok tree ->
  few_steps prec (sp_sdim sp) (node_height (kd_root (kt_data tree))) ->
  forall (r : binary_float prec emax) (sort : bool), finite prec emax r ->
  exists l, @search_radius _ (Float_scalar prec emax Hprec Hmax) alg tree q r sort = Ok l
    /\ radius_among (finite_points prec emax sp) (computed prec emax Hprec Hmax em sp q)
         (slack prec (sp_sdim sp) (node_height (kd_root (kt_data tree)))) (B2R r) (real_answers prec emax l)
    /\ (sort = true -> StronglySorted Rle (map snd (real_answers prec emax l))).
Proof. exact radius_inf. Qed.
Print Assumptions C143_radius.

(** k nearest neighbours into a range of the caller: the places beyond the number
    of finite points are not written, except for the last distance. *)
Theorem C143_knn_range :
  forall (prec emax : Z) (Hprec : Prec_gt_0 prec) (Hmax : Prec_lt_emax prec emax), (2 <= prec)%Z ->
  forall (em : exact_metric) (e : Z) (sp : space (binary_float prec emax)) (q : list (binary_float prec emax)),
  inf_input prec emax em e sp q ->
  forall alg : std_algos, std_laws alg ->
  forall (it : index_type) (fuel : nat) (stop : stop_condition) (bnds : start_bounds (binary_float prec emax))
    (ru : rule) (tree : kd_tree (binary_float prec emax)),
  ru <> midpoint_max_side ->
  @kd_tree_make _ (Float_scalar prec emax Hprec Hmax) alg it (@metric_of _ (Float_scalar prec emax Hprec Hmax) em)
    fuel sp stop bnds ru = Ok tree ->
  few_steps prec (sp_sdim sp) (node_height (kd_root (kt_data tree))) ->
  forall range : list (neighbor (binary_float prec emax)), range <> [] ->
  let finite := length (finite_points prec emax sp) in
  exists out, @search_knn_range _ (Float_scalar prec emax Hprec Hmax) tree q range = Ok out
    /\ length out = length range
    /\ knn_among (finite_points prec emax sp) (length range) (computed prec emax Hprec Hmax em sp q)
         (slack prec (sp_sdim sp) (node_height (kd_root (kt_data tree)))) (real_answers prec emax (firstn finite out))
    /\ (forall p, (finite <= p < length range - 1)%nat -> nth_error out p = nth_error range p)
    /\ (forall old, (finite < length range)%nat -> nth_error range (length range - 1) = Some old ->
          nth_error out (length range - 1)
          = Some (Neighbor (n_index old) (@s_max _ (Float_scalar prec emax Hprec Hmax)))).
Proof. exact knn_inf. Qed.
Print Assumptions C143_knn_range.

(** Into a vector that was empty: the places beyond the number of finite points
    read "point 0, at distance 0". *)
Theorem C143_knn :
  forall (prec emax : Z) (Hprec : Prec_gt_0 prec) (Hmax : Prec_lt_emax prec emax), (2 <= prec)%Z ->
  forall (em : exact_metric) (e : Z) (sp : space (binary_float prec emax)) (q : list (binary_float prec emax)),
  inf_input prec emax em e sp q ->
  forall alg : std_algos, std_laws alg ->
  forall (it : index_type) (fuel : nat) (stop : stop_condition) (bnds : start_bounds (binary_float prec emax))
    (ru : rule) (tree : kd_tree (binary_float prec emax)),
  ru <> midpoint_max_side ->
  @kd_tree_make _ (Float_scalar prec emax Hprec Hmax) alg it (@metric_of _ (Float_scalar prec emax Hprec Hmax) em)
    fuel sp stop bnds ru = Ok tree ->
  few_steps prec (sp_sdim sp) (node_height (kd_root (kt_data tree))) ->
  forall k : nat, (0 < k)%nat ->
  let finite := length (finite_points prec emax sp) in
  exists out, @search_knn _ (Float_scalar prec emax Hprec Hmax) tree q k [] = Ok out
    /\ length out = Nat.min k (npts sp)
    /\ knn_among (finite_points prec emax sp) k (computed prec emax Hprec Hmax em sp q)
         (slack prec (sp_sdim sp) (node_height (kd_root (kt_data tree)))) (real_answers prec emax (firstn finite out))
    /\ (forall p, (finite <= p < Nat.min k (npts sp) - 1)%nat ->
          nth_error out p = Some (Neighbor 0%nat (@s_zero _ (Float_scalar prec emax Hprec Hmax))))
    /\ ((finite < Nat.min k (npts sp))%nat ->
          nth_error out (Nat.min k (npts sp) - 1) = Some (Neighbor 0%nat (@s_max _ (Float_scalar prec emax Hprec Hmax)))).
Proof. exact knn_inf_vector. Qed.
Print Assumptions C143_knn.

(** So the entries of the result are not all points with their distances. *)
Theorem C143_knn_refuted :
  ~ (forall em e (sp : space double) q, inf_input 53 1024 em e sp q ->
     forall alg : std_algos, std_laws alg ->
     forall (it : index_type) (fuel : nat) (stop : stop_condition) (ru : rule) (tree : kd_tree double),
     ru <> midpoint_max_side ->
     @kd_tree_make double F64 alg it (@metric_of double F64 em) fuel sp stop bounds_from_space ru = Ok tree ->
     forall (k : nat) (out : list (neighbor double)), (0 < k)%nat -> @search_knn double F64 tree q k [] = Ok out ->
     NoDup (map n_index out)
     /\ forall x, In x out -> @m_dist double (@metric_of double F64 em) q (nth (n_index x) (sp_pts sp) []) = n_distance x).
Proof. exact c143_knn_refutation. Qed.
Print Assumptions C143_knn_refuted.

Example C143_example :
  inf_input 53 1024 L2Squared 4 ix_sp ix_q /\ finite_points 53 1024 ix_sp = [0; 2; 4]%nat
  /\ exists data, let t := KdTree ix_sp (@metric_l2_squared double F64) data in
     @kd_tree_make double F64 std_example it_int (@metric_of double F64 L2Squared) 9 ix_sp (max_leaf_size 1)
       bounds_from_space sliding_midpoint_max_side = Ok t
  /\ few_steps 53 2 (node_height (kd_root (kt_data t)))
  /\ @search_nn double F64 t ix_q (Neighbor 9%nat (f64 0 0)) = Ok (Neighbor 2%nat (f64 1 0))
  /\ @search_radius double F64 std_example t ix_q (f64 99 0) true
     = Ok [Neighbor 2%nat (f64 1 0); Neighbor 4%nat (f64 13 0); Neighbor 0%nat (f64 17 0)]
  /\ @search_knn double F64 t ix_q 7 []
     = Ok [Neighbor 2%nat (f64 1 0); Neighbor 4%nat (f64 13 0); Neighbor 0%nat (f64 17 0);
           Neighbor 0%nat (f64 0 0); Neighbor 0%nat (@s_max double F64)].
Proof.
  split; [apply ix_input; auto|]. split; [exact ix_finite|].
  destruct (make_exists (@metric_l2_squared double F64) std_example it_int 9 ix_sp (max_leaf_size 1) bounds_from_space
    sliding_midpoint_max_side (fun d => let t := KdTree ix_sp (@metric_l2_squared double F64) d in
      (2 * node_height (kd_root d) + 2 <=? 1000)%nat
      && nn_is (@search_nn double F64 t ix_q (Neighbor 9 (f64 0 0))) 2 (f64 1 0)
      && neighbors_are (@search_radius double F64 std_example t ix_q (f64 99 0) true)
           [(2%nat, f64 1 0); (4%nat, f64 13 0); (0%nat, f64 17 0)]
      && neighbors_are (@search_knn double F64 t ix_q 7 [])
           [(2%nat, f64 1 0); (4%nat, f64 13 0); (0%nat, f64 17 0); (0%nat, f64 0 0); (0%nat, @s_max double F64)]))
    as (data & EM & K); [vm_compute; reflexivity|].
  cbv zeta in K. apply andb_true_iff in K as [K K4]. apply andb_true_iff in K as [K K3]. apply andb_true_iff in K as [K1 K2].
  exists data. cbv zeta. split; [exact EM|]. split; [apply few_small, Nat.leb_le; exact K1|].
  split; [apply nn_is_eq; exact K2|]. split; [exact (neighbors_are_eq _ _ K3)|exact (neighbors_are_eq _ _ K4)].
Qed.

(** ** NaN *)
(** Construction may be undefined, whatever the splitter. *)
Theorem C143_nan_build_refuted :
  ~ (forall sp : space double, wf_space sp -> sp_pts sp <> [] ->
     forall alg : std_algos, std_laws alg -> forall ru : rule,
     exists fuel tree, @kd_tree_make double F64 alg it_int (@metric_l2_squared double F64) fuel sp (max_leaf_size 1)
       bounds_from_space ru = Ok tree).
Proof. exact c143_nan_build_refutation. Qed.
Print Assumptions C143_nan_build_refuted.

(** One NaN spoils the search for the other points: the point found may be more
    than twice as far as another one. *)
Theorem C143_nan_refuted :
  ~ (forall (sp : space double) (q : list double), wf_space sp -> length q = sp_sdim sp -> Forall (below 53 1024 4) q ->
     (forall i, In i (finite_points 53 1024 sp) -> Forall (below 53 1024 4) (nth i (sp_pts sp) [])) ->
     forall alg : std_algos, std_laws alg ->
     forall (it : index_type) (fuel : nat) (stop : stop_condition) (ru : rule) (tree : kd_tree double),
     ru <> midpoint_max_side ->
     @kd_tree_make double F64 alg it (@metric_l1 double F64) fuel sp stop bounds_from_space ru = Ok tree ->
     forall (nn0 x : neighbor double), @search_nn double F64 tree q nn0 = Ok x ->
     nearest_among (finite_points 53 1024 sp) (computed 53 1024 prec_gt_53 prec_lt_1024 L1 sp q) 2 (n_index x)).
Proof. exact c143_nan_refutation. Qed.
Print Assumptions C143_nan_refuted.
