(** Properties of the adaptors, C71-C77. *)
From Coq Require Import List ZArith QArith Bool Arith Lia.
From Verif Require Import Base ModelBox ModelBuild ModelSearch Spec ModelAdapt SpecAdapt Instances Examples
  AdaptThms AdaptTop.
Import ListNotations.
Local Open Scope Z_scope.

(** ** C71: arrays of scalars and arrays of points *)
Theorem C71_space_map :
  forall (T : Type) (S : Scalar T) (mem : list T) (dim data : Z) (n d : nat),
  dim_ok d -> dim_says dim d -> Z.of_nat n * Z.of_nat d < 2 ^ 64 ->
  in_memory mem (row_major_addr data d) n d ->
  view_space mem (space_map_traits dim (space_map_make_sdim dim data (Z.of_nat n) (Z.of_nat d)))
  = Ok (laid_out mem (row_major_addr data d) n d).
Proof. exact @space_map_view. Qed.
Print Assumptions C71_space_map.

Theorem C71_space_map_two_arguments :
  forall (T : Type) (S : Scalar T) (mem : list T) (data : Z) (n d : nat),
  dim_ok d -> Z.of_nat n * Z.of_nat d < 2 ^ 64 ->
  in_memory mem (row_major_addr data d) n d ->
  view_space mem (space_map_traits (Z.of_nat d) (space_map_make (Z.of_nat d) data (Z.of_nat n)))
  = Ok (laid_out mem (row_major_addr data d) n d).
Proof. exact @space_map_view_fixed. Qed.
Print Assumptions C71_space_map_two_arguments.

(** A buffer with fewer scalars is read past its end. *)
Theorem C71_short_buffer_undefined :
  forall (T : Type) (mem : list T) (dim data : Z) (n d : nat),
  dim_ok d -> dim_says dim d -> Z.of_nat n * Z.of_nat d < 2 ^ 64 -> (1 <= n)%nat ->
  Z.of_nat (length mem) < data + Z.of_nat n * Z.of_nat d ->
  exists w, view_space mem (space_map_traits dim (space_map_make_sdim dim data (Z.of_nat n) (Z.of_nat d))) = Ub w.
Proof. exact @space_map_short. Qed.
Print Assumptions C71_short_buffer_undefined.

Theorem C71_array_of_points :
  forall (T : Type) (S : Scalar T) (mem : list T) (data stride member : Z) (n d : nat),
  dim_ok d -> in_memory mem (fun i j => data + Z.of_nat i * stride + member + Z.of_nat j) n d ->
  view_space mem (array_traits (Z.of_nat d) data (Z.of_nat n) stride member)
  = Ok (laid_out mem (fun i j => data + Z.of_nat i * stride + member + Z.of_nat j) n d).
Proof. exact @array_view. Qed.
Print Assumptions C71_array_of_points.

Theorem C71_matrix_space :
  forall (T : Type) (S : Scalar T) (mem : list T) (dim : Z) (n d : nat),
  dim_ok d -> dim_says dim d -> Z.of_nat n * Z.of_nat d < 2 ^ 64 ->
  Z.of_nat (length mem) = matrix_space_elems dim (Z.of_nat n) (Z.of_nat d) ->
  view_space mem (matrix_space_traits dim (Z.of_nat n) (Z.of_nat d))
  = Ok (laid_out mem (row_major_addr 0 d) n d).
Proof. exact @matrix_space_view. Qed.
Print Assumptions C71_matrix_space.

Theorem C71_nearest_in_array :
  forall (T : Type) (S : Scalar T) (val : T -> Q), exact_laws S val ->
  forall alg : std_algos, std_laws alg ->
  forall (em : exact_metric) (mem : list T) (dim qdim data qdata : Z) (n d : nat)
    (it : index_type) (fuel : nat) (stop : stop_condition) (bnds : start_bounds T) (ru : rule) (tree : kd_tree T),
  dim_ok d -> dim_says dim d -> dim_says qdim d -> Z.of_nat n * Z.of_nat d < 2 ^ 64 ->
  in_memory mem (row_major_addr data d) n d -> in_memory mem (row_major_addr qdata d) 1 d ->
  kd_tree_over alg it (metric_of em) fuel mem
    (space_map_traits dim (space_map_make_sdim dim data (Z.of_nat n) (Z.of_nat d))) stop bnds ru = Ok tree ->
  usable val em (laid_out mem (row_major_addr data d) n d) bnds (coords_at mem (row_major_addr qdata d 0) d) ->
  (forall i, (i < n)%nat ->
    (mem_dist val em mem d (row_major_addr qdata d 0) (row_major_addr data d i) < val s_max)%Q) ->
  forall nn0 : neighbor T,
  exists i x, search_nn_at mem tree (point_map_traits qdim (map_make_size qdim qdata (Z.of_nat d))) nn0
              = Ok (Neighbor i x)
    /\ (val x == mem_dist val em mem d (row_major_addr qdata d 0) (row_major_addr data d i))%Q
    /\ is_nearest n (fun i => mem_dist val em mem d (row_major_addr qdata d 0) (row_major_addr data d i)) i.
Proof. exact @search_space_map. Qed.
Print Assumptions C71_nearest_in_array.

(** The seven points of [ex_sp] after one other scalar, and then a query. *)
Definition flat_mem : list Q := (9 :: concat (sp_pts ex_sp) ++ [3; 3])%Q.

Example C71_example : exists data, let tree := KdTree ex_sp metric_l2_squared data in
  dim_ok 2 /\ dim_says 2 2 /\ dim_says dynamic_extent 2
  /\ in_memory flat_mem (row_major_addr 1 2) 7 2 /\ in_memory flat_mem (row_major_addr 15 2) 1 2
  /\ laid_out flat_mem (row_major_addr 1 2) 7 2 = ex_sp
  /\ coords_at flat_mem (row_major_addr 15 2 0) 2 = [3; 3]%Q
  /\ usable qv L2Squared ex_sp bounds_from_space [3; 3]%Q
  /\ kd_tree_over std_example it_int metric_l2_squared 9 flat_mem
       (space_map_traits 2 (space_map_make_sdim 2 1 7 2)) (max_leaf_size 2) bounds_from_space
       sliding_midpoint_max_side = Ok tree
  /\ search_nn_at flat_mem tree (point_map_traits dynamic_extent (map_make_size dynamic_extent 15 2))
       (Neighbor 9 0%Q) = Ok (Neighbor 3 2%Q).
Proof.
  eexists. cbv zeta. split; [split; [lia|vm_compute; reflexivity]|]. split; [left; reflexivity|]. split; [right; reflexivity|].
  split; [intros i j Hi Hj; unfold row_major_addr; change (length flat_mem) with 17%nat; lia|].
  split; [intros i j Hi Hj; unfold row_major_addr; change (length flat_mem) with 17%nat; lia|].
  split; [vm_compute; reflexivity|]. split; [vm_compute; reflexivity|]. split; [apply ex_usable_l2; reflexivity|].
  split; [apply over_ok; vm_compute; reflexivity|]. vm_compute. reflexivity.
Qed.

(** Query points: the three constructors of point_map. *)
Theorem C71_point_map :
  forall (T : Type) (S : Scalar T) (mem : list T) (data : Z) (d : nat),
  dim_ok d -> (forall j, (j < d)%nat -> 0 <= data + Z.of_nat j < Z.of_nat (length mem)) ->
  let coords := Ok (coords_at mem (fun j => data + Z.of_nat j) d) in
  view_point mem (point_map_traits (Z.of_nat d) (map_make (Z.of_nat d) data)) = coords
  /\ (forall dim, dim_says dim d ->
       view_point mem (point_map_traits dim (map_make_size dim data (Z.of_nat d))) = coords
       /\ view_point mem (point_map_traits dim (map_make_range dim data (data + Z.of_nat d))) = coords).
Proof. exact @point_map_constructors. Qed.
Print Assumptions C71_point_map.

Example C71_point_example :
  dim_ok 2 /\ dim_says (2 ^ 64 - 1) 2
  /\ view_point (map inject_Z [7; 8; 9]) (point_map_traits (2 ^ 64 - 1) (map_make_range (2 ^ 64 - 1) 1 3))
     = Ok (map inject_Z [8; 9]).
Proof. repeat split; try (right; reflexivity); try lia; vm_compute; reflexivity. Qed.

(** ** C72: dimensions that contradict or are missing *)

(** Two arguments, but the dimension is only known at run time. *)
Theorem C72_missing_dimension :
  forall (T : Type) (mem : list T) (data n : Z),
  0 <= data -> 1 <= n -> Z.of_nat (length mem) < 2 ^ 64 - 1 ->
  let t := space_map_traits (2 ^ 64 - 1) (space_map_make (2 ^ 64 - 1) data n) in
  st_sdim t = 2 ^ 64 - 1 /\ exists w, view_space mem t = Ub w.
Proof. exact @space_map_without_sdim. Qed.
Print Assumptions C72_missing_dimension.

(** A dimension known at compile time wins over the one given at run time. *)
Theorem C72_fixed_extent :
  forall dim data size sdim b e : Z, dim <> 2 ^ 64 - 1 ->
  pt_size (point_map_traits dim (map_make_size dim data size)) = dim
  /\ pt_size (point_map_traits dim (map_make_range dim b e)) = dim
  /\ st_sdim (space_map_traits dim (space_map_make_sdim dim data size sdim)) = dim.
Proof. exact fixed_extent_wins. Qed.
Print Assumptions C72_fixed_extent.

Theorem C72_refuted :
  ~ (forall dim data n sdim, 1 <= sdim < dynamic_extent ->
       st_sdim (space_map_traits dim (space_map_make_sdim dim data n sdim)) = sdim).
Proof. exact space_map_sdim_refuted. Qed.
Print Assumptions C72_refuted.

Theorem C72_range_refuted :
  ~ (forall dim b e, 0 <= b < e -> known_or dim (pt_size (point_map_traits dim (map_make_range dim b e))) = e - b).
Proof. exact point_map_range_refuted. Qed.
Print Assumptions C72_range_refuted.

(** Four points of three coordinates in twelve scalars: taken as points of two.
    A query made of a range of two scalars: read as three. *)
Example C72_example :
  view_space (map inject_Z [0; 1; 2; 3; 4; 5; 6; 7; 8; 9; 10; 11])
    (space_map_traits 2 (space_map_make_sdim 2 0 4 3))
  = Ok (Space 2 (map (map inject_Z) [[0; 1]; [2; 3]; [4; 5]; [6; 7]]))
  /\ view_point (map inject_Z [0; 1]) (point_map_traits 3 (map_make_range 3 0 2)) = Ub UbIndex
  /\ st_sdim (space_map_traits dynamic_extent (space_map_make dynamic_extent 0 4)) = 18446744073709551615.
Proof. repeat split; vm_compute; reflexivity. Qed.

(** ** C73: Eigen *)
Theorem C73_eigen_space :
  forall (T : Type) (S : Scalar T) (mem : list T) (e : eigen),
  eigen_ok e -> eg_inner e = 1 -> (1 <= eigen_sdim e)%nat ->
  in_memory mem (eigen_addr e) (eigen_npts e) (eigen_sdim e) ->
  view_space mem (eigen_space_traits e) = Ok (laid_out mem (eigen_addr e) (eigen_npts e) (eigen_sdim e)).
Proof. exact @eigen_view. Qed.
Print Assumptions C73_eigen_space.

Theorem C73_eigen_point :
  forall (T : Type) (S : Scalar T) (mem : list T) (e : eigen),
  eigen_vec_ok e -> eg_inner e = 1 -> (1 <= eigen_vec_size e)%nat ->
  (forall j, (j < eigen_vec_size e)%nat -> 0 <= eigen_vec_addr e j < Z.of_nat (length mem)) ->
  view_point mem (eigen_point_traits e) = Ok (coords_at mem (eigen_vec_addr e) (eigen_vec_size e)).
Proof. exact @eigen_point_view. Qed.
Print Assumptions C73_eigen_point.

Theorem C73_matrix :
  forall (row_major : bool) (ct_rows ct_cols rows cols data : Z),
  ct_rows = -1 \/ ct_rows = rows -> ct_cols = -1 \/ ct_cols = cols -> 0 <= rows -> 0 <= cols ->
  let m := eigen_matrix row_major ct_rows ct_cols rows cols data in
  eigen_ok m /\ eg_inner m = 1
  /\ (forall r c, 0 <= r < rows -> 0 <= c < cols ->
       eigen_coeff m r c = data + (if row_major then r * cols + c else c * rows + r))
  /\ (ct_rows = 1 \/ ct_cols = 1 ->
       eigen_vec_ok m /\ eigen_vec_size m = Z.to_nat (rows * cols)
       /\ forall j, eigen_vec_addr m j = data + Z.of_nat j)
  /\ (ct_rows <> 1 -> ct_cols <> 1 ->
       eigen_npts m = Z.to_nat (if row_major then rows else cols)
       /\ eigen_sdim m = Z.to_nat (if row_major then cols else rows)).
Proof. exact eigen_matrix_layout. Qed.
Print Assumptions C73_matrix.

Theorem C73_column_query :
  forall (T : Type) (S : Scalar T) (mem : list T) (e : eigen) (i : nat),
  eigen_ok e -> eg_inner e = 1 -> (1 <= eigen_sdim e)%nat -> (i < eigen_npts e)%nat ->
  in_memory mem (eigen_addr e) (eigen_npts e) (eigen_sdim e) ->
  let p := eigen_panel e (Z.of_nat i) in
  eigen_vec_ok p /\ eg_inner p = 1 /\ eigen_vec_size p = eigen_sdim e
  /\ (forall j, eigen_vec_addr p j = eigen_addr e i j)
  /\ view_point mem (eigen_point_traits p) = Ok (coords_at mem (eigen_addr e i) (eigen_sdim e)).
Proof. exact @eigen_panel_point. Qed.
Print Assumptions C73_column_query.

Theorem C73_nearest_column :
  forall (T : Type) (S : Scalar T) (val : T -> Q), exact_laws S val ->
  forall alg : std_algos, std_laws alg ->
  forall (em : exact_metric) (mem : list T) (e q : eigen)
    (it : index_type) (fuel : nat) (stop : stop_condition) (bnds : start_bounds T) (ru : rule) (tree : kd_tree T),
  eigen_ok e -> eg_inner e = 1 -> (1 <= eigen_sdim e)%nat ->
  in_memory mem (eigen_addr e) (eigen_npts e) (eigen_sdim e) ->
  eigen_vec_ok q -> eg_inner q = 1 -> eigen_vec_size q = eigen_sdim e ->
  in_memory mem (fun _ => eigen_vec_addr q) 1 (eigen_vec_size q) ->
  kd_tree_over alg it (metric_of em) fuel mem (eigen_space_traits e) stop bnds ru = Ok tree ->
  usable val em (laid_out mem (eigen_addr e) (eigen_npts e) (eigen_sdim e)) bnds
    (coords_at mem (eigen_vec_addr q) (eigen_sdim e)) ->
  (forall i, (i < eigen_npts e)%nat ->
    (mem_dist val em mem (eigen_sdim e) (eigen_vec_addr q) (eigen_addr e i) < val s_max)%Q) ->
  forall nn0 : neighbor T,
  exists i x, search_nn_at mem tree (eigen_point_traits q) nn0 = Ok (Neighbor i x)
    /\ (val x == mem_dist val em mem (eigen_sdim e) (eigen_vec_addr q) (eigen_addr e i))%Q
    /\ is_nearest (eigen_npts e)
         (fun i => mem_dist val em mem (eigen_sdim e) (eigen_vec_addr q) (eigen_addr e i)) i.
Proof. exact @search_eigen. Qed.
Print Assumptions C73_nearest_column.

(** The points of [ex_sp] as the columns of a Matrix2Xd; every column takes three
    scalars (an outer stride, as for a block of a larger matrix). *)
Definition wide_mem : list Q := (concat (map (fun p => p ++ [50]) (sp_pts ex_sp)) ++ [3; 3])%Q.
Definition wide : eigen := EigenExpr false 2 (-1) 2 7 0 1 3.
Definition wide_query : eigen := eigen_matrix false 2 1 2 1 21.

Example C73_example : exists data, let tree := KdTree ex_sp metric_l2_squared data in
  eigen_ok wide /\ in_memory wide_mem (eigen_addr wide) (eigen_npts wide) (eigen_sdim wide)
  /\ laid_out wide_mem (eigen_addr wide) (eigen_npts wide) (eigen_sdim wide) = ex_sp
  /\ eigen_vec_ok wide_query /\ eg_inner wide_query = 1 /\ eigen_vec_size wide_query = eigen_sdim wide
  /\ coords_at wide_mem (eigen_vec_addr wide_query) (eigen_sdim wide) = [3; 3]%Q
  /\ kd_tree_over std_example it_int metric_l2_squared 9 wide_mem (eigen_space_traits wide) (max_leaf_size 2)
       bounds_from_space sliding_midpoint_max_side = Ok tree
  /\ search_nn_at wide_mem tree (eigen_point_traits wide_query) (Neighbor 9 0%Q) = Ok (Neighbor 3 2%Q).
Proof.
  eexists. cbv zeta. split; [repeat split; cbn; auto; lia|].
  split; [intros i j Hi Hj; vm_compute in Hi, Hj; unfold eigen_addr, eigen_coeff; cbn; lia|].
  split; [vm_compute; reflexivity|]. split; [split; [repeat split; cbn; auto; lia|reflexivity]|].
  split; [reflexivity|]. split; [reflexivity|]. split; [vm_compute; reflexivity|].
  split; [apply over_ok; vm_compute; reflexivity|]. vm_compute. reflexivity.
Qed.

(** Point 3 of [wide] as the query. *)
Example C73_query_example :
  (3 < eigen_npts wide)%nat /\ eg_inner wide = 1
  /\ view_point wide_mem (eigen_point_traits (eigen_panel wide 3)) = Ok [2; 2]%Q
  /\ eigen_coeff (eigen_matrix true (-1) 3 4 3 5) 2 1 = 12.
Proof. repeat split; vm_compute; try reflexivity. repeat constructor. Qed.

(** ** C74: Eigen expressions that compile but are not read as what they are *)
Theorem C74_inner_stride_refuted :
  ~ (forall (mem : list Q) (e : eigen), eigen_ok e -> (1 <= eg_inner e) -> (1 <= eigen_sdim e)%nat ->
       in_memory mem (eigen_addr e) (eigen_npts e) (eigen_sdim e) ->
       view_space mem (eigen_space_traits e) = Ok (laid_out mem (eigen_addr e) (eigen_npts e) (eigen_sdim e))).
Proof. exact eigen_stride_refuted. Qed.
Print Assumptions C74_inner_stride_refuted.

Theorem C74_row_query_refuted :
  ~ (forall (mem : list Q) (e : eigen) (r : Z), eigen_ok e -> 0 <= r < (if eg_row_major e then eg_cols e else eg_rows e) ->
       in_memory mem (eigen_addr e) (eigen_npts e) (eigen_sdim e) ->
       eigen_vec_ok (eigen_cross e r) ->
       view_point mem (eigen_point_traits (eigen_cross e r))
       = Ok (coords_at mem (eigen_vec_addr (eigen_cross e r)) (eigen_vec_size (eigen_cross e r)))).
Proof. exact eigen_row_query_refuted. Qed.
Print Assumptions C74_row_query_refuted.

Theorem C74_row_query_reads :
  forall (T : Type) (S : Scalar T) (mem : list T) (e : eigen) (r : nat),
  eigen_ok e -> (r < eigen_sdim e)%nat -> (1 <= eigen_npts e)%nat ->
  (forall j, (j < eigen_npts e)%nat -> 0 <= eigen_addr e 0 r + Z.of_nat j < Z.of_nat (length mem)) ->
  let p := eigen_cross e (Z.of_nat r) in
  eigen_vec_ok p /\ eg_inner p = eg_outer e /\ eigen_vec_size p = eigen_npts e
  /\ (forall j, eigen_vec_addr p j = eigen_addr e j r)
  /\ view_point mem (eigen_point_traits p)
     = Ok (coords_at mem (fun j => eigen_addr e 0 r + Z.of_nat j) (eigen_npts e)).
Proof. exact @eigen_cross_point. Qed.
Print Assumptions C74_row_query_reads.

(** A matrix with one row or one column at compile time is always one point,
    whatever its storage order: [n] points with one coordinate cannot be given
    by Matrix<Scalar, 1, Dynamic> or Matrix<Scalar, Dynamic, 1>. *)
Theorem C74_single_is_one_point :
  forall (row_major : bool) (ct n data : Z),
  ct <> 1 -> ct = -1 \/ ct = n -> 0 <= n ->
  let row := eigen_space_traits (eigen_matrix row_major 1 ct 1 n data) in
  let col := eigen_space_traits (eigen_matrix row_major ct 1 n 1 data) in
  (st_size row = 1 /\ known_or (st_dim row) (st_sdim row) = n)
  /\ (st_size col = 1 /\ known_or (st_dim col) (st_sdim col) = n).
Proof. exact eigen_single_is_one_point. Qed.
Print Assumptions C74_single_is_one_point.

(** The columns are (0, 0) and (5, 5), but the tree is built from (0, 9) and
    (5, 9).  The first row of the matrix with columns (1, 2, 3) and (4, 5, 6) is
    (1, 4), but (1, 2) is searched. *)
Example C74_example :
  laid_out strided_mem (eigen_addr strided) 2 2 = Space 2 (map (map inject_Z) [[0; 0]; [5; 5]])
  /\ view_space strided_mem (eigen_space_traits strided) = Ok (Space 2 (map (map inject_Z) [[0; 9]; [5; 9]]))
  /\ coords_at row_mem (eigen_vec_addr (eigen_cross row_matrix 0)) 2 = map inject_Z [1; 4]
  /\ view_point row_mem (eigen_point_traits (eigen_cross row_matrix 0)) = Ok (map inject_Z [1; 2])
  /\ view_space row_mem (eigen_space_traits (eigen_matrix false 1 (-1) 1 6 0))
     = Ok (Space 6 [map inject_Z [1; 2; 3; 4; 5; 6]]).
Proof. repeat split; vm_compute; reflexivity. Qed.

Example C74_row_example :
  eigen_ok row_matrix /\ (0 < eigen_sdim row_matrix)%nat /\ eigen_npts row_matrix = 2%nat
  /\ (forall j, (j < 2)%nat -> 0 <= eigen_addr row_matrix 0 0 + Z.of_nat j < Z.of_nat (length row_mem)).
Proof.
  split; [unfold eigen_ok; cbn; repeat split; auto; lia|]. split; [vm_compute; repeat constructor|].
  split; [reflexivity|]. intros j Hj. cbn. lia.
Qed.

(** ** C75: OpenCV *)
Theorem C75_opencv_space :
  forall (T : Type) (S : Scalar T) (mem : list T) (dim : Z) (m : cv_mat),
  cv_ok m -> cv_continuous m -> dim_ok (cv_width m) -> dim_says dim (cv_width m) ->
  in_memory mem (cv_addr m) (Z.to_nat (cv_rows m)) (cv_width m) ->
  view_space mem (opencv_traits dim m) = Ok (laid_out mem (cv_addr m) (Z.to_nat (cv_rows m)) (cv_width m)).
Proof. exact @opencv_view. Qed.
Print Assumptions C75_opencv_space.

Theorem C75_nearest_row :
  forall (T : Type) (S : Scalar T) (val : T -> Q), exact_laws S val ->
  forall alg : std_algos, std_laws alg ->
  forall (em : exact_metric) (mem : list T) (dim qdim qdata : Z) (m : cv_mat)
    (it : index_type) (fuel : nat) (stop : stop_condition) (bnds : start_bounds T) (ru : rule) (tree : kd_tree T),
  cv_ok m -> cv_continuous m -> dim_ok (cv_width m) -> dim_says dim (cv_width m) -> dim_says qdim (cv_width m) ->
  in_memory mem (cv_addr m) (Z.to_nat (cv_rows m)) (cv_width m) ->
  in_memory mem (row_major_addr qdata (cv_width m)) 1 (cv_width m) ->
  kd_tree_over alg it (metric_of em) fuel mem (opencv_traits dim m) stop bnds ru = Ok tree ->
  usable val em (laid_out mem (cv_addr m) (Z.to_nat (cv_rows m)) (cv_width m)) bnds
    (coords_at mem (row_major_addr qdata (cv_width m) 0) (cv_width m)) ->
  (forall i, (i < Z.to_nat (cv_rows m))%nat ->
    (mem_dist val em mem (cv_width m) (row_major_addr qdata (cv_width m) 0) (cv_addr m i) < val s_max)%Q) ->
  forall nn0 : neighbor T,
  exists i x, search_nn_at mem tree (point_map_traits qdim (map_make_size qdim qdata (Z.of_nat (cv_width m)))) nn0
              = Ok (Neighbor i x)
    /\ (val x == mem_dist val em mem (cv_width m) (row_major_addr qdata (cv_width m) 0) (cv_addr m i))%Q
    /\ is_nearest (Z.to_nat (cv_rows m))
         (fun i => mem_dist val em mem (cv_width m) (row_major_addr qdata (cv_width m) 0) (cv_addr m i)) i.
Proof. exact @search_opencv. Qed.
Print Assumptions C75_nearest_row.

(** Seven rows of one column with two channels. *)
Definition channels : cv_mat := CvMat 7 1 2 1 2.

Example C75_example : exists data, let tree := KdTree ex_sp metric_l2_squared data in
  cv_ok channels /\ cv_continuous channels /\ dim_ok (cv_width channels) /\ dim_says 2 (cv_width channels)
  /\ in_memory flat_mem (cv_addr channels) 7 2
  /\ laid_out flat_mem (cv_addr channels) 7 2 = ex_sp
  /\ kd_tree_over std_example it_int metric_l2_squared 9 flat_mem (opencv_traits 2 channels) (max_leaf_size 2)
       bounds_from_space sliding_midpoint_max_side = Ok tree
  /\ search_nn_at flat_mem tree (point_map_traits 2 (map_make_size 2 15 2)) (Neighbor 9 0%Q) = Ok (Neighbor 3 2%Q).
Proof.
  eexists. cbv zeta. split; [repeat split; cbn; lia|]. split; [reflexivity|].
  split; [split; [vm_compute; lia|vm_compute; reflexivity]|]. split; [left; reflexivity|].
  split; [intros i j Hi Hj; unfold cv_addr; change (length flat_mem) with 17%nat; cbn [channels cv_ptr cv_step1]; lia|]. split; [vm_compute; reflexivity|].
  split; [apply over_ok; vm_compute; reflexivity|]. vm_compute. reflexivity.
Qed.

(** ** C76: a part of a cv::Mat *)
Theorem C76_refuted : forall dim, dim = 2 \/ dim = dynamic_extent ->
  ~ (forall (mem : list Q) (m : cv_mat),
       cv_ok m -> dim_ok (cv_width m) -> dim_says dim (cv_width m) ->
       in_memory mem (cv_addr m) (Z.to_nat (cv_rows m)) (cv_width m) ->
       view_space mem (opencv_traits dim m) = Ok (laid_out mem (cv_addr m) (Z.to_nat (cv_rows m)) (cv_width m))).
Proof. exact opencv_roi_refuted. Qed.
Print Assumptions C76_refuted.

(** Rows (0, 0), (10, 0), (20, 0): with Dim = 2 the tree sees (0, 0), (100, 10),
    (0, 100), with a run-time dimension it sees points of three coordinates. *)
Example C76_example :
  laid_out roi_mem (cv_addr roi) 3 2 = Space 2 (map (map inject_Z) [[0; 0]; [10; 0]; [20; 0]])
  /\ view_space roi_mem (opencv_traits 2 roi) = Ok (Space 2 (map (map inject_Z) [[0; 0]; [100; 10]; [0; 100]]))
  /\ view_space roi_mem (opencv_traits dynamic_extent roi)
     = Ok (Space 3 (map (map inject_Z) [[0; 0; 100]; [10; 0; 100]; [20; 0; 100]])).
Proof. repeat split; vm_compute; reflexivity. Qed.

(** ** C77: dimension known at compile time or at run time *)
Theorem C77_dynamic_space :
  forall (T : Type) (mem : list T) (t : space_traits),
  st_dim t = st_sdim t \/ st_dim t = dynamic_extent ->
  view_space mem (dynamic_space_traits t) = view_space mem t.
Proof. exact @dynamic_space_view. Qed.
Print Assumptions C77_dynamic_space.

Theorem C77_same_tree :
  forall (T : Type) (S : Scalar T) (alg : std_algos) (it : index_type) (m : metric T) (fuel : nat) (mem : list T)
    (data : Z) (n d : nat) (stop : stop_condition) (bnds : start_bounds T) (ru : rule),
  dim_ok d -> Z.of_nat n * Z.of_nat d < 2 ^ 64 -> in_memory mem (row_major_addr data d) n d ->
  kd_tree_over alg it m fuel mem
    (space_map_traits dynamic_extent (space_map_make_sdim dynamic_extent data (Z.of_nat n) (Z.of_nat d))) stop bnds ru
  = kd_tree_over alg it m fuel mem
    (space_map_traits (Z.of_nat d) (space_map_make (Z.of_nat d) data (Z.of_nat n))) stop bnds ru.
Proof. exact @same_tree. Qed.
Print Assumptions C77_same_tree.

Example C77_example : exists data, let tree := KdTree ex_sp metric_l2_squared data in
  view_space flat_mem (dynamic_space_traits (space_map_traits 2 (space_map_make 2 1 7))) = Ok ex_sp
  /\ kd_tree_over std_example it_int metric_l2_squared 9 flat_mem
       (space_map_traits dynamic_extent (space_map_make_sdim dynamic_extent 1 7 2)) (max_leaf_size 2)
       bounds_from_space sliding_midpoint_max_side = Ok tree
  /\ kd_tree_over std_example it_int metric_l2_squared 9 flat_mem
       (space_map_traits 2 (space_map_make 2 1 7)) (max_leaf_size 2) bounds_from_space sliding_midpoint_max_side
     = Ok tree.
Proof.
  eexists. cbv zeta. split; [vm_compute; reflexivity|].
  split; apply over_ok; vm_compute; reflexivity.
Qed.
