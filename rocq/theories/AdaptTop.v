(** Searches over points in memory, and cases in which the adaptors see other
    points than the container holds. *)
From Coq Require Import List ZArith QArith Bool Arith Lia.
From Verif Require Import Base ModelBox ModelBuild ModelSearch Spec ModelAdapt SpecAdapt Instances Examples
  AdaptThms TopThms.
Import ListNotations.
Local Open Scope Z_scope.

Section Search.
Context {T : Type} {S : Scalar T} (val : T -> Q) (EX : exact_laws S val).
Variables (alg : std_algos) (SL : std_laws alg).

Lemma laid_out_dist (em : exact_metric) (mem : list T) (addr : nat -> nat -> Z) (qaddr : nat -> Z) (n d i : nat) :
  (i < n)%nat ->
  dist_to val em (laid_out mem addr n d) (coords_at mem qaddr d) i = mem_dist val em mem d qaddr (addr i).
Proof.
  intros Hi. unfold dist_to, mem_dist, laid_out. cbn [sp_pts]. do 2 f_equal. unfold tab at 1.
  rewrite nth_indep with (d' := tab d (fun j => get mem (Z.to_nat (addr 0%nat j)))) by (rewrite map_length, seq_length; lia).
  rewrite (map_nth (fun i => tab d (fun j => get mem (Z.to_nat (addr i j))))), seq_nth by lia. reflexivity.
Qed.

Lemma laid_out_npts (mem : list T) addr n d : npts (laid_out mem addr n d) = n.
Proof. unfold npts, laid_out, tab. cbn. rewrite map_length, seq_length. reflexivity. Qed.

Theorem search_in_memory (em : exact_metric) (mem : list T) (st : space_traits) (pt : point_traits)
    (addr : nat -> nat -> Z) (qaddr : nat -> Z) (n d : nat)
    (it : index_type) (fuel : nat) (stop : stop_condition) (bnds : start_bounds T) (ru : rule) (tree : kd_tree T) :
  view_space mem st = Ok (laid_out mem addr n d) -> view_point mem pt = Ok (coords_at mem qaddr d) ->
  kd_tree_over alg it (metric_of em) fuel mem st stop bnds ru = Ok tree ->
  usable val em (laid_out mem addr n d) bnds (coords_at mem qaddr d) ->
  (forall i, (i < n)%nat -> (mem_dist val em mem d qaddr (addr i) < val s_max)%Q) ->
  forall nn0 : neighbor T,
  exists i x, search_nn_at mem tree pt nn0 = Ok (Neighbor i x)
    /\ (val x == mem_dist val em mem d qaddr (addr i))%Q
    /\ is_nearest n (fun i => mem_dist val em mem d qaddr (addr i)) i.
Proof.
  intros Hv Hp Hk Hu Hf nn0. unfold kd_tree_over in Hk. rewrite Hv in Hk. cbn [bind] in Hk.
  unfold search_nn_at. rewrite Hp. cbn [bind].
  assert (Hfit : distances_fit val em (laid_out mem addr n d) (coords_at mem qaddr d)).
  { intros i Hi. assert (Hi' : (i < n)%nat) by (rewrite <- (laid_out_npts mem addr n d); exact Hi).
    rewrite laid_out_dist by exact Hi'. apply Hf, Hi'. }
  destruct (@top_nn T S val EX em _ alg SL it fuel stop bnds ru tree _ Hk Hu Hfit nn0) as (i & x & E & Hx & Hn).
  assert (Hi : (i < n)%nat) by (rewrite <- (laid_out_npts mem addr n d); exact (proj1 Hn)).
  exists i, x. split; [exact E|]. rewrite laid_out_dist in Hx by exact Hi. split; [exact Hx|].
  destruct Hn as [H1 H2]. rewrite laid_out_npts in H2. split; [exact Hi|].
  intros j Hj. specialize (H2 j Hj). rewrite !laid_out_dist in H2 by assumption. exact H2.
Qed.

Theorem search_space_map (em : exact_metric) (mem : list T) (dim qdim data qdata : Z) (n d : nat)
    (it : index_type) (fuel : nat) (stop : stop_condition) (bnds : start_bounds T) (ru : rule) (tree : kd_tree T) :
  dim_ok d -> dim_says dim d -> dim_says qdim d -> Z.of_nat n * Z.of_nat d < 2 ^ 64 ->
  in_memory mem (row_major_addr data d) n d -> in_memory mem (row_major_addr qdata d) 1 d ->
  kd_tree_over alg it (metric_of em) fuel mem
    (space_map_traits dim (space_map_make_sdim dim data (Z.of_nat n) (Z.of_nat d))) stop bnds ru = Ok tree ->
  usable val em (laid_out mem (row_major_addr data d) n d) bnds (coords_at mem (row_major_addr qdata d 0) d) ->
  (forall i, (i < n)%nat ->
    (mem_dist val em mem d (row_major_addr qdata d 0) (row_major_addr data d i) < val s_max)%Q) ->
  forall nn0 : neighbor T,
  exists i x, search_nn_at mem tree (point_map_traits qdim (map_make_size qdim qdata (Z.of_nat d))) nn0
              = Ok (Neighbor i x)
    /\ (val x == mem_dist val em mem d (row_major_addr qdata d 0) (row_major_addr data d i))%Q
    /\ is_nearest n (fun i => mem_dist val em mem d (row_major_addr qdata d 0) (row_major_addr data d i)) i.
Proof.
  intros Hd Hs Hq Hsz Hm Hqm. apply search_in_memory.
  - apply space_map_view; auto.
  - rewrite point_map_view; auto.
    + f_equal. unfold coords_at, tab. apply map_ext. intros j. do 2 f_equal. unfold row_major_addr. lia.
    + intros j Hj. specialize (Hqm 0%nat j ltac:(lia) Hj). unfold row_major_addr in Hqm. lia.
Qed.

Theorem search_eigen (em : exact_metric) (mem : list T) (e q : eigen)
    (it : index_type) (fuel : nat) (stop : stop_condition) (bnds : start_bounds T) (ru : rule) (tree : kd_tree T) :
  eigen_ok e -> eg_inner e = 1 -> (1 <= eigen_sdim e)%nat ->
  in_memory mem (eigen_addr e) (eigen_npts e) (eigen_sdim e) ->
  eigen_vec_ok q -> eg_inner q = 1 -> eigen_vec_size q = eigen_sdim e ->
  in_memory mem (fun _ => eigen_vec_addr q) 1 (eigen_vec_size q) ->
  kd_tree_over alg it (metric_of em) fuel mem (eigen_space_traits e) stop bnds ru = Ok tree ->
  usable val em (laid_out mem (eigen_addr e) (eigen_npts e) (eigen_sdim e)) bnds
    (coords_at mem (eigen_vec_addr q) (eigen_sdim e)) ->
  (forall i, (i < eigen_npts e)%nat ->
    (mem_dist val em mem (eigen_sdim e) (eigen_vec_addr q) (eigen_addr e i) < val s_max)%Q) ->
  forall nn0 : neighbor T,
  exists i x, search_nn_at mem tree (eigen_point_traits q) nn0 = Ok (Neighbor i x)
    /\ (val x == mem_dist val em mem (eigen_sdim e) (eigen_vec_addr q) (eigen_addr e i))%Q
    /\ is_nearest (eigen_npts e)
         (fun i => mem_dist val em mem (eigen_sdim e) (eigen_vec_addr q) (eigen_addr e i)) i.
Proof.
  intros He Hi Hd Hm Hq Hqi Hqd Hqm. apply search_in_memory.
  - apply eigen_view; auto.
  - rewrite <- Hqd. apply eigen_point_view; auto; [lia|]. intros j Hj. apply (Hqm 0%nat j); auto.
Qed.

Theorem search_opencv (em : exact_metric) (mem : list T) (dim qdim qdata : Z) (m : cv_mat)
    (it : index_type) (fuel : nat) (stop : stop_condition) (bnds : start_bounds T) (ru : rule) (tree : kd_tree T) :
  cv_ok m -> cv_continuous m -> dim_ok (cv_width m) -> dim_says dim (cv_width m) -> dim_says qdim (cv_width m) ->
  in_memory mem (cv_addr m) (Z.to_nat (cv_rows m)) (cv_width m) ->
  in_memory mem (row_major_addr qdata (cv_width m)) 1 (cv_width m) ->
  kd_tree_over alg it (metric_of em) fuel mem (opencv_traits dim m) stop bnds ru = Ok tree ->
  usable val em (laid_out mem (cv_addr m) (Z.to_nat (cv_rows m)) (cv_width m)) bnds
    (coords_at mem (row_major_addr qdata (cv_width m) 0) (cv_width m)) ->
  (forall i, (i < Z.to_nat (cv_rows m))%nat ->
    (mem_dist val em mem (cv_width m) (row_major_addr qdata (cv_width m) 0) (cv_addr m i) < val s_max)%Q) ->
  forall nn0 : neighbor T,
  exists i x, search_nn_at mem tree (point_map_traits qdim (map_make_size qdim qdata (Z.of_nat (cv_width m)))) nn0
              = Ok (Neighbor i x)
    /\ (val x == mem_dist val em mem (cv_width m) (row_major_addr qdata (cv_width m) 0) (cv_addr m i))%Q
    /\ is_nearest (Z.to_nat (cv_rows m))
         (fun i => mem_dist val em mem (cv_width m) (row_major_addr qdata (cv_width m) 0) (cv_addr m i)) i.
Proof.
  intros Hc Hcc Hd Hs Hq Hm Hqm. apply search_in_memory.
  - apply opencv_view; auto.
  - rewrite point_map_view; auto.
    + f_equal. unfold coords_at, tab. apply map_ext. intros j. do 2 f_equal. unfold row_major_addr. lia.
    + intros j Hj. specialize (Hqm 0%nat j ltac:(lia) Hj). unfold row_major_addr in Hqm. lia.
Qed.
End Search.

Theorem same_tree {T} {S : Scalar T} (alg : std_algos) (it : index_type) (m : metric T) (fuel : nat) (mem : list T)
    (data : Z) (n d : nat) (stop : stop_condition) (bnds : start_bounds T) (ru : rule) :
  dim_ok d -> Z.of_nat n * Z.of_nat d < 2 ^ 64 -> in_memory mem (row_major_addr data d) n d ->
  kd_tree_over alg it m fuel mem
    (space_map_traits dynamic_extent (space_map_make_sdim dynamic_extent data (Z.of_nat n) (Z.of_nat d))) stop bnds ru
  = kd_tree_over alg it m fuel mem
    (space_map_traits (Z.of_nat d) (space_map_make (Z.of_nat d) data (Z.of_nat n))) stop bnds ru.
Proof.
  intros Hd Hs Hm. unfold kd_tree_over. rewrite space_map_view, space_map_view_fixed; auto. right. reflexivity.
Qed.

(** * What does not work *)

(** The two-argument constructor of a space_map with a run-time dimension. *)
Theorem space_map_without_sdim {T} (mem : list T) (data n : Z) :
  0 <= data -> 1 <= n -> Z.of_nat (length mem) < 2 ^ 64 - 1 ->
  let t := space_map_traits (2 ^ 64 - 1) (space_map_make (2 ^ 64 - 1) data n) in
  st_sdim t = 2 ^ 64 - 1 /\ exists w, view_space mem t = Ub w.
Proof.
  intros Hd Hn Hl. cbv zeta. split; [reflexivity|].
  apply (view_short_ub mem _ dynamic_extent 0); try reflexivity; [cbn; lia|].
  cbn [space_map_traits st_point]. unfold space_map_point. rewrite ms_data_make.
  unfold space_map_data, size_mul. change (sm_data _) with data. cbn [Z.of_nat]. rewrite Z.mul_0_l, Zmod_0_l. unfold dynamic_extent. lia.
Qed.

Theorem fixed_extent_wins : forall dim data size sdim b e : Z, dim <> 2 ^ 64 - 1 ->
  pt_size (point_map_traits dim (map_make_size dim data size)) = dim
  /\ pt_size (point_map_traits dim (map_make_range dim b e)) = dim
  /\ st_sdim (space_map_traits dim (space_map_make_sdim dim data size sdim)) = dim.
Proof.
  intros dim data size sdim b e H. unfold map_make_size, map_make_range, space_map_make_sdim, map_storage_make, space_map_storage.
  destruct (Z.eqb_spec dim dynamic_extent) as [E|_]; [elim H; exact E|]. repeat split; reflexivity.
Qed.

Lemma space_map_sdim_refuted :
  ~ (forall dim data n sdim, 1 <= sdim < dynamic_extent ->
       st_sdim (space_map_traits dim (space_map_make_sdim dim data n sdim)) = sdim).
Proof. intros H. specialize (H 2 0 4 3). assert (E : 1 <= 3 < dynamic_extent) by (split; vm_compute; congruence).
  specialize (H E). vm_compute in H. discriminate. Qed.

Lemma point_map_range_refuted :
  ~ (forall dim b e, 0 <= b < e -> known_or dim (pt_size (point_map_traits dim (map_make_range dim b e))) = e - b).
Proof. intros H. specialize (H 3 0 2). vm_compute in H. assert (E : 3 = 2) by (apply H; split; congruence). discriminate. Qed.

(** ** Eigen *)
(** Every second column of a 2 by 4 matrix, transposed view: inner stride 2. *)
Definition strided_mem : list Q := map inject_Z [0; 9; 0; 9;  5; 9; 5; 9;  1; 1].
Definition strided : eigen := EigenExpr false (-1) (-1) 2 2 0 2 4.

Lemma eigen_stride_refuted :
  ~ (forall (mem : list Q) (e : eigen), eigen_ok e -> (1 <= eg_inner e) -> (1 <= eigen_sdim e)%nat ->
       in_memory mem (eigen_addr e) (eigen_npts e) (eigen_sdim e) ->
       view_space mem (eigen_space_traits e) = Ok (laid_out mem (eigen_addr e) (eigen_npts e) (eigen_sdim e))).
Proof.
  intros H. specialize (H strided_mem strided).
  assert (E : eigen_ok strided) by (repeat split; cbn; auto; lia).
  specialize (H E ltac:(cbn; lia) ltac:(cbn; lia)).
  assert (M : in_memory strided_mem (eigen_addr strided) (eigen_npts strided) (eigen_sdim strided)).
  { intros i j Hi Hj. vm_compute in Hi, Hj. unfold eigen_addr, eigen_coeff. cbn. lia. }
  specialize (H M). vm_compute in H. discriminate.
Qed.

(** Row 0 of a 3 by 2 column-major matrix as a query. *)
Definition row_mem : list Q := map inject_Z [1; 2; 3; 4; 5; 6].
Definition row_matrix : eigen := eigen_matrix false (-1) (-1) 3 2 0.

Lemma eigen_row_query_refuted :
  ~ (forall (mem : list Q) (e : eigen) (r : Z), eigen_ok e -> 0 <= r < (if eg_row_major e then eg_cols e else eg_rows e) ->
       in_memory mem (eigen_addr e) (eigen_npts e) (eigen_sdim e) ->
       eigen_vec_ok (eigen_cross e r) ->
       view_point mem (eigen_point_traits (eigen_cross e r))
       = Ok (coords_at mem (eigen_vec_addr (eigen_cross e r)) (eigen_vec_size (eigen_cross e r)))).
Proof.
  intros H. specialize (H row_mem row_matrix 0).
  assert (E : eigen_ok row_matrix) by (repeat split; cbn; auto; lia).
  specialize (H E ltac:(cbn; lia)).
  assert (M : in_memory row_mem (eigen_addr row_matrix) (eigen_npts row_matrix) (eigen_sdim row_matrix)).
  { intros i j Hi Hj. vm_compute in Hi, Hj. unfold eigen_addr, eigen_coeff. cbn. lia. }
  specialize (H M).
  assert (V : eigen_vec_ok (eigen_cross row_matrix 0)) by (split; [repeat split; cbn; auto; lia|reflexivity]).
  specialize (H V). vm_compute in H. discriminate.
Qed.

(** Matrices with one row or one column at compile time are one point. *)
Theorem eigen_single_is_one_point (row_major : bool) (ct n data : Z) :
  ct <> 1 -> ct = -1 \/ ct = n -> 0 <= n ->
  let row := eigen_space_traits (eigen_matrix row_major 1 ct 1 n data) in
  let col := eigen_space_traits (eigen_matrix row_major ct 1 n 1 data) in
  (st_size row = 1 /\ known_or (st_dim row) (st_sdim row) = n)
  /\ (st_size col = 1 /\ known_or (st_dim col) (st_sdim col) = n).
Proof.
  intros H1 H2 H3. cbv zeta. unfold eigen_matrix.
  assert (E : (ct =? 1) = false) by (apply Z.eqb_neq; exact H1). rewrite E. cbn.
  split; split; auto using eigen_known.
Qed.

(** ** OpenCV *)
Definition roi_mem : list Q := map inject_Z [0; 0; 100;  10; 0; 100;  20; 0; 100].
(** Columns 0 and 1 of a 3 by 3 matrix. *)
Definition roi : cv_mat := CvMat 3 2 1 0 3.

Lemma roi_in_memory : in_memory roi_mem (cv_addr roi) 3 2.
Proof. intros i j Hi Hj. unfold cv_addr. cbn. lia. Qed.

Lemma opencv_roi_refuted : forall dim, dim = 2 \/ dim = dynamic_extent ->
  ~ (forall (mem : list Q) (m : cv_mat),
       cv_ok m -> dim_ok (cv_width m) -> dim_says dim (cv_width m) ->
       in_memory mem (cv_addr m) (Z.to_nat (cv_rows m)) (cv_width m) ->
       view_space mem (opencv_traits dim m) = Ok (laid_out mem (cv_addr m) (Z.to_nat (cv_rows m)) (cv_width m))).
Proof.
  intros dim Hdim H. specialize (H roi_mem roi).
  assert (E : cv_ok roi) by (repeat split; cbn; lia).
  assert (D : dim_ok (cv_width roi)) by (split; [cbn; lia|vm_compute; reflexivity]).
  assert (Sy : dim_says dim (cv_width roi)) by (destruct Hdim as [->| ->]; [left|right]; reflexivity).
  specialize (H E D Sy roi_in_memory).
  destruct Hdim as [->| ->]; vm_compute in H; discriminate.
Qed.

Lemma over_ok {T} {S : Scalar T} alg it m fuel (mem : list T) st (sp : space T) stop bnds ru data :
  view_space mem st = Ok sp -> build (m_cat m) alg it fuel sp stop bnds ru = Ok data ->
  kd_tree_over alg it m fuel mem st stop bnds ru = Ok (KdTree sp m data).
Proof. intros E1 E2. unfold kd_tree_over. rewrite E1. apply make_ok, E2. Qed.

(** ** Points *)
Section Points.
Context {T : Type} {S : Scalar T}.

Theorem point_map_constructors (mem : list T) (data : Z) (d : nat) :
  dim_ok d -> (forall j, (j < d)%nat -> 0 <= data + Z.of_nat j < Z.of_nat (length mem)) ->
  let coords := Ok (coords_at mem (fun j => data + Z.of_nat j) d) in
  view_point mem (point_map_traits (Z.of_nat d) (map_make (Z.of_nat d) data)) = coords
  /\ (forall dim, dim_says dim d ->
       view_point mem (point_map_traits dim (map_make_size dim data (Z.of_nat d))) = coords
       /\ view_point mem (point_map_traits dim (map_make_range dim data (data + Z.of_nat d))) = coords).
Proof.
  intros Hd H. cbv zeta. split.
  - exact (point_map_view mem (Z.of_nat d) data d Hd (or_introl eq_refl) H).
  - intros dim Hs. split; [exact (point_map_view mem dim data d Hd Hs H)|].
    unfold map_make_range. replace (data + Z.of_nat d - data) with (Z.of_nat d) by lia.
    exact (point_map_view mem dim data d Hd Hs H).
Qed.

(** A column (row) of a matrix as a query. *)
Theorem eigen_panel_point (mem : list T) (e : eigen) (i : nat) :
  eigen_ok e -> eg_inner e = 1 -> (1 <= eigen_sdim e)%nat -> (i < eigen_npts e)%nat ->
  in_memory mem (eigen_addr e) (eigen_npts e) (eigen_sdim e) ->
  let p := eigen_panel e (Z.of_nat i) in
  eigen_vec_ok p /\ eg_inner p = 1 /\ eigen_vec_size p = eigen_sdim e
  /\ (forall j, eigen_vec_addr p j = eigen_addr e i j)
  /\ view_point mem (eigen_point_traits p) = Ok (coords_at mem (eigen_addr e i) (eigen_sdim e)).
Proof.
  intros (Hr & Hc & Hr0 & Hc0) Hin Hs Hi HM p.
  assert (Hok : eigen_vec_ok p).
  { subst p. unfold eigen_vec_ok, eigen_ok, eigen_is_vector, eigen_panel. destruct (eg_row_major e); cbn; repeat split; auto; lia. }
  assert (Hinn : eg_inner p = 1) by (subst p; unfold eigen_panel; destruct (eg_row_major e); exact Hin).
  assert (Hsz : eigen_vec_size p = eigen_sdim e).
  { subst p. unfold eigen_vec_size, eigen_sdim, eigen_panel. destruct (eg_row_major e); reflexivity. }
  assert (Had : forall j, eigen_vec_addr p j = eigen_addr e i j).
  { intros j. subst p. unfold eigen_vec_addr, eigen_addr, eigen_coeff, eigen_panel.
    destruct (eg_row_major e) eqn:E; cbn; lia. }
  repeat (split; [assumption|]).
  rewrite eigen_point_view; auto; [|rewrite Hsz; exact Hs|rewrite Hsz; intros j Hj; rewrite Had; apply HM; auto].
  rewrite Hsz. f_equal. unfold coords_at, tab. apply map_ext. intros j. rewrite Had. reflexivity.
Qed.

(** A row (column): the r-th coordinates of all points; consecutive scalars are
    read instead. *)
Theorem eigen_cross_point (mem : list T) (e : eigen) (r : nat) :
  eigen_ok e -> (r < eigen_sdim e)%nat -> (1 <= eigen_npts e)%nat ->
  (forall j, (j < eigen_npts e)%nat -> 0 <= eigen_addr e 0 r + Z.of_nat j < Z.of_nat (length mem)) ->
  let p := eigen_cross e (Z.of_nat r) in
  eigen_vec_ok p /\ eg_inner p = eg_outer e /\ eigen_vec_size p = eigen_npts e
  /\ (forall j, eigen_vec_addr p j = eigen_addr e j r)
  /\ view_point mem (eigen_point_traits p)
     = Ok (coords_at mem (fun j => eigen_addr e 0 r + Z.of_nat j) (eigen_npts e)).
Proof.
  intros (Hr & Hc & Hr0 & Hc0) Hrr Hn HM p.
  assert (Hok : eigen_vec_ok p).
  { subst p. unfold eigen_vec_ok, eigen_ok, eigen_is_vector, eigen_cross. destruct (eg_row_major e); cbn; repeat split; auto; lia. }
  assert (Hsz : eigen_vec_size p = eigen_npts e).
  { subst p. unfold eigen_vec_size, eigen_npts, eigen_cross. destruct (eg_row_major e); reflexivity. }
  assert (Had : forall j, eigen_vec_addr p j = eigen_addr e j r).
  { intros j. subst p. unfold eigen_vec_addr, eigen_addr, eigen_coeff, eigen_cross.
    destruct (eg_row_major e) eqn:E; cbn; lia. }
  split; [exact Hok|]. split; [subst p; unfold eigen_cross; destruct (eg_row_major e); reflexivity|].
  repeat (split; [assumption|]).
  unfold view_point, eigen_point_traits. cbn [pt_data pt_dim pt_size]. rewrite (eigen_vec_ones p Hok).
  assert (Hd : eg_data p = eigen_addr e 0 r).
  { rewrite <- Had. subst p. unfold eigen_vec_addr, eigen_coeff, eigen_cross. destruct (eg_row_major e); cbn; lia. }
  assert (Hk : known_or (eigen_dim (eigen_vector_dim p)) (if eg_row_major p then eg_cols p else eg_rows p)
    = Z.of_nat (eigen_npts e)).
  { rewrite <- Hsz. unfold eigen_vec_size. destruct Hok as ((Hr' & Hc' & Hr0' & Hc0') & _).
    unfold eigen_vector_dim. destruct (eg_row_major p); rewrite eigen_known by auto; lia. }
  rewrite Hk, Hd. apply read_ok; auto.
Qed.

(** Matrices with a fixed or run-time number of rows and columns. *)
Theorem eigen_matrix_layout (row_major : bool) (ct_rows ct_cols rows cols data : Z) :
  ct_rows = -1 \/ ct_rows = rows -> ct_cols = -1 \/ ct_cols = cols -> 0 <= rows -> 0 <= cols ->
  let m := eigen_matrix row_major ct_rows ct_cols rows cols data in
  eigen_ok m /\ eg_inner m = 1
  /\ (forall r c, 0 <= r < rows -> 0 <= c < cols ->
       eigen_coeff m r c = data + (if row_major then r * cols + c else c * rows + r))
  /\ (ct_rows = 1 \/ ct_cols = 1 ->
       eigen_vec_ok m /\ eigen_vec_size m = Z.to_nat (rows * cols)
       /\ forall j, eigen_vec_addr m j = data + Z.of_nat j)
  /\ (ct_rows <> 1 -> ct_cols <> 1 ->
       eigen_npts m = Z.to_nat (if row_major then rows else cols)
       /\ eigen_sdim m = Z.to_nat (if row_major then cols else rows)).
Proof.
  intros Hr Hc H0 H1 m.
  assert (Hok : eigen_ok m) by (subst m; unfold eigen_ok, eigen_matrix; cbn; auto).
  split; [exact Hok|]. split; [reflexivity|]. split; [|split].
  - intros r c Hr' Hc'. subst m. unfold eigen_coeff, eigen_matrix. cbn.
    destruct (Z.eqb_spec ct_rows 1); destruct (Z.eqb_spec ct_cols 1); cbn;
      destruct row_major; nia.
  - intros H. split; [split; [exact Hok|]|split].
    + subst m. unfold eigen_is_vector, eigen_matrix. cbn.
      destruct (Z.eqb_spec ct_rows 1); destruct (Z.eqb_spec ct_cols 1); cbn; destruct row_major; auto; lia.
    + subst m. unfold eigen_vec_size, eigen_matrix. cbn.
      destruct (Z.eqb_spec ct_rows 1); destruct (Z.eqb_spec ct_cols 1); cbn; destruct row_major; f_equal; nia.
    + intros j. subst m. unfold eigen_vec_addr, eigen_coeff, eigen_matrix. cbn.
      destruct (Z.eqb_spec ct_rows 1); destruct (Z.eqb_spec ct_cols 1); cbn; destruct row_major; lia.
  - intros N1 N2. subst m. unfold eigen_npts, eigen_sdim, eigen_matrix. cbn.
    rewrite (proj2 (Z.eqb_neq _ _) N1), (proj2 (Z.eqb_neq _ _) N2). cbn. destruct row_major; auto.
Qed.
End Points.
