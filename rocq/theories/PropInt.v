(** Properties of trees over machine integers, C102-C109. *)
From Coq Require Import List ZArith QArith Bool Arith Permutation Sorted Lia.
From Verif Require Import Base ModelBox ModelBuild ModelSearch ModelInt Spec SpecInt Instances BuildThms IntTop IntEx IntWrap Examples.
Import ListNotations.
Local Open Scope nat_scope.

(** ** C102: signed integers, as long as nothing overflows *)
Theorem C102_construction_terminates :
  forall (lo hi : Z) (ovf : Z -> Z) (B : Z),
  (lo < - (2 * B))%Z -> (lo < 0)%Z -> (2 * B <= hi)%Z -> (1 <= hi)%Z ->
  forall sp : space Z, wf_space sp -> all_coords (int_within B) sp ->
  forall alg : std_algos, std_laws alg ->
  forall (c : category) (it : index_type) (stop : stop_condition) (bnds : start_bounds Z) (ru : rule),
  bounds_coords (int_within B) sp bnds -> ru <> midpoint_max_side -> index_type_ok it -> stop_fits it stop ->
  sp_pts sp <> [] -> (Z.of_nat (npts sp) <= it_max it)%Z ->
  exists t, forall fuel, npts sp <= fuel ->
    @build Z (Int_scalar lo hi ovf) c alg it fuel sp stop bnds ru = Ok t.
Proof. exact int_build. Qed.
Print Assumptions C102_construction_terminates.

Theorem C102_nearest_neighbour :
  forall (lo hi : Z) (ovf : Z -> Z) (B : Z) (em : exact_metric) (sp : space Z) (bnds : start_bounds Z),
  int_tree lo hi B em sp bnds ->
  forall alg : std_algos, std_laws alg ->
  forall (it : index_type) (fuel : nat) (stop : stop_condition) (ru : rule) (tree : kd_tree Z) (q : list Z),
  @kd_tree_make Z (Int_scalar lo hi ovf) alg it (@metric_of Z (Int_scalar lo hi ovf) em) fuel sp stop bnds ru = Ok tree ->
  int_query B sp q ->
  forall nn0, exists i d, @search_nn Z (Int_scalar lo hi ovf) tree q nn0 = Ok (Neighbor i d)
    /\ (inject_Z d == dist_to inject_Z em sp q i)%Q
    /\ is_nearest (npts sp) (dist_to inject_Z em sp q) i.
Proof. exact int_nn. Qed.
Print Assumptions C102_nearest_neighbour.

Theorem C102_k_nearest_neighbours :
  forall (lo hi : Z) (ovf : Z -> Z) (B : Z) (em : exact_metric) (sp : space Z) (bnds : start_bounds Z),
  int_tree lo hi B em sp bnds ->
  forall alg : std_algos, std_laws alg ->
  forall (it : index_type) (fuel : nat) (stop : stop_condition) (ru : rule) (tree : kd_tree Z) (q : list Z),
  @kd_tree_make Z (Int_scalar lo hi ovf) alg it (@metric_of Z (Int_scalar lo hi ovf) em) fuel sp stop bnds ru = Ok tree ->
  int_query B sp q ->
  forall k knn0, 0 < k ->
  exists out, @search_knn Z (Int_scalar lo hi ovf) tree q k knn0 = Ok out
    /\ knn_answer (npts sp) k (dist_to inject_Z em sp q) (answers inject_Z out).
Proof. exact int_knn. Qed.
Print Assumptions C102_k_nearest_neighbours.

Theorem C102_radius :
  forall (lo hi : Z) (ovf : Z -> Z) (B : Z) (em : exact_metric) (sp : space Z) (bnds : start_bounds Z),
  int_tree lo hi B em sp bnds ->
  forall alg : std_algos, std_laws alg ->
  forall (it : index_type) (fuel : nat) (stop : stop_condition) (ru : rule) (tree : kd_tree Z) (q : list Z),
  @kd_tree_make Z (Int_scalar lo hi ovf) alg it (@metric_of Z (Int_scalar lo hi ovf) em) fuel sp stop bnds ru = Ok tree ->
  int_query B sp q ->
  forall (r : Z) (sort : bool), exists l, @search_radius Z (Int_scalar lo hi ovf) alg tree q r sort = Ok l
    /\ filter_answer (npts sp) (fun i => (dist_to inject_Z em sp q i < inject_Z r)%Q) (dist_to inject_Z em sp q)
         (answers inject_Z l)
    /\ (sort = true -> StronglySorted Qle (map (fun x => inject_Z (n_distance x)) l)).
Proof. exact int_radius. Qed.
Print Assumptions C102_radius.

(** Any visitor sees the same points, in the same order, with the same distances,
    as with whole numbers of unlimited size. *)
Theorem C102_visitor :
  forall (lo hi : Z) (ovf : Z -> Z) (B : Z) (em : exact_metric) (sp : space Z) (bnds : start_bounds Z),
  int_tree lo hi B em sp bnds ->
  forall alg : std_algos, std_laws alg ->
  forall (it : index_type) (fuel : nat) (stop : stop_condition) (ru : rule) (tree : kd_tree Z) (q : list Z),
  @kd_tree_make Z (Int_scalar lo hi ovf) alg it (@metric_of Z (Int_scalar lo hi ovf) em) fuel sp stop bnds ru = Ok tree ->
  int_query B sp q ->
  exists twin,
    @kd_tree_make Z (Int_scalar lo hi (fun x => x)) alg it (@metric_of Z (Int_scalar lo hi (fun x => x)) em)
      fuel sp stop bnds ru = Ok twin
    /\ forall (V : Type) (vis : visitor Z V) (v0 : V),
       @search_nearest Z (Int_scalar lo hi ovf) V tree vis q v0
       = @search_nearest Z (Int_scalar lo hi (fun x => x)) V twin vis q v0.
Proof. exact int_visitor. Qed.
Print Assumptions C102_visitor.

(** Six points of int; two of them coincide. *)
Example C102_example : int_tree (- 2 ^ 31) (2 ^ 31 - 1) 100 L2Squared int_points bounds_from_space
  /\ int_query 100 int_points [3; -2]%Z
  /\ exists data, let t := KdTree int_points (@metric_l2_squared Z I32) data in
     @kd_tree_make Z I32 std_example it_int (@metric_l2_squared Z I32) 9 int_points (max_leaf_size 1) bounds_from_space
       sliding_midpoint_max_side = Ok t
     /\ @search_nn Z I32 t [3; -2]%Z (Neighbor 9 0%Z) = Ok (Neighbor 1 13%Z)
     /\ @search_radius Z I32 std_example t [3; -2]%Z 18%Z true
        = Ok [Neighbor 1 13%Z; Neighbor 4 17%Z; Neighbor 3 17%Z].
Proof.
  split; [exact int_points_tree|]. split; [split; [reflexivity|repeat constructor; unfold int_within; lia]|].
  eexists. cbv zeta. split; [apply (make_ok (S := I32)); vm_compute; reflexivity|]. split; vm_compute; reflexivity.
Qed.

(** ** C103: box searches are right for every integer type *)
Theorem C103_box_search :
  forall (lo hi : Z) (ovf : Z -> Z), (lo <= 0)%Z -> (0 <= hi)%Z ->
  forall sp : space Z, wf_space sp -> all_coords (int_value lo hi) sp ->
  forall alg : std_algos, std_laws alg ->
  forall (m : metric Z) (it : index_type) (fuel : nat) (stop : stop_condition) (bnds : start_bounds Z) (ru : rule)
    (tree : kd_tree Z) (mn mx : list Z),
  @kd_tree_make Z (Int_scalar lo hi ovf) alg it m fuel sp stop bnds ru = Ok tree ->
  bounds_coords (int_value lo hi) sp bnds -> @bounds_enclose Z (Int_scalar lo hi ovf) sp bnds ->
  length mn = sp_sdim sp -> length mx = sp_sdim sp ->
  Forall (int_value lo hi) mn -> Forall (int_value lo hi) mx -> m_cat m = Euclidean ->
  exists ans, @search_box Z (Int_scalar lo hi ovf) tree mn mx = Ok ans
    /\ index_answer (length (sp_pts sp)) (fun i => @inside Z (Int_scalar lo hi ovf) mn mx (nth i (sp_pts sp) [])) ans.
Proof. exact int_box. Qed.
Print Assumptions C103_box_search.

(** Unsigned points; and int points as far apart as possible, where the side of
    the bounding box overflows. *)
Example C103_example :
  (exists data, let t := KdTree unsigned_points (@metric_l2_squared Z U32) data in
     @kd_tree_make Z U32 std_example it_int (@metric_l2_squared Z U32) 9 unsigned_points (max_leaf_size 1)
       bounds_from_space median_max_side = Ok t
     /\ @search_box Z U32 t [20; 0]%Z [40; 25]%Z = Ok [2; 3])
  /\ exists data, let t := KdTree (Space 1 [[- 2 ^ 31]; [2 ^ 31 - 1]; [5]]%Z) (@metric_l2_squared Z I32) data in
     @kd_tree_make Z I32 std_example it_int (@metric_l2_squared Z I32) 9 (Space 1 [[- 2 ^ 31]; [2 ^ 31 - 1]; [5]]%Z)
       (max_leaf_size 1) bounds_from_space median_max_side = Ok t
     /\ @search_box Z I32 t [0]%Z [2 ^ 31 - 1]%Z = Ok [2; 1].
Proof.
  split; eexists; cbv zeta.
  - split; [apply (make_ok (S := U32)); vm_compute; reflexivity|]. vm_compute. reflexivity.
  - split; [apply (make_ok (S := I32)); vm_compute; reflexivity|]. vm_compute. reflexivity.
Qed.

(** ** C104: searches are right for all values of int *)
Definition C104_statement : Prop :=
  forall (sp : space Z) (alg : std_algos), std_laws alg ->
  forall (it : index_type) (fuel : nat) (stop : stop_condition) (ru : rule) (tree : kd_tree Z) (q : list Z),
  wf_space sp -> all_coords (int_value (- 2 ^ 31) (2 ^ 31 - 1)) sp ->
  length q = sp_sdim sp -> Forall (int_value (- 2 ^ 31) (2 ^ 31 - 1)) q ->
  @kd_tree_make Z I32 alg it (@metric_l2_squared Z I32) fuel sp stop bounds_from_space ru = Ok tree ->
  forall nn0, exists i d, @search_nn Z I32 tree q nn0 = Ok (Neighbor i d) /\ i < npts sp
    /\ forall j, j < npts sp -> (sq_dist q (nth i (sp_pts sp) []) <= sq_dist q (nth j (sp_pts sp) []))%Z.

(** The square of 65536 does not fit into 32 bits: the point at 65536 is reported
    instead of the point at 1. *)
Theorem C104_refuted : ~ C104_statement.
Proof. exact overflow_refuted. Qed.
Print Assumptions C104_refuted.

Example C104_example : exists data, let t := KdTree far_points (@metric_l2_squared Z I32) data in
  @kd_tree_make Z I32 std_example it_int (@metric_l2_squared Z I32) 9 far_points (max_leaf_size 2) bounds_from_space
    median_max_side = Ok t
  /\ @search_nn Z I32 t [0]%Z (Neighbor 9 0%Z) = Ok (Neighbor 1 0%Z)
  /\ sp_pts far_points = [[1]; [65536]]%Z.
Proof.
  eexists. cbv zeta. split; [apply (make_ok (S := I32)); vm_compute; reflexivity|]. split; vm_compute; reflexivity.
Qed.

(** What is reported instead, if overflow wraps around: a point and its squared
    distance modulo 2^bits. *)
Theorem C104_nn_genuine :
  forall bits : Z, (2 <= bits)%Z ->
  forall sp : space Z, wf_space sp -> all_coords (int_value (- 2 ^ (bits - 1)) (2 ^ (bits - 1) - 1)) sp ->
  forall alg : std_algos, std_laws alg ->
  forall (it : index_type) (fuel : nat) (stop : stop_condition) (bnds : start_bounds Z) (ru : rule) (tree : kd_tree Z),
  @kd_tree_make Z (Signed bits (wrap_signed bits)) alg it (@metric_l2_squared Z (Signed bits (wrap_signed bits)))
    fuel sp stop bnds ru = Ok tree ->
  bounds_coords (int_value (- 2 ^ (bits - 1)) (2 ^ (bits - 1) - 1)) sp bnds ->
  forall q : list Z, length q = sp_sdim sp ->
  forall nn0, exists r, @search_nn Z (Signed bits (wrap_signed bits)) tree q nn0 = Ok r
    /\ (r = Neighbor (n_index nn0) (2 ^ (bits - 1) - 1)%Z
        \/ (n_index r < npts sp /\ wraps_to bits (sq_dist q (nth (n_index r) (sp_pts sp) [])) (n_distance r))).
Proof. exact signed_nn. Qed.
Print Assumptions C104_nn_genuine.

Theorem C104_radius_genuine :
  forall bits : Z, (2 <= bits)%Z ->
  forall sp : space Z, wf_space sp -> all_coords (int_value (- 2 ^ (bits - 1)) (2 ^ (bits - 1) - 1)) sp ->
  forall alg : std_algos, std_laws alg ->
  forall (it : index_type) (fuel : nat) (stop : stop_condition) (bnds : start_bounds Z) (ru : rule) (tree : kd_tree Z),
  @kd_tree_make Z (Signed bits (wrap_signed bits)) alg it (@metric_l2_squared Z (Signed bits (wrap_signed bits)))
    fuel sp stop bnds ru = Ok tree ->
  bounds_coords (int_value (- 2 ^ (bits - 1)) (2 ^ (bits - 1) - 1)) sp bnds ->
  forall q : list Z, length q = sp_sdim sp ->
  forall r : Z, exists l, @search_radius Z (Signed bits (wrap_signed bits)) alg tree q r false = Ok l
    /\ NoDup (map n_index l)
    /\ forall n, In n l -> n_index n < npts sp /\ (n_distance n < r)%Z
         /\ wraps_to bits (sq_dist q (nth (n_index n) (sp_pts sp) [])) (n_distance n).
Proof. exact signed_radius. Qed.
Print Assumptions C104_radius_genuine.

(** A squared distance of 2500000000 is reported as 2500000000 - 2^32. *)
Example C104_genuine_example :
  wf_space far_points /\ all_coords (int_value (- 2 ^ 31) (2 ^ 31 - 1)) far_points
  /\ exists data, let t := KdTree far_points (@metric_l2_squared Z I32) data in
     @kd_tree_make Z I32 std_example it_int (@metric_l2_squared Z I32) 9 far_points (max_leaf_size 2) bounds_from_space
       median_max_side = Ok t
     /\ @search_nn Z I32 t [-49999]%Z (Neighbor 9 0%Z) = Ok (Neighbor 0 (2500000000 - 2 ^ 32)%Z)
     /\ sq_dist [-49999]%Z [1]%Z = 2500000000%Z.
Proof.
  split; [split; [cbn; lia|repeat constructor]|]. split; [repeat constructor; unfold int_value; lia|].
  eexists. cbv zeta. split; [apply (make_ok (S := I32)); vm_compute; reflexivity|]. split; vm_compute; reflexivity.
Qed.

(** ** C105: distances of unsigned points are right modulo 2^bits *)
Theorem C105_nn_genuine :
  forall bits : Z, (2 <= bits)%Z ->
  forall sp : space Z, wf_space sp -> all_coords (int_value 0 (2 ^ bits - 1)) sp ->
  forall alg : std_algos, std_laws alg ->
  forall (it : index_type) (fuel : nat) (stop : stop_condition) (bnds : start_bounds Z) (ru : rule) (tree : kd_tree Z),
  @kd_tree_make Z (Unsigned bits) alg it (@metric_l2_squared Z (Unsigned bits)) fuel sp stop bnds ru = Ok tree ->
  bounds_coords (int_value 0 (2 ^ bits - 1)) sp bnds ->
  forall q : list Z, length q = sp_sdim sp ->
  forall nn0, exists r, @search_nn Z (Unsigned bits) tree q nn0 = Ok r
    /\ (r = Neighbor (n_index nn0) (2 ^ bits - 1)%Z
        \/ (n_index r < npts sp /\ n_distance r = (sq_dist q (nth (n_index r) (sp_pts sp) []) mod 2 ^ bits)%Z)).
Proof. exact unsigned_nn. Qed.
Print Assumptions C105_nn_genuine.

Theorem C105_radius_genuine :
  forall bits : Z, (2 <= bits)%Z ->
  forall sp : space Z, wf_space sp -> all_coords (int_value 0 (2 ^ bits - 1)) sp ->
  forall alg : std_algos, std_laws alg ->
  forall (it : index_type) (fuel : nat) (stop : stop_condition) (bnds : start_bounds Z) (ru : rule) (tree : kd_tree Z),
  @kd_tree_make Z (Unsigned bits) alg it (@metric_l2_squared Z (Unsigned bits)) fuel sp stop bnds ru = Ok tree ->
  bounds_coords (int_value 0 (2 ^ bits - 1)) sp bnds ->
  forall q : list Z, length q = sp_sdim sp ->
  forall r : Z, exists l kept, @search_radius Z (Unsigned bits) alg tree q r false = Ok l
    /\ NoDup kept
    /\ (forall i, In i kept -> i < npts sp /\ (sq_dist q (nth i (sp_pts sp) []) mod 2 ^ bits < r)%Z)
    /\ l = map (fun i => Neighbor i (sq_dist q (nth i (sp_pts sp) []) mod 2 ^ bits)%Z) kept.
Proof. exact unsigned_radius. Qed.
Print Assumptions C105_radius_genuine.

Example C105_example : wf_space unsigned_points /\ all_coords (int_value 0 (2 ^ 32 - 1)) unsigned_points
  /\ exists data, let t := KdTree unsigned_points (@metric_l2_squared Z U32) data in
     @kd_tree_make Z U32 std_example it_int (@metric_l2_squared Z U32) 9 unsigned_points (max_leaf_size 1)
       bounds_from_space median_max_side = Ok t
     /\ @search_nn Z U32 t [30; 25]%Z (Neighbor 9 0%Z) = Ok (Neighbor 3 25%Z)
     /\ sq_dist [30; 25]%Z [30; 20]%Z = 25%Z.
Proof.
  split; [split; [cbn; lia|repeat constructor]|]. split; [repeat constructor; unfold int_value; lia|].
  eexists. cbv zeta. split; [apply (make_ok (S := U32)); vm_compute; reflexivity|]. split; vm_compute; reflexivity.
Qed.

(** ** C106: searches are right for unsigned points *)
Definition C106_nearest_statement : Prop :=
  forall (sp : space Z) (alg : std_algos), std_laws alg ->
  forall (it : index_type) (fuel : nat) (stop : stop_condition) (ru : rule) (tree : kd_tree Z) (q : list Z),
  wf_space sp -> all_coords (int_value 0 1000) sp -> length q = sp_sdim sp -> Forall (int_value 0 1000) q ->
  @kd_tree_make Z U32 alg it (@metric_l2_squared Z U32) fuel sp stop bounds_from_space ru = Ok tree ->
  forall nn0, exists i d, @search_nn Z U32 tree q nn0 = Ok (Neighbor i d) /\ i < npts sp
    /\ forall j, j < npts sp -> (sq_dist q (nth i (sp_pts sp) []) <= sq_dist q (nth j (sp_pts sp) []))%Z.

(** Even when all coordinates are at most 1000. *)
Theorem C106_nearest_refuted : ~ C106_nearest_statement.
Proof. exact unsigned_refuted. Qed.
Print Assumptions C106_nearest_refuted.

Definition C106_radius_statement : Prop :=
  forall (sp : space Z) (alg : std_algos), std_laws alg ->
  forall (it : index_type) (fuel : nat) (stop : stop_condition) (ru : rule) (tree : kd_tree Z) (q : list Z),
  wf_space sp -> all_coords (int_value 0 1000) sp -> length q = sp_sdim sp -> Forall (int_value 0 1000) q ->
  @kd_tree_make Z U32 alg it (@metric_l2_squared Z U32) fuel sp stop bounds_from_space ru = Ok tree ->
  forall r, (0 < r <= 1000)%Z -> exists l, @search_radius Z U32 alg tree q r false = Ok l
    /\ forall j, j < npts sp -> (sq_dist q (nth j (sp_pts sp) []) < r)%Z -> In j (map n_index l).

Theorem C106_radius_refuted : ~ C106_radius_statement.
Proof. exact unsigned_radius_refuted. Qed.
Print Assumptions C106_radius_refuted.

Example C106_example : exists data, let t := KdTree line_points (@metric_l2_squared Z U32) data in
  @kd_tree_make Z U32 std_example it_int (@metric_l2_squared Z U32) 9 line_points (max_leaf_size 1) bounds_from_space
    median_max_side = Ok t
  /\ @search_radius Z U32 std_example t [10]%Z 4%Z false = Ok []
  /\ sp_pts line_points = [[1]; [5]; [10]]%Z.
Proof.
  eexists. cbv zeta. split; [apply (make_ok (S := U32)); vm_compute; reflexivity|]. split; vm_compute; reflexivity.
Qed.

(** ** C107: trees over unsigned points *)

(** Construction succeeds when no more than max_leaf_size points coincide. *)
Theorem C107_construction_terminates :
  forall bits : Z, (1 <= bits)%Z ->
  forall sp : space Z, wf_space sp -> all_coords (int_value 0 (2 ^ bits - 1)) sp ->
  forall alg : std_algos, std_laws alg ->
  forall (c : category) (it : index_type) (m : Z) (bnds : start_bounds Z) (ru : rule),
  ru <> midpoint_max_side -> index_type_ok it -> (0 < m <= it_max it)%Z ->
  at_most_coincide m sp ->
  bounds_coords (int_value 0 (2 ^ bits - 1)) sp bnds -> @bounds_enclose Z (Unsigned bits) sp bnds ->
  sp_pts sp <> [] -> (Z.of_nat (npts sp) <= it_max it)%Z ->
  exists t, forall fuel, npts sp <= fuel -> @build Z (Unsigned bits) c alg it fuel sp (max_leaf_size m) bnds ru = Ok t.
Proof. exact unsigned_build. Qed.
Print Assumptions C107_construction_terminates.

(** When all points coincide and do not fit into a leaf, an uninitialised
    variable is used. *)
Theorem C107_coincident_points :
  forall bits : Z, (1 <= bits)%Z ->
  forall sp : space Z, wf_space sp -> all_coords (int_value 0 (2 ^ bits - 1)) sp ->
  forall alg : std_algos,
  forall (c : category) (it : index_type) (m : Z) (fuel : nat) (ru : rule) (p : list Z),
  index_type_ok it -> (0 < m <= it_max it)%Z ->
  (forall x, In x (sp_pts sp) -> x = p) -> (m < Z.of_nat (npts sp) <= it_max it)%Z ->
  @build Z (Unsigned bits) c alg it (S fuel) sp (max_leaf_size m) bounds_from_space ru = Ub UbUninit.
Proof. exact unsigned_coincide. Qed.
Print Assumptions C107_coincident_points.

Example C107_example : at_most_coincide 2 (Space 1 [[3]; [3]; [8]]%Z)
  /\ (forall x, In x (sp_pts (Space 1 [[3]; [3]]%Z)) -> x = [3]%Z)
  /\ (exists t, @build Z U32 Euclidean std_example it_int 9 (Space 1 [[3]; [3]; [8]]%Z) (max_leaf_size 2) bounds_from_space
       sliding_midpoint_max_side = Ok t)
  /\ @build Z U32 Euclidean std_example it_int 9 (Space 1 [[3]; [3]]%Z) (max_leaf_size 1) bounds_from_space
       sliding_midpoint_max_side = Ub UbUninit
  /\ exists t, @build Z I32 Euclidean std_example it_int 9 (Space 1 [[3]; [3]]%Z) (max_leaf_size 1) bounds_from_space
       sliding_midpoint_max_side = Ok t.
Proof.
  split; [exact two_coincide|]. split; [intros x [<-|[<-|[]]]; reflexivity|].
  split; [eexists; vm_compute; reflexivity|]. split; [vm_compute; reflexivity|eexists; vm_compute; reflexivity].
Qed.

(** ** C108: the midpoint rule with integers *)

(** It never makes a tree of more points than fit into a leaf ... *)
Theorem C108_never_a_tree :
  forall (lo hi : Z) (ovf : Z -> Z), (lo <= 0)%Z -> (0 <= hi)%Z ->
  forall sp : space Z, wf_space sp -> all_coords (int_value lo hi) sp ->
  forall alg : std_algos, std_laws alg ->
  forall (c : category) (it : index_type) (m : Z) (fuel : nat) (bnds : start_bounds Z) (t : kd_tree_data c Z),
  index_type_ok it -> (0 < m <= it_max it)%Z ->
  bounds_coords (int_value lo hi) sp bnds -> @bounds_enclose Z (Int_scalar lo hi ovf) sp bnds ->
  (m < Z.of_nat (npts sp))%Z ->
  @build Z (Int_scalar lo hi ovf) c alg it fuel sp (max_leaf_size m) bnds midpoint_max_side <> Ok t.
Proof. exact int_midpoint_never. Qed.
Print Assumptions C108_never_a_tree.

(** ... and recurses for ever when nothing overflows. *)
Theorem C108_endless :
  forall (lo hi : Z) (ovf : Z -> Z) (B : Z),
  (lo < - (2 * B))%Z -> (lo < 0)%Z -> (2 * B <= hi)%Z -> (1 <= hi)%Z ->
  forall sp : space Z, wf_space sp -> all_coords (int_within B) sp ->
  forall alg : std_algos, std_laws alg ->
  forall (c : category) (it : index_type) (m : Z) (fuel : nat) (bnds : start_bounds Z),
  index_type_ok it -> (0 < m <= it_max it)%Z ->
  bounds_coords (int_within B) sp bnds -> @bounds_enclose Z (Int_scalar lo hi ovf) sp bnds ->
  (m < Z.of_nat (npts sp) <= it_max it)%Z ->
  @build Z (Int_scalar lo hi ovf) c alg it fuel sp (max_leaf_size m) bnds midpoint_max_side = OutOfFuel.
Proof. exact int_midpoint_diverges. Qed.
Print Assumptions C108_endless.

Example C108_example : wf_space int_points /\ all_coords (int_within 100) int_points
  /\ @build Z I32 Euclidean std_example it_int 50 int_points (max_leaf_size 5) bounds_from_space midpoint_max_side
     = OutOfFuel
  /\ exists t, @build Z I32 Euclidean std_example it_int 1 int_points (max_leaf_size 6) bounds_from_space
     midpoint_max_side = Ok t.
Proof.
  split; [exact (itr_space _ _ _ _ _ _ int_points_tree)|]. split; [exact (itr_coords _ _ _ _ _ _ int_points_tree)|].
  split; [vm_compute; reflexivity|eexists; vm_compute; reflexivity].
Qed.

(** ** C109: approximate searches with integers *)
Definition C109_statement : Prop :=
  forall (B : Z) (sp : space Z) (bnds : start_bounds Z), int_tree (- 2 ^ 31) (2 ^ 31 - 1) B L2Squared sp bnds ->
  forall alg : std_algos, std_laws alg ->
  forall (it : index_type) (fuel : nat) (stop : stop_condition) (ru : rule) (tree : kd_tree Z) (q : list Z),
  @kd_tree_make Z I32 alg it (@metric_l2_squared Z I32) fuel sp stop bnds ru = Ok tree ->
  int_query B sp q ->
  forall (e : Z) nn0, (1 <= e < 2 ^ 31)%Z ->
  exists i d, @search_nn_approx Z I32 tree q e nn0 = Ok (Neighbor i d) /\ i < npts sp
    /\ forall j, j < npts sp -> (sq_dist q (nth i (sp_pts sp) []) <= e * sq_dist q (nth j (sp_pts sp) []))%Z.

(** 1 / e is 0. *)
Theorem C109_refuted : ~ C109_statement.
Proof. exact approximate_refuted. Qed.
Print Assumptions C109_refuted.

Theorem C109_radius_finds_nothing :
  forall (lo hi : Z) (ovf : Z -> Z), (lo <= 0)%Z -> (1 <= hi)%Z ->
  forall sp : space Z, wf_space sp -> all_coords (int_value lo hi) sp ->
  forall alg : std_algos, std_laws alg ->
  forall (m : metric Z) (it : index_type) (fuel : nat) (stop : stop_condition) (bnds : start_bounds Z) (ru : rule)
    (tree : kd_tree Z),
  @kd_tree_make Z (Int_scalar lo hi ovf) alg it m fuel sp stop bnds ru = Ok tree ->
  bounds_coords (int_value lo hi) sp bnds -> m_cat m = Euclidean ->
  forall q : list Z, length q = sp_sdim sp -> forall e : Z, (2 <= e)%Z ->
  forall (r : Z) (sort : bool), @search_radius_approx Z (Int_scalar lo hi ovf) alg tree q r e sort = Ok [].
Proof. exact approximate_radius_empty. Qed.
Print Assumptions C109_radius_finds_nothing.

Theorem C109_nn_reports_zero :
  forall (lo hi : Z) (ovf : Z -> Z), (lo <= 0)%Z -> (1 <= hi)%Z ->
  forall sp : space Z, wf_space sp -> all_coords (int_value lo hi) sp ->
  forall alg : std_algos, std_laws alg ->
  forall (m : metric Z) (it : index_type) (fuel : nat) (stop : stop_condition) (bnds : start_bounds Z) (ru : rule)
    (tree : kd_tree Z),
  @kd_tree_make Z (Int_scalar lo hi ovf) alg it m fuel sp stop bnds ru = Ok tree ->
  bounds_coords (int_value lo hi) sp bnds -> m_cat m = Euclidean ->
  forall q : list Z, length q = sp_sdim sp -> forall e : Z, (2 <= e)%Z ->
  forall nn0, exists r, @search_nn_approx Z (Int_scalar lo hi ovf) tree q e nn0 = Ok r
    /\ (r = Neighbor (n_index nn0) hi \/ (n_index r < length (sp_pts sp) /\ n_distance r = 0%Z)).
Proof. exact approximate_nn_zero. Qed.
Print Assumptions C109_nn_reports_zero.

Example C109_example : exists data, let t := KdTree int_points (@metric_l2_squared Z I32) data in
  @kd_tree_make Z I32 std_example it_int (@metric_l2_squared Z I32) 9 int_points (max_leaf_size 6) bounds_from_space
    sliding_midpoint_max_side = Ok t
  /\ @search_nn_approx Z I32 t [2; 1]%Z 2%Z (Neighbor 9 0%Z) = Ok (Neighbor 0 0%Z)
  /\ @search_nn Z I32 t [2; 1]%Z (Neighbor 9 0%Z) = Ok (Neighbor 3 1%Z)
  /\ @search_radius_approx Z I32 std_example t [2; 1]%Z 50%Z 2%Z false = Ok []
  /\ @search_radius_approx Z I32 std_example t [2; 1]%Z 2%Z 1%Z false = Ok [Neighbor 3 1%Z; Neighbor 4 1%Z].
Proof.
  eexists. cbv zeta. split; [apply (make_ok (S := I32)); vm_compute; reflexivity|]. repeat split; vm_compute; reflexivity.
Qed.
