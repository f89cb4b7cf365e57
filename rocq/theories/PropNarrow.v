(** Properties of searches over integers narrower than int, C149. *)
From Coq Require Import List ZArith QArith Bool Arith Permutation Sorted Lia.
From Verif Require Import Base ModelBox ModelBuild ModelSearch ModelInt ModelNarrow Spec SpecInt SpecNarrow Instances BuildThms
  IntEx NarrowThms NarrowEx Examples.
Import ListNotations.
Local Open Scope nat_scope.

(** ** C149: 8- and 16-bit integers, which C++ converts to int for arithmetic *)
Theorem C149_nearest_neighbour :
  forall (sgn : bool) (bits : Z) (iovf : Z -> Z) (a b : Z) (em : exact_metric) (sp : space Z)
    (bnds : start_bounds Z) (q : list Z),
  narrow_input sgn bits a b em sp bnds q ->
  forall alg : std_algos, std_laws alg ->
  forall (it : index_type) (fuel : nat) (stop : stop_condition) (ru : rule) (t : kd_tree_data Euclidean Z),
  ru <> midpoint_max_side ->
  let m := narrow_metric_of sgn bits iovf em in
  @kd_tree_make Z (Narrow sgn bits) alg it m fuel sp stop bnds ru = Ok (KdTree sp m t) ->
  forall nn0, exists i d, search_nn_narrow sgn bits iovf m sp t q nn0 = Ok (Neighbor i d)
    /\ (inject_Z d == dist_to inject_Z em sp q i)%Q
    /\ is_nearest (npts sp) (dist_to inject_Z em sp q) i.
Proof. exact narrow_nn. Qed.
Print Assumptions C149_nearest_neighbour.

Theorem C149_k_nearest :
  forall (sgn : bool) (bits : Z) (iovf : Z -> Z) (a b : Z) (em : exact_metric) (sp : space Z)
    (bnds : start_bounds Z) (q : list Z),
  narrow_input sgn bits a b em sp bnds q ->
  forall alg : std_algos, std_laws alg ->
  forall (it : index_type) (fuel : nat) (stop : stop_condition) (ru : rule) (t : kd_tree_data Euclidean Z),
  ru <> midpoint_max_side ->
  let m := narrow_metric_of sgn bits iovf em in
  @kd_tree_make Z (Narrow sgn bits) alg it m fuel sp stop bnds ru = Ok (KdTree sp m t) ->
  forall k knn0, 0 < k -> exists out, search_knn_narrow sgn bits iovf m sp t q k knn0 = Ok out
    /\ knn_answer (npts sp) k (dist_to inject_Z em sp q) (answers inject_Z out).
Proof. exact narrow_knn. Qed.
Print Assumptions C149_k_nearest.

Theorem C149_radius :
  forall (sgn : bool) (bits : Z) (iovf : Z -> Z) (a b : Z) (em : exact_metric) (sp : space Z)
    (bnds : start_bounds Z) (q : list Z),
  narrow_input sgn bits a b em sp bnds q ->
  forall alg : std_algos, std_laws alg ->
  forall (it : index_type) (fuel : nat) (stop : stop_condition) (ru : rule) (t : kd_tree_data Euclidean Z),
  ru <> midpoint_max_side ->
  let m := narrow_metric_of sgn bits iovf em in
  @kd_tree_make Z (Narrow sgn bits) alg it m fuel sp stop bnds ru = Ok (KdTree sp m t) ->
  forall r sort, exists l, search_radius_narrow sgn bits iovf alg m sp t q r sort = Ok l
    /\ filter_answer (npts sp) (fun i => (dist_to inject_Z em sp q i < inject_Z r)%Q) (dist_to inject_Z em sp q)
         (answers inject_Z l)
    /\ (sort = true -> StronglySorted Qle (map (fun x => inject_Z (n_distance x)) l)).
Proof. exact narrow_radius. Qed.
Print Assumptions C149_radius.

(** 8-bit points whose coordinates add up to more than 255; and the points that
    32-bit unsigned coordinates get wrong (C106_example). *)
Example C149_example : exists t, let m := narrow_metric_of false 8 id_ovf L2Squared in
  @kd_tree_make Z (Narrow false 8) std_example it_int m 9 high_points (max_leaf_size 1) bounds_from_space median_max_side
    = Ok (KdTree high_points m t)
  /\ narrow_input false 8 241 255 L2Squared high_points bounds_from_space [249]%Z
  /\ search_nn_narrow false 8 id_ovf m high_points t [249]%Z (Neighbor 9 0%Z) = Ok (Neighbor 2 1%Z)
  /\ search_knn_narrow false 8 id_ovf m high_points t [249]%Z 2 [] = Ok [Neighbor 2 1; Neighbor 1 16]%Z
  /\ search_radius_narrow false 8 id_ovf std_example m high_points t [255]%Z 26%Z true
     = Ok [Neighbor 3 0; Neighbor 2 25]%Z.
Proof.
  eexists. cbv zeta. split; [apply (make_ok (S := Narrow false 8)); vm_compute; reflexivity|].
  split; [apply high_input; lia|]. split; [|split]; vm_compute; reflexivity.
Qed.
Example C149_signed_example : exists t, let m := narrow_metric_of true 16 id_ovf L1 in
  @kd_tree_make Z (Narrow true 16) std_example it_int m 9 wide_points (max_leaf_size 1) bounds_from_space
    sliding_midpoint_max_side = Ok (KdTree wide_points m t)
  /\ narrow_input true 16 (-8000) 8000 L1 wide_points bounds_from_space [-8000; 8000]%Z
  /\ search_knn_narrow true 16 id_ovf m wide_points t [-8000; 8000]%Z 5 []
     = Ok [Neighbor 0 1000; Neighbor 2 16000; Neighbor 3 16017; Neighbor 4 16024; Neighbor 1 16500]%Z.
Proof.
  eexists. cbv zeta. split; [apply (make_ok (S := Narrow true 16)); vm_compute; reflexivity|].
  split; [apply wide_input|]. vm_compute; reflexivity.
Qed.
Example C149_line_example : exists t, let m := narrow_metric_of false 8 id_ovf L2Squared in
  @kd_tree_make Z (Narrow false 8) std_example it_int m 9 line_points (max_leaf_size 1) bounds_from_space median_max_side
    = Ok (KdTree line_points m t)
  /\ search_radius_narrow false 8 id_ovf std_example m line_points t [10]%Z 4%Z false = Ok [Neighbor 2 0%Z].
Proof.
  eexists. cbv zeta. split; [apply (make_ok (S := Narrow false 8)); vm_compute; reflexivity|]. vm_compute; reflexivity.
Qed.

(** ** Without room for the distances *)
Definition C149_no_room_statement : Prop :=
  forall (sp : space Z) (alg : std_algos), std_laws alg ->
  forall (it : index_type) (fuel : nat) (stop : stop_condition) (ru : rule) (t : kd_tree_data Euclidean Z) (q : list Z),
  wf_space sp -> all_coords (int_value 0 20) sp -> length q = sp_sdim sp -> Forall (int_value 0 20) q ->
  ru <> midpoint_max_side ->
  let m := narrow_metric_of false 8 id_ovf L2Squared in
  @kd_tree_make Z (Narrow false 8) alg it m fuel sp stop bounds_from_space ru = Ok (KdTree sp m t) ->
  forall nn0, exists i d, search_nn_narrow false 8 id_ovf m sp t q nn0 = Ok (Neighbor i d)
    /\ forall j, j < npts sp -> (sq_dist q (nth i (sp_pts sp) []) <= sq_dist q (nth j (sp_pts sp) []))%Z.

(** 8-bit coordinates of at most 20 are enough for a wrong neighbour. *)
Theorem C149_no_room_refuted : ~ C149_no_room_statement.
Proof. exact narrow_refuted. Qed.
Print Assumptions C149_no_room_refuted.

(** What is reported then: the distance modulo 2^bits, unless coordinates are so
    far apart that an int overflows. *)
Theorem C149_modulo :
  forall (sgn : bool) (bits : Z) (iovf : Z -> Z), (2 <= bits <= 16)%Z ->
  forall q p : list Z, length q = length p ->
  (forall k, k < length q -> (- 46340 <= nth k q 0 - nth k p 0 <= 46340)%Z) ->
  let d := m_dist (narrow_metric_of sgn bits iovf L2Squared) q p in
  (d mod 2 ^ bits = sq_dist q p mod 2 ^ bits)%Z
  /\ int_value (narrow_lo sgn bits) (narrow_hi sgn bits) d.
Proof. exact narrow_modulo. Qed.
Print Assumptions C149_modulo.

Example C149_modulo_example :
  m_dist (narrow_metric_of false 8 id_ovf L2Squared) [200; 100; 7]%Z [90; 250; 9]%Z = 44%Z
  /\ sq_dist [200; 100; 7]%Z [90; 250; 9]%Z = 34604%Z.
Proof. split; vm_compute; reflexivity. Qed.

(** uint16_t coordinates can be that far apart: the square overflows an int, which
    is undefined, and any value may come out. *)
Theorem C149_int_overflow :
  forall z : Z, (0 <= z < 65536)%Z ->
  exists iovf, m_dist (narrow_metric_of false 16 iovf L2Squared) [0]%Z [65535]%Z = z.
Proof. exact narrow_undefined. Qed.
Print Assumptions C149_int_overflow.
