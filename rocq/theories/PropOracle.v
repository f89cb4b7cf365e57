(** Properties of the checks of the test suite, C150. *)
From Coq Require Import List ZArith QArith Qabs Bool Arith Permutation Sorted Lia Lqa.
From Verif Require Import Base ModelBox ModelBuild ModelSearch ModelOracle Spec Instances BuildThms Examples
  OracleThms OracleEx.
Import ListNotations.
Local Open Scope nat_scope.

(** ** C150: the expectations of the test suite *)

(** The brute force search of the tests gives the k nearest points. *)
Theorem C150_brute_force :
  forall (T : Type) (S : Scalar T) (val : T -> Q), exact_laws S val ->
  forall (em : exact_metric) (sp : space T) (alg : std_algos), std_laws alg ->
  forall (bnds : start_bounds T) (q : list T) (k : nat),
  usable val em sp bnds q -> 0 < k -> 0 < npts sp ->
  exists out, brute_knn alg q sp k (metric_of em) = Ok out
    /\ knn_answer (npts sp) k (dist_to val em sp q) (answers val out).
Proof. exact @brute_answer. Qed.
Print Assumptions C150_brute_force.

Theorem C150_brute_force_undefined :
  forall (T : Type) (S : Scalar T) (sp : space T) (alg : std_algos) (q : list T) (k : nat) (m : metric T),
  k = 0 \/ npts sp = 0 -> brute_knn alg q sp k m = Ub UbIndex.
Proof. exact @brute_undefined. Qed.
Print Assumptions C150_brute_force_undefined.

Example C150_brute_force_example :
  usable qv L2Squared ex_sp bounds_from_space [3; 2]%Q
  /\ (exists out, brute_knn std_example [3; 2]%Q ex_sp 3 metric_l2_squared = Ok out /\ map n_index out = [3; 4; 2])
  /\ brute_knn std_example [3; 2]%Q ex_sp 0 metric_l2_squared = Ub UbIndex.
Proof.
  split; [apply ex_usable_l2; reflexivity|]. split; [|vm_compute; reflexivity].
  eexists. split; vm_compute; reflexivity.
Qed.

(** test_knn passes. *)
Theorem C150_test_knn :
  forall (T : Type) (S : Scalar T) (val : T -> Q), exact_laws S val ->
  forall (em : exact_metric) (sp : space T) (alg : std_algos), std_laws alg ->
  forall (float_eq float_le : T -> T -> bool) (three_halves : T),
  (forall x y, (val x == val y)%Q -> float_eq x y = true) ->
  (forall x y, (val x <= val y)%Q -> float_le x y = true) ->
  (val three_halves == 3 # 2)%Q ->
  forall (it : index_type) (fuel : nat) (stop : stop_condition) (bnds : start_bounds T) (ru : rule) (tree : kd_tree T),
  kd_tree_make alg it (metric_of em) fuel sp stop bnds ru = Ok tree ->
  field_laws S val ->
  forall (q : list T) (k : nat), usable val em sp bnds q -> distances_fit val em sp q -> 0 < k ->
  test_knn float_eq float_le three_halves alg tree k q = Ok true.
Proof. exact @oracle_knn. Qed.
Print Assumptions C150_test_knn.

Example C150_test_knn_example : exists data, let t := KdTree ex_sp metric_l2_squared data in
  kd_tree_make std_example it_int metric_l2_squared 9 ex_sp (max_leaf_size 2) bounds_from_space
    sliding_midpoint_max_side = Ok t
  /\ usable qv L2Squared ex_sp bounds_from_space [3; 2]%Q
  /\ distances_fit qv L2Squared ex_sp [3; 2]%Q
  /\ test_knn Qeq_bool Qle_bool (3 # 2)%Q std_example t 5 [3; 2]%Q = Ok true.
Proof.
  eexists. cbv zeta. split; [apply make_ok; vm_compute; reflexivity|]. split; [apply ex_usable_l2; reflexivity|].
  split; [apply fit_by_cases; vm_compute; reflexivity|]. vm_compute. reflexivity.
Qed.

(** test_radius passes exactly if no point lies on the boundary of the ball. *)
Theorem C150_test_radius :
  forall (T : Type) (S : Scalar T) (val : T -> Q), exact_laws S val ->
  forall (em : exact_metric) (sp : space T) (alg : std_algos), std_laws alg ->
  forall (float_eq : T -> T -> bool) (three_halves : T),
  (forall x y, (val x == val y)%Q -> float_eq x y = true) ->
  (val three_halves == 3 # 2)%Q ->
  forall (it : index_type) (fuel : nat) (stop : stop_condition) (bnds : start_bounds T) (ru : rule) (tree : kd_tree T),
  kd_tree_make alg it (metric_of em) fuel sp stop bnds ru = Ok tree ->
  field_laws S val ->
  forall r : T, let q := nth (npts sp / 2) (sp_pts sp) [] in usable val em sp bnds q ->
  exists b, test_radius float_eq three_halves alg tree r = Ok b
    /\ (b = true <-> forall i, i < npts sp -> ~ (dist_to val em sp q i == val (m_app (metric_of em) r))%Q).
Proof. exact @oracle_radius. Qed.
Print Assumptions C150_test_radius.

Example C150_test_radius_example : exists data, let t := KdTree ex_sp metric_l1 data in
  kd_tree_make std_example it_int metric_l1 9 ex_sp (max_leaf_size 1) bounds_from_space median_max_side = Ok t
  /\ usable qv L1 ex_sp bounds_from_space (nth (npts ex_sp / 2) (sp_pts ex_sp) [])
  /\ test_radius Qeq_bool (3 # 2)%Q std_example t (5 # 2)%Q = Ok true
  /\ test_radius Qeq_bool (3 # 2)%Q std_example t 2%Q = Ok false.
Proof.
  eexists. cbv zeta. split; [apply make_ok; vm_compute; reflexivity|]. split; [apply ex_usable_l1; reflexivity|].
  split; vm_compute; reflexivity.
Qed.

(** test_box passes. *)
Theorem C150_test_box :
  forall (T : Type) (S : Scalar T) (ok : T -> Prop), ord_laws S ok ->
  forall sp : space T, wf_space sp -> all_coords ok sp ->
  forall alg : std_algos, std_laws alg ->
  forall (m : metric T) (it : index_type) (fuel : nat) (stop : stop_condition) (bnds : start_bounds T)
    (ru : rule) (tree : kd_tree T) (min_v max_v : T),
  kd_tree_make alg it m fuel sp stop bnds ru = Ok tree ->
  bounds_coords ok sp bnds -> bounds_enclose sp bnds -> ok min_v -> ok max_v ->
  (ru = midpoint_max_side -> mid_ok S ok) -> m_cat m = Euclidean ->
  test_box tree min_v max_v = Ok true.
Proof. exact @oracle_box. Qed.
Print Assumptions C150_test_box.

Example C150_test_box_example : exists data, let t := KdTree ex_sp metric_lpinf data in
  kd_tree_make std_example it_int metric_lpinf 9 ex_sp (max_leaf_size 1) bounds_from_space
    sliding_midpoint_max_side = Ok t
  /\ all_coords (fun _ => True) ex_sp /\ m_cat (@metric_lpinf Q QD) = Euclidean
  /\ search_box t [1; 1]%Q [3; 3]%Q = Ok [3; 4; 1]
  /\ test_box t 1%Q 3%Q = Ok true.
Proof.
  eexists. cbv zeta. split; [apply make_ok; vm_compute; reflexivity|].
  split; [exact ex_ok|]. repeat split; vm_compute; reflexivity.
Qed.

Theorem C150_test_box_topological :
  forall (T : Type) (S : Scalar T) (ok : T -> Prop), ord_laws S ok ->
  forall sp : space T, wf_space sp -> all_coords ok sp ->
  forall alg : std_algos, std_laws alg ->
  forall (m : metric T) (it : index_type) (fuel : nat) (stop : stop_condition) (bnds : start_bounds T)
    (ru : rule) (tree : kd_tree T) (min_v max_v : T),
  kd_tree_make alg it m fuel sp stop bnds ru = Ok tree ->
  bounds_coords ok sp bnds -> bounds_enclose sp bnds -> ok min_v -> ok max_v ->
  ok_finite S ok -> (ru = midpoint_max_side -> mid_ok S ok /\ mid_between S ok) -> m_cat m = Topological ->
  ((exists d, d < sp_sdim sp /\ m_dim_space m d = R1) -> s_leb min_v max_v = true) ->
  test_box tree min_v max_v = Ok true.
Proof. exact @oracle_box_topological. Qed.
Print Assumptions C150_test_box_topological.

(** Over the seam of the circle. *)
Example C150_test_box_topological_example : exists data, let t := KdTree ex_so2 metric_so2 data in
  kd_tree_make std_example it_int metric_so2 9 ex_so2 (max_leaf_size 1) bounds_from_space
    sliding_midpoint_max_side = Ok t
  /\ wf_space ex_so2 /\ all_coords (representable qv) ex_so2
  /\ m_cat (@metric_so2 Q QD) = Topological /\ (forall d, m_dim_space (@metric_so2 Q QD) d = S1)
  /\ search_box t [9 # 10]%Q [1 # 5]%Q = Ok [0; 3; 4]
  /\ test_box t (9 # 10)%Q (1 # 5)%Q = Ok true
  /\ box_expectations metric_so2 ex_so2 [9 # 10]%Q [1 # 5]%Q [0; 3] = Ok false.
Proof.
  eexists. cbv zeta. split; [apply make_ok; vm_compute; reflexivity|].
  split; [exact ex_so2_wf|]. split; [exact ex_so2_rep|]. repeat split; vm_compute; reflexivity.
Qed.

(** What passing says about any results: with an exact comparison, the distances
    of test_knn are those of the k nearest points, *)
Theorem C150_knn_detects :
  forall (T : Type) (S : Scalar T) (val : T -> Q), exact_laws S val ->
  forall (em : exact_metric) (sp : space T) (alg : std_algos), std_laws alg ->
  forall (float_eq float_le : T -> T -> bool) (bnds : start_bounds T) (q : list T) (k : nat) (ex ap cm : list (neighbor T)),
  (forall x y, float_eq x y = true -> (val x == val y)%Q) ->
  usable val em sp bnds q -> 0 < k -> brute_knn alg q sp k (metric_of em) = Ok cm ->
  knn_expectations float_eq float_le ex ap cm = Ok true ->
  forall ans, knn_answer (npts sp) k (dist_to val em sp q) ans ->
  Forall2 Qeq (map (fun x => val (n_distance x)) ex) (map snd ans).
Proof. exact @knn_passes. Qed.
Print Assumptions C150_knn_detects.

(** results of test_radius without duplicates are all points of the closed ball, *)
Theorem C150_radius_detects :
  forall (T : Type) (S : Scalar T) (val : T -> Q), exact_laws S val ->
  forall (em : exact_metric) (sp : space T) (float_eq : T -> T -> bool) (bnds : start_bounds T)
    (q : list T) (r : T) (ex ap : list (neighbor T)) (e : T),
  usable val em sp bnds q -> NoDup (map n_index ex) ->
  radius_expectations float_eq sp (metric_of em) q r e ex ap = Ok true ->
  filter_answer (npts sp) (fun i => (dist_to val em sp q i <= val r)%Q) (dist_to val em sp q) (answers val ex).
Proof. exact @radius_passes. Qed.
Print Assumptions C150_radius_detects.

(** and results of test_box without duplicates pass exactly if they are right. *)
Theorem C150_box_detects :
  forall (T : Type) (S : Scalar T) (ok : T -> Prop), ord_laws S ok ->
  forall sp : space T, wf_space sp -> all_coords ok sp ->
  forall (m : metric T) (mn mx : list T) (idxs : list nat), m_cat m = Euclidean ->
  length mn = sp_sdim sp -> length mx = sp_sdim sp -> Forall ok mn -> Forall ok mx -> NoDup idxs ->
  (box_expectations m sp mn mx idxs = Ok true
   <-> index_answer (npts sp) (fun i => inside mn mx (nth i (sp_pts sp) [])) idxs).
Proof. exact @box_passes. Qed.
Print Assumptions C150_box_detects.

Theorem C150_box_detects_topological :
  forall (T : Type) (S : Scalar T) (ok : T -> Prop),
  forall sp : space T, wf_space sp -> all_coords ok sp ->
  forall (m : metric T) (mn mx : list T) (idxs : list nat), m_cat m = Topological ->
  length mn = sp_sdim sp -> length mx = sp_sdim sp -> Forall ok mn -> Forall ok mx ->
  (forall d, d < sp_sdim sp -> m_dim_space m d = R1 -> s_leb (get mn d) (get mx d) = true) -> NoDup idxs ->
  (box_expectations m sp mn mx idxs = Ok true
   <-> index_answer (npts sp) (fun i => inside_topological (m_dim_space m) mn mx (nth i (sp_pts sp) [])) idxs).
Proof. exact @box_passes_topological. Qed.
Print Assumptions C150_box_detects_topological.

Example C150_detects_example :
  (exists cm, brute_knn std_example [3; 2]%Q ex_sp 2 metric_l2_squared = Ok cm
    /\ knn_expectations Qeq_bool Qle_bool [Neighbor 4 1%Q; Neighbor 3 1%Q] cm cm = Ok true
    /\ knn_expectations Qeq_bool Qle_bool [Neighbor 4 1%Q; Neighbor 2 2%Q] cm cm = Ok false)
  /\ radius_expectations Qeq_bool ex_sp metric_l2_squared [3; 2]%Q (3 # 2)%Q 1%Q [Neighbor 3 1%Q; Neighbor 4 1%Q] []
     = Ok true
  /\ radius_expectations Qeq_bool ex_sp metric_l2_squared [3; 2]%Q (3 # 2)%Q 1%Q [Neighbor 3 1%Q] [] = Ok false
  /\ box_expectations metric_l1 ex_sp [1; 1]%Q [4; 3]%Q [1; 2; 3; 4] = Ok true
  /\ box_expectations metric_l1 ex_sp [1; 1]%Q [4; 3]%Q [1; 2; 3] = Ok false.
Proof.
  split; [eexists; split; [vm_compute; reflexivity|split; vm_compute; reflexivity]|].
  repeat split; vm_compute; reflexivity.
Qed.

(** Duplicates and wrong indices go unnoticed. *)
Theorem C150_box_duplicates_refuted :
  ~ (forall (sp : space Q) (mn mx : list Q) (idxs : list nat),
     wf_space sp -> length mn = sp_sdim sp -> length mx = sp_sdim sp ->
     box_expectations metric_l1 sp mn mx idxs = Ok true ->
     index_answer (npts sp) (fun i => inside mn mx (nth i (sp_pts sp) [])) idxs).
Proof. exact box_duplicates. Qed.
Print Assumptions C150_box_duplicates_refuted.

Theorem C150_radius_duplicates_refuted :
  ~ (forall (sp : space Q) (q : list Q) (r : Q) (ex : list (neighbor Q)),
     usable qv L2Squared sp bounds_from_space q ->
     radius_expectations Qeq_bool sp metric_l2_squared q r 1%Q ex [] = Ok true ->
     filter_answer (npts sp) (fun i => (dist_to qv L2Squared sp q i <= r)%Q) (dist_to qv L2Squared sp q)
       (answers qv ex)).
Proof. exact radius_duplicates. Qed.
Print Assumptions C150_radius_duplicates_refuted.

Theorem C150_knn_indices_refuted :
  ~ (forall (sp : space Q) (q : list Q) (k : nat) (ex ap cm : list (neighbor Q)),
     usable qv L2Squared sp bounds_from_space q -> 0 < k ->
     brute_knn std_example q sp k metric_l2_squared = Ok cm ->
     knn_expectations Qeq_bool Qle_bool ex ap cm = Ok true ->
     knn_answer (npts sp) k (dist_to qv L2Squared sp q) (answers qv ex)).
Proof. exact knn_indices. Qed.
Print Assumptions C150_knn_indices_refuted.
