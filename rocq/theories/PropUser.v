(** Properties of metrics and visitors written by the user, C88-C92. *)
From Coq Require Import List ZArith QArith Qabs Bool Arith Permutation Sorted Lia Lqa.
From Verif Require Import Base ModelBox ModelBuild ModelSearch Spec Instances Metrics BuildThms QueryThms TopThms
  MetricThms UserThms UserMore UserEx Examples.
Import ListNotations.
Local Open Scope nat_scope.

(** ** C88: any metric that is a sum over the coordinates *)
Theorem C88_nearest_neighbour :
  forall (T : Type) (S : Scalar T) (val : T -> Q), exact_laws S val ->
  forall (m : metric T) (t : nat -> Q -> Q -> Q) (sp : space T) (alg : std_algos), std_laws alg ->
  forall (it : index_type) (fuel : nat) (stop : stop_condition) (bnds : start_bounds T) (ru : rule)
    (tree : kd_tree T) (q : list T),
  kd_tree_make alg it m fuel sp stop bnds ru = Ok tree -> metric_fits val m t sp bnds q ->
  (forall i, i < npts sp -> (metric_to val m sp q i < val s_max)%Q) ->
  forall nn0, exists i d, search_nn tree q nn0 = Ok (Neighbor i d)
    /\ (val d == metric_to val m sp q i)%Q /\ is_nearest (npts sp) (metric_to val m sp q) i.
Proof. exact @user_nn. Qed.
Print Assumptions C88_nearest_neighbour.

Theorem C88_k_nearest_neighbours :
  forall (T : Type) (S : Scalar T) (val : T -> Q), exact_laws S val ->
  forall (m : metric T) (t : nat -> Q -> Q -> Q) (sp : space T) (alg : std_algos), std_laws alg ->
  forall (it : index_type) (fuel : nat) (stop : stop_condition) (bnds : start_bounds T) (ru : rule)
    (tree : kd_tree T) (q : list T),
  kd_tree_make alg it m fuel sp stop bnds ru = Ok tree -> metric_fits val m t sp bnds q ->
  (forall i, i < npts sp -> (metric_to val m sp q i < val s_max)%Q) ->
  forall k knn0, 0 < k ->
  exists out, search_knn tree q k knn0 = Ok out
    /\ knn_answer (npts sp) k (metric_to val m sp q) (answers val out).
Proof. exact @user_knn. Qed.
Print Assumptions C88_k_nearest_neighbours.

Theorem C88_radius :
  forall (T : Type) (S : Scalar T) (val : T -> Q), exact_laws S val ->
  forall (m : metric T) (t : nat -> Q -> Q -> Q) (sp : space T) (alg : std_algos), std_laws alg ->
  forall (it : index_type) (fuel : nat) (stop : stop_condition) (bnds : start_bounds T) (ru : rule)
    (tree : kd_tree T) (q : list T),
  kd_tree_make alg it m fuel sp stop bnds ru = Ok tree -> metric_fits val m t sp bnds q ->
  forall r sort, exists l, search_radius alg tree q r sort = Ok l
    /\ filter_answer (npts sp) (fun i => (metric_to val m sp q i < val r)%Q) (metric_to val m sp q) (answers val l)
    /\ (sort = true -> StronglySorted Qle (map (fun x => val (n_distance x)) l)).
Proof. exact @user_radius. Qed.
Print Assumptions C88_radius.

Theorem C88_approximate_nn :
  forall (T : Type) (S : Scalar T) (val : T -> Q), exact_laws S val ->
  forall (m : metric T) (t : nat -> Q -> Q -> Q) (sp : space T) (alg : std_algos), std_laws alg ->
  forall (it : index_type) (fuel : nat) (stop : stop_condition) (bnds : start_bounds T) (ru : rule)
    (tree : kd_tree T) (q : list T),
  kd_tree_make alg it m fuel sp stop bnds ru = Ok tree -> metric_fits val m t sp bnds q ->
  (forall i, i < npts sp -> (metric_to val m sp q i < val s_max)%Q) ->
  forall (e : T) (nn0 : neighbor T), field_laws S val -> (1 <= val e)%Q ->
  exists i d, search_nn_approx tree q e nn0 = Ok (Neighbor i d)
    /\ i < npts sp /\ (val d == metric_to val m sp q i / val e)%Q
    /\ forall j, j < npts sp -> (metric_to val m sp q i <= val e * metric_to val m sp q j)%Q.
Proof. exact @user_approx_nn. Qed.
Print Assumptions C88_approximate_nn.

Theorem C88_approximate_knn :
  forall (T : Type) (S : Scalar T) (val : T -> Q), exact_laws S val ->
  forall (m : metric T) (t : nat -> Q -> Q -> Q) (sp : space T) (alg : std_algos), std_laws alg ->
  forall (it : index_type) (fuel : nat) (stop : stop_condition) (bnds : start_bounds T) (ru : rule)
    (tree : kd_tree T) (q : list T),
  kd_tree_make alg it m fuel sp stop bnds ru = Ok tree -> metric_fits val m t sp bnds q ->
  (forall i, i < npts sp -> (metric_to val m sp q i < val s_max)%Q) ->
  forall (e : T) (k : nat) (knn0 : list (neighbor T)), field_laws S val -> (1 <= val e)%Q -> 0 < k ->
  exists l, search_knn_approx tree q k e knn0 = Ok l
    /\ length l = Nat.min k (npts sp)
    /\ NoDup (map n_index l)
    /\ StronglySorted Qle (map (fun x => val (n_distance x)) l)
    /\ (forall x, In x l -> n_index x < npts sp
          /\ (val (n_distance x) == metric_to val m sp q (n_index x) / val e)%Q)
    /\ (forall ds p x, sorted_distances (npts sp) (metric_to val m sp q) ds -> nth_error l p = Some x ->
          (metric_to val m sp q (n_index x) <= val e * nth p ds 0)%Q).
Proof. exact @user_approx_knn. Qed.
Print Assumptions C88_approximate_knn.

Theorem C88_approximate_radius :
  forall (T : Type) (S : Scalar T) (val : T -> Q), exact_laws S val ->
  forall (m : metric T) (t : nat -> Q -> Q -> Q) (sp : space T) (alg : std_algos), std_laws alg ->
  forall (it : index_type) (fuel : nat) (stop : stop_condition) (bnds : start_bounds T) (ru : rule)
    (tree : kd_tree T) (q : list T),
  kd_tree_make alg it m fuel sp stop bnds ru = Ok tree -> metric_fits val m t sp bnds q ->
  forall (e r : T) (sort : bool), field_laws S val -> (1 <= val e)%Q ->
  exists l, search_radius_approx alg tree q r e sort = Ok l
    /\ NoDup (map n_index l)
    /\ (forall x, In x l -> n_index x < npts sp
          /\ (metric_to val m sp q (n_index x) < val r)%Q
          /\ (val (n_distance x) == metric_to val m sp q (n_index x) / val e)%Q)
    /\ (forall i, i < npts sp -> (metric_to val m sp q i < val r)%Q ->
          (metric_to val m sp q i <= val r / val e)%Q -> In i (map n_index l))
    /\ (sort = true -> StronglySorted Qle (map (fun x => val (n_distance x)) l)).
Proof. exact @user_approx_radius. Qed.
Print Assumptions C88_approximate_radius.

(** A metric with another term for every coordinate: the first counts once, the
    second three times. *)
Example C88_example : exists data, let t := KdTree ex_sp weighted data in
  kd_tree_make std_example it_int weighted 9 ex_sp (max_leaf_size 2) bounds_from_space
    sliding_midpoint_max_side = Ok t
  /\ metric_fits qv weighted weighted_terms ex_sp bounds_from_space [4; 3]%Q
  /\ (forall i, i < npts ex_sp -> (metric_to qv weighted ex_sp [4; 3]%Q i < qv s_max)%Q)
  /\ exists d, search_nn t [4; 3]%Q (Neighbor 9 0%Q) = Ok (Neighbor 1 d) /\ (d == 3)%Q.
Proof. exact weighted_example. Qed.

(** ** C89: the metric of the documentation *)
Theorem C89_nearest_neighbour :
  forall (T : Type) (S : Scalar T) (val : T -> Q), exact_laws S val ->
  forall (sp : space T) (alg : std_algos), std_laws alg ->
  forall (it : index_type) (fuel : nat) (stop : stop_condition) (bnds : start_bounds T) (ru : rule)
    (tree : kd_tree T) (q : list T),
  wf_space sp -> all_coords (representable val) sp -> length q = sp_sdim sp ->
  forall p : nat,
  kd_tree_make alg it (metric_lp_p p) fuel sp stop bnds ru = Ok tree ->
  let D i := sum_dist (fun a b => qpow (Qabs (a - b)) p) (map val q) (map val (nth i (sp_pts sp) [])) in
  (forall i, i < npts sp -> (D i < val s_max)%Q) ->
  forall nn0, exists i d, search_nn tree q nn0 = Ok (Neighbor i d)
    /\ (val d == D i)%Q /\ is_nearest (npts sp) D i.
Proof. exact @lp_nn. Qed.
Print Assumptions C89_nearest_neighbour.

Theorem C89_k_nearest_neighbours :
  forall (T : Type) (S : Scalar T) (val : T -> Q), exact_laws S val ->
  forall (sp : space T) (alg : std_algos), std_laws alg ->
  forall (it : index_type) (fuel : nat) (stop : stop_condition) (bnds : start_bounds T) (ru : rule)
    (tree : kd_tree T) (q : list T),
  wf_space sp -> all_coords (representable val) sp -> length q = sp_sdim sp ->
  forall p : nat,
  kd_tree_make alg it (metric_lp_p p) fuel sp stop bnds ru = Ok tree ->
  let D i := sum_dist (fun a b => qpow (Qabs (a - b)) p) (map val q) (map val (nth i (sp_pts sp) [])) in
  (forall i, i < npts sp -> (D i < val s_max)%Q) ->
  forall k knn0, 0 < k ->
  exists out, search_knn tree q k knn0 = Ok out /\ knn_answer (npts sp) k D (answers val out).
Proof. exact @lp_knn. Qed.
Print Assumptions C89_k_nearest_neighbours.

Theorem C89_radius :
  forall (T : Type) (S : Scalar T) (val : T -> Q), exact_laws S val ->
  forall (sp : space T) (alg : std_algos), std_laws alg ->
  forall (it : index_type) (fuel : nat) (stop : stop_condition) (bnds : start_bounds T) (ru : rule)
    (tree : kd_tree T) (q : list T),
  wf_space sp -> all_coords (representable val) sp -> length q = sp_sdim sp ->
  forall p : nat,
  kd_tree_make alg it (metric_lp_p p) fuel sp stop bnds ru = Ok tree ->
  let D i := sum_dist (fun a b => qpow (Qabs (a - b)) p) (map val q) (map val (nth i (sp_pts sp) [])) in
  forall r sort, exists l, search_radius alg tree q r sort = Ok l
    /\ filter_answer (npts sp) (fun i => (D i < val r)%Q) D (answers val l)
    /\ (sort = true -> StronglySorted Qle (map (fun x => val (n_distance x)) l)).
Proof. exact @lp_radius. Qed.
Print Assumptions C89_radius.

Example C89_example : exists data, let t := KdTree ex_sp (metric_lp_p 3) data in
  kd_tree_make std_example it_int (metric_lp_p 3) 9 ex_sp (max_leaf_size 2) bounds_from_space
    sliding_midpoint_max_side = Ok t
  /\ wf_space ex_sp /\ all_coords (representable qv) ex_sp
  /\ (forall i, i < npts ex_sp ->
       (sum_dist (fun a b => qpow (Qabs (a - b)) 3) (map qv [4; 3]) (map qv (nth i (sp_pts ex_sp) [])) < qv s_max)%Q)
  /\ exists d, search_nn t [4; 3]%Q (Neighbor 9 0%Q) = Ok (Neighbor 2 d) /\ (d == 8)%Q.
Proof. exact lp_example. Qed.

(** ** C90: the torus *)
Theorem C90_nearest_neighbour :
  forall (T : Type) (S : Scalar T) (val : T -> Q), exact_laws S val ->
  forall (sp : space T) (alg : std_algos), std_laws alg ->
  forall (it : index_type) (fuel : nat) (stop : stop_condition) (bnds : start_bounds T) (ru : rule)
    (tree : kd_tree T) (q : list T),
  wf_space sp -> all_coords (representable val) sp -> length q = sp_sdim sp ->
  kd_tree_make alg it metric_t2_squared fuel sp stop bnds ru = Ok tree ->
  Forall (fun x => Forall (fun c => 0 <= val c <= 1)%Q x) (sp_pts sp) -> Forall (fun c => 0 <= val c <= 1)%Q q ->
  bounds_coords (fun c => 0 <= val c <= 1)%Q sp bnds ->
  let D i := sum_dist (fun a b => arc a b * arc a b)%Q (map val q) (map val (nth i (sp_pts sp) [])) in
  (forall i, i < npts sp -> (D i < val s_max)%Q) ->
  forall nn0, exists i d, search_nn tree q nn0 = Ok (Neighbor i d)
    /\ (val d == D i)%Q /\ is_nearest (npts sp) D i.
Proof. exact @torus_nn. Qed.
Print Assumptions C90_nearest_neighbour.

Theorem C90_k_nearest_neighbours :
  forall (T : Type) (S : Scalar T) (val : T -> Q), exact_laws S val ->
  forall (sp : space T) (alg : std_algos), std_laws alg ->
  forall (it : index_type) (fuel : nat) (stop : stop_condition) (bnds : start_bounds T) (ru : rule)
    (tree : kd_tree T) (q : list T),
  wf_space sp -> all_coords (representable val) sp -> length q = sp_sdim sp ->
  kd_tree_make alg it metric_t2_squared fuel sp stop bnds ru = Ok tree ->
  Forall (fun x => Forall (fun c => 0 <= val c <= 1)%Q x) (sp_pts sp) -> Forall (fun c => 0 <= val c <= 1)%Q q ->
  bounds_coords (fun c => 0 <= val c <= 1)%Q sp bnds ->
  let D i := sum_dist (fun a b => arc a b * arc a b)%Q (map val q) (map val (nth i (sp_pts sp) [])) in
  (forall i, i < npts sp -> (D i < val s_max)%Q) ->
  forall k knn0, 0 < k ->
  exists out, search_knn tree q k knn0 = Ok out /\ knn_answer (npts sp) k D (answers val out).
Proof. exact @torus_knn. Qed.
Print Assumptions C90_k_nearest_neighbours.

Theorem C90_radius :
  forall (T : Type) (S : Scalar T) (val : T -> Q), exact_laws S val ->
  forall (sp : space T) (alg : std_algos), std_laws alg ->
  forall (it : index_type) (fuel : nat) (stop : stop_condition) (bnds : start_bounds T) (ru : rule)
    (tree : kd_tree T) (q : list T),
  wf_space sp -> all_coords (representable val) sp -> length q = sp_sdim sp ->
  kd_tree_make alg it metric_t2_squared fuel sp stop bnds ru = Ok tree ->
  Forall (fun x => Forall (fun c => 0 <= val c <= 1)%Q x) (sp_pts sp) -> Forall (fun c => 0 <= val c <= 1)%Q q ->
  bounds_coords (fun c => 0 <= val c <= 1)%Q sp bnds ->
  let D i := sum_dist (fun a b => arc a b * arc a b)%Q (map val q) (map val (nth i (sp_pts sp) [])) in
  forall r sort, exists l, search_radius alg tree q r sort = Ok l
    /\ filter_answer (npts sp) (fun i => (D i < val r)%Q) D (answers val l)
    /\ (sort = true -> StronglySorted Qle (map (fun x => val (n_distance x)) l)).
Proof. exact @torus_radius. Qed.
Print Assumptions C90_radius.

(** Three points of the torus; the query in one corner is closest to the point in
    the opposite one. *)
Example C90_example : exists data, let t := KdTree torus_points metric_t2_squared data in
  kd_tree_make std_example it_int metric_t2_squared 9 torus_points (max_leaf_size 1) bounds_from_space
    sliding_midpoint_max_side = Ok t
  /\ wf_space torus_points /\ all_coords (representable qv) torus_points
  /\ Forall (fun x => Forall (fun c => 0 <= qv c <= 1)%Q x) (sp_pts torus_points)
  /\ exists d, search_nn t [1 # 20; 1 # 20]%Q (Neighbor 9 0%Q) = Ok (Neighbor 2 d) /\ (d == 1 # 50)%Q.
Proof. exact torus_example. Qed.

(** ** C91: a visitor that counts *)
Theorem C91_counter :
  forall (T : Type) (S : Scalar T) (val : T -> Q), exact_laws S val ->
  forall (m : metric T) (t : nat -> Q -> Q -> Q) (sp : space T) (alg : std_algos), std_laws alg ->
  forall (it : index_type) (fuel : nat) (stop : stop_condition) (bnds : start_bounds T) (ru : rule)
    (tree : kd_tree T) (q : list T),
  kd_tree_make alg it m fuel sp stop bnds ru = Ok tree -> metric_fits val m t sp bnds q ->
  (forall i, i < npts sp -> (metric_to val m sp q i < val s_max)%Q) ->
  forall nn0, exists i d seen,
    search_nearest tree visitor_nn_counter q (visitor_nn_init nn0, 0) = Ok (Neighbor i d, length seen)
    /\ (val d == metric_to val m sp q i)%Q /\ is_nearest (npts sp) (metric_to val m sp q) i
    /\ NoDup seen /\ incl seen (seq 0 (npts sp))
    /\ forall j, j < npts sp -> ~ In j seen -> (metric_to val m sp q i < metric_to val m sp q j)%Q.
Proof. exact @user_counter. Qed.
Print Assumptions C91_counter.

Example C91_example : exists data, let t := KdTree ex_sp (metric_lp_p 3) data in
  kd_tree_make std_example it_int (metric_lp_p 3) 9 ex_sp (max_leaf_size 1) bounds_from_space
    sliding_midpoint_max_side = Ok t
  /\ metric_fits qv (metric_lp_p 3) (fun _ => lp_term 3) ex_sp bounds_from_space [1; 2]%Q
  /\ npts ex_sp = 7
  /\ exists d, search_nearest t visitor_nn_counter [1; 2]%Q (visitor_nn_init (Neighbor 9 0%Q), 0)
       = Ok (Neighbor 4 d, 4).
Proof. exact counter_example. Qed.

(** ** C92: metrics that are no such sum *)
(** The full statement: a metric whose square is the squared L2 distance, with |x|
    for a single coordinate.  The example's comment excludes it "for performance
    reasons"; the answers are wrong as well. *)
Definition C92_statement : Prop :=
  forall (T : Type) (S : Scalar T) (val : T -> Q), exact_laws S val ->
  forall (m : metric T) (sp : space T) (alg : std_algos), std_laws alg ->
  forall (it : index_type) (fuel : nat) (stop : stop_condition) (bnds : start_bounds T) (ru : rule)
    (tree : kd_tree T) (q : list T),
  kd_tree_make alg it m fuel sp stop bnds ru = Ok tree ->
  wf_space sp -> all_coords (representable val) sp -> length q = sp_sdim sp ->
  m_cat m = Euclidean -> (forall x, (val (m_app m x) == Qabs (val x))%Q) ->
  (forall i, i < npts sp -> (0 <= metric_to val m sp q i < val s_max)%Q
     /\ (metric_to val m sp q i * metric_to val m sp q i
         == sum_dist (fun a b => (a - b) * (a - b)) (map val q) (map val (nth i (sp_pts sp) [])))%Q) ->
  forall nn0, exists i d, search_nn tree q nn0 = Ok (Neighbor i d)
    /\ is_nearest (npts sp) (metric_to val m sp q) i.

Theorem C92_refuted : ~ C92_statement.
Proof. exact root_metric_refuted. Qed.
Print Assumptions C92_refuted.

Example C92_example : exists data, let t := KdTree root_points root_metric data in
  kd_tree_make std_example it_int root_metric 9 root_points (max_leaf_size 1) bounds_from_space
    median_max_side = Ok t
  /\ search_nn t [0; 0]%Q (Neighbor 9 0%Q) = Ok (Neighbor 0 30%Q)
  /\ metric_to qv root_metric root_points [0; 0]%Q 1 = 29%Q.
Proof. eexists. cbv zeta. split; [apply make_ok; vm_compute; reflexivity|]. split; vm_compute; reflexivity. Qed.
