(** C93 to C95: more about the kd_forest. *)
From Coq Require Import List ZArith QArith Permutation.
From Verif Require Import Base ModelBox ModelBuild ModelSearch Spec ModelCover ModelForest SpecForest Instances Examples
  ForestThms ForestEx ForestMore ForestMoreEx.
Import ListNotations.
Local Open Scope nat_scope.

(** ** C93: a forest of one tree *)
Theorem C93_radius :
  forall (T : Type) (S : Scalar T) (val : T -> Q), exact_laws S val -> field_laws S val ->
  forall pq : pqueue T, queue_laws S pq ->
  forall alg : std_algos, std_laws alg ->
  forall (it : index_type) (cm : cmath T) (fuel : nat) (gauss : nat -> nat -> T) (sp : space T)
    (leaf_size : Z) (f : kd_forest T) (b : Q) (q : list T) (max_leaves_visited : nat),
  wf_space sp ->
  kd_forest_make alg it cm metric_l2_squared fuel gauss sp leaf_size 1 = Ok f ->
  Forall (fun t => unit_vector (map val (rk_rotation t))) (kf_data f) ->
  norms_le val b sp -> (b <= val s_max)%Q -> (b <= - val s_lowest)%Q ->
  length q = sp_sdim sp -> npts sp <= max_leaves_visited ->
  forall radius : T,
  exists l, forest_search_nearest pq f (visitor_radius radius) q max_leaves_visited [] = Ok l
    /\ filter_answer (npts sp) (fun i => (dist_to val L2Squared sp q i < val radius)%Q)
         (dist_to val L2Squared sp q) (answers val l).
Proof. exact @one_tree_radius. Qed.
Print Assumptions C93_radius.

Theorem C93_knn :
  forall (T : Type) (S : Scalar T) (val : T -> Q), exact_laws S val -> field_laws S val ->
  forall pq : pqueue T, queue_laws S pq ->
  forall alg : std_algos, std_laws alg ->
  forall (it : index_type) (cm : cmath T) (fuel : nat) (gauss : nat -> nat -> T) (sp : space T)
    (leaf_size : Z) (f : kd_forest T) (b : Q) (q : list T) (max_leaves_visited : nat),
  wf_space sp ->
  kd_forest_make alg it cm metric_l2_squared fuel gauss sp leaf_size 1 = Ok f ->
  Forall (fun t => unit_vector (map val (rk_rotation t))) (kf_data f) ->
  norms_le val b sp -> (b <= val s_max)%Q -> (b <= - val s_lowest)%Q ->
  length q = sp_sdim sp -> npts sp <= max_leaves_visited ->
  forall range : list (neighbor T), distances_fit val L2Squared sp q -> 0 < length range ->
  exists st0 st, visitor_knn_init range = Ok st0
    /\ forest_search_nearest pq f visitor_knn q max_leaves_visited st0 = Ok st
    /\ length (fst st) = length range
    /\ knn_answer (npts sp) (length range) (dist_to val L2Squared sp q) (answers val (firstn (npts sp) (fst st))).
Proof. exact @one_tree_knn. Qed.
Print Assumptions C93_knn.

Example C93_example :
  kd_forest_make std_example it_int forest_math metric_l2_squared 7 ex_gauss ex_sp 1 1 = Ok (ex_forest_n 1)
  /\ Forall (fun t => unit_vector (map qv (rk_rotation t))) (kf_data (ex_forest_n 1))
  /\ norms_le qv 8 ex_sp /\ distances_fit qv L2Squared ex_sp [4; 3]%Q
  /\ forest_search_nearest list_queue (ex_forest_n 1) (visitor_radius 5%Q) [4; 3]%Q 7 [] = Ok [Neighbor 2 4%Q]
  /\ exists st0 st, visitor_knn_init [Neighbor 0 0%Q; Neighbor 0 0%Q; Neighbor 0 0%Q] = Ok st0
     /\ forest_search_nearest list_queue (ex_forest_n 1) visitor_knn [4; 3]%Q 7 st0 = Ok st
     /\ fst st = [Neighbor 2 4%Q; Neighbor 5 5%Q; Neighbor 3 5%Q].
Proof.
  split; [exact ex_forest_1_ok|]. split; [exact ex_units_1|]. split; [exact ex_norms|].
  split; [exact ex_forest_fit|]. split; [exact ex_radius_1|exact ex_knn_1].
Qed.

(** ** C94: points within a radius, once per tree *)
Theorem C94_once_per_tree :
  forall (T : Type) (S : Scalar T) (val : T -> Q), exact_laws S val -> field_laws S val ->
  forall pq : pqueue T, queue_laws S pq ->
  forall alg : std_algos, std_laws alg ->
  forall (it : index_type) (cm : cmath T) (fuel : nat) (gauss : nat -> nat -> T) (sp : space T)
    (leaf_size : Z) (n : nat) (f : kd_forest T) (b : Q) (q : list T) (max_leaves_visited : nat),
  wf_space sp -> index_type_ok it -> (0 < leaf_size <= it_max it)%Z ->
  kd_forest_make alg it cm metric_l2_squared fuel gauss sp leaf_size n = Ok f ->
  Forall (fun t => unit_vector (map val (rk_rotation t))) (kf_data f) ->
  norms_le val b sp -> (b <= val s_max)%Q -> (b <= - val s_lowest)%Q ->
  length q = sp_sdim sp -> npts sp <= max_leaves_visited ->
  forall radius : T,
  exists l, forest_search_nearest pq f (visitor_radius radius) q max_leaves_visited [] = Ok l
    /\ (forall x, In x l -> n_index x < npts sp
          /\ (val (n_distance x) == dist_to val L2Squared sp q (n_index x))%Q)
    /\ forall j, j < npts sp ->
       count_occ Nat.eq_dec (map n_index l) j
       = if Qlt_le_dec (dist_to val L2Squared sp q j) (val radius) then n else 0.
Proof. exact @radius_times. Qed.
Print Assumptions C94_once_per_tree.

Example C94_example :
  kd_forest_make std_example it_int forest_math metric_l2_squared 7 ex_gauss ex_sp 1 3 = Ok ex_forest
  /\ Forall (fun t => unit_vector (map qv (rk_rotation t))) (kf_data ex_forest)
  /\ norms_le qv 8 ex_sp
  /\ forest_search_nearest list_queue ex_forest (visitor_radius 5%Q) [4; 3]%Q 7 []
     = Ok [Neighbor 2 4%Q; Neighbor 2 4%Q; Neighbor 2 4%Q].
Proof.
  split; [exact ex_forest_ok|]. split; [exact ex_units|]. split; [exact ex_norms|exact ex_radius_3].
Qed.

(** ** C95: more trees, more leaves *)
Theorem C95_more_trees :
  forall (T : Type) (S : Scalar T) (val : T -> Q), exact_laws S val -> field_laws S val ->
  forall pq : pqueue T, queue_laws S pq ->
  forall alg : std_algos, std_laws alg ->
  forall (it : index_type) (cm : cmath T) (fuel : nat) (gauss : nat -> nat -> T) (sp : space T)
    (leaf_size : Z) (n k : nat) (f f' : kd_forest T) (b : Q) (q : list T) (max_leaves_visited : nat),
  wf_space sp -> index_type_ok it -> (0 < leaf_size <= it_max it)%Z ->
  kd_forest_make alg it cm metric_l2_squared fuel gauss sp leaf_size n = Ok f ->
  kd_forest_make alg it cm metric_l2_squared fuel gauss sp leaf_size (n + k) = Ok f' ->
  Forall (fun t => unit_vector (map val (rk_rotation t))) (kf_data f') ->
  norms_le val b sp -> (b <= val s_max)%Q -> (b <= - val s_lowest)%Q ->
  length q = sp_sdim sp ->
  forall nn0 : neighbor T,
  exists r r', forest_search_nn pq f q max_leaves_visited nn0 = Ok r
    /\ forest_search_nn pq f' q max_leaves_visited nn0 = Ok r'
    /\ (val (n_distance r') <= val (n_distance r))%Q.
Proof. exact @more_trees. Qed.
Print Assumptions C95_more_trees.

Theorem C95_more_leaves :
  forall (T : Type) (S : Scalar T) (val : T -> Q), exact_laws S val ->
  forall (pq : pqueue T) (alg : std_algos) (it : index_type) (cm : cmath T) (m : metric T) (fuel : nat)
    (gauss : nat -> nat -> T) (sp : space T) (leaf_size : Z) (f : kd_forest T) (q : list T)
    (leaves leaves' : nat) (nn0 r r' : neighbor T),
  kd_forest_make alg it cm m fuel gauss sp leaf_size 1 = Ok f -> leaves <= leaves' ->
  forest_search_nn pq f q leaves nn0 = Ok r -> forest_search_nn pq f q leaves' nn0 = Ok r' ->
  (val (n_distance r') <= val (n_distance r))%Q.
Proof. exact @more_leaves. Qed.
Print Assumptions C95_more_leaves.

(** One leaf of one tree; two leaves of it; one leaf of each of three trees. *)
Example C95_example :
  kd_forest_make std_example it_int forest_math metric_l2_squared 7 ex_gauss ex_sp 1 1 = Ok (ex_forest_n 1)
  /\ kd_forest_make std_example it_int forest_math metric_l2_squared 7 ex_gauss ex_sp 1 (1 + 2) = Ok ex_forest
  /\ Forall (fun t => unit_vector (map qv (rk_rotation t))) (kf_data ex_forest)
  /\ norms_le qv 8 ex_sp
  /\ forest_search_nn list_queue (ex_forest_n 1) [3; 0]%Q 1 (Neighbor 0 0%Q) = Ok (Neighbor 0 9%Q)
  /\ forest_search_nn list_queue (ex_forest_n 1) [3; 0]%Q 2 (Neighbor 0 0%Q) = Ok (Neighbor 2 2%Q)
  /\ forest_search_nn list_queue ex_forest [3; 0]%Q 1 (Neighbor 0 0%Q) = Ok (Neighbor 2 2%Q).
Proof.
  split; [exact ex_forest_1_ok|]. split; [exact ex_forest_ok|]. split; [exact ex_units|]. split; [exact ex_norms|].
  split; [exact (proj1 ex_nn_leaves)|]. split; [exact (proj2 ex_nn_leaves)|exact (proj2 ex_nn_trees)].
Qed.
