(** Answers of several searches, of trees made in different ways and over more or fewer
    points (C126-C128). *)
From Coq Require Import List ZArith QArith Bool Arith Permutation Sorted Lia.
From Verif Require Import Base ModelBox ModelBuild ModelSearch Spec SpecCompare Instances BuildThms Examples CompareThms CompareEx.
Import ListNotations.
Local Open Scope nat_scope.

(** ** C126: it does not matter how a tree was made, nor in which order the points are *)
Theorem C126_nearest_neighbour :
  forall (T : Type) (S : Scalar T) (val : T -> Q), exact_laws S val ->
  forall (em : exact_metric) (q : list T) (alg1 alg2 : std_algos) (sp1 sp2 : space T) (tree1 tree2 : kd_tree T)
    (nn1 nn2 : neighbor T),
  tree_over val em alg1 sp1 q tree1 -> tree_over val em alg2 sp2 q tree2 -> Permutation (sp_pts sp1) (sp_pts sp2) ->
  distances_fit val em sp1 q -> distances_fit val em sp2 q ->
  exists i1 d1 i2 d2, search_nn tree1 q nn1 = Ok (Neighbor i1 d1) /\ search_nn tree2 q nn2 = Ok (Neighbor i2 d2)
    /\ (val d1 == val d2)%Q.
Proof. exact @same_nn. Qed.
Print Assumptions C126_nearest_neighbour.

Theorem C126_k_nearest_neighbours :
  forall (T : Type) (S : Scalar T) (val : T -> Q), exact_laws S val ->
  forall (em : exact_metric) (q : list T) (alg1 alg2 : std_algos) (sp1 sp2 : space T) (tree1 tree2 : kd_tree T)
    (k1 k2 : nat) (knn1 knn2 : list (neighbor T)),
  tree_over val em alg1 sp1 q tree1 -> tree_over val em alg2 sp2 q tree2 -> Permutation (sp_pts sp1) (sp_pts sp2) ->
  distances_fit val em sp1 q -> distances_fit val em sp2 q -> 0 < k1 <= k2 ->
  exists out1 out2, search_knn tree1 q k1 knn1 = Ok out1 /\ search_knn tree2 q k2 knn2 = Ok out2
    /\ Forall2 Qeq (distances val out1) (firstn k1 (distances val out2)).
Proof. exact @same_knn. Qed.
Print Assumptions C126_k_nearest_neighbours.

Theorem C126_radius :
  forall (T : Type) (S : Scalar T) (val : T -> Q), exact_laws S val ->
  forall (em : exact_metric) (q : list T) (alg1 alg2 : std_algos) (sp1 sp2 : space T) (tree1 tree2 : kd_tree T)
    (r : T) (sort1 sort2 : bool),
  tree_over val em alg1 sp1 q tree1 -> tree_over val em alg2 sp2 q tree2 -> Permutation (sp_pts sp1) (sp_pts sp2) ->
  exists l1 l2, search_radius alg1 tree1 q r sort1 = Ok l1 /\ search_radius alg2 tree2 q r sort2 = Ok l2
    /\ Permutation (points_of sp1 l1) (points_of sp2 l2)
    /\ (sp1 = sp2 -> Permutation (map n_index l1) (map n_index l2)).
Proof. exact @same_radius. Qed.
Print Assumptions C126_radius.

Theorem C126_box :
  forall (T : Type) (S : Scalar T) (ok : T -> Prop), ord_laws S ok ->
  forall (sp1 sp2 : space T) (m1 m2 : metric T) (alg1 alg2 : std_algos) (it1 it2 : index_type) (fuel1 fuel2 : nat)
    (stop1 stop2 : stop_condition) (bnds1 bnds2 : start_bounds T) (ru1 ru2 : rule) (tree1 tree2 : kd_tree T)
    (mn mx : list T),
  wf_space sp1 -> all_coords ok sp1 -> wf_space sp2 -> all_coords ok sp2 -> std_laws alg1 -> std_laws alg2 ->
  kd_tree_make alg1 it1 m1 fuel1 sp1 stop1 bnds1 ru1 = Ok tree1 ->
  kd_tree_make alg2 it2 m2 fuel2 sp2 stop2 bnds2 ru2 = Ok tree2 ->
  bounds_coords ok sp1 bnds1 -> bounds_enclose sp1 bnds1 -> bounds_coords ok sp2 bnds2 -> bounds_enclose sp2 bnds2 ->
  (ru1 = midpoint_max_side -> mid_ok S ok) -> (ru2 = midpoint_max_side -> mid_ok S ok) ->
  m_cat m1 = Euclidean -> m_cat m2 = Euclidean ->
  length mn = sp_sdim sp1 -> length mx = sp_sdim sp1 -> sp_sdim sp2 = sp_sdim sp1 -> Forall ok mn -> Forall ok mx ->
  Permutation (sp_pts sp1) (sp_pts sp2) ->
  exists a1 a2, search_box tree1 mn mx = Ok a1 /\ search_box tree2 mn mx = Ok a2
    /\ Permutation (points_at sp1 a1) (points_at sp2 a2)
    /\ (sp1 = sp2 -> Permutation a1 a2).
Proof. exact @same_box. Qed.
Print Assumptions C126_box.

(** Seven points and the same in opposite order, made with different rules, stop
    conditions, bounds and index types. *)
Example C126_example :
  (tree_over qv L2Squared std_example ex_sp [1; 1]%Q ex_tree_a /\ tree_over qv L2Squared std_example ex_rev [1; 1]%Q ex_tree_b
   /\ Permutation (sp_pts ex_sp) (sp_pts ex_rev)
   /\ distances_fit qv L2Squared ex_sp [1; 1]%Q /\ distances_fit qv L2Squared ex_rev [1; 1]%Q)
  /\ search_knn ex_tree_a [1; 1]%Q 4 [] = Ok [Neighbor 3 2; Neighbor 4 2; Neighbor 0 2; Neighbor 1 4]%Q
  /\ search_knn ex_tree_b [1; 1]%Q 4 [] = Ok [Neighbor 2 2; Neighbor 6 2; Neighbor 3 2; Neighbor 5 4]%Q
  /\ search_radius std_example ex_tree_a [1; 1]%Q 3%Q false = Ok [Neighbor 3 2; Neighbor 4 2; Neighbor 0 2]%Q
  /\ search_radius std_example ex_tree_b [1; 1]%Q 3%Q false = Ok [Neighbor 2 2; Neighbor 6 2; Neighbor 3 2]%Q
  /\ search_box ex_tree_a [2; 1]%Q [4; 3]%Q = Ok [3; 4; 2] /\ search_box ex_tree_b [2; 1]%Q [4; 3]%Q = Ok [2; 4; 3].
Proof.
  split; [|repeat split; vm_compute; reflexivity].
  split; [apply ex_tree_a_ok; reflexivity|]. split; [apply ex_tree_b_ok; reflexivity|].
  split; [apply Permutation_rev|]. split; apply fit_by_cases; vm_compute; reflexivity.
Qed.

(** ** C127: the searches agree with each other *)
Theorem C127_nn_is_first :
  forall (T : Type) (S : Scalar T) (val : T -> Q), exact_laws S val ->
  forall (em : exact_metric) (q : list T) (alg : std_algos) (sp : space T) (tree : kd_tree T) (k : nat)
    (knn0 : list (neighbor T)) (nn0 : neighbor T),
  tree_over val em alg sp q tree -> distances_fit val em sp q -> 0 < k ->
  exists i d x out, search_nn tree q nn0 = Ok (Neighbor i d) /\ search_knn tree q k knn0 = Ok (x :: out)
    /\ (val d == val (n_distance x))%Q.
Proof. exact @nn_first. Qed.
Print Assumptions C127_nn_is_first.

Theorem C127_radius_is_prefix :
  forall (T : Type) (S : Scalar T) (val : T -> Q), exact_laws S val ->
  forall (em : exact_metric) (q : list T) (alg : std_algos) (sp : space T) (tree : kd_tree T) (r : T) (k : nat)
    (knn0 : list (neighbor T)),
  tree_over val em alg sp q tree -> distances_fit val em sp q -> 0 < k ->
  exists l out, search_radius alg tree q r true = Ok l /\ search_knn tree q k knn0 = Ok out
    /\ Forall2 Qeq (firstn k (distances val l)) (firstn (length l) (distances val out))
    /\ forall x, In x out -> ((val (n_distance x) < val r)%Q <-> In (n_index x) (map n_index l)).
Proof. exact @radius_prefix. Qed.
Print Assumptions C127_radius_is_prefix.

Example C127_example :
  tree_over qv L2Squared std_example ex_sp [2; 1]%Q ex_tree_a /\ distances_fit qv L2Squared ex_sp [2; 1]%Q
  /\ search_nn ex_tree_a [2; 1]%Q (Neighbor 9 9%Q) = Ok (Neighbor 3 1%Q)
  /\ search_knn ex_tree_a [2; 1]%Q 4 [] = Ok [Neighbor 3 1; Neighbor 4 1; Neighbor 2 4; Neighbor 0 5]%Q
  /\ search_radius std_example ex_tree_a [2; 1]%Q 5%Q true = Ok [Neighbor 3 1; Neighbor 4 1; Neighbor 2 4]%Q.
Proof.
  split; [apply ex_tree_a_ok; reflexivity|]. split; [apply fit_by_cases; vm_compute; reflexivity|].
  repeat split; vm_compute; reflexivity.
Qed.

(** ** C128: more points never make an answer worse *)
Theorem C128_nearest_neighbour :
  forall (T : Type) (S : Scalar T) (val : T -> Q), exact_laws S val ->
  forall (em : exact_metric) (q : list T) (alg1 alg2 : std_algos) (sp1 sp2 : space T) (tree1 tree2 : kd_tree T)
    (extra : list (list T)),
  tree_over val em alg1 sp1 q tree1 -> tree_over val em alg2 sp2 q tree2 ->
  Permutation (sp_pts sp1 ++ extra) (sp_pts sp2) ->
  forall nn1 nn2 : neighbor T, distances_fit val em sp1 q -> distances_fit val em sp2 q ->
  exists i1 d1 i2 d2, search_nn tree1 q nn1 = Ok (Neighbor i1 d1) /\ search_nn tree2 q nn2 = Ok (Neighbor i2 d2)
    /\ (val d2 <= val d1)%Q.
Proof. exact @more_nn. Qed.
Print Assumptions C128_nearest_neighbour.

Theorem C128_k_nearest_neighbours :
  forall (T : Type) (S : Scalar T) (val : T -> Q), exact_laws S val ->
  forall (em : exact_metric) (q : list T) (alg1 alg2 : std_algos) (sp1 sp2 : space T) (tree1 tree2 : kd_tree T)
    (extra : list (list T)),
  tree_over val em alg1 sp1 q tree1 -> tree_over val em alg2 sp2 q tree2 ->
  Permutation (sp_pts sp1 ++ extra) (sp_pts sp2) ->
  forall (k : nat) (knn1 knn2 : list (neighbor T)),
  distances_fit val em sp1 q -> distances_fit val em sp2 q -> 0 < k ->
  exists out1 out2, search_knn tree1 q k knn1 = Ok out1 /\ search_knn tree2 q k knn2 = Ok out2
    /\ length out1 <= length out2
    /\ forall p x1 x2, nth_error out1 p = Some x1 -> nth_error out2 p = Some x2 ->
         (val (n_distance x2) <= val (n_distance x1))%Q.
Proof. exact @more_knn. Qed.
Print Assumptions C128_k_nearest_neighbours.

Theorem C128_radius :
  forall (T : Type) (S : Scalar T) (val : T -> Q), exact_laws S val ->
  forall (em : exact_metric) (q : list T) (alg1 alg2 : std_algos) (sp1 sp2 : space T) (tree1 tree2 : kd_tree T)
    (extra : list (list T)) (r : T) (sort1 sort2 : bool),
  tree_over val em alg1 sp1 q tree1 -> tree_over val em alg2 sp2 q tree2 ->
  Permutation (sp_pts sp1 ++ extra) (sp_pts sp2) ->
  exists l1 l2 more, search_radius alg1 tree1 q r sort1 = Ok l1 /\ search_radius alg2 tree2 q r sort2 = Ok l2
    /\ incl more extra /\ Permutation (points_of sp1 l1 ++ more) (points_of sp2 l2).
Proof. exact @more_radius. Qed.
Print Assumptions C128_radius.

(** One point more becomes the third nearest. *)
Example C128_example :
  (tree_over qv L2Squared std_example ex_sp [2; 1]%Q ex_tree_a /\ tree_over qv L2Squared std_example ex_more [2; 1]%Q ex_tree_c
   /\ Permutation (sp_pts ex_sp ++ [[3; 2]%Q]) (sp_pts ex_more)
   /\ distances_fit qv L2Squared ex_sp [2; 1]%Q /\ distances_fit qv L2Squared ex_more [2; 1]%Q)
  /\ search_knn ex_tree_a [2; 1]%Q 4 [] = Ok [Neighbor 3 1; Neighbor 4 1; Neighbor 2 4; Neighbor 0 5]%Q
  /\ search_knn ex_tree_c [2; 1]%Q 4 [] = Ok [Neighbor 3 1; Neighbor 4 1; Neighbor 7 2; Neighbor 2 4]%Q
  /\ search_radius std_example ex_tree_a [2; 1]%Q 5%Q true = Ok [Neighbor 3 1; Neighbor 4 1; Neighbor 2 4]%Q
  /\ search_radius std_example ex_tree_c [2; 1]%Q 5%Q true = Ok [Neighbor 3 1; Neighbor 4 1; Neighbor 7 2; Neighbor 2 4]%Q.
Proof.
  split; [|repeat split; vm_compute; reflexivity].
  split; [apply ex_tree_a_ok; reflexivity|]. split; [apply ex_tree_c_ok; reflexivity|].
  split; [reflexivity|]. split; apply fit_by_cases; vm_compute; reflexivity.
Qed.
