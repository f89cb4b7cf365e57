(** C138: which leaves a search looks at. *)
From Coq Require Import List ZArith QArith Bool Arith.
From Verif Require Import Base ModelBox ModelBuild ModelSearch Spec Instances Examples SpecWork WorkThms WorkEx.
Import ListNotations.
Local Open Scope nat_scope.

(** ** C138: a search looks only at leaves it has to look at *)
(** The leaf whose part the query is in comes first. Any other leaf is looked at only if
    some place in its part is no further from the query than the bound that the visitor
    gives at that moment; leaves that are further away are never opened. *)
Theorem C138_visited_cells :
  forall (T : Type) (S : Scalar T) (val : T -> Q), exact_laws S val ->
  forall (m : metric T) (t : nat -> Q -> Q -> Q) (sp : space T) (alg : std_algos), std_laws alg ->
  forall (it : index_type) (fuel : nat) (stop : stop_condition) (bnds : start_bounds T) (ru : rule)
    (q : list T) (tree : kd_tree T),
  m_cat m = Euclidean -> ru <> midpoint_max_side ->
  kd_tree_make alg it m fuel sp stop bnds ru = Ok tree -> metric_fits val m t sp bnds q ->
  (forall k x, (t k x x == 0)%Q) ->
  forall (V : Type) (vis : visitor T V) (v0 : V),
  let root := kd_root (kt_data tree) in
  let see := shown m sp (kd_indices (kt_data tree)) q vis v0 in
  exists leaves first rest,
  search_nearest tree vis q v0 = Ok (see leaves)
  /\ NoDup leaves /\ incl leaves (leaf_intervals root)
  /\ leaves = first :: rest /\ in_cell val (place val q) (fst first) (snd first) root
  /\ forall before leaf after, leaves = before ++ leaf :: after -> before <> [] ->
     exists z, in_cell val z (fst leaf) (snd leaf) root
       /\ (sumN (sp_sdim sp) (fun k => t k (place val q k) (z k)) <= val (v_max vis (see before)))%Q.
Proof. exact @visited_cells. Qed.
Print Assumptions C138_visited_cells.

(** The distances that come with the library. *)
Theorem C138_builtin_metrics :
  forall (T : Type) (S : Scalar T) (val : T -> Q), exact_laws S val ->
  forall (em : exact_metric) (t : nat -> Q -> Q -> Q) (sp : space T) (alg : std_algos), std_laws alg ->
  forall (it : index_type) (fuel : nat) (stop : stop_condition) (bnds : start_bounds T) (ru : rule)
    (q : list T) (tree : kd_tree T),
  em = L1 /\ t = (fun _ => abs_diff) \/ em = L2Squared /\ t = (fun _ => sq_diff) ->
  ru <> midpoint_max_side ->
  kd_tree_make alg it (metric_of em) fuel sp stop bnds ru = Ok tree -> usable val em sp bnds q ->
  forall (V : Type) (vis : visitor T V) (v0 : V),
  let root := kd_root (kt_data tree) in
  let see := shown (metric_of em) sp (kd_indices (kt_data tree)) q vis v0 in
  exists leaves first rest,
  search_nearest tree vis q v0 = Ok (see leaves)
  /\ NoDup leaves /\ incl leaves (leaf_intervals root)
  /\ leaves = first :: rest /\ in_cell val (place val q) (fst first) (snd first) root
  /\ forall before leaf after, leaves = before ++ leaf :: after -> before <> [] ->
     exists z, in_cell val z (fst leaf) (snd leaf) root
       /\ (sumN (sp_sdim sp) (fun k => t k (place val q k) (z k)) <= val (v_max vis (see before)))%Q.
Proof. exact @visited_builtin_cells. Qed.
Print Assumptions C138_builtin_metrics.

(** What the parts are: together they are the space, and a leaf's points are in its part. *)
Theorem C138_parts :
  forall (T : Type) (S : Scalar T) (val : T -> Q), exact_laws S val ->
  forall (m : metric T) (t : nat -> Q -> Q -> Q) (sp : space T) (alg : std_algos), std_laws alg ->
  forall (it : index_type) (fuel : nat) (stop : stop_condition) (bnds : start_bounds T) (ru : rule)
    (q : list T) (tree : kd_tree T),
  m_cat m = Euclidean -> ru <> midpoint_max_side ->
  kd_tree_make alg it m fuel sp stop bnds ru = Ok tree -> metric_fits val m t sp bnds q ->
  let root := kd_root (kt_data tree) in
  (forall z : nat -> Q, exists leaf, In leaf (leaf_intervals root) /\ in_cell val z (fst leaf) (snd leaf) root)
  /\ forall b e i, In (b, e) (leaf_intervals root) -> In i (points_in (kd_indices (kt_data tree)) [(b, e)]) ->
     in_cell val (place val (nth i (sp_pts sp) [])) b e root.
Proof. exact @parts_of_space. Qed.
Print Assumptions C138_parts.

(** Seven leaves of one point each, of which the search for the nearest point looks at two. *)
Example C138_example : exists data, let tree := KdTree ex_sp metric_l2_squared data in
  kd_tree_make std_example it_int metric_l2_squared 9 ex_sp (max_leaf_size 1) bounds_from_space
    sliding_midpoint_max_side = Ok tree
  /\ usable qv L2Squared ex_sp bounds_from_space [2; 2]%Q
  /\ length (leaf_intervals (kd_root data)) = 7
  /\ exists a b, search_nearest tree visitor_nn_counter [2; 2]%Q (Neighbor 9 s_max, 0)
       = Ok (shown metric_l2_squared ex_sp (kd_indices data) [2; 2]%Q visitor_nn_counter (Neighbor 9 s_max, 0) [a; b])
     /\ in_cell qv (place qv [2; 2]%Q) (fst a) (snd a) (kd_root data)
     /\ exists z, in_cell qv z (fst b) (snd b) (kd_root data)
       /\ (sumN 2 (fun k => sq_diff (place qv [2; 2]%Q k) (z k))
           <= n_distance (fst (shown metric_l2_squared ex_sp (kd_indices data) [2; 2]%Q visitor_nn_counter
                (Neighbor 9 s_max, 0%nat) [a])))%Q.
Proof. exact c138_example. Qed.
