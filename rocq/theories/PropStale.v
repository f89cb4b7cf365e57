(** A tree whose points were modified after it was made, or that was loaded with
    other points than it was saved with (C115-C120). *)
From Coq Require Import List ZArith QArith Bool Arith Permutation Sorted Lia.
From Verif Require Import Base ModelBox ModelBuild ModelSearch ModelSerial Spec SpecSerial SpecStale Instances
  BuildThms Examples StaleThms StaleEx.
Import ListNotations.
Local Open Scope nat_scope.

(** ** C115: searches stay safe, and what they hand out is about the points as they are now *)
Theorem C115_stale_safe :
  forall (T : Type) (S : Scalar T) (ok : T -> Prop), ord_laws S ok ->
  forall sp : space T, wf_space sp -> all_coords ok sp ->
  forall alg : std_algos, std_laws alg ->
  forall (m : metric T) (it : index_type) (fuel : nat) (stop : stop_condition) (bnds : start_bounds T)
    (ru : rule) (tree : kd_tree T),
  kd_tree_make alg it m fuel sp stop bnds ru = Ok tree ->
  (ru = midpoint_max_side -> mid_ok S ok /\ bounds_coords ok sp bnds) ->
  (m_cat m = Topological -> ok_finite S ok /\ (ru = midpoint_max_side -> mid_between S ok)) ->
  forall sp' : space T, modified sp sp' ->
  forall (V : Type) (vis : visitor T V) (q : list T), length q = sp_sdim sp ->
  forall v0 : V,
  exists seen unseen, Permutation (seen ++ unseen) (seq 0 (length (sp_pts sp)))
    /\ search_nearest (with_points tree sp') vis q v0
       = Ok (fold_left (fun st i => v_visit vis i (m_dist m q (nth i (sp_pts sp') [])) st) seen v0).
Proof. exact @stale_total. Qed.
Print Assumptions C115_stale_safe.

(** A tree that was saved and is loaded with other points is such a tree. *)
Theorem C115_load_other_points :
  forall (T : Type) (SC : Scalar T) (little : bool) (it : index_type) (tc : codec T) (fit : T -> Prop)
         (sp : space T) (alg : std_algos) (pads : nat -> nat -> Z) (m : metric T) (fuel : nat)
         (stop : stop_condition) (bnds : start_bounds T) (ru : rule) (tree : kd_tree T) (rest : list Z) (sp' : space T),
  (0 < it_bits it <= 64)%Z -> (it_bits it mod 8 = 0)%Z -> codec_ok tc fit ->
  ord_laws SC fit -> wf_space sp -> all_coords fit sp -> std_laws alg ->
  (ru = midpoint_max_side -> mid_ok SC fit) -> bounds_coords fit sp bnds ->
  (Z.of_nat (sp_sdim sp) < 2 ^ 31)%Z -> (Z.of_nat (length (sp_pts sp)) <= it_max it)%Z ->
  kd_tree_make alg it m fuel sp stop bnds ru = Ok tree ->
  kd_tree_load little it tc m sp' (kd_tree_save little it tc pads tree ++ rest) = Ok (with_points tree sp', Some rest).
Proof. exact @load_stale. Qed.
Print Assumptions C115_load_other_points.

(** Points 1 and 5 of seven moved and an eighth was appended: the search sees 1
    and 5 where they are now and never looks at the eighth. *)
Example C115_example : modified ex_sp ex_moved
  /\ (exists data, kd_tree_make (S := Z32) std_example it_int (metric_l2_squared (S := Z32)) 10 ex_int (max_leaf_size 2)
        bounds_from_space sliding_midpoint_max_side = Ok (KdTree ex_int (metric_l2_squared (S := Z32)) data)
      /\ load_data (SC := Z32) true it_int (int_codec true 4) Euclidean
           (Some (save_data true it_int (int_codec true 4) (fun _ _ => 99%Z) data ++ [5; 6]%Z)) = Ok (data, Some [5; 6]%Z))
  /\ search_radius std_example (with_points ex_tree ex_moved) [6%Q; 3%Q] 100%Q true
     = Ok [Neighbor 1 0%Q; Neighbor 5 2%Q; Neighbor 2 8%Q; Neighbor 6 10%Q; Neighbor 3 17%Q; Neighbor 4 17%Q;
           Neighbor 0 45%Q].
Proof.
  split; [exact ex_moved_ok|]. split; [|vm_compute; reflexivity].
  eexists. split; [apply (make_ok (S := Z32)); vm_compute; reflexivity|vm_compute; reflexivity].
Qed.

(** ** C116: the nearest neighbour *)
Theorem C116_stale_nn :
  forall (T : Type) (S : Scalar T) (val : T -> Q), exact_laws S val ->
  forall (em : exact_metric) (sp sp' : space T) (alg : std_algos), std_laws alg ->
  forall (it : index_type) (fuel : nat) (stop : stop_condition) (bnds : start_bounds T) (ru : rule) (tree : kd_tree T)
    (q : list T),
  kd_tree_make alg it (metric_of em) fuel sp stop bnds ru = Ok tree ->
  usable val em sp bnds q -> usable val em sp' bounds_from_space q -> modified sp sp' ->
  forall nn0 : neighbor T, exists r, search_nn (with_points tree sp') q nn0 = Ok r
  /\ (forall j, j < npts sp -> (val (n_distance r) <= dist_both val em sp sp' q j)%Q)
  /\ (r = Neighbor (n_index nn0) s_max
      \/ n_index r < npts sp /\ (val (n_distance r) == dist_to val em sp' q (n_index r))%Q)
  /\ (distances_fit val em sp q -> distances_fit val em sp' q ->
      n_index r < npts sp /\ (val (n_distance r) == dist_to val em sp' q (n_index r))%Q).
Proof. exact @nn_stale. Qed.
Print Assumptions C116_stale_nn.

(** At (6, 3) the search returns point 5 at distance 2: within the bound for every point. *)
Example C116_example :
  usable qv L2Squared ex_sp bounds_from_space [6%Q; 3%Q] /\ usable qv L2Squared ex_moved bounds_from_space [6%Q; 3%Q]
  /\ distances_fit qv L2Squared ex_sp [6%Q; 3%Q] /\ distances_fit qv L2Squared ex_moved [6%Q; 3%Q]
  /\ search_nn (with_points ex_tree ex_moved) [6%Q; 3%Q] (Neighbor 0 0%Q) = Ok (Neighbor 5 2%Q)
  /\ map (fun j => Qred (dist_both qv L2Squared ex_sp ex_moved [6%Q; 3%Q] j)) (seq 0 7) = [45; 25; 8; 17; 17; 5; 10]%Q.
Proof.
  split; [apply ex_usable_l2; reflexivity|]. split; [apply ex_moved_usable; reflexivity|].
  split; [apply fit_by_cases; vm_compute; reflexivity|]. split; [apply fit_by_cases; vm_compute; reflexivity|].
  split; vm_compute; reflexivity.
Qed.

(** ** C117: the [k] nearest *)
Theorem C117_stale_knn :
  forall (T : Type) (S : Scalar T) (val : T -> Q), exact_laws S val ->
  forall (em : exact_metric) (sp sp' : space T) (alg : std_algos), std_laws alg ->
  forall (it : index_type) (fuel : nat) (stop : stop_condition) (bnds : start_bounds T) (ru : rule) (tree : kd_tree T)
    (q : list T),
  kd_tree_make alg it (metric_of em) fuel sp stop bnds ru = Ok tree ->
  usable val em sp bnds q -> usable val em sp' bounds_from_space q -> modified sp sp' ->
  distances_fit val em sp q -> distances_fit val em sp' q ->
  forall (k : nat) (knn0 : list (neighbor T)), 0 < k ->
  exists out, search_knn (with_points tree sp') q k knn0 = Ok out
  /\ length out = Nat.min k (npts sp')
  /\ stale_knn (npts sp) k (dist_to val em sp' q) (dist_both val em sp sp' q) (answers val (firstn (npts sp) out)).
Proof. exact @knn_stale. Qed.
Print Assumptions C117_stale_knn.

Example C117_example :
  distances_fit qv L2Squared ex_sp [6%Q; 3%Q] /\ distances_fit qv L2Squared ex_moved [6%Q; 3%Q]
  /\ search_knn (with_points ex_tree ex_moved) [6%Q; 3%Q] 3 []
     = Ok [Neighbor 5 2%Q; Neighbor 2 8%Q; Neighbor 6 10%Q].
Proof.
  split; [apply fit_by_cases; vm_compute; reflexivity|]. split; [apply fit_by_cases; vm_compute; reflexivity|].
  vm_compute; reflexivity.
Qed.

(** ** C118: the points within a radius *)
Theorem C118_stale_radius :
  forall (T : Type) (S : Scalar T) (val : T -> Q), exact_laws S val ->
  forall (em : exact_metric) (sp sp' : space T) (alg : std_algos), std_laws alg ->
  forall (it : index_type) (fuel : nat) (stop : stop_condition) (bnds : start_bounds T) (ru : rule) (tree : kd_tree T)
    (q : list T),
  kd_tree_make alg it (metric_of em) fuel sp stop bnds ru = Ok tree ->
  usable val em sp bnds q -> usable val em sp' bounds_from_space q -> modified sp sp' ->
  forall (r : T) (sort : bool), exists l, search_radius alg (with_points tree sp') q r sort = Ok l
  /\ stale_radius (npts sp) (dist_to val em sp' q) (dist_both val em sp sp' q) (val r) (answers val l).
Proof. exact @radius_stale_sort. Qed.
Print Assumptions C118_stale_radius.

(** Radius 9: points 2 and 5 are and were within, point 1 is now. *)
Example C118_example :
  search_radius std_example (with_points ex_tree ex_moved) [6%Q; 3%Q] 9%Q true = Ok [Neighbor 5 2%Q; Neighbor 2 8%Q].
Proof. vm_compute. reflexivity. Qed.

(** ** C119: the points in a box *)
Theorem C119_stale_box :
  forall (T : Type) (S : Scalar T) (ok : T -> Prop), ord_laws S ok ->
  forall sp : space T, wf_space sp -> all_coords ok sp ->
  forall alg : std_algos, std_laws alg ->
  forall (m : metric T) (it : index_type) (fuel : nat) (stop : stop_condition) (bnds : start_bounds T) (ru : rule)
    (tree : kd_tree T),
  kd_tree_make alg it m fuel sp stop bnds ru = Ok tree -> m_cat m = Euclidean ->
  (ru = midpoint_max_side -> mid_ok S ok) -> bounds_coords ok sp bnds -> bounds_enclose sp bnds ->
  forall sp' : space T, modified sp sp' -> all_coords ok sp' ->
  forall mn mx : list T, length mn = sp_sdim sp -> length mx = sp_sdim sp -> Forall ok mn -> Forall ok mx ->
  exists ans, search_box (with_points tree sp') mn mx = Ok ans /\ NoDup ans
    /\ (forall i, In i ans -> i < npts sp
          /\ (inside mn mx (nth i (sp_pts sp) []) \/ inside mn mx (nth i (sp_pts sp') [])))
    /\ (forall i, i < npts sp -> inside mn mx (nth i (sp_pts sp) []) -> inside mn mx (nth i (sp_pts sp') []) -> In i ans).
Proof. exact @box_stale. Qed.
Print Assumptions C119_stale_box.

Example C119_example : all_coords (fun _ => True) ex_moved /\ bounds_enclose ex_sp bounds_from_space
  /\ search_box (with_points ex_tree ex_moved) [0%Q; 0%Q] [3%Q; 5%Q] = Ok [0; 3; 4; 1]
  /\ search_box (with_points ex_tree ex_moved) [5%Q; 0%Q] [8%Q; 5%Q] = Ok [6; 5].
Proof. split; [repeat constructor|]. split; [exact I|]. split; vm_compute; reflexivity. Qed.

(** ** C120: that answers are exact for the points as they are now is false *)

(** The nearest neighbour is missed, a point in the box is missed, a point not in
    the box is reported. *)
Theorem C120_moved_points_refuted :
  exists (tree : kd_tree Q) (sp' : space Q),
    kd_tree_make std_example it_int (metric_of L2Squared) 9 ex_sp (max_leaf_size 2) bounds_from_space
      sliding_midpoint_max_side = Ok tree
    /\ modified ex_sp sp'
    /\ (exists r, search_nn (with_points tree sp') [6%Q; 3%Q] (Neighbor 0 0%Q) = Ok r
        /\ (dist_to qv L2Squared sp' [6%Q; 3%Q] 1 < n_distance r)%Q)
    /\ (exists ans, search_box (with_points tree sp') [5%Q; 0%Q] [8%Q; 5%Q] = Ok ans
        /\ inside [5%Q; 0%Q] [8%Q; 5%Q] (nth 1 (sp_pts sp') []) /\ ~ In 1 ans)
    /\ (exists ans, search_box (with_points tree sp') [0%Q; 0%Q] [3%Q; 5%Q] = Ok ans
        /\ ~ inside [0%Q; 0%Q] [3%Q; 5%Q] (nth 1 (sp_pts sp') []) /\ In 1 ans).
Proof.
  exists ex_tree, ex_moved. split; [exact ex_tree_made|]. split; [exact ex_moved_ok|]. split; [|split].
  - eexists. split; [vm_compute; reflexivity|]. vm_compute. reflexivity.
  - eexists. split; [vm_compute; reflexivity|]. split.
    + intros [|[|d]] H; cbn in H; try lia; split; vm_compute; reflexivity.
    + intros [H|[H|[]]]; discriminate.
  - eexists. split; [vm_compute; reflexivity|]. split.
    + intros H. destruct (H 0) as [_ K]; [cbn; lia|]. vm_compute in K. discriminate.
    + cbn. auto.
Qed.
Print Assumptions C120_moved_points_refuted.

(** After points were appended, search_knn can report entries that belong to no point. *)
Theorem C120_appended_points_refuted :
  exists (tree : kd_tree Q) (sp' : space Q),
    kd_tree_make std_example it_int (metric_of L2Squared) 9 ex_sp (max_leaf_size 2) bounds_from_space
      sliding_midpoint_max_side = Ok tree
    /\ modified ex_sp sp' /\ sp_pts sp' = sp_pts ex_sp ++ [[1%Q; 1%Q]; [3%Q; 3%Q]]
    /\ exists out, search_knn (with_points tree sp') [6%Q; 3%Q] 9 [] = Ok out
       /\ nth 7 out (Neighbor 9 1%Q) = Neighbor 0 0%Q /\ nth 8 out (Neighbor 9 1%Q) = Neighbor 0 s_max.
Proof.
  exists ex_tree, (Space 2 (sp_pts ex_sp ++ [[1%Q; 1%Q]; [3%Q; 3%Q]])). split; [exact ex_tree_made|].
  split; [constructor; [reflexivity|split; [cbn; lia|repeat constructor]|cbn; lia]|]. split; [reflexivity|].
  eexists. split; [vm_compute; reflexivity|]. split; vm_compute; reflexivity.
Qed.
Print Assumptions C120_appended_points_refuted.

(** After points were removed, a search reads beyond them. *)
Theorem C120_removed_points_refuted :
  exists (tree : kd_tree Q) (sp' : space Q),
    kd_tree_make std_example it_int (metric_of L2Squared) 9 ex_sp (max_leaf_size 2) bounds_from_space
      sliding_midpoint_max_side = Ok tree
    /\ wf_space sp' /\ sp_sdim sp' = sp_sdim ex_sp /\ sp_pts sp' = firstn 2 (sp_pts ex_sp)
    /\ search_nn (with_points tree sp') [6%Q; 3%Q] (Neighbor 0 0%Q) = Ub UbIndex.
Proof.
  exists ex_tree, (Space 2 (firstn 2 (sp_pts ex_sp))). split; [exact ex_tree_made|].
  split; [split; [cbn; lia|repeat constructor]|]. split; [reflexivity|]. split; [reflexivity|]. vm_compute. reflexivity.
Qed.
Print Assumptions C120_removed_points_refuted.
