(** C130-C133: trees from anywhere, and loading any bytes. *)
From Coq Require Import List ZArith QArith Bool Arith Permutation Sorted Lia Lqa.
From Verif Require Import Base ModelBox ModelBuild ModelSearch ModelSerial Spec SpecSerial SpecShape SpecLoad Instances
  SerialThms LoadThms LoadInv LoadEx Examples.
Import ListNotations.
Local Open Scope nat_scope.

(** C130.  Searches only need the numbers of a tree to be in range: whatever else is
    wrong with it, they end, access nothing out of bounds, and hand the visitor only
    points of the space with their distances, at most as many as the leaves hold. *)
Theorem C130_nearest_is_safe :
  forall (T : Type) (S : Scalar T) (m : metric T) (sp : space T) (data : kd_tree_data (m_cat m) T),
  in_range m sp data ->
  forall (V : Type) (vis : visitor T V) (q : list T) (v0 : V), length q = sp_sdim sp ->
  exists tr : list nat, (forall i, In i tr -> i < npts sp) /\ length tr <= node_points (kd_root data)
    /\ search_nearest (KdTree sp m data) vis q v0
       = Ok (fold_left (fun st i => v_visit vis i (m_dist m q (nth i (sp_pts sp) [])) st) tr v0).
Proof. exact @nearest_safe. Qed.
Print Assumptions C130_nearest_is_safe.

Theorem C130_box_is_safe :
  forall (T : Type) (S : Scalar T) (m : metric T) (sp : space T) (data : kd_tree_data (m_cat m) T) (mn mx : list T),
  m_cat m = Euclidean -> in_range m sp data -> ordered_ranges (kd_root data) ->
  length (box_min (kd_root_box data)) = sp_sdim sp -> length (box_max (kd_root_box data)) = sp_sdim sp ->
  length mn = sp_sdim sp -> length mx = sp_sdim sp ->
  exists out, search_box (KdTree sp m data) mn mx = Ok out /\ forall i, In i out -> i < npts sp.
Proof. exact @box_safe. Qed.
Print Assumptions C130_box_is_safe.

(** Three points on a line. *)
Definition three : space Q := Space 1 [[5]; [1]; [9]]%Q.
(** A tree no rule makes: loose bounds, an empty leaf. *)
Definition odd_tree : kd_tree_data Euclidean Q :=
  @KdTreeData Euclidean Q [1; 0; 2] (Box [-4]%Q [20]%Q)
    (@Branch (branch_data Euclidean Q) (BranchSingle 0 6%Q 8%Q) (Leaf 0 2)
       (@Branch (branch_data Euclidean Q) (BranchSingle 0 10%Q 12%Q) (Leaf 2 3) (Leaf 3 3))).
(** A tree that is wrong: point 1 twice, point 0 missing, false bounds. *)
Definition wrong_tree : kd_tree_data Euclidean Q :=
  @KdTreeData Euclidean Q [1; 1; 2] (Box [100]%Q [20]%Q)
    (@Branch (branch_data Euclidean Q) (BranchSingle 0 50%Q (-3)%Q) (Leaf 0 2) (Leaf 1 3)).

Example C130_example :
  in_range (metric_l2_squared (S := QD)) three wrong_tree /\ ordered_ranges (kd_root wrong_tree)
  /\ search_nn (KdTree three (metric_l2_squared (S := QD)) wrong_tree) [5]%Q (Neighbor 9 0%Q) = Ok (Neighbor 1 16%Q)
  /\ search_knn (KdTree three (metric_l2_squared (S := QD)) wrong_tree) [2]%Q 2 [] = Ok [Neighbor 1 1%Q; Neighbor 1 1%Q]
  /\ search_box (KdTree three (metric_l2_squared (S := QD)) wrong_tree) [0]%Q [4]%Q = Ok [1; 1; 1].
Proof.
  split; [|split; [cbn; lia|repeat split; vm_compute; reflexivity]].
  constructor; cbn; repeat constructor; cbn; lia.
Qed.

(** Loading checks nothing of this: a file of the right size, one byte of which was
    changed, loads, and searching the tree reads outside of the points. *)
Theorem C130_loaded_trees_refuted :
  exists (file file' : list Z) (at_ : nat) (t t' : kd_tree Z),
  let m := @metric_l2_squared Z Z32 in
  @kd_tree_load Z Z32 true it_int (int_codec true 4) m ex_int file = Ok (t, Some [])
  /\ (forall j, j <> at_ -> nth_error file' j = nth_error file j) /\ length file' = length file
  /\ Forall (fun b => (0 <= b < 256)%Z) file'
  /\ @kd_tree_load Z Z32 true it_int (int_codec true 4) m ex_int file' = Ok (t', Some [])
  /\ (exists a, @search_nn Z Z32 t [1; 1]%Z (Neighbor 0 0%Z) = Ok a)
  /\ @search_nn Z Z32 t' [1; 1]%Z (Neighbor 0 0%Z) = Ub UbIndex.
Proof. exact altered_file. Qed.
Print Assumptions C130_loaded_trees_refuted.

(** C131.  Searches are exact on every tree of the points, whoever made it. *)
Theorem C131_nn :
  forall (T : Type) (S : Scalar T) (val : T -> Q), exact_laws S val ->
  forall (em : exact_metric) (sp : space T) (data : kd_tree_data (m_cat (metric_of em)) T) (q : list T),
  tree_of val (metric_of em) sp data -> usable val em sp bounds_from_space q -> 0 < npts sp ->
  distances_fit val em sp q ->
  forall nn0 : neighbor T,
  exists i d, search_nn (KdTree sp (metric_of em) data) q nn0 = Ok (Neighbor i d)
    /\ (val d == dist_to val em sp q i)%Q /\ is_nearest (npts sp) (dist_to val em sp q) i.
Proof. exact @tree_nn. Qed.
Print Assumptions C131_nn.

Theorem C131_knn :
  forall (T : Type) (S : Scalar T) (val : T -> Q), exact_laws S val ->
  forall (em : exact_metric) (sp : space T) (data : kd_tree_data (m_cat (metric_of em)) T) (q : list T),
  tree_of val (metric_of em) sp data -> usable val em sp bounds_from_space q -> 0 < npts sp ->
  distances_fit val em sp q ->
  forall (k : nat) (knn0 : list (neighbor T)), 0 < k ->
  exists out, search_knn (KdTree sp (metric_of em) data) q k knn0 = Ok out
    /\ knn_answer (npts sp) k (dist_to val em sp q) (answers val out).
Proof. exact @tree_knn. Qed.
Print Assumptions C131_knn.

Theorem C131_radius :
  forall (T : Type) (S : Scalar T) (val : T -> Q), exact_laws S val ->
  forall (em : exact_metric) (sp : space T) (data : kd_tree_data (m_cat (metric_of em)) T) (q : list T),
  tree_of val (metric_of em) sp data -> usable val em sp bounds_from_space q ->
  forall alg : std_algos, std_laws alg ->
  forall (r : T) (sort : bool),
  exists l, search_radius alg (KdTree sp (metric_of em) data) q r sort = Ok l
    /\ filter_answer (npts sp) (fun i => (dist_to val em sp q i < val r)%Q) (dist_to val em sp q) (answers val l)
    /\ (sort = true -> StronglySorted Qle (map (fun x => val (n_distance x)) l)).
Proof. exact @tree_radius. Qed.
Print Assumptions C131_radius.

Theorem C131_box :
  forall (T : Type) (S : Scalar T) (val : T -> Q), exact_laws S val ->
  forall sp : space T, wf_space sp ->
  forall m : metric T, m_cat m = Euclidean ->
  forall (data : kd_tree_data (m_cat m) T) (mn mx : list T),
  tree_of val m sp data -> box_of sp (kd_root_box data) ->
  length mn = sp_sdim sp -> length mx = sp_sdim sp ->
  exists ans, search_box (KdTree sp m data) mn mx = Ok ans
    /\ index_answer (npts sp) (fun i => inside mn mx (nth i (sp_pts sp) [])) ans.
Proof. exact @tree_box. Qed.
Print Assumptions C131_box.

(** Trees that kd_tree makes are trees of the points, and [save] and [load] keep trees
    (C33). *)
Theorem C131_made :
  forall (T : Type) (S : Scalar T) (val : T -> Q), exact_laws S val ->
  forall (em : exact_metric) (sp : space T) (alg : std_algos), std_laws alg ->
  forall (it : index_type) (fuel : nat) (stop : stop_condition) (bnds : start_bounds T) (ru : rule)
    (tree : kd_tree T) (q : list T),
  kd_tree_make alg it (metric_of em) fuel sp stop bnds ru = Ok tree -> usable val em sp bnds q ->
  exists data, tree = KdTree sp (metric_of em) data /\ tree_of val (metric_of em) sp data.
Proof. exact @made_tree_of. Qed.
Print Assumptions C131_made.

Example C131_example : let t := KdTree three (metric_l2_squared (S := QD)) odd_tree in
  tree_of qv (metric_l2_squared (S := QD)) three odd_tree /\ box_of (S := QD) three (kd_root_box odd_tree)
  /\ usable qv L2Squared three bounds_from_space [6]%Q /\ distances_fit qv L2Squared three [6]%Q
  /\ search_nn t [6]%Q (Neighbor 9 0%Q) = Ok (Neighbor 0 1%Q)
  /\ search_knn t [6]%Q 2 [] = Ok [Neighbor 0 1%Q; Neighbor 2 9%Q]
  /\ search_box t [5]%Q [10]%Q = Ok [0; 2].
Proof.
  cbv zeta. split; [|split; [|split; [|split; [|repeat split; vm_compute; reflexivity]]]].
  - constructor.
    + cbn. apply perm_swap.
    + cbn. repeat (constructor; [lia|]). constructor.
    + cbn [every_branch_at odd_tree kd_root true_branch m_cat metric_l2_squared bs_split_dim bs_left_max bs_right_min].
      repeat split; try (cbn; lia); try (vm_compute; discriminate);
        cbn; intros i H; repeat (destruct H as [<-|H]; [vm_compute; discriminate|]); destruct H.
  - constructor; auto. intros i d Hi Hd. cbn in Hi, Hd. destruct d; [|lia].
    destruct i as [|[|[|]]]; [| | |lia]; split; vm_compute; reflexivity.
  - constructor; try exact I; try reflexivity.
    + split; [cbn; lia|repeat constructor].
    + repeat constructor; vm_compute; discriminate.
    + repeat constructor.
  - apply fit_by_cases; vm_compute; reflexivity.
Qed.

(** Being in range is not enough for that (C130_example: the nearest point to 5 of
    {5, 1, 9} is not 1). *)
Theorem C131_in_range_refuted :
  exists (sp : space Q) (data : kd_tree_data Euclidean Q) (q : list Q) (i : nat) (d : Q),
  let m := metric_l2_squared (S := QD) in
  in_range m sp data /\ ordered_ranges (kd_root data)
  /\ search_nn (KdTree sp m data) q (Neighbor 0 0%Q) = Ok (Neighbor i d)
  /\ ~ is_nearest (npts sp) (dist_to qv L2Squared sp q) i.
Proof.
  exists three, wrong_tree, [5]%Q, 1, 16%Q. cbv zeta. destruct C130_example as (A & B & _). split; [exact A|]. split; [exact B|].
  split; [vm_compute; reflexivity|]. intros [_ H]. specialize (H 0 ltac:(cbn; lia)). vm_compute in H. congruence.
Qed.
Print Assumptions C131_in_range_refuted.

(** C132.  Loading reads nothing into a file: what can be loaded is, up to the padding of
    structs, what saving the loaded tree writes.  ([P]: scalars with one representation,
    all but NaN.) *)
Theorem C132_canonical :
  forall (T : Type) (SC : Scalar T) (little : bool) (it : index_type) (tc : codec T) (P : T -> Prop),
  codec_exact tc P ->
  forall (c : category) (bytes : list Z) (data : kd_tree_data c T) (s : stream),
  load_data little it tc c (Some bytes) = Ok (data, s) ->
  Forall (fun b => (0 <= b < 256)%Z) bytes -> Forall P (tree_scalars data) ->
  exists rest pads, s = Some rest /\ bytes = save_data little it tc pads data ++ rest.
Proof. exact @load_canonical. Qed.
Print Assumptions C132_canonical.

Example C132_example : 
  codec_exact (int_codec true 4) (fun _ => True)
  /\ let bytes := ([1;0;0;0;0;0;0;0; 2;0;0;0;0;0;0;0; 9;9;0;0; 1;0;0;0; 255;255;255;255; 8;0;0;0;
       0; 3;0;0;0; 7;0;0;0; 254;255;255;255; 1; 2;0;0;0; 1;0;0;0; 1; 9;0;0;0; 0;0;0;0] ++ [77; 78])%Z in
  @load_data Z Z32 true it_int (int_codec true 4) Euclidean (Some bytes)
  = Ok (@KdTreeData Euclidean Z [N.to_nat 2313; 1] (Box [-1] [8])%Z
          (@Branch (branch_data Euclidean Z) (BranchSingle 3 7 (-2))%Z (Leaf 2 1) (Leaf 9 0)), Some [77; 78]%Z).
Proof. split; [apply int_exact|vm_compute; reflexivity]. Qed.

(** C133.  Loading ends for any bytes (they are the bound of the recursion in the model),
    and how many bytes it consumed is known from the tree. *)
Theorem C133_load_ends :
  forall (T : Type) (SC : Scalar T) (little : bool) (it : index_type) (tc : codec T),
  (forall bs, c_dec tc bs <> OutOfFuel) ->
  forall (c : category) (s : stream), load_data little it tc c s <> OutOfFuel.
Proof. exact @load_terminates. Qed.
Print Assumptions C133_load_ends.

Theorem C133_consumed :
  forall (T : Type) (SC : Scalar T) (little : bool) (it : index_type) (tc : codec T)
    (c : category) (bytes : list Z) (data : kd_tree_data c T) (s : stream),
  load_data little it tc c (Some bytes) = Ok (data, s) ->
  let leaf := 1 + layout_size (leaf_layout little it) in
  let branch := 1 + layout_size (branch_layout little tc c) in
  exists rest, s = Some rest
    /\ length bytes = 16 + length (kd_indices data) * c_size (index_codec little it)
         + 2 * (length (box_min (kd_root_box data)) * c_size tc)
         + leaf_count (kd_root data) * leaf + branch_count (kd_root data) * branch + length rest
    /\ length (box_max (kd_root_box data)) = length (box_min (kd_root_box data))
    /\ height (kd_root data) * (leaf + branch) + leaf + 16 <= length bytes.
Proof. exact @load_consumed. Qed.
Print Assumptions C133_consumed.

Example C133_example : let bytes :=
    [0;0;0;0;0;0;0;0; 0;0;0;0;0;0;0;0; 0; 3;0;0;0; 7;0;0;0; 254;255;255;255; 1; 2;0;0;0; 1;0;0;0; 1; 9;0;0;0; 0;0;0;0]%Z in
  @load_data Z Z32 true it_int (int_codec true 4) Euclidean (Some bytes)
  = Ok (@KdTreeData Euclidean Z [] (Box [] [])
          (@Branch (branch_data Euclidean Z) (BranchSingle 3 7 (-2))%Z (Leaf 2 1) (Leaf 9 0)), Some [])
  /\ length bytes = 16 + 2 * 9 + 13.
Proof. split; vm_compute; reflexivity. Qed.

(** That is the only bound: the depth of the recursion is not limited by the number of
    points, or at all.  A file of 25 + 22 k bytes without any point makes loading nest k
    calls deep. *)
Theorem C133_depth_refuted :
  forall k : nat, exists (bytes : list Z) (data : kd_tree_data Euclidean Z),
  Forall (fun b => (0 <= b < 256)%Z) bytes /\ length bytes = 25 + 22 * k
  /\ @load_data Z Z32 true it_int (int_codec true 4) Euclidean (Some bytes) = Ok (data, Some [])
  /\ height (kd_root data) = k /\ kd_indices data = [].
Proof. exact (@deep_file Z32). Qed.
Print Assumptions C133_depth_refuted.

Example C133_depth_ex : exists (bytes : list Z) (data : kd_tree_data Euclidean Z),
  length bytes = 25 + 22 * 3
  /\ @load_data Z Z32 true it_int (int_codec true 4) Euclidean (Some bytes) = Ok (data, Some [])
  /\ height (kd_root data) = 3.
Proof. destruct (C133_depth_refuted 3) as (b & d & _ & L & E & H & _). exists b, d. auto. Qed.
