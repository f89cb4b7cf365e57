(** Properties of the nearest neighbour searches: C10-C16, C19-C28, C30, C43. *)
From Coq Require Import List ZArith QArith Qabs Bool Arith Permutation Sorted Lia Lqa.
From Verif Require Import Base ModelBox ModelBuild ModelSearch Spec Instances Metrics BuildThms QueryThms TopThms
  SafeThms MetricThms UserThms UniqThms ExtraThms MoreThms Examples.
Import ListNotations.
Local Open Scope nat_scope.

(** ** C10: search_nn *)
Theorem C10_nearest_neighbour :
  forall (T : Type) (S : Scalar T) (val : T -> Q), exact_laws S val ->
  forall (em : exact_metric) (sp : space T) (alg : std_algos), std_laws alg ->
  forall (it : index_type) (fuel : nat) (stop : stop_condition) (bnds : start_bounds T) (ru : rule)
    (tree : kd_tree T) (q : list T),
  kd_tree_make alg it (metric_of em) fuel sp stop bnds ru = Ok tree ->
  usable val em sp bnds q -> distances_fit val em sp q ->
  forall nn0 : neighbor T,
  exists i d, search_nn tree q nn0 = Ok (Neighbor i d)
    /\ (val d == dist_to val em sp q i)%Q
    /\ is_nearest (npts sp) (dist_to val em sp q) i.
Proof. exact @top_nn. Qed.
Print Assumptions C10_nearest_neighbour.

Example C10_example : exists data, let t := KdTree ex_sp metric_l2_squared data in
  kd_tree_make std_example it_int metric_l2_squared 9 ex_sp (max_leaf_size 2) bounds_from_space
    sliding_midpoint_max_side = Ok t
  /\ usable qv L2Squared ex_sp bounds_from_space [3; 3]%Q
  /\ distances_fit qv L2Squared ex_sp [3; 3]%Q
  /\ search_nn t [3; 3]%Q (Neighbor 9 0%Q) = Ok (Neighbor 3 2%Q).
Proof.
  eexists. cbv zeta. split; [apply make_ok; vm_compute; reflexivity|]. split; [apply ex_usable_l2; reflexivity|].
  split; [apply fit_by_cases; vm_compute; reflexivity|]. vm_compute. reflexivity.
Qed.

(** The same for 32-bit integer coordinates (without overflow) and another rule. *)
Example C10_example_int : exists data,
  let sp := Space 2 [[0; 0]; [10; 3]; [-4; 1]; [2; 2]; [7; -9]]%Z in
  let t := KdTree sp (@metric_l1 Z Z32) data in
  @kd_tree_make Z Z32 std_example_rev it_int (@metric_l1 Z Z32) 9 sp (max_leaf_size 1) bounds_from_space median_max_side = Ok t
  /\ @usable Z Z32 inject_Z L1 sp bounds_from_space [8; -3]%Z
  /\ @search_nn Z Z32 t [8; -3]%Z (Neighbor 9 0%Z) = Ok (Neighbor 4 7%Z).
Proof.
  eexists. cbv zeta. split; [apply make_ok; vm_compute; reflexivity|]. split; [|vm_compute; reflexivity].
  constructor.
  - split; [cbn; lia|repeat constructor].
  - repeat (constructor; [repeat (constructor; [split; vm_compute; discriminate|]); constructor|]); constructor.
  - repeat constructor.
  - exact I.
  - reflexivity.
  - exact I.
Qed.

(** ** C11: search_knn *)
Theorem C11_k_nearest_neighbours :
  forall (T : Type) (S : Scalar T) (val : T -> Q), exact_laws S val ->
  forall (em : exact_metric) (sp : space T) (alg : std_algos), std_laws alg ->
  forall (it : index_type) (fuel : nat) (stop : stop_condition) (bnds : start_bounds T) (ru : rule)
    (tree : kd_tree T) (q : list T),
  kd_tree_make alg it (metric_of em) fuel sp stop bnds ru = Ok tree ->
  usable val em sp bnds q -> distances_fit val em sp q ->
  forall (k : nat) (knn0 : list (neighbor T)), 0 < k ->
  exists out, search_knn tree q k knn0 = Ok out
    /\ knn_answer (npts sp) k (dist_to val em sp q) (answers val out).
Proof. exact @top_knn. Qed.
Print Assumptions C11_k_nearest_neighbours.

Example C11_example : exists data, let t := KdTree ex_sp metric_l1 data in
  kd_tree_make std_example it_int metric_l1 9 ex_sp (max_leaf_size 1) bounds_from_space median_max_side = Ok t
  /\ usable qv L1 ex_sp bounds_from_space [1; 1]%Q
  /\ distances_fit qv L1 ex_sp [1; 1]%Q
  /\ search_knn t [1; 1]%Q 4 [] = Ok [Neighbor 3 2%Q; Neighbor 1 2%Q; Neighbor 0 2%Q; Neighbor 4 2%Q].
Proof.
  eexists. cbv zeta. split; [apply make_ok; vm_compute; reflexivity|]. split; [apply ex_usable_l1; reflexivity|].
  split; [apply fit_by_cases; vm_compute; reflexivity|]. vm_compute. reflexivity.
Qed.

(** ** C12: search_knn into a range of the caller *)
Theorem C12_knn_range :
  forall (T : Type) (S : Scalar T) (val : T -> Q), exact_laws S val ->
  forall (em : exact_metric) (sp : space T) (alg : std_algos), std_laws alg ->
  forall (it : index_type) (fuel : nat) (stop : stop_condition) (bnds : start_bounds T) (ru : rule)
    (tree : kd_tree T) (q : list T),
  kd_tree_make alg it (metric_of em) fuel sp stop bnds ru = Ok tree ->
  usable val em sp bnds q -> distances_fit val em sp q ->
  forall range : list (neighbor T), 0 < length range ->
  exists out, search_knn_range tree q range = Ok out
    /\ length out = length range
    /\ knn_answer (npts sp) (length range) (dist_to val em sp q) (answers val (firstn (npts sp) out))
    /\ (forall p, npts sp <= p -> p < length range - 1 -> nth_error out p = nth_error range p)
    /\ (npts sp < length range -> forall old, nth_error range (length range - 1) = Some old ->
          nth_error out (length range - 1) = Some (Neighbor (n_index old) s_max)).
Proof. exact @top_knn_range. Qed.
Print Assumptions C12_knn_range.

Example C12_example : exists data, let t := KdTree (Space 1 [[1]; [5]]%Q) metric_l1 data in
  kd_tree_make std_example it_int metric_l1 9 (Space 1 [[1]; [5]]%Q) (max_leaf_size 1) bounds_from_space median_max_side = Ok t
  /\ search_knn_range t [0]%Q (repeat (Neighbor 77 (-1)%Q) 4)
     = Ok [Neighbor 0 1%Q; Neighbor 1 5%Q; Neighbor 77 (-1)%Q; Neighbor 77 s_max].
Proof. eexists. cbv zeta. split; [apply make_ok; vm_compute; reflexivity|vm_compute; reflexivity]. Qed.

(** ** C13: k = 0 *)
(** The full statement: asking for no neighbours returns none. *)
Definition C13_statement : Prop :=
  forall (T : Type) (S : Scalar T) (t : kd_tree T) (x : list T) (knn : list (neighbor T)),
  length x = sp_sdim (kt_space t) -> search_knn t x 0 knn = Ok [].

(** It never holds. *)
Theorem C13_k_zero_undefined :
  forall (T : Type) (S : Scalar T) (t : kd_tree T) (x : list T) (knn : list (neighbor T)),
  search_knn t x 0 knn = Ub UbIndex.
Proof. exact @search_knn_zero. Qed.
Print Assumptions C13_k_zero_undefined.

Theorem C13_k_zero_undefined_approx :
  forall (T : Type) (S : Scalar T) (t : kd_tree T) (x : list T) (e : T) (knn : list (neighbor T)),
  search_knn_approx t x 0 e knn = Ub UbIndex.
Proof. exact @search_knn_zero_approx. Qed.
Print Assumptions C13_k_zero_undefined_approx.

Theorem C13_refuted : ~ C13_statement.
Proof.
  intros H. destruct (build Euclidean std_example it_int 9 ex_sp (max_leaf_size 2) bounds_from_space
    sliding_midpoint_max_side) as [data| |] eqn:E; [|vm_compute in E; discriminate..].
  pose proof (make_ok _ _ metric_l1 _ _ _ _ _ _ E) as EM.
  set (t := KdTree ex_sp metric_l1 data) in EM.
  specialize (H Q QD t [1; 1]%Q []). rewrite C13_k_zero_undefined in H.
  assert (K : kt_space t = ex_sp) by reflexivity.
  rewrite K in H. specialize (H eq_refl). discriminate H.
Qed.
Print Assumptions C13_refuted.

(** ** C14: search_radius *)
Theorem C14_open_ball :
  forall (T : Type) (S : Scalar T) (val : T -> Q), exact_laws S val ->
  forall (em : exact_metric) (sp : space T) (alg : std_algos), std_laws alg ->
  forall (it : index_type) (fuel : nat) (stop : stop_condition) (bnds : start_bounds T) (ru : rule)
    (tree : kd_tree T) (q : list T),
  kd_tree_make alg it (metric_of em) fuel sp stop bnds ru = Ok tree ->
  usable val em sp bnds q ->
  forall (r : T) (sort : bool),
  exists l, search_radius alg tree q r sort = Ok l
    /\ filter_answer (npts sp) (fun i => (dist_to val em sp q i < val r)%Q) (dist_to val em sp q) (answers val l)
    /\ (sort = true -> StronglySorted Qle (map (fun x => val (n_distance x)) l)).
Proof. exact @top_radius. Qed.
Print Assumptions C14_open_ball.

Example C14_example : exists data, let t := KdTree ex_sp metric_l2_squared data in
  kd_tree_make std_example it_int metric_l2_squared 9 ex_sp (max_leaf_size 2) bounds_from_space
    sliding_midpoint_max_side = Ok t
  /\ usable qv L2Squared ex_sp bounds_from_space [1; 1]%Q
  /\ search_radius std_example t [1; 1]%Q 4%Q false = Ok [Neighbor 3 2%Q; Neighbor 4 2%Q; Neighbor 0 2%Q].
Proof.
  eexists. cbv zeta. split; [apply make_ok; vm_compute; reflexivity|]. split; [apply ex_usable_l2; reflexivity|]. vm_compute. reflexivity.
Qed.

(** ** C15: points exactly at the radius *)
(** The full statement. *)
Definition C15_statement : Prop :=
  forall (T : Type) (S : Scalar T) (val : T -> Q), exact_laws S val ->
  forall (em : exact_metric) (sp : space T) (alg : std_algos), std_laws alg ->
  forall (it : index_type) (fuel : nat) (stop : stop_condition) (bnds : start_bounds T) (ru : rule)
    (tree : kd_tree T) (q : list T),
  kd_tree_make alg it (metric_of em) fuel sp stop bnds ru = Ok tree ->
  usable val em sp bnds q ->
  forall (r : T) (i : nat), i < npts sp -> (dist_to val em sp q i <= val r)%Q ->
  exists l, search_radius alg tree q r false = Ok l /\ In i (map n_index l).

Theorem C15_refuted : ~ C15_statement.
Proof.
  intros H. destruct (build Euclidean std_example it_int 9 ex_sp (max_leaf_size 2) bounds_from_space
    sliding_midpoint_max_side) as [data| |] eqn:E; [|vm_compute in E; discriminate..].
  pose proof (make_ok _ _ metric_l2_squared _ _ _ _ _ _ E) as EM.
  set (t := KdTree ex_sp metric_l2_squared data) in EM.
  destruct (H Q QD qv QD_exact L2Squared ex_sp std_example std_example_laws it_int 9 _ _ _ t [1; 1]%Q EM
    (ex_usable_l2 [1; 1]%Q eq_refl) 4%Q 1) as (l & EL & I).
  - cbn. lia.
  - vm_compute. discriminate.
  - vm_compute in E. injection E as <-. vm_compute in EL. injection EL as <-. cbn in I. lia.
Qed.
Print Assumptions C15_refuted.

(** ** C16: sorting *)
Theorem C16_sort_only_reorders :
  forall (T : Type) (S : Scalar T) (ok : T -> Prop), ord_laws S ok ->
  forall alg : std_algos, std_laws alg ->
  forall (tree : kd_tree T) (q : list T) (r : T) (l : list (neighbor T)),
  search_radius alg tree q r false = Ok l ->
  (forall x, In x l -> ok (n_distance x)) ->
  exists l', search_radius alg tree q r true = Ok l'
    /\ Permutation l' l
    /\ StronglySorted (fun a b => s_leb (n_distance a) (n_distance b) = true) l'.
Proof. exact @top_sort. Qed.
Print Assumptions C16_sort_only_reorders.

Theorem C16_sort_only_reorders_approx :
  forall (T : Type) (S : Scalar T) (ok : T -> Prop), ord_laws S ok ->
  forall alg : std_algos, std_laws alg ->
  forall (tree : kd_tree T) (q : list T) (r e : T) (l : list (neighbor T)),
  search_radius_approx alg tree q r e false = Ok l ->
  (forall x, In x l -> ok (n_distance x)) ->
  exists l', search_radius_approx alg tree q r e true = Ok l'
    /\ Permutation l' l
    /\ StronglySorted (fun a b => s_leb (n_distance a) (n_distance b) = true) l'.
Proof. exact @top_sort_approx. Qed.
Print Assumptions C16_sort_only_reorders_approx.

Example C16_example : exists data, let t := KdTree ex_sp metric_l2_squared data in
  kd_tree_make std_example it_int metric_l2_squared 9 ex_sp (max_leaf_size 2) bounds_from_space
    sliding_midpoint_max_side = Ok t
  /\ search_radius std_example t [2; 1]%Q 7%Q false
     = Ok [Neighbor 3 1%Q; Neighbor 4 1%Q; Neighbor 0 5%Q; Neighbor 1 5%Q; Neighbor 2 4%Q]
  /\ search_radius std_example t [2; 1]%Q 7%Q true
     = Ok [Neighbor 3 1%Q; Neighbor 4 1%Q; Neighbor 2 4%Q; Neighbor 0 5%Q; Neighbor 1 5%Q].
Proof. eexists. cbv zeta. split; [apply make_ok; vm_compute; reflexivity|]. split; vm_compute; reflexivity. Qed.

(** ** C19: approximate nearest neighbour *)
Theorem C19_approximate_nn :
  forall (T : Type) (S : Scalar T) (val : T -> Q), exact_laws S val ->
  forall (em : exact_metric) (sp : space T) (alg : std_algos), std_laws alg ->
  forall (it : index_type) (fuel : nat) (stop : stop_condition) (bnds : start_bounds T) (ru : rule)
    (tree : kd_tree T) (q : list T),
  kd_tree_make alg it (metric_of em) fuel sp stop bnds ru = Ok tree ->
  usable val em sp bnds q -> distances_fit val em sp q ->
  forall (e : T) (nn0 : neighbor T), field_laws S val -> (1 <= val e)%Q ->
  exists i d, search_nn_approx tree q e nn0 = Ok (Neighbor i d)
    /\ i < npts sp
    /\ (val d == dist_to val em sp q i / val e)%Q
    /\ (forall j, j < npts sp -> (dist_to val em sp q i <= val e * dist_to val em sp q j)%Q).
Proof. exact @top_approx_nn. Qed.
Print Assumptions C19_approximate_nn.

Example C19_example : exists data, let t := KdTree ex_sp metric_l2_squared data in
  kd_tree_make std_example it_int metric_l2_squared 9 ex_sp (max_leaf_size 2) bounds_from_space
    sliding_midpoint_max_side = Ok t
  /\ usable qv L2Squared ex_sp bounds_from_space [3; 2]%Q
  /\ distances_fit qv L2Squared ex_sp [3; 2]%Q
  /\ exists d, search_nn_approx t [7 # 2; 2]%Q 4%Q (Neighbor 9 0%Q) = Ok (Neighbor 2 d) /\ (d == 5 # 16)%Q.
Proof.
  eexists. cbv zeta. split; [apply make_ok; vm_compute; reflexivity|]. split; [apply ex_usable_l2; reflexivity|].
  split; [apply fit_by_cases; vm_compute; reflexivity|].
  eexists. split; vm_compute; reflexivity.
Qed.

(** ** C20: approximate k nearest neighbours *)
Theorem C20_approximate_knn :
  forall (T : Type) (S : Scalar T) (val : T -> Q), exact_laws S val ->
  forall (em : exact_metric) (sp : space T) (alg : std_algos), std_laws alg ->
  forall (it : index_type) (fuel : nat) (stop : stop_condition) (bnds : start_bounds T) (ru : rule)
    (tree : kd_tree T) (q : list T),
  kd_tree_make alg it (metric_of em) fuel sp stop bnds ru = Ok tree ->
  usable val em sp bnds q -> distances_fit val em sp q ->
  forall (e : T) (k : nat) (knn0 : list (neighbor T)), field_laws S val -> (1 <= val e)%Q -> 0 < k ->
  exists l, search_knn_approx tree q k e knn0 = Ok l
    /\ length l = Nat.min k (npts sp)
    /\ NoDup (map n_index l)
    /\ StronglySorted Qle (map (fun x => val (n_distance x)) l)
    /\ (forall x, In x l -> n_index x < npts sp
          /\ (val (n_distance x) == dist_to val em sp q (n_index x) / val e)%Q)
    /\ (forall ds p x, sorted_distances (npts sp) (dist_to val em sp q) ds -> nth_error l p = Some x ->
          (dist_to val em sp q (n_index x) <= val e * nth p ds 0)%Q).
Proof. exact @top_approx_knn. Qed.
Print Assumptions C20_approximate_knn.

Example C20_example : exists data, let t := KdTree ex_sp metric_l1 data in
  kd_tree_make std_example it_int metric_l1 9 ex_sp (max_leaf_size 1) bounds_from_space median_max_side = Ok t
  /\ usable qv L1 ex_sp bounds_from_space [1; 1]%Q
  /\ distances_fit qv L1 ex_sp [1; 1]%Q
  /\ exists l, search_knn_approx t [1; 1]%Q 5 2%Q [] = Ok l /\ map n_index l = [3; 1; 0; 4; 2].
Proof.
  eexists. cbv zeta. split; [apply make_ok; vm_compute; reflexivity|]. split; [apply ex_usable_l1; reflexivity|].
  split; [apply fit_by_cases; vm_compute; reflexivity|]. eexists. split; vm_compute; reflexivity.
Qed.

(** ** C21: approximate radius search *)
Theorem C21_approximate_radius :
  forall (T : Type) (S : Scalar T) (val : T -> Q), exact_laws S val ->
  forall (em : exact_metric) (sp : space T) (alg : std_algos), std_laws alg ->
  forall (it : index_type) (fuel : nat) (stop : stop_condition) (bnds : start_bounds T) (ru : rule)
    (tree : kd_tree T) (q : list T),
  kd_tree_make alg it (metric_of em) fuel sp stop bnds ru = Ok tree ->
  usable val em sp bnds q ->
  forall (e r : T) (sort : bool), field_laws S val -> (1 <= val e)%Q ->
  exists l, search_radius_approx alg tree q r e sort = Ok l
    /\ NoDup (map n_index l)
    /\ (forall x, In x l -> n_index x < npts sp
          /\ (dist_to val em sp q (n_index x) < val r)%Q
          /\ (val (n_distance x) == dist_to val em sp q (n_index x) / val e)%Q)
    /\ (forall i, i < npts sp -> (dist_to val em sp q i < val r)%Q ->
          (dist_to val em sp q i <= val r / val e)%Q -> In i (map n_index l))
    /\ (sort = true -> StronglySorted Qle (map (fun x => val (n_distance x)) l)).
Proof. exact @top_approx_radius. Qed.
Print Assumptions C21_approximate_radius.

Example C21_example : exists data, let t := KdTree ex_sp metric_l2_squared data in
  kd_tree_make std_example it_int metric_l2_squared 9 ex_sp (max_leaf_size 2) bounds_from_space
    sliding_midpoint_max_side = Ok t
  /\ usable qv L2Squared ex_sp bounds_from_space [2; 1]%Q
  /\ exists l, search_radius_approx std_example t [2; 1]%Q 7%Q (3 # 2)%Q true = Ok l
     /\ map n_index l = [3; 4; 2; 0; 1].
Proof.
  eexists. cbv zeta. split; [apply make_ok; vm_compute; reflexivity|]. split; [apply ex_usable_l2; reflexivity|].
  eexists. split; vm_compute; reflexivity.
Qed.

(** ** C22: custom visitors *)
Theorem C22_visitor_contract :
  forall (T : Type) (S : Scalar T) (val : T -> Q), exact_laws S val ->
  forall (em : exact_metric) (sp : space T) (alg : std_algos), std_laws alg ->
  forall (it : index_type) (fuel : nat) (stop : stop_condition) (bnds : start_bounds T) (ru : rule)
    (tree : kd_tree T) (q : list T),
  kd_tree_make alg it (metric_of em) fuel sp stop bnds ru = Ok tree ->
  usable val em sp bnds q ->
  forall (V : Type) (vis : visitor T V) (Inv : V -> Prop) (v0 : V),
  (forall st i, Inv st -> i < npts sp -> Inv (v_visit vis i (m_dist (metric_of em) q (nth i (sp_pts sp) [])) st)) ->
  (forall st i, Inv st -> i < npts sp ->
    (val (v_max vis (v_visit vis i (m_dist (metric_of em) q (nth i (sp_pts sp) [])) st)) <= val (v_max vis st))%Q) ->
  Inv v0 ->
  exists seen rest final,
    Permutation (seen ++ rest) (seq 0 (npts sp))
    /\ search_nearest tree vis q v0 = Ok final
    /\ final = fold_left (fun st i => v_visit vis i (m_dist (metric_of em) q (nth i (sp_pts sp) [])) st) seen v0
    /\ (forall i, i < npts sp -> (val (m_dist (metric_of em) q (nth i (sp_pts sp) [])) == dist_to val em sp q i)%Q)
    /\ forall j, In j rest -> (val (v_max vis final) < dist_to val em sp q j)%Q.
Proof. exact @top_visitor. Qed.
Print Assumptions C22_visitor_contract.

(** Likewise for metrics supplied by the user, as long as they are sums of
    per-coordinate terms. *)
Theorem C22_visitor_contract_user_metric :
  forall (T : Type) (S : Scalar T) (val : T -> Q), exact_laws S val ->
  forall (m : metric T) (t : nat -> Q -> Q -> Q) (sp : space T) (alg : std_algos), std_laws alg ->
  forall (it : index_type) (fuel : nat) (stop : stop_condition) (bnds : start_bounds T) (ru : rule)
    (tree : kd_tree T) (q : list T),
  kd_tree_make alg it m fuel sp stop bnds ru = Ok tree ->
  metric_fits val m t sp bnds q ->
  forall (V : Type) (vis : visitor T V) (Inv : V -> Prop) (v0 : V),
  (forall st i, Inv st -> i < npts sp -> Inv (v_visit vis i (m_dist m q (nth i (sp_pts sp) [])) st)) ->
  (forall st i, Inv st -> i < npts sp ->
    (val (v_max vis (v_visit vis i (m_dist m q (nth i (sp_pts sp) [])) st)) <= val (v_max vis st))%Q) ->
  Inv v0 ->
  exists seen rest final,
    Permutation (seen ++ rest) (seq 0 (npts sp))
    /\ search_nearest tree vis q v0 = Ok final
    /\ final = fold_left (fun st i => v_visit vis i (m_dist m q (nth i (sp_pts sp) [])) st) seen v0
    /\ forall j, In j rest -> (val (v_max vis final) < metric_to val m sp q j)%Q.
Proof. exact @user_visitor. Qed.
Print Assumptions C22_visitor_contract_user_metric.

(** The visitor of the documentation that counts its calls: its maximum never
    increases, and here it is not called for every point. *)
Example C22_example : exists data, let t := KdTree ex_sp metric_l2_squared data in
  kd_tree_make std_example it_int metric_l2_squared 9 ex_sp (max_leaf_size 1) bounds_from_space
    sliding_midpoint_max_side = Ok t
  /\ (forall st i d, (n_distance (fst (v_visit visitor_nn_counter i d st)) <= n_distance (fst st))%Q)
  /\ search_nearest t visitor_nn_counter [2; 2]%Q (Neighbor 9 s_max, 0) = Ok (Neighbor 4 0%Q, 2).
Proof.
  eexists. cbv zeta. split; [apply make_ok; vm_compute; reflexivity|]. split; [|vm_compute; reflexivity].
  intros [nn c] i d. cbn [v_visit visitor_nn_counter fst]. destruct (s_ltb d (n_distance nn)) eqn:E; cbn [n_distance].
  - apply (el_lt _ _ QD_exact) in E. unfold qv in E. apply Qlt_le_weak. exact E.
  - apply Qle_refl.
Qed.

(** ** C23: what is reported is genuine *)
Theorem C23_nn_genuine :
  forall (T : Type) (S : Scalar T) (ok : T -> Prop), ord_laws S ok ->
  forall sp : space T, wf_space sp -> all_coords ok sp ->
  forall alg : std_algos, std_laws alg ->
  forall (m : metric T) (it : index_type) (fuel : nat) (stop : stop_condition) (bnds : start_bounds T)
    (ru : rule) (tree : kd_tree T),
  kd_tree_make alg it m fuel sp stop bnds ru = Ok tree ->
  (ru = midpoint_max_side -> mid_ok S ok /\ bounds_coords ok sp bnds) ->
  (m_cat m = Topological -> ok_finite S ok /\ (ru = midpoint_max_side -> mid_between S ok)) ->
  forall q : list T, length q = sp_sdim sp ->
  forall nn0 : neighbor T,
  exists r, search_nn tree q nn0 = Ok r
    /\ (r = Neighbor (n_index nn0) s_max
        \/ (n_index r < length (sp_pts sp) /\ n_distance r = m_dist m q (nth (n_index r) (sp_pts sp) []))).
Proof. exact @genuine_nn. Qed.
Print Assumptions C23_nn_genuine.

Theorem C23_knn_genuine :
  forall (T : Type) (S : Scalar T) (ok : T -> Prop), ord_laws S ok ->
  forall sp : space T, wf_space sp -> all_coords ok sp ->
  forall alg : std_algos, std_laws alg ->
  forall (m : metric T) (it : index_type) (fuel : nat) (stop : stop_condition) (bnds : start_bounds T)
    (ru : rule) (tree : kd_tree T),
  kd_tree_make alg it m fuel sp stop bnds ru = Ok tree ->
  (ru = midpoint_max_side -> mid_ok S ok /\ bounds_coords ok sp bnds) ->
  (m_cat m = Topological -> ok_finite S ok /\ (ru = midpoint_max_side -> mid_between S ok)) ->
  forall q : list T, length q = sp_sdim sp ->
  forall range : list (neighbor T), 0 < length range ->
  exists out kept, search_knn_range tree q range = Ok out
    /\ NoDup kept
    /\ (forall i, In i kept -> i < length (sp_pts sp))
    /\ length kept <= length range
    /\ length out = length range
    /\ firstn (length kept) out = map (fun i => Neighbor i (m_dist m q (nth i (sp_pts sp) []))) kept
    /\ (forall p, length kept <= p -> p < length range - 1 -> nth_error out p = nth_error range p)
    /\ (length kept < length range -> forall old, nth_error range (length range - 1) = Some old ->
          nth_error out (length range - 1) = Some (Neighbor (n_index old) s_max)).
Proof. exact @genuine_knn. Qed.
Print Assumptions C23_knn_genuine.

Theorem C23_radius_genuine :
  forall (T : Type) (S : Scalar T) (ok : T -> Prop), ord_laws S ok ->
  forall sp : space T, wf_space sp -> all_coords ok sp ->
  forall alg : std_algos, std_laws alg ->
  forall (m : metric T) (it : index_type) (fuel : nat) (stop : stop_condition) (bnds : start_bounds T)
    (ru : rule) (tree : kd_tree T),
  kd_tree_make alg it m fuel sp stop bnds ru = Ok tree ->
  (ru = midpoint_max_side -> mid_ok S ok /\ bounds_coords ok sp bnds) ->
  (m_cat m = Topological -> ok_finite S ok /\ (ru = midpoint_max_side -> mid_between S ok)) ->
  forall q : list T, length q = sp_sdim sp ->
  forall r : T,
  exists l kept, search_radius alg tree q r false = Ok l
    /\ NoDup kept
    /\ (forall i, In i kept -> i < length (sp_pts sp) /\ s_ltb (m_dist m q (nth i (sp_pts sp) [])) r = true)
    /\ l = map (fun i => Neighbor i (m_dist m q (nth i (sp_pts sp) []))) kept.
Proof. exact @genuine_radius. Qed.
Print Assumptions C23_radius_genuine.

(** Nothing is ever dereferenced out of range, whatever the visitor does. *)
Theorem C23_no_undefined_behaviour :
  forall (T : Type) (S : Scalar T) (ok : T -> Prop), ord_laws S ok ->
  forall sp : space T, wf_space sp -> all_coords ok sp ->
  forall alg : std_algos, std_laws alg ->
  forall (m : metric T) (it : index_type) (fuel : nat) (stop : stop_condition) (bnds : start_bounds T)
    (ru : rule) (tree : kd_tree T),
  kd_tree_make alg it m fuel sp stop bnds ru = Ok tree ->
  (ru = midpoint_max_side -> mid_ok S ok /\ bounds_coords ok sp bnds) ->
  (m_cat m = Topological -> ok_finite S ok /\ (ru = midpoint_max_side -> mid_between S ok)) ->
  forall (V : Type) (vis : visitor T V) (q : list T), length q = sp_sdim sp ->
  forall v0 : V,
  exists seen rest, Permutation (seen ++ rest) (seq 0 (length (sp_pts sp)))
    /\ search_nearest tree vis q v0
       = Ok (fold_left (fun st i => v_visit vis i (m_dist m q (nth i (sp_pts sp) [])) st) seen v0).
Proof. exact @search_nearest_total. Qed.
Print Assumptions C23_no_undefined_behaviour.

Example C23_example : exists data, let t := KdTree ex_sp metric_lpinf data in
  kd_tree_make std_example it_int metric_lpinf 9 ex_sp (max_leaf_size 1) bounds_from_space median_max_side = Ok t
  /\ search_nn t [6; 1]%Q (Neighbor 9 0%Q) = Ok (Neighbor 6 1%Q)
  /\ exists r, search_nn t [6; 1]%Q (Neighbor 9 0%Q) = Ok r
    /\ (r = Neighbor 9 s_max
        \/ (n_index r < 7 /\ n_distance r = m_dist metric_lpinf [6; 1]%Q (nth (n_index r) (sp_pts ex_sp) []))).
Proof.
  eexists. cbv zeta. split; [apply make_ok; vm_compute; reflexivity|]. split; [vm_compute; reflexivity|].
  refine (C23_nn_genuine Q QD _ QD_ord ex_sp ex_wf ex_ok std_example std_example_laws metric_lpinf it_int 9
    (max_leaf_size 1) bounds_from_space median_max_side _ _ _ _ [6; 1]%Q _ (Neighbor 9 0%Q)).
  - vm_compute. reflexivity.
  - discriminate.
  - discriminate.
  - reflexivity.
Qed.

(** ** C24: the max norm *)
(** The full statement. *)
Definition C24_statement : Prop :=
  forall (T : Type) (S : Scalar T) (val : T -> Q), exact_laws S val ->
  forall (sp : space T) (alg : std_algos), std_laws alg ->
  forall (it : index_type) (fuel : nat) (stop : stop_condition) (bnds : start_bounds T) (ru : rule)
    (tree : kd_tree T) (q : list T),
  kd_tree_make alg it metric_lpinf fuel sp stop bnds ru = Ok tree ->
  wf_space sp -> all_coords (representable val) sp -> length q = sp_sdim sp ->
  (forall i, i < npts sp -> (metric_to val metric_lpinf sp q i < val s_max)%Q) ->
  forall nn0, exists i d, search_nn tree q nn0 = Ok (Neighbor i d)
    /\ is_nearest (npts sp) (metric_to val metric_lpinf sp q) i.

Definition C24_points : space Q := Space 2 [[-2; -5]; [3; 3]; [9; -2]]%Q.

Theorem C24_refuted : ~ C24_statement.
Proof.
  intros H. destruct (build Euclidean std_example it_int 9 C24_points (max_leaf_size 1) bounds_from_space
    median_max_side) as [data| |] eqn:E; [|vm_compute in E; discriminate..].
  pose proof (make_ok _ _ metric_lpinf _ _ _ _ _ _ E) as EM.
  set (t := KdTree C24_points metric_lpinf data) in EM.
  destruct (H Q QD qv QD_exact C24_points std_example std_example_laws it_int 9 _ _ _ t [0; 0]%Q EM)
    with (nn0 := Neighbor 9 0%Q) as (i & d & EN & [_ Hn]).
  - split; [cbn; lia|repeat constructor].
  - repeat (constructor; [repeat (constructor; [split; vm_compute; discriminate|]); constructor|]); constructor.
  - reflexivity.
  - intros [|[|[|i]]] Hi; [vm_compute; reflexivity..|cbn in Hi; lia].
  - vm_compute in E. injection E as <-. vm_compute in EN. injection EN as <- <-.
    specialize (Hn 1). cbn [npts C24_points sp_pts length] in Hn. specialize (Hn ltac:(lia)).
    revert Hn. vm_compute. intros Hn. apply Hn. reflexivity.
Qed.
Print Assumptions C24_refuted.

(** What holds instead. *)
Theorem C24_lpinf_factor :
  forall (T : Type) (S : Scalar T) (val : T -> Q), exact_laws S val ->
  forall (sp : space T) (alg : std_algos), std_laws alg ->
  forall (it : index_type) (fuel : nat) (stop : stop_condition) (bnds : start_bounds T) (ru : rule)
    (tree : kd_tree T) (q : list T),
  kd_tree_make alg it metric_lpinf fuel sp stop bnds ru = Ok tree ->
  wf_space sp -> all_coords (representable val) sp -> length q = sp_sdim sp ->
  (forall i, i < npts sp ->
    (inject_Z (Z.of_nat (sp_sdim sp)) * linf_dist (map val q) (map val (nth i (sp_pts sp) [])) < val s_max)%Q) ->
  forall nn0, exists i d, search_nn tree q nn0 = Ok (Neighbor i d)
    /\ i < npts sp
    /\ (val d == linf_dist (map val q) (map val (nth i (sp_pts sp) [])))%Q
    /\ (forall j, j < npts sp ->
          (linf_dist (map val q) (map val (nth i (sp_pts sp) []))
           <= inject_Z (Z.of_nat (sp_sdim sp)) * linf_dist (map val q) (map val (nth j (sp_pts sp) [])))%Q).
Proof. exact @linf_nn. Qed.
Print Assumptions C24_lpinf_factor.

Theorem C24_lpinf_radius :
  forall (T : Type) (S : Scalar T) (val : T -> Q), exact_laws S val ->
  forall (sp : space T) (alg : std_algos), std_laws alg ->
  forall (it : index_type) (fuel : nat) (stop : stop_condition) (bnds : start_bounds T) (ru : rule)
    (tree : kd_tree T) (q : list T),
  kd_tree_make alg it metric_lpinf fuel sp stop bnds ru = Ok tree ->
  wf_space sp -> all_coords (representable val) sp -> length q = sp_sdim sp ->
  forall r : T,
  exists l, search_nearest tree (visitor_radius r) q [] = Ok l
    /\ NoDup (map n_index l)
    /\ (forall x, In x l -> n_index x < npts sp
          /\ (val (n_distance x) == linf_dist (map val q) (map val (nth (n_index x) (sp_pts sp) [])))%Q
          /\ (linf_dist (map val q) (map val (nth (n_index x) (sp_pts sp) [])) < val r)%Q)
    /\ (forall i, i < npts sp -> (linf_dist (map val q) (map val (nth i (sp_pts sp) [])) < val r)%Q ->
          (inject_Z (Z.of_nat (sp_sdim sp)) * linf_dist (map val q) (map val (nth i (sp_pts sp) [])) <= val r)%Q ->
          In i (map n_index l)).
Proof. exact @linf_radius_raw. Qed.
Print Assumptions C24_lpinf_radius.

Example C24_example : exists data, let t := KdTree C24_points metric_lpinf data in
  kd_tree_make std_example it_int metric_lpinf 9 C24_points (max_leaf_size 1) bounds_from_space median_max_side = Ok t
  /\ search_nn t [0; 0]%Q (Neighbor 9 0%Q) = Ok (Neighbor 0 5%Q)
  /\ (metric_to qv metric_lpinf C24_points [0; 0]%Q 1 == 3)%Q
  /\ exists i d, search_nn t [0; 0]%Q (Neighbor 9 0%Q) = Ok (Neighbor i d)
    /\ i < npts C24_points
    /\ (d == linf_dist (map qv [0; 0]%Q) (map qv (nth i (sp_pts C24_points) [])))%Q
    /\ (forall j, j < npts C24_points ->
          (linf_dist (map qv [0; 0]%Q) (map qv (nth i (sp_pts C24_points) []))
           <= 2 * linf_dist (map qv [0; 0]%Q) (map qv (nth j (sp_pts C24_points) [])))%Q).
Proof.
  eexists. cbv zeta. split; [apply make_ok; vm_compute; reflexivity|]. split; [vm_compute; reflexivity|]. split; [vm_compute; reflexivity|].
  refine (C24_lpinf_factor Q QD qv QD_exact C24_points std_example std_example_laws it_int 9 (max_leaf_size 1)
    bounds_from_space median_max_side _ [0; 0]%Q _ _ _ _ _ (Neighbor 9 0%Q)).
  - vm_compute. reflexivity.
  - split; [cbn; lia|repeat constructor].
  - repeat (constructor; [repeat (constructor; [split; vm_compute; discriminate|]); constructor|]); constructor.
  - reflexivity.
  - intros [|[|[|i]]] Hi; [vm_compute; reflexivity..|cbn in Hi; lia].
Qed.

(** ** C25: the min norm *)
(** The full statement. *)
Definition C25_statement : Prop :=
  forall (T : Type) (S : Scalar T) (val : T -> Q), exact_laws S val ->
  forall (sp : space T) (alg : std_algos), std_laws alg ->
  forall (it : index_type) (fuel : nat) (stop : stop_condition) (bnds : start_bounds T) (ru : rule)
    (tree : kd_tree T) (q : list T),
  kd_tree_make alg it metric_lninf fuel sp stop bnds ru = Ok tree ->
  wf_space sp -> all_coords (representable val) sp -> length q = sp_sdim sp ->
  (forall i, i < npts sp -> (metric_to val metric_lninf sp q i < val s_max)%Q) ->
  forall nn0, exists i d, search_nn tree q nn0 = Ok (Neighbor i d)
    /\ is_nearest (npts sp) (metric_to val metric_lninf sp q) i.

Definition C25_points : space Q := Space 2 [[-1; -1]; [100; 0]]%Q.

Theorem C25_refuted : ~ C25_statement.
Proof.
  intros H. destruct (build Euclidean std_example it_int 9 C25_points (max_leaf_size 1) bounds_from_space
    sliding_midpoint_max_side) as [data| |] eqn:E; [|vm_compute in E; discriminate..].
  pose proof (make_ok _ _ metric_lninf _ _ _ _ _ _ E) as EM.
  set (t := KdTree C25_points metric_lninf data) in EM.
  destruct (H Q QD qv QD_exact C25_points std_example std_example_laws it_int 9 _ _ _ t [0; 0]%Q EM)
    with (nn0 := Neighbor 9 0%Q) as (i & d & EN & [_ Hn]).
  - split; [cbn; lia|repeat constructor].
  - repeat (constructor; [repeat (constructor; [split; vm_compute; discriminate|]); constructor|]); constructor.
  - reflexivity.
  - intros [|[|i]] Hi; [vm_compute; reflexivity..|cbn in Hi; lia].
  - vm_compute in E. injection E as <-. vm_compute in EN. injection EN as <- <-.
    specialize (Hn 1). cbn [npts C25_points sp_pts length] in Hn. specialize (Hn ltac:(lia)).
    revert Hn. vm_compute. intros Hn. apply Hn. reflexivity.
Qed.
Print Assumptions C25_refuted.

(** ** C26: the circle *)
Theorem C26_circle_nn :
  forall (T : Type) (S : Scalar T) (val : T -> Q), exact_laws S val ->
  forall (sp : space T) (alg : std_algos), std_laws alg ->
  forall (it : index_type) (fuel : nat) (stop : stop_condition) (bnds : start_bounds T) (ru : rule)
    (tree : kd_tree T) (x : T),
  kd_tree_make alg it metric_so2 fuel sp stop bnds ru = Ok tree ->
  circle_points val sp -> bounds_coords (fun c => (0 <= val c <= 1)%Q) sp bnds -> (0 <= val x <= 1)%Q ->
  forall nn0, exists i d, search_nn tree [x] nn0 = Ok (Neighbor i d)
    /\ (val d == arc (val x) (coord_val val sp i 0))%Q
    /\ is_nearest (npts sp) (fun j => arc (val x) (coord_val val sp j 0)) i.
Proof. exact @so2_nn. Qed.
Print Assumptions C26_circle_nn.

Theorem C26_circle_knn :
  forall (T : Type) (S : Scalar T) (val : T -> Q), exact_laws S val ->
  forall (sp : space T) (alg : std_algos), std_laws alg ->
  forall (it : index_type) (fuel : nat) (stop : stop_condition) (bnds : start_bounds T) (ru : rule)
    (tree : kd_tree T) (x : T),
  kd_tree_make alg it metric_so2 fuel sp stop bnds ru = Ok tree ->
  circle_points val sp -> bounds_coords (fun c => (0 <= val c <= 1)%Q) sp bnds -> (0 <= val x <= 1)%Q ->
  forall k knn0, 0 < k -> exists out, search_knn tree [x] k knn0 = Ok out
    /\ knn_answer (npts sp) k (fun j => arc (val x) (coord_val val sp j 0)) (answers val out).
Proof. exact @so2_knn. Qed.
Print Assumptions C26_circle_knn.

Theorem C26_circle_radius :
  forall (T : Type) (S : Scalar T) (val : T -> Q), exact_laws S val ->
  forall (sp : space T) (alg : std_algos), std_laws alg ->
  forall (it : index_type) (fuel : nat) (stop : stop_condition) (bnds : start_bounds T) (ru : rule)
    (tree : kd_tree T) (x : T),
  kd_tree_make alg it metric_so2 fuel sp stop bnds ru = Ok tree ->
  circle_points val sp -> bounds_coords (fun c => (0 <= val c <= 1)%Q) sp bnds -> (0 <= val x <= 1)%Q ->
  forall r sort, exists l, search_radius alg tree [x] r sort = Ok l
    /\ filter_answer (npts sp) (fun j => (arc (val x) (coord_val val sp j 0) < val r)%Q)
         (fun j => arc (val x) (coord_val val sp j 0)) (answers val l)
    /\ (sort = true -> StronglySorted Qle (map (fun y => val (n_distance y)) l)).
Proof. exact @so2_radius. Qed.
Print Assumptions C26_circle_radius.

(** Neighbours across the seam. *)
Example C26_example : exists data, let t := KdTree ex_so2 metric_so2 data in
  kd_tree_make std_example it_int metric_so2 9 ex_so2 (max_leaf_size 1) bounds_from_space
    sliding_midpoint_max_side = Ok t
  /\ circle_points qv ex_so2
  /\ exists l, search_knn t [49 # 50]%Q 3 [] = Ok l /\ map n_index l = [4; 3; 0].
Proof.
  eexists. cbv zeta. split; [apply make_ok; vm_compute; reflexivity|]. split.
  - split; [reflexivity|]. repeat (constructor; [split; [reflexivity|repeat (constructor; [split; vm_compute; discriminate|]); constructor]|]). constructor.
  - eexists. split; vm_compute; reflexivity.
Qed.

(** ** C27: poses *)
Theorem C27_pose_nn :
  forall (T : Type) (S : Scalar T) (val : T -> Q), exact_laws S val ->
  forall (sp : space T) (alg : std_algos), std_laws alg ->
  forall (it : index_type) (fuel : nat) (stop : stop_condition) (bnds : start_bounds T) (ru : rule)
    (tree : kd_tree T) (x y a : T),
  kd_tree_make alg it metric_se2_squared fuel sp stop bnds ru = Ok tree ->
  sp_sdim sp = 3 -> Forall (pose val) (sp_pts sp) ->
  match bnds with bounds_from_space => True | bounds_user mn mx => pose val mn /\ pose val mx end ->
  (0 <= val a <= 1)%Q ->
  (forall i, i < npts sp ->
    (pose_dist (val x) (val y) (val a) (coord_val val sp i 0) (coord_val val sp i 1) (coord_val val sp i 2) < val s_max)%Q) ->
  forall nn0, exists i d, search_nn tree [x; y; a] nn0 = Ok (Neighbor i d)
    /\ (val d == pose_dist (val x) (val y) (val a) (coord_val val sp i 0) (coord_val val sp i 1) (coord_val val sp i 2))%Q
    /\ is_nearest (npts sp) (fun i =>
         pose_dist (val x) (val y) (val a) (coord_val val sp i 0) (coord_val val sp i 1) (coord_val val sp i 2)) i.
Proof. exact @se2_nn. Qed.
Print Assumptions C27_pose_nn.

Theorem C27_pose_knn :
  forall (T : Type) (S : Scalar T) (val : T -> Q), exact_laws S val ->
  forall (sp : space T) (alg : std_algos), std_laws alg ->
  forall (it : index_type) (fuel : nat) (stop : stop_condition) (bnds : start_bounds T) (ru : rule)
    (tree : kd_tree T) (x y a : T),
  kd_tree_make alg it metric_se2_squared fuel sp stop bnds ru = Ok tree ->
  sp_sdim sp = 3 -> Forall (pose val) (sp_pts sp) ->
  match bnds with bounds_from_space => True | bounds_user mn mx => pose val mn /\ pose val mx end ->
  (0 <= val a <= 1)%Q ->
  (forall i, i < npts sp ->
    (pose_dist (val x) (val y) (val a) (coord_val val sp i 0) (coord_val val sp i 1) (coord_val val sp i 2) < val s_max)%Q) ->
  forall k knn0, 0 < k -> exists out, search_knn tree [x; y; a] k knn0 = Ok out
    /\ knn_answer (npts sp) k (fun i =>
         pose_dist (val x) (val y) (val a) (coord_val val sp i 0) (coord_val val sp i 1) (coord_val val sp i 2))
         (answers val out).
Proof. exact @se2_knn. Qed.
Print Assumptions C27_pose_knn.

Theorem C27_pose_radius :
  forall (T : Type) (S : Scalar T) (val : T -> Q), exact_laws S val ->
  forall (sp : space T) (alg : std_algos), std_laws alg ->
  forall (it : index_type) (fuel : nat) (stop : stop_condition) (bnds : start_bounds T) (ru : rule)
    (tree : kd_tree T) (x y a : T),
  kd_tree_make alg it metric_se2_squared fuel sp stop bnds ru = Ok tree ->
  sp_sdim sp = 3 -> Forall (pose val) (sp_pts sp) ->
  match bnds with bounds_from_space => True | bounds_user mn mx => pose val mn /\ pose val mx end ->
  (0 <= val a <= 1)%Q ->
  forall r sort, exists l, search_radius alg tree [x; y; a] r sort = Ok l
    /\ filter_answer (npts sp)
         (fun i => (pose_dist (val x) (val y) (val a) (coord_val val sp i 0) (coord_val val sp i 1) (coord_val val sp i 2) < val r)%Q)
         (fun i => pose_dist (val x) (val y) (val a) (coord_val val sp i 0) (coord_val val sp i 1) (coord_val val sp i 2))
         (answers val l)
    /\ (sort = true -> StronglySorted Qle (map (fun y => val (n_distance y)) l)).
Proof. exact @se2_radius. Qed.
Print Assumptions C27_pose_radius.

Example C27_example : exists data, let t := KdTree ex_se2 metric_se2_squared data in
  kd_tree_make std_example it_int metric_se2_squared 9 ex_se2 (max_leaf_size 1) bounds_from_space
    sliding_midpoint_max_side = Ok t
  /\ Forall (pose qv) (sp_pts ex_se2)
  /\ exists l, search_knn t [2; 2; 19 # 20]%Q 2 [] = Ok l /\ map n_index l = [4; 1].
Proof.
  eexists. cbv zeta. split; [apply make_ok; vm_compute; reflexivity|]. split.
  - repeat (constructor; [do 3 eexists; repeat split; vm_compute; congruence|]). constructor.
  - eexists. split; vm_compute; reflexivity.
Qed.

(** ** C28: 0 and 1 are the same point of the circle *)
Theorem C28_zero_is_one :
  forall (T : Type) (S : Scalar T) (val : T -> Q), exact_laws S val ->
  forall (sp : space T) (alg : std_algos), std_laws alg ->
  forall (it : index_type) (fuel : nat) (stop : stop_condition) (bnds : start_bounds T) (ru : rule)
    (tree : kd_tree T),
  kd_tree_make alg it metric_so2 fuel sp stop bnds ru = Ok tree ->
  usable val SO2 sp bnds [s_zero] ->
  forall (r : T) (sort : bool),
  exists l0 l1, search_radius alg tree [s_zero] r sort = Ok l0
    /\ search_radius alg tree [s_one] r sort = Ok l1
    /\ Permutation (map n_index l0) (map n_index l1)
    /\ (forall x y, In x l0 -> In y l1 -> n_index x = n_index y -> (val (n_distance x) == val (n_distance y))%Q).
Proof. exact @circle_radius. Qed.
Print Assumptions C28_zero_is_one.

Example C28_example : exists data, let t := KdTree ex_so2 metric_so2 data in
  kd_tree_make std_example it_int metric_so2 9 ex_so2 (max_leaf_size 1) bounds_from_space
    sliding_midpoint_max_side = Ok t
  /\ usable qv SO2 ex_so2 bounds_from_space [s_zero]
  /\ exists l0 l1, search_radius std_example t [0]%Q (1 # 10)%Q false = Ok l0
    /\ search_radius std_example t [1]%Q (1 # 10)%Q false = Ok l1
    /\ map n_index l0 = [4; 3; 0] /\ map n_index l1 = [4; 3; 0].
Proof.
  eexists. cbv zeta. split; [apply make_ok; vm_compute; reflexivity|]. split; [apply ex_usable_so2; split; vm_compute; discriminate|].
  do 2 eexists. split; [vm_compute; reflexivity|]. split; [vm_compute; reflexivity|]. split; vm_compute; reflexivity.
Qed.

(** ** C30: results do not depend on how the tree was built *)
Theorem C30_radius :
  forall (T : Type) (S : Scalar T) (val : T -> Q), exact_laws S val ->
  forall (em : exact_metric) (sp : space T) (q : list T) (alg1 alg2 : std_algos),
  std_laws alg1 -> std_laws alg2 ->
  forall (it1 it2 : index_type) (fuel1 fuel2 : nat) (stop1 stop2 : stop_condition)
    (bnds1 bnds2 : start_bounds T) (ru1 ru2 : rule) (tree1 tree2 : kd_tree T),
  kd_tree_make alg1 it1 (metric_of em) fuel1 sp stop1 bnds1 ru1 = Ok tree1 ->
  kd_tree_make alg2 it2 (metric_of em) fuel2 sp stop2 bnds2 ru2 = Ok tree2 ->
  usable val em sp bnds1 q -> usable val em sp bnds2 q ->
  forall (r : T) (sort1 sort2 : bool),
  exists l1 l2, search_radius alg1 tree1 q r sort1 = Ok l1
    /\ search_radius alg2 tree2 q r sort2 = Ok l2
    /\ Permutation (map n_index l1) (map n_index l2)
    /\ (forall x y, In x l1 -> In y l2 -> n_index x = n_index y -> (val (n_distance x) == val (n_distance y))%Q).
Proof. exact @same_radius. Qed.
Print Assumptions C30_radius.

Theorem C30_nn :
  forall (T : Type) (S : Scalar T) (val : T -> Q), exact_laws S val ->
  forall (em : exact_metric) (sp : space T) (q : list T) (alg1 alg2 : std_algos),
  std_laws alg1 -> std_laws alg2 ->
  forall (it1 it2 : index_type) (fuel1 fuel2 : nat) (stop1 stop2 : stop_condition)
    (bnds1 bnds2 : start_bounds T) (ru1 ru2 : rule) (tree1 tree2 : kd_tree T),
  kd_tree_make alg1 it1 (metric_of em) fuel1 sp stop1 bnds1 ru1 = Ok tree1 ->
  kd_tree_make alg2 it2 (metric_of em) fuel2 sp stop2 bnds2 ru2 = Ok tree2 ->
  usable val em sp bnds1 q -> usable val em sp bnds2 q -> distances_fit val em sp q ->
  forall nn1 nn2 : neighbor T,
  exists i1 d1 i2 d2, search_nn tree1 q nn1 = Ok (Neighbor i1 d1)
    /\ search_nn tree2 q nn2 = Ok (Neighbor i2 d2) /\ (val d1 == val d2)%Q.
Proof. exact @same_nn. Qed.
Print Assumptions C30_nn.

Theorem C30_knn :
  forall (T : Type) (S : Scalar T) (val : T -> Q), exact_laws S val ->
  forall (em : exact_metric) (sp : space T) (q : list T) (alg1 alg2 : std_algos),
  std_laws alg1 -> std_laws alg2 ->
  forall (it1 it2 : index_type) (fuel1 fuel2 : nat) (stop1 stop2 : stop_condition)
    (bnds1 bnds2 : start_bounds T) (ru1 ru2 : rule) (tree1 tree2 : kd_tree T),
  kd_tree_make alg1 it1 (metric_of em) fuel1 sp stop1 bnds1 ru1 = Ok tree1 ->
  kd_tree_make alg2 it2 (metric_of em) fuel2 sp stop2 bnds2 ru2 = Ok tree2 ->
  usable val em sp bnds1 q -> usable val em sp bnds2 q -> distances_fit val em sp q ->
  forall (k : nat) (knn1 knn2 : list (neighbor T)), 0 < k ->
  exists l1 l2, search_knn tree1 q k knn1 = Ok l1
    /\ search_knn tree2 q k knn2 = Ok l2
    /\ Forall2 Qeq (map (fun x => val (n_distance x)) l1) (map (fun x => val (n_distance x)) l2).
Proof. exact @same_knn. Qed.
Print Assumptions C30_knn.

Theorem C30_box :
  forall (T : Type) (S : Scalar T) (ok : T -> Prop), ord_laws S ok ->
  forall sp : space T, wf_space sp -> all_coords ok sp ->
  forall alg1 alg2 : std_algos, std_laws alg1 -> std_laws alg2 ->
  forall (m : metric T) (it1 it2 : index_type) (fuel1 fuel2 : nat) (stop1 stop2 : stop_condition)
    (bnds1 bnds2 : start_bounds T) (ru1 ru2 : rule) (tree1 tree2 : kd_tree T) (mn mx : list T),
  kd_tree_make alg1 it1 m fuel1 sp stop1 bnds1 ru1 = Ok tree1 ->
  kd_tree_make alg2 it2 m fuel2 sp stop2 bnds2 ru2 = Ok tree2 ->
  bounds_coords ok sp bnds1 -> bounds_coords ok sp bnds2 ->
  bounds_enclose sp bnds1 -> bounds_enclose sp bnds2 ->
  length mn = sp_sdim sp -> length mx = sp_sdim sp -> Forall ok mn -> Forall ok mx ->
  ok_finite S ok -> mid_ok S ok -> mid_between S ok ->
  (m_cat m = Topological -> forall d, d < sp_sdim sp -> m_dim_space m d = R1 ->
    s_leb (nth d mn s_zero) (nth d mx s_zero) = true) ->
  exists a1 a2, search_box tree1 mn mx = Ok a1 /\ search_box tree2 mn mx = Ok a2 /\ Permutation a1 a2.
Proof. exact @same_box. Qed.
Print Assumptions C30_box.

Example C30_example : exists data1 data2,
  let t1 := KdTree ex_sp metric_l2_squared data1 in let t2 := KdTree ex_sp metric_l2_squared data2 in
  kd_tree_make std_example it_int metric_l2_squared 9 ex_sp (max_leaf_size 1) bounds_from_space
    sliding_midpoint_max_side = Ok t1
  /\ kd_tree_make std_example_rev it_int metric_l2_squared 9 ex_sp (max_leaf_depth 2) (bounds_user [0; 0]%Q [9; 9]%Q)
    midpoint_max_side = Ok t2
  /\ search_knn t1 [2; 3]%Q 3 [] = Ok [Neighbor 1 1%Q; Neighbor 4 1%Q; Neighbor 3 1%Q]
  /\ search_knn t2 [2; 3]%Q 3 [] = Ok [Neighbor 1 1%Q; Neighbor 3 1%Q; Neighbor 4 1%Q].
Proof.
  do 2 eexists. cbv zeta. split; [apply make_ok; vm_compute; reflexivity|].
  split; [apply make_ok; vm_compute; reflexivity|]. split; vm_compute; reflexivity.
Qed.

(** ** C43: queries leave the search state as they found it *)
Theorem C43_offsets_restored_euclidean :
  forall (T : Type) (S : Scalar T) (V : Type) (m : metric T) (vis : visitor T V) (sp : space T)
    (indices : list nat) (q : list T) (nd : node (branch_single T)) (d : T) (o : list T) (st : V)
    (o' : list T) (st' : V),
  search_nearest_euclidean m vis sp indices q nd d (o, st) = Ok (o', st') -> o' = o.
Proof. exact @euclidean_restore. Qed.
Print Assumptions C43_offsets_restored_euclidean.

Theorem C43_offsets_restored_topological :
  forall (T : Type) (S : Scalar T) (V : Type) (m : metric T) (vis : visitor T V) (sp : space T)
    (indices : list nat) (q : list T) (nd : node (branch_double T)) (d : T) (o : list T) (st : V)
    (o' : list T) (st' : V),
  search_nearest_topological m vis sp indices q nd d (o, st) = Ok (o', st') -> o' = o.
Proof. exact @topological_restore. Qed.
Print Assumptions C43_offsets_restored_topological.

Theorem C43_box_restored :
  forall (T : Type) (S : Scalar T) (m : metric T) (sp : space T) (indices : list nat) (query : box T)
    (c : category) (nd : node (branch_data c T)) (b : box T) (st : list nat) (b' : box T) (st' : list nat),
  search_box_node m sp indices query c nd (b, st) = Ok (b', st') -> b' = b.
Proof. exact @box_restore. Qed.
Print Assumptions C43_box_restored.

Example C43_example : exists data, let t := KdTree ex_sp metric_l2_squared data in
  kd_tree_make std_example it_int metric_l2_squared 9 ex_sp (max_leaf_size 1) bounds_from_space
    sliding_midpoint_max_side = Ok t
  /\ search_nearest_euclidean metric_l2_squared visitor_nn ex_sp (kd_indices (kt_data t)) [6; 6]%Q
       (match m_cat (kt_metric t) as c return node (branch_data c Q) -> node (branch_single Q) with
        | Euclidean => fun n => n | Topological => fun _ => Leaf 0 0 end (kd_root (kt_data t)))
       0%Q ([10; 20]%Q, Neighbor 9 1000%Q) = Ok ([10; 20]%Q, Neighbor 5 2%Q).
Proof. eexists. cbv zeta. split; [apply make_ok; vm_compute; reflexivity|vm_compute; reflexivity]. Qed.
