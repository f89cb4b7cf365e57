(** Witnesses for metrics and visitors written by the user. *)
From Coq Require Import List ZArith QArith Qabs Bool Arith Permutation Sorted Lia Lqa.
From Verif Require Import Base ModelBox ModelBuild ModelSearch Spec Instances Metrics BuildThms QueryThms TopThms
  MetricThms UserThms UserMore Examples.
Import ListNotations.
Local Open Scope nat_scope.

(** |x1 - y1| + 3 |x2 - y2|; not in /repo, a metric a user might write. *)
Definition weighted : metric Q := Metric Topological
  (fun x y => Qabs (nth 0 x 0 - nth 0 y 0) + 3 * Qabs (nth 1 x 0 - nth 1 y 0))%Q
  (fun x => x) (fun _ => R1).
Definition weighted_terms (k : nat) (x y : Q) : Q := ((if k =? 0 then 1 else 3) * Qabs (x - y))%Q.

Lemma weighted_r1 mn mx v p : (mn <= p <= mx)%Q -> (segment_r1_distance mn mx v <= Qabs (v - p))%Q.
Proof. intros H. exact (proj2 (segment_r1_low qv QD_exact mn mx v p H)). Qed.

Lemma weighted_fits q : length q = 2 -> metric_fits qv weighted weighted_terms ex_sp bounds_from_space q.
Proof.
  intros LQ. constructor; auto using ex_wf, ex_rep.
  - right. constructor; auto.
    + intros k x y. unfold weighted_terms. pose proof (Qabs_nonneg (x - y)). destruct (k =? 0); lra.
    + intros k mn mx v p _ H. cbn [m_app weighted]. pose proof (weighted_r1 mn mx v p H).
      unfold weighted_terms, qv in *. pose proof (Qabs_nonneg (v - p)). destruct (k =? 0); lra.
    + discriminate.
  - apply Forall_forall. intros x _ _ k _ H. discriminate H.
  - exact I.
  - intros _ k _ H. discriminate H.
  - intros p _. unfold term_sum, weighted_terms, qv. cbn. lra.
Qed.

Lemma weighted_example : exists data, let t := KdTree ex_sp weighted data in
  kd_tree_make std_example it_int weighted 9 ex_sp (max_leaf_size 2) bounds_from_space
    sliding_midpoint_max_side = Ok t
  /\ metric_fits qv weighted weighted_terms ex_sp bounds_from_space [4; 3]%Q
  /\ (forall i, i < npts ex_sp -> (metric_to qv weighted ex_sp [4; 3]%Q i < qv s_max)%Q)
  /\ exists d, search_nn t [4; 3]%Q (Neighbor 9 0%Q) = Ok (Neighbor 1 d) /\ (d == 3)%Q.
Proof.
  eexists. cbv zeta. split; [apply make_ok; vm_compute; reflexivity|].
  split; [apply weighted_fits; reflexivity|]. split.
  - intros [|[|[|[|[|[|[|i]]]]]]] Hi; [vm_compute; reflexivity..|cbn in Hi; lia].
  - eexists. split; vm_compute; reflexivity.
Qed.

Lemma lp_example : exists data, let t := KdTree ex_sp (metric_lp_p 3) data in
  kd_tree_make std_example it_int (metric_lp_p 3) 9 ex_sp (max_leaf_size 2) bounds_from_space
    sliding_midpoint_max_side = Ok t
  /\ wf_space ex_sp /\ all_coords (representable qv) ex_sp
  /\ (forall i, i < npts ex_sp ->
       (sum_dist (fun a b => qpow (Qabs (a - b)) 3) (map qv [4; 3]) (map qv (nth i (sp_pts ex_sp) [])) < qv s_max)%Q)
  /\ exists d, search_nn t [4; 3]%Q (Neighbor 9 0%Q) = Ok (Neighbor 2 d) /\ (d == 8)%Q.
Proof.
  eexists. cbv zeta. split; [apply make_ok; vm_compute; reflexivity|].
  split; [exact ex_wf|]. split; [exact ex_rep|]. split.
  - intros [|[|[|[|[|[|[|i]]]]]]] Hi; [vm_compute; reflexivity..|cbn in Hi; lia].
  - eexists. split; vm_compute; reflexivity.
Qed.

Definition torus_points : space Q := Space 2 [[1 # 2; 1 # 2]; [1 # 4; 1 # 4]; [19 # 20; 19 # 20]]%Q.

Lemma torus_example : exists data, let t := KdTree torus_points metric_t2_squared data in
  kd_tree_make std_example it_int metric_t2_squared 9 torus_points (max_leaf_size 1) bounds_from_space
    sliding_midpoint_max_side = Ok t
  /\ wf_space torus_points /\ all_coords (representable qv) torus_points
  /\ Forall (fun x => Forall (fun c => 0 <= qv c <= 1)%Q x) (sp_pts torus_points)
  /\ exists d, search_nn t [1 # 20; 1 # 20]%Q (Neighbor 9 0%Q) = Ok (Neighbor 2 d) /\ (d == 1 # 50)%Q.
Proof.
  eexists. cbv zeta. split; [apply make_ok; vm_compute; reflexivity|].
  split; [split; [cbn; lia|repeat constructor]|]. split; [|split].
  - repeat (constructor; [repeat (constructor; [split; vm_compute; discriminate|]); constructor|]); constructor.
  - repeat (constructor; [repeat (constructor; [split; vm_compute; discriminate|]); constructor|]); constructor.
  - eexists. split; vm_compute; reflexivity.
Qed.

Lemma counter_example : exists data, let t := KdTree ex_sp (metric_lp_p 3) data in
  kd_tree_make std_example it_int (metric_lp_p 3) 9 ex_sp (max_leaf_size 1) bounds_from_space
    sliding_midpoint_max_side = Ok t
  /\ metric_fits qv (metric_lp_p 3) (fun _ => lp_term 3) ex_sp bounds_from_space [1; 2]%Q
  /\ npts ex_sp = 7
  /\ exists d, search_nearest t visitor_nn_counter [1; 2]%Q (visitor_nn_init (Neighbor 9 0%Q), 0)
       = Ok (Neighbor 4 d, 4).
Proof.
  eexists. cbv zeta. split; [apply make_ok; vm_compute; reflexivity|].
  split; [apply lp_fits; auto using QD_exact, ex_wf, ex_rep|]. split; [reflexivity|].
  eexists. vm_compute. reflexivity.
Qed.

(** The square root of perfect squares. *)
Definition root (x : Q) : Q := inject_Z (Z.sqrt (Qnum (Qred x))).
(** The L2 norm itself, which /repo leaves out on purpose. *)
Definition root_metric : metric Q :=
  Metric Euclidean (fun x y => root (m_dist metric_l2_squared x y)) (m_app metric_l1) (m_dim_space metric_l1).
Definition root_points : space Q := Space 2 [[-18; -24]; [20; 21]; [40; -9]]%Q.

Lemma root_metric_refuted : ~ (forall (T : Type) (S : Scalar T) (val : T -> Q), exact_laws S val ->
  forall (m : metric T) (sp : space T) (alg : std_algos), std_laws alg ->
  forall (it : index_type) (fuel : nat) (stop : stop_condition) (bnds : start_bounds T) (ru : rule)
    (tree : kd_tree T) (q : list T),
  kd_tree_make alg it m fuel sp stop bnds ru = Ok tree ->
  wf_space sp -> all_coords (representable val) sp -> length q = sp_sdim sp ->
  m_cat m = Euclidean -> (forall x, (val (m_app m x) == Qabs (val x))%Q) ->
  (forall i, i < npts sp -> (0 <= metric_to val m sp q i < val s_max)%Q
     /\ (metric_to val m sp q i * metric_to val m sp q i
         == sum_dist (fun a b => (a - b) * (a - b)) (map val q) (map val (nth i (sp_pts sp) [])))%Q) ->
  forall nn0, exists i d, search_nn tree q nn0 = Ok (Neighbor i d)
    /\ is_nearest (npts sp) (metric_to val m sp q) i).
Proof.
  intros H. destruct (build Euclidean std_example it_int 9 root_points (max_leaf_size 1) bounds_from_space
    median_max_side) as [data| |] eqn:E; [|vm_compute in E; discriminate..].
  pose proof (make_ok _ _ root_metric _ _ _ _ _ _ E) as EM.
  set (t := KdTree root_points root_metric data) in EM.
  destruct (H Q QD qv QD_exact root_metric root_points std_example std_example_laws it_int 9 _ _ _ t [0; 0]%Q EM)
    with (nn0 := Neighbor 9 0%Q) as (i & d & EN & [_ Hn]).
  - split; [cbn; lia|repeat constructor].
  - repeat (constructor; [repeat (constructor; [split; vm_compute; discriminate|]); constructor|]); constructor.
  - reflexivity.
  - reflexivity.
  - intros x. apply (el_abs _ _ QD_exact).
  - intros [|[|[|i]]] Hi; [repeat split; vm_compute; (discriminate || reflexivity)..|cbn in Hi; lia].
  - vm_compute in E. injection E as <-. vm_compute in EN. injection EN as <- <-.
    specialize (Hn 1). cbn [npts root_points sp_pts length] in Hn. specialize (Hn ltac:(lia)).
    revert Hn. vm_compute. intros Hn. apply Hn. reflexivity.
Qed.
