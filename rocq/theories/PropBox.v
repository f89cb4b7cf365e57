(** Properties of the box search: C17, C18, C29. *)
From Coq Require Import List ZArith QArith Qabs Bool Arith Permutation Sorted Lia Lqa.
From Verif Require Import Base ModelBox ModelBuild ModelSearch Spec Instances BoxThms Examples.
Import ListNotations.
Local Open Scope nat_scope.

(** ** C17: search_box with Euclidean metrics *)
Theorem C17_box_search :
  forall (T : Type) (S : Scalar T) (ok : T -> Prop), ord_laws S ok ->
  forall sp : space T, wf_space sp -> all_coords ok sp ->
  forall alg : std_algos, std_laws alg ->
  forall (m : metric T) (it : index_type) (fuel : nat) (stop : stop_condition) (bnds : start_bounds T)
    (ru : rule) (tree : kd_tree T) (mn mx : list T),
  kd_tree_make alg it m fuel sp stop bnds ru = Ok tree ->
  bounds_coords ok sp bnds -> bounds_enclose sp bnds ->
  length mn = sp_sdim sp -> length mx = sp_sdim sp -> Forall ok mn -> Forall ok mx ->
  (ru = midpoint_max_side -> mid_ok S ok) ->
  m_cat m = Euclidean ->
  exists ans, search_box tree mn mx = Ok ans
    /\ index_answer (length (sp_pts sp)) (fun i => inside mn mx (nth i (sp_pts sp) [])) ans.
Proof. exact @search_box_euclidean. Qed.
Print Assumptions C17_box_search.

Example C17_example : exists data, let t := KdTree ex_sp metric_lpinf data in
  kd_tree_make std_example it_int metric_lpinf 9 ex_sp (max_leaf_size 1) bounds_from_space
    sliding_midpoint_max_side = Ok t
  /\ search_box t [1; 1]%Q [4; 3]%Q = Ok [3; 4; 1; 2]
  /\ search_box t [4; 3]%Q [1; 1]%Q = Ok []
  /\ exists ans, search_box t [1; 1]%Q [4; 3]%Q = Ok ans
      /\ index_answer 7 (fun i => inside [1; 1]%Q [4; 3]%Q (nth i (sp_pts ex_sp) [])) ans.
Proof.
  eexists. cbv zeta. split; [apply make_ok; vm_compute; reflexivity|].
  split; [vm_compute; reflexivity|]. split; [vm_compute; reflexivity|].
  eapply (C17_box_search Q QD _ QD_ord ex_sp ex_wf ex_ok std_example std_example_laws metric_lpinf it_int 9
    (max_leaf_size 1) bounds_from_space sliding_midpoint_max_side);
    [apply make_ok; vm_compute; reflexivity|exact I|exact I|reflexivity|reflexivity|repeat constructor|repeat constructor|discriminate|reflexivity].
Qed.

(** ** C18: start bounds that do not enclose the points *)
(** The full statement: as C17, without [bounds_enclose]. *)
Definition C18_statement : Prop :=
  forall (T : Type) (S : Scalar T) (val : T -> Q), exact_laws S val ->
  forall sp : space T, wf_space sp -> all_coords (no_overflow val) sp ->
  forall alg : std_algos, std_laws alg ->
  forall (m : metric T) (it : index_type) (fuel : nat) (stop : stop_condition) (bnds : start_bounds T)
    (ru : rule) (tree : kd_tree T) (mn mx : list T),
  kd_tree_make alg it m fuel sp stop bnds ru = Ok tree ->
  bounds_coords (no_overflow val) sp bnds ->
  length mn = sp_sdim sp -> length mx = sp_sdim sp -> m_cat m = Euclidean ->
  exists ans, search_box tree mn mx = Ok ans
    /\ index_answer (length (sp_pts sp)) (fun i => inside mn mx (nth i (sp_pts sp) [])) ans.

Definition C18_points : space Q := Space 2 [[1 # 5; 100]; [4 # 5; 100]]%Q.

Theorem C18_refuted : ~ C18_statement.
Proof.
  intros H. destruct (build Euclidean std_example it_int 9 C18_points (max_leaf_size 1)
    (bounds_user [0; 0]%Q [1; 1]%Q) sliding_midpoint_max_side) as [data| |] eqn:E; [|vm_compute in E; discriminate..].
  pose proof (make_ok _ _ metric_l1 _ _ _ _ _ _ E) as EM.
  destruct (H Q QD qv QD_exact C18_points) with (alg := std_example) (m := @metric_l1 Q QD) (it := it_int) (fuel := 9)
    (stop := max_leaf_size 1) (bnds := bounds_user [0; 0]%Q [1; 1]%Q) (ru := sliding_midpoint_max_side)
    (tree := KdTree C18_points metric_l1 data) (mn := [0; 0]%Q) (mx := [1; 1]%Q) as (ans & EN & [_ HA]).
  - split; [cbn; lia|repeat constructor].
  - repeat (constructor; [repeat (constructor; [split; [split; vm_compute; discriminate|vm_compute; reflexivity]|]); constructor|]); constructor.
  - exact std_example_laws.
  - exact EM.
  - split; [reflexivity|]. split; [reflexivity|].
    split; (repeat (constructor; [split; [split; vm_compute; discriminate|vm_compute; reflexivity]|]); constructor).
  - reflexivity.
  - reflexivity.
  - reflexivity.
  - vm_compute in E. injection E as <-. vm_compute in EN. injection EN as <-.
    destruct (HA 0) as [HI _]. destruct HI as [_ HI]; [left; reflexivity|].
    destruct (HI 1) as [_ K]; [cbn; lia|]. vm_compute in K. discriminate.
Qed.
Print Assumptions C18_refuted.

(** ** C29: search_box on topological spaces *)
Theorem C29_topological_box_search :
  forall (T : Type) (S : Scalar T) (ok : T -> Prop), ord_laws S ok ->
  forall sp : space T, wf_space sp -> all_coords ok sp ->
  forall alg : std_algos, std_laws alg ->
  forall (m : metric T) (it : index_type) (fuel : nat) (stop : stop_condition) (bnds : start_bounds T)
    (ru : rule) (tree : kd_tree T) (mn mx : list T),
  kd_tree_make alg it m fuel sp stop bnds ru = Ok tree ->
  bounds_coords ok sp bnds -> bounds_enclose sp bnds ->
  length mn = sp_sdim sp -> length mx = sp_sdim sp -> Forall ok mn -> Forall ok mx ->
  ok_finite S ok ->
  (ru = midpoint_max_side -> mid_ok S ok /\ mid_between S ok) ->
  m_cat m = Topological ->
  (forall d, d < sp_sdim sp -> m_dim_space m d = R1 -> s_leb (get mn d) (get mx d) = true) ->
  exists ans, search_box tree mn mx = Ok ans
    /\ index_answer (length (sp_pts sp)) (fun i => inside_topological (m_dim_space m) mn mx (nth i (sp_pts sp) [])) ans.
Proof. exact @search_box_topological. Qed.
Print Assumptions C29_topological_box_search.

(** The arc from 9/10 over the seam to 1/5. *)
Example C29_example : exists data, let t := KdTree ex_so2 metric_so2 data in
  kd_tree_make std_example it_int metric_so2 9 ex_so2 (max_leaf_size 1) bounds_from_space
    sliding_midpoint_max_side = Ok t
  /\ search_box t [9 # 10]%Q [1 # 5]%Q = Ok [0; 3; 4]
  /\ exists ans, search_box t [9 # 10]%Q [1 # 5]%Q = Ok ans
      /\ index_answer 5 (fun i => inside_topological (fun _ => S1) [9 # 10]%Q [1 # 5]%Q (nth i (sp_pts ex_so2) [])) ans.
Proof.
  eexists. cbv zeta. split; [apply make_ok; vm_compute; reflexivity|]. split; [vm_compute; reflexivity|].
  apply (C29_topological_box_search Q QD (representable qv)) with (alg := std_example) (m := @metric_so2 Q QD) (sp := ex_so2) (it := it_int)
    (fuel := 9) (stop := max_leaf_size 1) (bnds := bounds_from_space) (ru := sliding_midpoint_max_side).
  - destruct QD_ord as [A B C D E]. constructor; intros; [apply A; exact I|apply B; exact I|exact (C x y z I I I H2 H3)|split; vm_compute; discriminate..].
  - exact ex_so2_wf.
  - exact ex_so2_rep.
  - exact std_example_laws.
  - apply make_ok. vm_compute. reflexivity.
  - exact I.
  - exact I.
  - reflexivity.
  - reflexivity.
  - repeat (constructor; [split; vm_compute; discriminate|]); constructor.
  - repeat (constructor; [split; vm_compute; discriminate|]); constructor.
  - intros x [A B]. split; apply (el_le _ _ QD_exact); auto.
  - discriminate.
  - reflexivity.
  - cbn. discriminate.
Qed.
