(** Properties of construction: C01-C09, C42, C44, C45. *)
From Coq Require Import List ZArith QArith Qabs Bool Arith Permutation Sorted Lia.
From Verif Require Import Base ModelBox ModelBuild ModelSearch Spec Instances BuildThms CellThms ExtraThms Examples.
Import ListNotations.
Local Open Scope nat_scope.

(** ** C01: every point is stored exactly once *)
Theorem C01_every_point_once :
  forall (T : Type) (S : Scalar T) (ok : T -> Prop), ord_laws S ok ->
  forall sp : space T, wf_space sp -> all_coords ok sp ->
  forall alg : std_algos, std_laws alg ->
  forall (c : category) (it : index_type) (fuel : nat) (stop : stop_condition)
    (bnds : start_bounds T) (ru : rule) (t : kd_tree_data c T),
  (ru = midpoint_max_side -> mid_ok S ok /\ bounds_coords ok sp bnds) ->
  build c alg it fuel sp stop bnds ru = Ok t ->
  Permutation (kd_indices t) (seq 0 (npts sp))
  /\ consecutive 0 (leaf_intervals (kd_root t)) (npts sp).
Proof. exact @build_c01. Qed.
Print Assumptions C01_every_point_once.

Example C01_example : exists t,
  build Euclidean std_example_rev it_int 9 ex_sp (max_leaf_size 2) bounds_from_space sliding_midpoint_max_side = Ok t
  /\ kd_indices t = [0; 4; 3; 1; 2; 6; 5]
  /\ leaf_intervals (kd_root t) = [(0, 1); (1, 3); (3, 4); (4, 6); (6, 7)]
  /\ Permutation (kd_indices t) (seq 0 (npts ex_sp)).
Proof.
  eexists. split; [vm_compute; reflexivity|]. split; [vm_compute; reflexivity|]. split; [vm_compute; reflexivity|].
  refine (proj1 (C01_every_point_once Q QD _ QD_ord ex_sp ex_wf ex_ok std_example_rev std_example_rev_laws
    Euclidean it_int 9 (max_leaf_size 2) bounds_from_space sliding_midpoint_max_side _ _ _)).
  - discriminate.
  - vm_compute; reflexivity.
Qed.

(** ** C02: construction terminates without undefined behaviour *)
Theorem C02_build_terminates :
  forall (T : Type) (S : Scalar T) (ok : T -> Prop), ord_laws S ok ->
  forall sp : space T, wf_space sp -> all_coords ok sp ->
  forall alg : std_algos, std_laws alg ->
  forall (good : T -> Prop) (c : category) (it : index_type) (stop : stop_condition)
    (bnds : start_bounds T) (ru : rule),
  range_laws S good -> all_coords good sp -> bounds_coords good sp bnds ->
  ru <> midpoint_max_side -> index_type_ok it -> stop_fits it stop ->
  sp_pts sp <> [] -> (Z.of_nat (npts sp) <= it_max it)%Z ->
  exists t, forall fuel, npts sp <= fuel -> build c alg it fuel sp stop bnds ru = Ok t.
Proof. exact @build_total_any. Qed.
Print Assumptions C02_build_terminates.

(** [range_laws] is met whenever arithmetic is exact and coordinates stay below
    half of the range. *)
Theorem C02_exact_range :
  forall (T : Type) (S : Scalar T) (val : T -> Q), exact_laws S val -> range_laws S (no_overflow val).
Proof. exact @exact_range. Qed.
Print Assumptions C02_exact_range.

Example C02_example : exists t, forall fuel, 7 <= fuel ->
  build Topological std_example it_int fuel ex_sp (max_leaf_size 1) bounds_from_space median_max_side = Ok t.
Proof.
  apply (C02_build_terminates Q QD _ QD_ord ex_sp ex_wf ex_ok std_example std_example_laws (no_overflow qv));
    try (exact QD_range); try (exact ex_good); try discriminate; vm_compute; auto; split; congruence.
Qed.

(** ** C03: max_leaf_size *)
Theorem C03_max_leaf_size :
  forall (T : Type) (S : Scalar T) (sp : space T) (alg : std_algos) (c : category)
    (it : index_type) (fuel : nat) (m : Z) (bnds : start_bounds T) (ru : rule) (t : kd_tree_data c T),
  index_type_ok it -> (0 < m <= it_max it)%Z ->
  build c alg it fuel sp (max_leaf_size m) bnds ru = Ok t ->
  Forall (fun '(_, len) => (Z.of_nat len <= m)%Z) (leaf_levels 0 (kd_root t)).
Proof. exact @build_leaf_size. Qed.
Print Assumptions C03_max_leaf_size.

Example C03_example : exists t : kd_tree_data Euclidean Q,
  build Euclidean std_example it_int 9 ex_sp (max_leaf_size 2) bounds_from_space sliding_midpoint_max_side = Ok t
  /\ leaf_levels 0 (kd_root t) = [(3, 1); (3, 2); (2, 1); (2, 2); (2, 1)]
  /\ Forall (fun '(_, len) => (Z.of_nat len <= 2)%Z) (leaf_levels 0 (kd_root t)).
Proof.
  eexists. split; [vm_compute; reflexivity|]. split; [vm_compute; reflexivity|].
  refine (C03_max_leaf_size Q QD ex_sp std_example Euclidean it_int 9 2 bounds_from_space sliding_midpoint_max_side _ _ _ _);
    [vm_compute; congruence|vm_compute; split; congruence|vm_compute; reflexivity].
Qed.

(** ** C04: max_leaf_depth *)
Theorem C04_max_leaf_depth :
  forall (T : Type) (S : Scalar T) (sp : space T) (alg : std_algos) (c : category)
    (it : index_type) (fuel : nat) (m : Z) (bnds : start_bounds T) (ru : rule) (t : kd_tree_data c T),
  index_type_ok it -> (0 <= m <= it_max it)%Z ->
  build c alg it fuel sp (max_leaf_depth m) bnds ru = Ok t ->
  Forall (fun '(h, len) => (Z.of_nat h <= m)%Z /\ ((Z.of_nat h < m)%Z -> len <= 1))
    (leaf_levels 0 (kd_root t)).
Proof. exact @build_leaf_depth. Qed.
Print Assumptions C04_max_leaf_depth.

Theorem C04_terminates_for_every_rule :
  forall (T : Type) (S : Scalar T) (ok : T -> Prop), ord_laws S ok ->
  forall sp : space T, wf_space sp -> all_coords ok sp ->
  forall alg : std_algos, std_laws alg ->
  forall (good : T -> Prop) (c : category) (it : index_type) (m : Z) (bnds : start_bounds T) (ru : rule),
  range_laws S good -> all_coords good sp -> bounds_coords good sp bnds ->
  index_type_ok it -> (0 <= m <= it_max it)%Z ->
  sp_pts sp <> [] -> (Z.of_nat (npts sp) <= it_max it)%Z ->
  exists t, forall fuel, (m < Z.of_nat fuel)%Z -> build c alg it fuel sp (max_leaf_depth m) bnds ru = Ok t.
Proof. exact @build_total_depth_any. Qed.
Print Assumptions C04_terminates_for_every_rule.

Example C04_example : exists t : kd_tree_data Euclidean Q,
  build Euclidean std_example it_int 9 ex_sp (max_leaf_depth 2) bounds_from_space midpoint_max_side = Ok t
  /\ leaf_levels 0 (kd_root t) = [(2, 3); (2, 1); (2, 2); (2, 1)].
Proof. eexists. split; vm_compute; reflexivity. Qed.

Example C04_example_terminates : exists t, forall fuel, (5 < Z.of_nat fuel)%Z ->
  build Euclidean std_example it_int fuel ex_sp (max_leaf_depth 5) bounds_from_space midpoint_max_side = Ok t.
Proof.
  apply (C04_terminates_for_every_rule Q QD _ QD_ord ex_sp ex_wf ex_ok std_example std_example_laws (no_overflow qv));
    try (exact QD_range); try (exact ex_good); try discriminate; vm_compute; auto; split; congruence.
Qed.

(** ** C05: the midpoint rule need not terminate with max_leaf_size *)
(** The full statement: construction with the midpoint rule terminates. *)
Definition C05_statement : Prop :=
  forall (T : Type) (S : Scalar T) (val : T -> Q), exact_laws S val ->
  forall sp : space T, wf_space sp -> all_coords (no_overflow val) sp -> sp_pts sp <> [] ->
  forall alg : std_algos, std_laws alg ->
  forall (c : category) (it : index_type) (m : Z), index_type_ok it -> (0 < m <= it_max it)%Z ->
  (Z.of_nat (npts sp) <= it_max it)%Z ->
  exists fuel t, build c alg it fuel sp (max_leaf_size m) bounds_from_space midpoint_max_side = Ok t.

(** It is false for every set of more than m coincident points, whatever the
    point, the bounds, the index type and the standard library. *)
Theorem C05_coincident_points_diverge :
  forall (T : Type) (S : Scalar T) (ok : T -> Prop), ord_laws S ok ->
  forall sp : space T, wf_space sp -> all_coords ok sp ->
  forall alg : std_algos, std_laws alg ->
  forall good : T -> Prop, range_laws S good -> all_coords good sp ->
  forall (c : category) (it : index_type) (fuel : nat) (m : Z) (bnds : start_bounds T),
  index_type_ok it -> (0 < m <= it_max it)%Z -> bounds_coords good sp bnds ->
  (forall p p', In p (sp_pts sp) -> In p' (sp_pts sp) -> p = p') ->
  (m < Z.of_nat (length (sp_pts sp)) <= it_max it)%Z ->
  build c alg it fuel sp (max_leaf_size m) bnds midpoint_max_side = OutOfFuel.
Proof. exact @midpoint_diverges. Qed.
Print Assumptions C05_coincident_points_diverge.

Example C05_example : forall fuel,
  build Euclidean std_example it_int fuel (Space 2 [[3; 4]%Q; [3; 4]%Q]) (max_leaf_size 1)
    bounds_from_space midpoint_max_side = OutOfFuel.
Proof.
  intros fuel.
  apply (C05_coincident_points_diverge Q QD _ QD_ord) with (good := no_overflow qv);
    [| |exact std_example_laws|exact QD_range| | | |exact I| |].
  - split; [cbn; lia|repeat constructor].
  - repeat constructor.
  - repeat (constructor; [repeat (constructor; [split; [split; vm_compute; discriminate|vm_compute; reflexivity]|]); constructor|]); constructor.
  - vm_compute; congruence.
  - vm_compute; split; congruence.
  - cbn. intros p p' [<-|[<-|[]]] [<-|[<-|[]]]; reflexivity.
  - vm_compute; split; congruence.
Qed.

Theorem C05_refuted : ~ C05_statement.
Proof.
  intros H. destruct (H Q QD qv QD_exact (Space 2 [[3; 4]%Q; [3; 4]%Q])) with (alg := std_example) (c := Euclidean) (it := it_int) (m := 1%Z)
    as (fuel & t & E).
  - split; [cbn; lia|repeat constructor].
  - repeat (constructor; [repeat (constructor; [split; [split; vm_compute; discriminate|vm_compute; reflexivity]|]); constructor|]); constructor.
  - discriminate.
  - exact std_example_laws.
  - vm_compute; congruence.
  - vm_compute; split; congruence.
  - vm_compute; congruence.
  - rewrite C05_example in E. discriminate.
Qed.
Print Assumptions C05_refuted.

(** What does hold for the midpoint rule: no undefined behaviour while it runs. *)
Theorem C05_midpoint_no_undefined_behaviour :
  forall (T : Type) (S : Scalar T) (ok : T -> Prop), ord_laws S ok ->
  forall sp : space T, wf_space sp -> all_coords ok sp ->
  forall alg : std_algos, std_laws alg ->
  forall good : T -> Prop, range_laws S good -> all_coords good sp ->
  forall (c : category) (it : index_type) (fuel : nat) (stop : stop_condition) (bnds : start_bounds T)
    (w : ub_reason),
  stop_fits it stop -> bounds_coords good sp bnds -> sp_pts sp <> [] ->
  (Z.of_nat (length (sp_pts sp)) <= it_max it)%Z ->
  build c alg it fuel sp stop bnds midpoint_max_side <> Ub w.
Proof. exact @midpoint_build_no_ub. Qed.
Print Assumptions C05_midpoint_no_undefined_behaviour.

(** ** C06: no empty leaves *)
Theorem C06_no_empty_leaves :
  forall (T : Type) (S : Scalar T) (ok : T -> Prop), ord_laws S ok ->
  forall sp : space T, wf_space sp -> all_coords ok sp ->
  forall alg : std_algos, std_laws alg ->
  forall (c : category) (it : index_type) (fuel : nat) (stop : stop_condition)
    (bnds : start_bounds T) (ru : rule) (t : kd_tree_data c T),
  ru <> midpoint_max_side ->
  build c alg it fuel sp stop bnds ru = Ok t ->
  Forall (fun '(_, len) => 1 <= len) (leaf_levels 0 (kd_root t))
  /\ length (leaf_levels 0 (kd_root t)) <= npts sp
  /\ every_branch (fun _ l r => 1 <= node_points l /\ 1 <= node_points r) (kd_root t).
Proof. exact @build_no_empty. Qed.
Print Assumptions C06_no_empty_leaves.

Example C06_example : exists t : kd_tree_data Euclidean Q,
  build Euclidean std_example it_int 9 ex_sp (max_leaf_depth 9) bounds_from_space sliding_midpoint_max_side = Ok t
  /\ length (leaf_levels 0 (kd_root t)) = 7 /\ length (leaf_levels 0 (kd_root t)) <= npts ex_sp.
Proof.
  eexists. split; [vm_compute; reflexivity|]. split; [vm_compute; reflexivity|].
  refine (proj1 (proj2 (C06_no_empty_leaves Q QD _ QD_ord ex_sp ex_wf ex_ok std_example std_example_laws
    Euclidean it_int 9 (max_leaf_depth 9) bounds_from_space sliding_midpoint_max_side _ _ _))).
  - discriminate.
  - vm_compute; reflexivity.
Qed.

(** ** C07: balance of the median rule *)
Theorem C07_median_balanced :
  forall (T : Type) (S : Scalar T) (ok : T -> Prop), ord_laws S ok ->
  forall sp : space T, wf_space sp -> all_coords ok sp ->
  forall alg : std_algos, std_laws alg ->
  forall (c : category) (it : index_type) (fuel : nat) (m : Z) (bnds : start_bounds T) (t : kd_tree_data c T),
  index_type_ok it -> (0 < m <= it_max it)%Z ->
  build c alg it fuel sp (max_leaf_size m) bnds median_max_side = Ok t ->
  every_branch (fun _ l r => node_points l <= node_points r <= node_points l + 1) (kd_root t)
  /\ forall h, (Z.of_nat (npts sp) <= m * 2 ^ Z.of_nat h)%Z ->
       Forall (fun '(lv, _) => lv <= h) (leaf_levels 0 (kd_root t)).
Proof. exact @build_median. Qed.
Print Assumptions C07_median_balanced.

Example C07_example : exists t : kd_tree_data Euclidean Q,
  build Euclidean std_example it_int 9 ex_sp (max_leaf_size 2) bounds_from_space median_max_side = Ok t
  /\ leaf_levels 0 (kd_root t) = [(2, 1); (2, 2); (2, 2); (2, 2)]
  /\ Forall (fun '(lv, _) => lv <= 2) (leaf_levels 0 (kd_root t)).
Proof.
  eexists. split; [vm_compute; reflexivity|]. split; [vm_compute; reflexivity|].
  refine (proj2 (C07_median_balanced Q QD _ QD_ord ex_sp ex_wf ex_ok std_example std_example_laws
    Euclidean it_int 9 2 bounds_from_space _ _ _ _) 2 _).
  - vm_compute; congruence.
  - vm_compute; split; congruence.
  - vm_compute; reflexivity.
  - vm_compute; congruence.
Qed.

(** ** C08: leaf_ranges *)
Theorem C08_leaf_ranges :
  forall (T : Type) (S : Scalar T) (ok : T -> Prop), ord_laws S ok ->
  forall sp : space T, wf_space sp -> all_coords ok sp ->
  forall alg : std_algos, std_laws alg ->
  forall (c : category) (it : index_type) (fuel : nat) (stop : stop_condition)
    (bnds : start_bounds T) (ru : rule) (t : kd_tree_data c T),
  ru <> midpoint_max_side ->
  build c alg it fuel sp stop bnds ru = Ok t ->
  exists rs, leaf_ranges t = Ok rs
    /\ concat rs = kd_indices t
    /\ Permutation (kd_indices t) (seq 0 (npts sp))
    /\ Forall (fun r => r <> []) rs
    /\ map (@length nat) rs = map snd (leaf_levels 0 (kd_root t))
    /\ (forall m, stop = max_leaf_size m -> index_type_ok it -> (0 < m <= it_max it)%Z ->
          Forall (fun r => (Z.of_nat (length r) <= m)%Z) rs).
Proof. exact @build_ranges_nonempty. Qed.
Print Assumptions C08_leaf_ranges.

Example C08_example : exists t : kd_tree_data Euclidean Q,
  build Euclidean std_example it_int 9 ex_sp (max_leaf_size 2) bounds_from_space sliding_midpoint_max_side = Ok t
  /\ leaf_ranges t = Ok [[0]; [3; 4]; [1]; [2; 6]; [5]].
Proof. eexists. split; vm_compute; reflexivity. Qed.

(** ** C09: leaf_ranges needs non-empty leaves *)
(** The full statement: leaf_ranges is defined for every constructed tree. *)
Definition C09_statement : Prop :=
  forall (T : Type) (S : Scalar T) (val : T -> Q), exact_laws S val ->
  forall sp : space T, wf_space sp -> all_coords (no_overflow val) sp ->
  forall alg : std_algos, std_laws alg ->
  forall (c : category) (it : index_type) (fuel : nat) (stop : stop_condition)
    (bnds : start_bounds T) (ru : rule) (t : kd_tree_data c T),
  build c alg it fuel sp stop bnds ru = Ok t -> exists rs, leaf_ranges t = Ok rs.

Theorem C09_refuted : ~ C09_statement.
Proof.
  intros H. destruct (build Euclidean std_example it_int 9 ex_sp (max_leaf_depth 3)
    (bounds_user [0; 0]%Q [8; 8]%Q) midpoint_max_side) as [t| |] eqn:E; [|vm_compute in E; discriminate..].
  destruct (H Q QD qv QD_exact ex_sp ex_wf ex_good std_example std_example_laws _ _ _ _ _ _ _ E) as (rs & E').
  vm_compute in E. injection E as <-. vm_compute in E'. discriminate.
Qed.
Print Assumptions C09_refuted.

(** It fails for every tree with an empty leaf, and only for those. *)
Theorem C09_fails_on_empty_leaves :
  forall (T : Type) (S : Scalar T) (ok : T -> Prop), ord_laws S ok ->
  forall sp : space T, wf_space sp -> all_coords ok sp ->
  forall alg : std_algos, std_laws alg ->
  forall (c : category) (it : index_type) (fuel : nat) (stop : stop_condition)
    (bnds : start_bounds T) (ru : rule) (t : kd_tree_data c T),
  (ru = midpoint_max_side -> mid_ok S ok /\ bounds_coords ok sp bnds) ->
  build c alg it fuel sp stop bnds ru = Ok t ->
  In 0 (map snd (leaf_levels 0 (kd_root t))) -> leaf_ranges t = Ub UbNull.
Proof. exact @build_leaf_ranges_empty. Qed.
Print Assumptions C09_fails_on_empty_leaves.

Theorem C09_works_without_empty_leaves :
  forall (T : Type) (S : Scalar T) (ok : T -> Prop), ord_laws S ok ->
  forall sp : space T, wf_space sp -> all_coords ok sp ->
  forall alg : std_algos, std_laws alg ->
  forall (c : category) (it : index_type) (fuel : nat) (stop : stop_condition)
    (bnds : start_bounds T) (ru : rule) (t : kd_tree_data c T),
  (ru = midpoint_max_side -> mid_ok S ok /\ bounds_coords ok sp bnds) ->
  build c alg it fuel sp stop bnds ru = Ok t ->
  Forall (fun '(_, len) => 1 <= len) (leaf_levels 0 (kd_root t)) ->
  exists rs, leaf_ranges t = Ok rs
    /\ concat rs = kd_indices t
    /\ Permutation (kd_indices t) (seq 0 (npts sp))
    /\ Forall (fun r => r <> []) rs
    /\ map (@length nat) rs = map snd (leaf_levels 0 (kd_root t))
    /\ (forall m, stop = max_leaf_size m -> index_type_ok it -> (0 < m <= it_max it)%Z ->
          Forall (fun r => (Z.of_nat (length r) <= m)%Z) rs).
Proof. exact @build_ranges. Qed.
Print Assumptions C09_works_without_empty_leaves.

Example C09_example : exists t t' : kd_tree_data Euclidean Q,
  build Euclidean std_example it_int 9 ex_sp (max_leaf_depth 3) (bounds_user [0; 0]%Q [8; 8]%Q) midpoint_max_side = Ok t
  /\ map snd (leaf_levels 0 (kd_root t)) = [2; 2; 0; 1; 1; 1]
  /\ build Euclidean std_example it_int 9 ex_sp (max_leaf_depth 2) bounds_from_space midpoint_max_side = Ok t'
  /\ leaf_ranges t' = Ok [[0; 3; 4]; [1]; [2; 6]; [5]].
Proof. eexists. eexists. split; [|split; [|split]]; vm_compute; reflexivity. Qed.

(** ** C42: stop values beyond the index type *)
(** The full statement: any leaf size of at least n gives a single leaf. *)
Definition C42_statement : Prop :=
  forall (T : Type) (S : Scalar T) (val : T -> Q), exact_laws S val ->
  forall sp : space T, wf_space sp -> all_coords (no_overflow val) sp -> sp_pts sp <> [] ->
  forall alg : std_algos, std_laws alg ->
  forall (c : category) (it : index_type) (m : Z) (ru : rule), index_type_ok it ->
  (Z.of_nat (npts sp) <= it_max it)%Z -> (Z.of_nat (npts sp) <= m < 2 ^ 64)%Z ->
  exists fuel t, build c alg it fuel sp (max_leaf_size m) bounds_from_space ru = Ok t
    /\ leaf_levels 0 (kd_root t) = [(0, npts sp)].

(** When the value wraps to a negative index no construction finishes normally,
    for every point set and rule. *)
Theorem C42_wrapped_value_never_finishes :
  forall (T : Type) (S : Scalar T) (c : category) (alg : std_algos) (ru : rule) (it : index_type)
    (stop : stop_condition) (sp : space T) (fuel : nat) (v : Z) (bnds : start_bounds T)
    (t : kd_tree_data c T),
  (it_cast it v < 0)%Z -> stop = max_leaf_size v ->
  build c alg it fuel sp stop bnds ru <> Ok t.
Proof. exact @build_never. Qed.
Print Assumptions C42_wrapped_value_never_finishes.

Example C42_example : (it_cast it_int (2 ^ 32 - 1) < 0)%Z
  /\ build Euclidean std_example it_int 9 ex_sp (max_leaf_size (2 ^ 32 - 1)) bounds_from_space
       sliding_midpoint_max_side = Ub UbIndex.
Proof. split; vm_compute; reflexivity. Qed.

Theorem C42_refuted : ~ C42_statement.
Proof.
  intros H. destruct (H Q QD qv QD_exact ex_sp ex_wf ex_good) with (alg := std_example) (c := Euclidean) (it := it_int)
    (m := (2 ^ 32 - 1)%Z) (ru := sliding_midpoint_max_side) as (fuel & t & E & _).
  - discriminate.
  - exact std_example_laws.
  - vm_compute; congruence.
  - vm_compute; congruence.
  - vm_compute; split; congruence.
  - revert E. apply C42_wrapped_value_never_finishes with (v := (2 ^ 32 - 1)%Z); vm_compute; reflexivity.
Qed.
Print Assumptions C42_refuted.

(** ** C44: cells *)
Theorem C44_longest_side_first :
  forall (T : Type) (S : Scalar T) (val : T -> Q), exact_laws S val ->
  forall sp : space T, wf_space sp ->
  forall alg : std_algos, std_laws alg -> field_laws S val ->
  forall (c : category) (ru : rule) (it : index_type) (stop : stop_condition) (fuel : nat)
    (bnds : start_bounds T) (t : kd_tree_data c T),
  build c alg it fuel sp stop bnds ru = Ok t ->
  cell_tree (br_split_dim c) ru (sp_sdim sp) (coord_val val sp) (kd_indices t)
    (box_lo val (kd_root_box t)) (box_hi val (kd_root_box t)) (kd_root t).
Proof. exact @build_cells. Qed.
Print Assumptions C44_longest_side_first.

Theorem C44_cells_of_a_cube :
  forall (T : Type) (S : Scalar T) (val : T -> Q), exact_laws S val -> field_laws S val ->
  forall sp : space T, wf_space sp -> forall alg : std_algos, std_laws alg ->
  forall (c : category) (it : index_type) (stop : stop_condition) (fuel : nat) (bnds : start_bounds T)
    (t : kd_tree_data c T) (s : Q),
  build c alg it fuel sp stop bnds midpoint_max_side = Ok t ->
  (0 <= s)%Q ->
  (forall k, k < sp_sdim sp -> (box_hi val (kd_root_box t) k - box_lo val (kd_root_box t) k == s)%Q) ->
  forall nd lo hi,
  midpoint_cell (br_split_dim c) (kd_root t) (box_lo val (kd_root_box t)) (box_hi val (kd_root_box t)) nd lo hi ->
  forall j k, j < sp_sdim sp -> k < sp_sdim sp -> (hi j - lo j <= 2 * (hi k - lo k))%Q.
Proof. exact @build_midpoint_cube. Qed.
Print Assumptions C44_cells_of_a_cube.

Example C44_example : exists t : kd_tree_data Euclidean Q,
  build Euclidean std_example it_int 9 ex_sp (max_leaf_depth 3) (bounds_user [0; 8]%Q [8; 0]%Q) midpoint_max_side = Ok t
  /\ map snd (leaf_levels 0 (kd_root t)) = [2; 2; 0; 1; 1; 1]
  /\ (forall k, k < 2 -> (box_hi qv (kd_root_box t) k - box_lo qv (kd_root_box t) k == 8)%Q).
Proof.
  eexists. split; [vm_compute; reflexivity|]. split; [vm_compute; reflexivity|].
  intros [|[|k]] Hk; [vm_compute; reflexivity..|lia].
Qed.

(** ** C45: tight boxes *)
Theorem C45_root_box_is_tight :
  forall (T : Type) (S : Scalar T) (val : T -> Q), exact_laws S val ->
  forall sp : space T, wf_space sp -> all_coords (representable val) sp ->
  forall (alg : std_algos) (c : category) (it : index_type) (stop : stop_condition) (fuel : nat)
    (ru : rule) (t : kd_tree_data c T),
  build c alg it fuel sp stop bounds_from_space ru = Ok t ->
  forall d, d < sp_sdim sp ->
  is_min (fun i => coord_val val sp i d) (seq 0 (npts sp)) (box_lo val (kd_root_box t) d)
  /\ is_max (fun i => coord_val val sp i d) (seq 0 (npts sp)) (box_hi val (kd_root_box t) d).
Proof. exact @build_root_box. Qed.
Print Assumptions C45_root_box_is_tight.

Theorem C45_branches_are_tight :
  forall (T : Type) (S : Scalar T) (val : T -> Q), exact_laws S val ->
  forall sp : space T, wf_space sp -> all_coords (representable val) sp ->
  forall alg : std_algos, std_laws alg ->
  forall (c : category) (it : index_type) (fuel : nat) (stop : stop_condition)
    (bnds : start_bounds T) (ru : rule) (t : kd_tree_data c T),
  ru <> midpoint_max_side ->
  build c alg it fuel sp stop bnds ru = Ok t ->
  every_branch_at (tight_branch val sp c) (kd_indices t) (kd_root t).
Proof. exact @build_tight. Qed.
Print Assumptions C45_branches_are_tight.

Example C45_example : exists t : kd_tree_data Topological Q,
  build Topological std_example it_int 9 ex_sp (max_leaf_size 4) (bounds_user [0; 0]%Q [1; 1]%Q) median_max_side = Ok t
  /\ kd_root t = Branch (BranchDouble 0 0%Q 2%Q 2%Q 7%Q) (Leaf 0 3) (Leaf 3 7)
  /\ every_branch_at (tight_branch qv ex_sp Topological) (kd_indices t) (kd_root t).
Proof.
  eexists. split; [vm_compute; reflexivity|]. split; [vm_compute; reflexivity|].
  refine (C45_branches_are_tight Q QD qv QD_exact ex_sp ex_wf ex_rep std_example std_example_laws
    Topological it_int 9 (max_leaf_size 4) (bounds_user [0; 0]%Q [1; 1]%Q) median_max_side _ _ _).
  - discriminate.
  - vm_compute; reflexivity.
Qed.
