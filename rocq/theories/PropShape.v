(** How large and how deep trees are, what making one costs and how large the file
    is that one is saved to (C121-C125). *)
From Coq Require Import List ZArith QArith Bool Arith Lia.
From Verif Require Import Base ModelBox ModelBuild ModelSearch ModelSerial Spec SpecSerial SpecHeap SpecShape Instances
  BuildThms SerialThms Examples ShapeThms ShapeEx.
Import ListNotations.
Local Open Scope nat_scope.

(** ** C121: the number of nodes *)
Theorem C121_node_count :
  forall (T : Type) (S : Scalar T) (ok : T -> Prop), ord_laws S ok ->
  forall sp : space T, wf_space sp -> all_coords ok sp ->
  forall alg : std_algos, std_laws alg ->
  forall (c : category) (it : index_type) (fuel : nat) (stop : stop_condition) (bnds : start_bounds T)
    (ru : rule) (t : kd_tree_data c T),
  build c alg it fuel sp stop bnds ru = Ok t -> ru <> midpoint_max_side ->
  length (leaf_levels 0 (kd_root t)) <= length (sp_pts sp)
  /\ node_count (kd_root t) = 2 * length (leaf_levels 0 (kd_root t)) - 1
  /\ node_count (kd_root t) <= 2 * length (sp_pts sp) - 1
  /\ chunks_needed (node_count (kd_root t)) <= (2 * length (sp_pts sp) + 254) / 256.
Proof. exact @shape_nodes. Qed.
Print Assumptions C121_node_count.

Theorem C121_depth_limited :
  forall (T : Type) (S : Scalar T) (sp : space T) (alg : std_algos)
    (c : category) (it : index_type) (fuel : nat) (d : Z) (bnds : start_bounds T)
    (ru : rule) (t : kd_tree_data c T),
  index_type_ok it -> (0 <= d <= it_max it)%Z ->
  build c alg it fuel sp (max_leaf_depth d) bnds ru = Ok t ->
  height (kd_root t) <= Z.to_nat d /\ node_count (kd_root t) <= 2 * 2 ^ Z.to_nat d - 1.
Proof. exact @shape_height_depth. Qed.
Print Assumptions C121_depth_limited.

(** Seven points in five leaves: nine nodes, one chunk; with one point per leaf the
    bound of thirteen nodes is met. *)
Example C121_example :
  (exists t : kd_tree_data Euclidean Q,
     build Euclidean std_example it_int 9 ex_sp (max_leaf_size 2) bounds_from_space sliding_midpoint_max_side = Ok t
     /\ node_count (kd_root t) = 9 /\ chunks_needed (node_count (kd_root t)) = 1)
  /\ (exists t : kd_tree_data Euclidean Q,
     build Euclidean std_example it_int 9 ex_sp (max_leaf_size 1) bounds_from_space sliding_midpoint_max_side = Ok t
     /\ node_count (kd_root t) = 2 * 7 - 1)
  /\ exists t : kd_tree_data Euclidean Q,
     build Euclidean std_example it_int 9 ex_sp (max_leaf_depth 2) bounds_from_space midpoint_max_side = Ok t
     /\ node_count (kd_root t) = 2 * 2 ^ 2 - 1.
Proof.
  split; [|split]; eexists; (split; [vm_compute; reflexivity|]); try split; vm_compute; reflexivity.
Qed.

(** ** C122: how deep the recursion goes *)
Theorem C122_recursion_is_height :
  forall (T : Type) (S : Scalar T) (sp : space T) (alg : std_algos) (c : category) (it : index_type) (fuel : nat)
    (stop : stop_condition) (bnds : start_bounds T) (ru : rule) (t : kd_tree_data c T),
  build c alg it fuel sp stop bnds ru = Ok t ->
  forall allowed : nat,
  build c alg it allowed sp stop bnds ru = if height (kd_root t) <? allowed then Ok t else OutOfFuel.
Proof. exact @shape_recursion. Qed.
Print Assumptions C122_recursion_is_height.

Theorem C122_height :
  forall (T : Type) (S : Scalar T) (ok : T -> Prop), ord_laws S ok ->
  forall sp : space T, wf_space sp -> all_coords ok sp ->
  forall alg : std_algos, std_laws alg ->
  forall (c : category) (it : index_type) (fuel : nat) (m : Z) (bnds : start_bounds T)
    (ru : rule) (t : kd_tree_data c T),
  ru <> midpoint_max_side -> index_type_ok it -> (0 < m <= it_max it)%Z ->
  build c alg it fuel sp (max_leaf_size m) bnds ru = Ok t ->
  height (kd_root t) <= length (sp_pts sp) - Z.to_nat m
  /\ split_work (kd_root t) <= length (sp_pts sp) * (length (sp_pts sp) - Z.to_nat m).
Proof. exact @shape_height. Qed.
Print Assumptions C122_height.

(** Four calls deep: three are not enough, four are. *)
Example C122_example : exists t : kd_tree_data Euclidean Q,
  build Euclidean std_example it_int 9 ex_sp (max_leaf_size 2) bounds_from_space sliding_midpoint_max_side = Ok t
  /\ height (kd_root t) = 3 /\ 3 <= 7 - 2
  /\ build Euclidean std_example it_int 3 ex_sp (max_leaf_size 2) bounds_from_space sliding_midpoint_max_side = OutOfFuel
  /\ build Euclidean std_example it_int 4 ex_sp (max_leaf_size 2) bounds_from_space sliding_midpoint_max_side = Ok t.
Proof.
  eexists. split; [vm_compute; reflexivity|]. split; [vm_compute; reflexivity|]. split; [lia|].
  split; vm_compute; reflexivity.
Qed.

(** ** C123: points at the same place make the default rule deep *)
Theorem C123_coincident_points :
  forall (T : Type) (S : Scalar T) (ok : T -> Prop), ord_laws S ok ->
  forall sp : space T, wf_space sp -> all_coords ok sp ->
  forall alg : std_algos, std_laws alg -> coincident sp ->
  forall (c : category) (it : index_type) (fuel : nat) (m : Z) (bnds : start_bounds T) (t : kd_tree_data c T),
  index_type_ok it -> (0 < m <= it_max it)%Z -> (m <= Z.of_nat (length (sp_pts sp)))%Z ->
  build c alg it fuel sp (max_leaf_size m) bnds sliding_midpoint_max_side = Ok t ->
  height (kd_root t) = length (sp_pts sp) - Z.to_nat m
  /\ leaf_count (kd_root t) = length (sp_pts sp) - Z.to_nat m + 1
  /\ 2 * split_work (kd_root t) + Z.to_nat m * (Z.to_nat m + 1) = length (sp_pts sp) * (length (sp_pts sp) + 1).
Proof. exact @shape_coincident. Qed.
Print Assumptions C123_coincident_points.

Theorem C123_coincident_group :
  forall (T : Type) (S : Scalar T) (ok : T -> Prop), ord_laws S ok ->
  forall sp : space T, wf_space sp -> all_coords ok sp ->
  forall alg : std_algos, std_laws alg ->
  forall (c : category) (it : index_type) (fuel : nat) (m : Z) (bnds : start_bounds T) (t : kd_tree_data c T)
    (same : list nat),
  index_type_ok it -> (0 < m <= it_max it)%Z ->
  build c alg it fuel sp (max_leaf_size m) bnds sliding_midpoint_max_side = Ok t ->
  NoDup same -> (forall i, In i same -> i < length (sp_pts sp)) ->
  (forall i j, In i same -> In j same -> nth i (sp_pts sp) [] = nth j (sp_pts sp) []) ->
  length same - Z.to_nat m <= height (kd_root t).
Proof. exact @shape_group. Qed.
Print Assumptions C123_coincident_group.

(** "The depth is logarithmic in the number of points." *)
Definition C123_statement : Prop :=
  exists a : nat, forall (sp : space Q) (it : index_type) (fuel : nat) (m : Z) (t : kd_tree_data Euclidean Q),
  wf_space sp -> all_coords (no_overflow qv) sp -> index_type_ok it -> (0 < m <= it_max it)%Z ->
  build Euclidean std_example it fuel sp (max_leaf_size m) bounds_from_space sliding_midpoint_max_side = Ok t ->
  height (kd_root t) <= a * (1 + Nat.log2 (length (sp_pts sp))).
Theorem C123_refuted : ~ C123_statement.
Proof. exact no_log_height. Qed.
Print Assumptions C123_refuted.

(** Nine coincident points; ten points of which the last six are at one place. *)
Example C123_example :
  (exists t : kd_tree_data Euclidean Q,
     build Euclidean std_example it_int 9 (Space 2 (repeat [3; 4]%Q 9)) (max_leaf_size 2) bounds_from_space
       sliding_midpoint_max_side = Ok t
     /\ coincident (Space 2 (repeat [3; 4]%Q 9))
     /\ height (kd_root t) = 7 /\ leaf_count (kd_root t) = 8 /\ split_work (kd_root t) = 3 + 4 + 5 + 6 + 7 + 8 + 9)
  /\ (let sp := Space 2 [[0; 0]; [8; 1]; [2; 5]; [5; 5]; [3; 4]; [3; 4]; [3; 4]; [3; 4]; [3; 4]; [3; 4]]%Q in
      exists t : kd_tree_data Euclidean Q,
      build Euclidean std_example it_int 10 sp (max_leaf_size 1) bounds_from_space sliding_midpoint_max_side = Ok t
      /\ (forall i j, In i [4; 5; 6; 7; 8; 9] -> In j [4; 5; 6; 7; 8; 9] -> nth i (sp_pts sp) [] = nth j (sp_pts sp) [])
      /\ 6 - 1 <= height (kd_root t)).
Proof.
  split.
  - eexists. split; [vm_compute; reflexivity|]. split; [apply repeat_coincident|]. repeat split; vm_compute; reflexivity.
  - eexists. split; [vm_compute; reflexivity|]. split.
    + intros i j Hi Hj. cbn [In] in Hi, Hj.
      assert (A : forall k, 4 <= k <= 9 -> nth k [[0; 0]; [8; 1]; [2; 5]; [5; 5]; [3; 4]; [3; 4]; [3; 4]; [3; 4]; [3; 4]; [3; 4]]%Q [] = [3; 4]%Q).
      { intros k Hk. do 10 (destruct k as [|k]; [try lia; reflexivity|]). lia. }
      cbn [sp_pts]. rewrite !A by lia. reflexivity.
    + vm_compute. repeat constructor.
Qed.

(** ** C124: the median rule: depth and work *)
Theorem C124_median :
  forall (T : Type) (S : Scalar T) (ok : T -> Prop), ord_laws S ok ->
  forall sp : space T, wf_space sp -> all_coords ok sp ->
  forall alg : std_algos, std_laws alg ->
  forall (c : category) (it : index_type) (fuel : nat) (m : Z) (bnds : start_bounds T) (t : kd_tree_data c T) (h : nat),
  index_type_ok it -> (0 < m <= it_max it)%Z ->
  build c alg it fuel sp (max_leaf_size m) bnds median_max_side = Ok t ->
  (Z.of_nat (length (sp_pts sp)) <= m * 2 ^ Z.of_nat h)%Z ->
  height (kd_root t) <= h /\ split_work (kd_root t) <= length (sp_pts sp) * h.
Proof. exact @shape_median. Qed.
Print Assumptions C124_median.

(** Nine coincident points: three levels instead of seven. *)
Example C124_example : exists t : kd_tree_data Euclidean Q,
  build Euclidean std_example it_int 9 (Space 2 (repeat [3; 4]%Q 9)) (max_leaf_size 2) bounds_from_space
    median_max_side = Ok t
  /\ (Z.of_nat 9 <= 2 * 2 ^ Z.of_nat 3)%Z /\ height (kd_root t) = 3 /\ split_work (kd_root t) = 9 + 9 + 3 /\ 21 <= 9 * 3.
Proof. eexists. split; [vm_compute; reflexivity|]. repeat split; try lia; vm_compute; reflexivity. Qed.

(** ** C125: the size of a saved tree *)
Theorem C125_file_size :
  forall (T : Type) (SC : Scalar T) (little : bool) (it : index_type) (tc : codec T) (fit : T -> Prop),
  (0 < it_bits it)%Z -> (it_bits it mod 8 = 0)%Z -> codec_ok tc fit ->
  c_align tc = c_size tc -> c_size tc = 4 \/ c_size tc = 8 ->
  forall (sp : space T) (alg : std_algos),
  ord_laws SC fit -> wf_space sp -> all_coords fit sp -> std_laws alg ->
  forall (pads : nat -> nat -> Z) (m : metric T) (fuel : nat) (stop : stop_condition) (bnds : start_bounds T)
    (ru : rule) (tree : kd_tree T),
  (ru = midpoint_max_side -> mid_ok SC fit /\ bounds_coords fit sp bnds) ->
  kd_tree_make alg it m fuel sp stop bnds ru = Ok tree ->
  length (kd_tree_save little it tc pads tree)
  = 16 + length (sp_pts sp) * Z.to_nat (it_bits it / 8) + 2 * sp_sdim sp * c_size tc
    + leaf_count (kd_root (kt_data tree)) * (1 + 2 * Z.to_nat (it_bits it / 8))
    + (leaf_count (kd_root (kt_data tree)) - 1)
      * (1 + int_and_scalars (match m_cat m with Euclidean => 2 | Topological => 4 end) (c_size tc))
  /\ (ru <> midpoint_max_side ->
      length (kd_tree_save little it tc pads tree)
      <= 16 + length (sp_pts sp) * Z.to_nat (it_bits it / 8) + 2 * sp_sdim sp * c_size tc
         + length (sp_pts sp)
           * (2 + 2 * Z.to_nat (it_bits it / 8)
              + int_and_scalars (match m_cat m with Euclidean => 2 | Topological => 4 end) (c_size tc))).
Proof. exact @tree_file_size. Qed.
Print Assumptions C125_file_size.

(** Seven integer points in the plane in four leaves: 135 bytes. *)
Example C125_example : exists data,
  kd_tree_make (S := Z32) std_example it_int (metric_l2_squared (S := Z32)) 10 ex_int (max_leaf_size 2)
    bounds_from_space sliding_midpoint_max_side = Ok (KdTree ex_int (metric_l2_squared (S := Z32)) data)
  /\ leaf_count (kd_root data) = 4
  /\ length (save_data true it_int (int_codec true 4) (fun _ _ => 99%Z) data) = 135
  /\ 16 + 7 * 4 + 2 * 2 * 4 + 4 * (1 + 2 * 4) + 3 * (1 + int_and_scalars 2 4) = 135.
Proof.
  eexists. split; [apply (make_ok (S := Z32)); vm_compute; reflexivity|]. repeat split; vm_compute; reflexivity.
Qed.
