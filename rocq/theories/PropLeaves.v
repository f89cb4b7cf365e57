(** Properties of the number of leaves, C152. *)
From Coq Require Import List ZArith QArith Bool Arith Lia.
From Verif Require Import Base ModelBox ModelBuild ModelSearch Spec Instances Examples LeafThms.
Import ListNotations.
Local Open Scope nat_scope.

(** ** C152: the number of leaf ranges *)

(** With max_leaf_depth d there are between d + 1 and 2 ^ d, unless there are fewer
    points than that; the median rule attains the upper bound. *)
Theorem C152_leaf_depth :
  forall (T : Type) (S : Scalar T) (ok : T -> Prop), ord_laws S ok ->
  forall sp : space T, wf_space sp -> all_coords ok sp ->
  forall alg : std_algos, std_laws alg ->
  forall (c : category) (it : index_type) (fuel : nat) (d : Z) (bnds : start_bounds T) (ru : rule)
    (t : kd_tree_data c T),
  ru <> midpoint_max_side -> index_type_ok it -> (0 <= d <= it_max it)%Z ->
  build c alg it fuel sp (max_leaf_depth d) bnds ru = Ok t ->
  exists rs, leaf_ranges t = Ok rs
    /\ Nat.min (Z.to_nat d + 1) (npts sp) <= length rs <= Nat.min (2 ^ Z.to_nat d) (npts sp)
    /\ (ru = median_max_side -> length rs = Nat.min (2 ^ Z.to_nat d) (npts sp)).
Proof. exact @count_depth. Qed.
Print Assumptions C152_leaf_depth.

(** Four points, one of them far away: three leaves with sliding_midpoint_max_side,
    four with median_max_side. *)
Example C152_leaf_depth_example :
  wf_space leaf_sp /\ all_coords (fun _ => True) leaf_sp
  /\ (exists t : kd_tree_data Euclidean Q,
      build Euclidean std_example it_int 9 leaf_sp (max_leaf_depth 2) bounds_from_space sliding_midpoint_max_side = Ok t
      /\ leaf_ranges t = Ok [[0; 1]; [2]; [3]])
  /\ exists t : kd_tree_data Euclidean Q,
      build Euclidean std_example it_int 9 leaf_sp (max_leaf_depth 2) bounds_from_space median_max_side = Ok t
      /\ leaf_ranges t = Ok [[0]; [1]; [2]; [3]].
Proof.
  split; [exact leaf_sp_wf|]. split; [exact leaf_sp_ok|].
  split; (eexists; split; vm_compute; reflexivity).
Qed.

(** With max_leaf_size m there are at least n / m and at most n. *)
Theorem C152_leaf_size :
  forall (T : Type) (S : Scalar T) (ok : T -> Prop), ord_laws S ok ->
  forall sp : space T, wf_space sp -> all_coords ok sp ->
  forall alg : std_algos, std_laws alg ->
  forall (c : category) (it : index_type) (fuel : nat) (m : Z) (bnds : start_bounds T) (ru : rule)
    (t : kd_tree_data c T),
  ru <> midpoint_max_side -> index_type_ok it -> (0 < m <= it_max it)%Z ->
  build c alg it fuel sp (max_leaf_size m) bnds ru = Ok t ->
  exists rs, leaf_ranges t = Ok rs
    /\ (Z.of_nat (npts sp) <= m * Z.of_nat (length rs))%Z /\ length rs <= npts sp.
Proof. exact @count_size. Qed.
Print Assumptions C152_leaf_size.

Example C152_leaf_size_example : exists t : kd_tree_data Euclidean Q,
  build Euclidean std_example it_int 9 ex_sp (max_leaf_size 2) bounds_from_space sliding_midpoint_max_side = Ok t
  /\ leaf_ranges t = Ok [[0]; [3; 4]; [1]; [2; 6]; [5]] /\ npts ex_sp = 7.
Proof. eexists. split; [vm_compute; reflexivity|]. split; vm_compute; reflexivity. Qed.

(** The default rule need not give 2 ^ d leaves, even if there are as many points
    ([full_tree_statement]), which kd_tree_test.cpp expects of random points. *)
Theorem C152_full_tree_refuted : ~ full_tree_statement.
Proof. exact full_tree_refuted. Qed.
Print Assumptions C152_full_tree_refuted.

Example C152_full_tree_example : exists t : kd_tree_data Euclidean Q,
  build Euclidean std_example it_int 9 leaf_sp (max_leaf_depth 2) bounds_from_space sliding_midpoint_max_side = Ok t
  /\ leaf_ranges t = Ok [[0; 1]; [2]; [3]] /\ 2 ^ 2 <= npts leaf_sp.
Proof. eexists. split; [vm_compute; reflexivity|]. split; [vm_compute; reflexivity|]. vm_compute. repeat constructor. Qed.
