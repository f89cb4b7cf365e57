(** Three trees for the examples of C126-C128. *)
From Coq Require Import List ZArith QArith Bool Arith Permutation Lia.
From Verif Require Import Base ModelBox ModelBuild ModelSearch Spec SpecCompare Instances BuildThms Examples.
Import ListNotations.
Local Open Scope nat_scope.

(** The points of [ex_sp] in opposite order, and with one point more. *)
Definition ex_rev : space Q := Space 2 (rev (sp_pts ex_sp)).
Definition ex_more : space Q := Space 2 (sp_pts ex_sp ++ [[3; 2]%Q]).

Definition data_of (r : res (kd_tree_data Euclidean Q)) : kd_tree_data Euclidean Q :=
  match r with Ok d => d | _ => KdTreeData [] (Box [] []) (Leaf 0 0) end.
Definition ex_tree_a : kd_tree Q := KdTree ex_sp metric_l2_squared (data_of
  (build Euclidean std_example it_int 9 ex_sp (max_leaf_size 2) bounds_from_space sliding_midpoint_max_side)).
Definition ex_tree_b : kd_tree Q := KdTree ex_rev metric_l2_squared (data_of
  (build Euclidean std_example it_size_t 9 ex_rev (max_leaf_depth 2) (bounds_user [0; 0]%Q [9; 9]%Q) median_max_side)).
Definition ex_tree_c : kd_tree Q := KdTree ex_more metric_l2_squared (data_of
  (build Euclidean std_example it_int 9 ex_more (max_leaf_size 1) bounds_from_space sliding_midpoint_max_side)).

Lemma usable_2d (sp : space Q) bnds q : sp_sdim sp = 2 -> Forall (fun p => length p = 2) (sp_pts sp) ->
  all_coords (representable qv) sp -> valid_bounds qv L2Squared bnds -> length q = 2 -> usable qv L2Squared sp bnds q.
Proof.
  intros A B C D E. constructor; auto; try exact I.
  - split; [lia|]. rewrite A. auto.
  - apply Forall_forall. intros; exact I.
  - congruence.
Qed.

Lemma ex_tree_a_ok q : length q = 2 -> tree_over qv L2Squared std_example ex_sp q ex_tree_a.
Proof.
  intros L. split; [exact std_example_laws|]. exists it_int, 9, (max_leaf_size 2), bounds_from_space, sliding_midpoint_max_side.
  split; [apply make_ok; vm_compute; reflexivity|apply ex_usable_l2; auto].
Qed.
Lemma ex_tree_b_ok q : length q = 2 -> tree_over qv L2Squared std_example ex_rev q ex_tree_b.
Proof.
  intros L. split; [exact std_example_laws|]. exists it_size_t, 9, (max_leaf_depth 2), (bounds_user [0; 0]%Q [9; 9]%Q), median_max_side.
  split; [apply make_ok; vm_compute; reflexivity|]. apply usable_2d; auto.
  - repeat constructor.
  - repeat (constructor; [repeat (constructor; [split; vm_compute; discriminate|]); constructor|]); constructor.
  - repeat constructor.
Qed.
Lemma ex_tree_c_ok q : length q = 2 -> tree_over qv L2Squared std_example ex_more q ex_tree_c.
Proof.
  intros L. split; [exact std_example_laws|]. exists it_int, 9, (max_leaf_size 1), bounds_from_space, sliding_midpoint_max_side.
  split; [apply make_ok; vm_compute; reflexivity|]. apply usable_2d; auto.
  - repeat constructor.
  - repeat (constructor; [repeat (constructor; [split; vm_compute; discriminate|]); constructor|]); constructor.
  - exact I.
Qed.
