(** A tree whose points were modified. *)
From Coq Require Import List ZArith QArith Bool Arith Lia.
From Verif Require Import Base ModelBox ModelBuild ModelSearch Spec SpecStale Instances Examples.
Import ListNotations.
Local Open Scope Q_scope.

(** The seven points after points 1 and 5 moved and one was appended. *)
Definition ex_moved : space Q := Space 2 [[0; 0]; [6; 3]; [4; 1]; [2; 2]; [2; 2]; [5; 4]; [7; 0]; [3; 3]].

Lemma ex_moved_ok : modified ex_sp ex_moved.
Proof. constructor; [reflexivity|split; [cbn; lia|repeat constructor]|cbn; lia]. Qed.
Lemma ex_moved_rep : all_coords (representable qv) ex_moved.
Proof. repeat (constructor; [repeat (constructor; [split; vm_compute; discriminate|]); constructor|]); constructor. Qed.
Lemma ex_moved_usable q : length q = 2%nat -> usable qv L2Squared ex_moved bounds_from_space q.
Proof.
  intros. constructor; auto using ex_moved_rep; try exact I; try apply ex_moved_ok. repeat constructor.
Qed.

(** The tree over the seven points with one split rule. *)
Definition ex_data : kd_tree_data Euclidean Q :=
  match build Euclidean std_example it_int 9 ex_sp (max_leaf_size 2) bounds_from_space sliding_midpoint_max_side with
  | Ok data => data
  | _ => KdTreeData [] (Box [] []) (Leaf 0 0)
  end.
Definition ex_tree : kd_tree Q := KdTree ex_sp (metric_of L2Squared) ex_data.
Lemma ex_tree_made :
  kd_tree_make std_example it_int (metric_of L2Squared) 9 ex_sp (max_leaf_size 2) bounds_from_space
    sliding_midpoint_max_side = Ok ex_tree.
Proof. apply (make_ok (S := QD)). vm_compute. reflexivity. Qed.
