(** Sizes of trees. *)
From Coq Require Import List ZArith Bool Arith.
From Verif Require Import Base ModelBox ModelBuild ModelSearch Spec.
Import ListNotations.
Local Open Scope nat_scope.

(** Numbers of leaves and branches of a node. *)
Fixpoint leaf_count {B} (n : node B) : nat :=
  match n with Leaf _ _ => 1 | Branch _ l r => leaf_count l + leaf_count r end.
Fixpoint branch_count {B} (n : node B) : nat :=
  match n with Leaf _ _ => 0 | Branch _ l r => 1 + branch_count l + branch_count r end.

(** The number of branches on the longest way from a node to a leaf: the depth of
    recursion, less one, of making the tree and of every search that visits that leaf. *)
Fixpoint height {B} (n : node B) : nat :=
  match n with Leaf _ _ => 0 | Branch _ l r => 1 + Nat.max (height l) (height r) end.

(** How many points are handed to std::partition or std::nth_element for the first
    split of each branch: a branch splits the range of all its points. *)
Fixpoint split_work {B} (n : node B) : nat :=
  match n with
  | Leaf _ _ => 0
  | Branch _ l r => (node_points l + node_points r) + split_work l + split_work r
  end.

(** All points are at the same place. *)
Definition coincident {T} (sp : space T) : Prop :=
  forall p q, In p (sp_pts sp) -> In q (sp_pts sp) -> p = q.

(** sizeof of an int followed by [k] scalars of [s] bytes that are aligned to [s]
    bytes, with 4 or 8 for [s]. *)
Definition int_and_scalars (k s : nat) : nat := Nat.max 4 s + k * s.
