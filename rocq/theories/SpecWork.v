(** Specification of which leaves a search looks at. *)
From Coq Require Import List ZArith QArith Bool Arith.
From Verif Require Import Base ModelBox ModelBuild ModelSearch Spec.
Import ListNotations.
Local Open Scope nat_scope.

Section Cells.
Context {T : Type} (val : T -> Q) {c : category}.

(** The tree cuts the space: every branch at the middle between the largest coordinate of
    its left and the smallest of its right side. The place [z] is in the part of the leaf
    that holds the positions from [b] to [e]. The cut itself belongs to both sides. *)
Inductive in_cell (z : nat -> Q) (b e : nat) : node (branch_data c T) -> Prop :=
| cell_leaf : in_cell z b e (Leaf b e)
| cell_left br l r :
    (2 * z (br_split_dim c br) <= val (br_left_max c br) + val (br_right_min c br))%Q ->
    in_cell z b e l -> in_cell z b e (Branch br l r)
| cell_right br l r :
    (val (br_left_max c br) + val (br_right_min c br) <= 2 * z (br_split_dim c br))%Q ->
    in_cell z b e r -> in_cell z b e (Branch br l r).
End Cells.

(** The points in the leaves [ls], in order. *)
Definition points_in (indices : list nat) (ls : list (nat * nat)) : list nat :=
  flat_map (fun '(b, e) => firstn (e - b) (skipn b indices)) ls.

(** What is left of the visitor after it has been shown the points of the leaves [ls]. *)
Definition shown {T V} (m : metric T) (sp : space T) (indices : list nat) (q : list T) (vis : visitor T V)
    (v0 : V) (ls : list (nat * nat)) : V :=
  fold_left (fun st i => v_visit vis i (m_dist m q (nth i (sp_pts sp) [])) st) (points_in indices ls) v0.

(** The place of a point. *)
Definition place {T} {S : Scalar T} (val : T -> Q) (x : list T) (k : nat) : Q := val (nth k x s_zero).
