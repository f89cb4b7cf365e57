(** Specification of the bytes of a saved tree. *)
From Coq Require Import List ZArith Bool Arith.
From Verif Require Import Base ModelBox ModelBuild ModelSearch ModelSerial.
Import ListNotations.
Local Open Scope nat_scope.

(** A number in [w] bytes: byte [k] is the digit of 256^k, counted from the end if the
    machine is not little endian. *)
Definition number (little : bool) (w v : nat) : list Z :=
  map (fun k => ((Z.of_nat v / 256 ^ Z.of_nat (if little then k else w - 1 - k)) mod 256)%Z) (seq 0 w).

Section Text.
Context {T : Type}.
(** [iw]: the size of the index type; [tc]: the bytes of a scalar. *)
Variables (little : bool) (iw : nat) (tc : codec T).

(** Between the dimension, an int, and scalars of eight bytes there is a hole of four. *)
Definition hole_size : nat := if c_size tc =? 8 then 4 else 0.

(** The scalars of a branch. *)
Definition branch_text (c : category) : branch_data c T -> list Z :=
  match c return branch_data c T -> list Z with
  | Euclidean => fun br => c_enc tc (bs_left_max br) ++ c_enc tc (bs_right_min br)
  | Topological => fun br => c_enc tc (bd_left_min br) ++ c_enc tc (bd_left_max br)
                             ++ c_enc tc (bd_right_min br) ++ c_enc tc (bd_right_max br)
  end.
Definition branch_dim (c : category) : branch_data c T -> nat :=
  match c return branch_data c T -> nat with
  | Euclidean => fun br => bs_split_dim br
  | Topological => fun br => bd_split_dim br
  end.

(** A node: 1 and the range of a leaf, or 0, the dimension, a hole, the scalars and the
    two sides of a branch. *)
Inductive node_text (c : category) : node (branch_data c T) -> list Z -> Prop :=
| text_leaf b e : node_text c (Leaf b e) (1%Z :: number little iw b ++ number little iw e)
| text_branch br l r hole tl tr : length hole = hole_size ->
    node_text c l tl -> node_text c r tr ->
    node_text c (Branch br l r)
      (0%Z :: number little 4 (branch_dim c br) ++ hole ++ branch_text c br ++ tl ++ tr).

(** A tree: the dimension, the number of points, their indices, the box, the root. *)
Definition file_text {c : category} (t : kd_tree_data c T) (bytes : list Z) : Prop :=
  exists nodes, node_text c (kd_root t) nodes
  /\ bytes = number little 8 (length (box_min (kd_root_box t))) ++ number little 8 (length (kd_indices t))
       ++ flat_map (number little iw) (kd_indices t)
       ++ flat_map (c_enc tc) (box_min (kd_root_box t)) ++ flat_map (c_enc tc) (box_max (kd_root_box t))
       ++ nodes.
End Text.

(** At how many positions two files differ. *)
Definition differences (a b : list Z) : nat :=
  length (filter (fun p => negb (Z.eqb (fst p) (snd p))) (combine a b)).

(** The branches of a tree. *)
Fixpoint branches {B} (n : node B) : nat :=
  match n with Leaf _ _ => 0 | Branch _ l r => 1 + branches l + branches r end.
