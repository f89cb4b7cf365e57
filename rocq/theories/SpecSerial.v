(** Specifications for saving and loading: which values a file can hold. *)
From Coq Require Import List ZArith Bool Arith.
From Verif Require Import Base ModelBox ModelBuild ModelSearch ModelSerial.
Import ListNotations.

(** Object representations have a fixed size, and values satisfying [P] can be
    read back from theirs. *)
Record codec_ok {A} (c : codec A) (P : A -> Prop) : Prop := {
  ck_len : forall a, length (c_enc c a) = c_size c;
  ck_dec : forall a, P a -> c_dec c (c_enc c a) = Ok a
}.

Section Fits.
Context {T : Type} {SC : Scalar T} (it : index_type) (fit : T -> Prop).

(** All numbers of the node fit their types. *)
Definition branch_fits {c} : branch_data c T -> Prop :=
  match c return branch_data c T -> Prop with
  | Euclidean => fun br => (Z.of_nat (bs_split_dim br) < 2 ^ 31)%Z /\ fit (bs_left_max br) /\ fit (bs_right_min br)
  | Topological => fun br => (Z.of_nat (bd_split_dim br) < 2 ^ 31)%Z
      /\ fit (bd_left_min br) /\ fit (bd_left_max br) /\ fit (bd_right_min br) /\ fit (bd_right_max br)
  end.
Fixpoint node_fits {c} (nd : node (branch_data c T)) : Prop :=
  match nd with
  | Leaf b e => (Z.of_nat b <= it_max it)%Z /\ (Z.of_nat e <= it_max it)%Z
  | Branch br l r => branch_fits br /\ node_fits l /\ node_fits r
  end.

(** All numbers of the tree fit. *)
Definition data_fits {c} (t : kd_tree_data c T) : Prop :=
  length (box_max (kd_root_box t)) = length (box_min (kd_root_box t))
  /\ (Z.of_nat (length (box_min (kd_root_box t))) < 2 ^ 31)%Z
  /\ (Z.of_nat (length (kd_indices t)) < 2 ^ 64)%Z
  /\ Forall (fun i => (Z.of_nat i <= it_max it)%Z) (kd_indices t)
  /\ Forall fit (box_min (kd_root_box t)) /\ Forall fit (box_max (kd_root_box t))
  /\ node_fits (kd_root t).

End Fits.
