(** Specification of trees from anywhere: a file, another program, memory. *)
From Coq Require Import List ZArith QArith Bool Arith Permutation.
From Verif Require Import Base ModelBox ModelBuild ModelSearch ModelSerial Spec.
Import ListNotations.
Local Open Scope nat_scope.

Section Trees.
Context {T : Type} {S : Scalar T}.

(** The sides of a topological branch are intervals; for dimensions that are not circular
    the searches assert it. *)
Definition branch_proper (m : metric T) (c : category) : branch_data c T -> Prop :=
  match c return branch_data c T -> Prop with
  | Euclidean => fun _ => True
  | Topological => fun br => m_dim_space m (bd_split_dim br) = R1 ->
      s_leb (bd_left_min br) (bd_left_max br) = true /\ s_leb (bd_right_min br) (bd_right_max br) = true
  end.

(** Every number in the tree that is used as an index is one. *)
Record in_range (m : metric T) (sp : space T) (data : kd_tree_data (m_cat m) T) : Prop := {
  ir_indices : Forall (fun i => i < npts sp) (kd_indices data);
  ir_leaves : Forall (fun '(b, e) => b <= length (kd_indices data) /\ e <= length (kd_indices data))
                (leaf_intervals (kd_root data));
  ir_branches : every_branch (fun br _ _ => br_split_dim (m_cat m) br < sp_sdim sp /\ branch_proper m (m_cat m) br)
                  (kd_root data)
}.

(** The range of positions below a node, from its first to its last leaf, is one. *)
Fixpoint ordered_ranges {B} (nd : node B) : Prop :=
  fst (hd (0, 0) (leaf_intervals nd)) <= snd (last (leaf_intervals nd) (0, 0))
  /\ match nd with Leaf _ _ => True | Branch _ l r => ordered_ranges l /\ ordered_ranges r end.

(** What a branch stores is true of the points [l], [r] of its two sides. *)
Definition true_branch (val : T -> Q) (m : metric T) (sp : space T) (c : category)
    (br : branch_data c T) (l r : list nat) : Prop :=
  match c return branch_data c T -> Prop with
  | Euclidean => fun br =>
      bs_split_dim br < sp_sdim sp
      /\ (forall i, In i l -> (coord_val val sp i (bs_split_dim br) <= val (bs_left_max br))%Q)
      /\ (forall i, In i r -> (val (bs_right_min br) <= coord_val val sp i (bs_split_dim br))%Q)
      /\ (val (bs_left_max br) <= val (bs_right_min br))%Q
  | Topological => fun br =>
      bd_split_dim br < sp_sdim sp
      /\ (forall i, In i l -> (val (bd_left_min br) <= coord_val val sp i (bd_split_dim br) <= val (bd_left_max br))%Q)
      /\ (forall i, In i r -> (val (bd_right_min br) <= coord_val val sp i (bd_split_dim br) <= val (bd_right_max br))%Q)
      /\ (val (bd_left_min br) <= val (bd_left_max br))%Q
      /\ (val (bd_right_min br) <= val (bd_right_max br))%Q
      /\ (m_dim_space m (bd_split_dim br) = S1 ->
          (0 <= val (bd_left_min br) /\ val (bd_left_max br) <= 1
           /\ 0 <= val (bd_right_min br) /\ val (bd_right_max br) <= 1)%Q)
  end br.

(** The tree is a tree of the points, whoever made it: every point is in one leaf, the
    leaves follow each other, and every branch is true. *)
Record tree_of (val : T -> Q) (m : metric T) (sp : space T) (data : kd_tree_data (m_cat m) T) : Prop := {
  to_indices : Permutation (kd_indices data) (seq 0 (npts sp));
  to_leaves : consecutive 0 (leaf_intervals (kd_root data)) (npts sp);
  to_branches : every_branch_at (true_branch val m sp (m_cat m)) (kd_indices data) (kd_root data)
}.

(** Its box encloses the points. *)
Record box_of (sp : space T) (b : box T) : Prop := {
  bo_min : length (box_min b) = sp_sdim sp;
  bo_max : length (box_max b) = sp_sdim sp;
  bo_in : forall i d, i < npts sp -> d < sp_sdim sp ->
    s_leb (nth d (box_min b) s_zero) (nth d (nth i (sp_pts sp) []) s_zero) = true
    /\ s_leb (nth d (nth i (sp_pts sp) []) s_zero) (nth d (box_max b) s_zero) = true
}.
End Trees.

(** The values that satisfy [P] have one representation: it is the one written. *)
Definition codec_exact {A} (c : codec A) (P : A -> Prop) : Prop :=
  forall bs v, length bs = c_size c -> Forall (fun b => (0 <= b < 256)%Z) bs -> c_dec c bs = Ok v -> P v -> c_enc c v = bs.

(** The scalars in a tree. *)
Definition branch_scalars {T} {c : category} : branch_data c T -> list T :=
  match c return branch_data c T -> list T with
  | Euclidean => fun br => [bs_left_max br; bs_right_min br]
  | Topological => fun br => [bd_left_min br; bd_left_max br; bd_right_min br; bd_right_max br]
  end.
Fixpoint node_scalars {T} {c : category} (nd : node (branch_data c T)) : list T :=
  match nd with
  | Leaf _ _ => []
  | Branch br l r => branch_scalars br ++ node_scalars l ++ node_scalars r
  end.
Definition tree_scalars {T} {c : category} (data : kd_tree_data c T) : list T :=
  box_min (kd_root_box data) ++ box_max (kd_root_box data) ++ node_scalars (kd_root data).
