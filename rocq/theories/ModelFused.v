(** Model of nearest neighbour searches for metric_l2_squared in floating point
    when the compiler contracts a product and a sum into one fused
    multiply-add, which rounds once ([expr.pre], FP_CONTRACT; the default of GCC
    where the target has the instruction).

    Citations are relative to /repo.  [PT] abbreviates src/pico_tree/pico_tree. *)
From Coq Require Import List ZArith Bool Arith.
From Flocq Require Import Core.Core IEEE754.BinarySingleNaN.
From Verif Require Import Base ModelBox ModelBuild ModelSearch Floats.
Import ListNotations.

(** Where a compiler contracts: the addition of the square of dimension [k] to a
    distance (PT/metric.hpp:47 with PT/distance.hpp:32-41), and the addition of the
    square to the distance of a box at a depth of the recursion
    (PT/internal/kd_tree_search.hpp:94; calls may be inlined some levels deep).
    There is no other product next to a sum in these searches, nor in the
    construction but for midpoint_max_side, which multiplies by a half
    (PT/internal/kd_tree_builder.hpp:204). *)
Record contraction : Type := Contraction {
  ct_term : nat -> bool;
  ct_box : nat -> bool
}.
(** A compiler that does not contract.  Not code. *)
Definition uncontracted : contraction := Contraction (fun _ => false) (fun _ => false).

Section Fused.
Variables (prec emax : Z).
Context (Hprec : Prec_gt_0 prec) (Hmax : Prec_lt_emax prec emax).
Local Notation F := (binary_float prec emax).
Local Instance SFu : Scalar F := Float_scalar prec emax Hprec Hmax.
Variable ct : contraction.

(** [acc + z * z] as one or two instructions; PT/distance.hpp:32-35 and the
    lines above. *)
Definition add_square (fused : bool) (acc z : F) : F :=
  if fused then Bfma mode_NE z z acc else s_add acc (squared z).

(** PT/metric.hpp:36-51 and 103-124: internal::sum of metric_l2_squared. *)
Fixpoint fused_sum (k : nat) (l : list (F * F)) (d : F) : F :=
  match l with
  | [] => d
  | (a, b) :: r => fused_sum (S k) r (add_square (ct_term ct k) d (s_sub a b))
  end.
Definition fused_distance (x y : list F) : F := fused_sum 0 (combine x y) s_zero.
Definition metric_fused : metric F := Metric Euclidean fused_distance squared (fun _ => R1).

(** PT/internal/kd_tree_search.hpp:52-105: search_nearest_euclidean. *)
Fixpoint search_nearest_fused {V} (vis : visitor F V) (sp : space F) (indices : list nat) (q : list F)
    (depth : nat) (n : node (branch_single F)) (node_box_distance : F) (st : list F * V) : res (list F * V) :=
  match n with
  | Leaf b e =>
      do is_ <- slice indices b e;
      do v' <- visit_range metric_fused vis sp q is_ (snd st);
      Ok (fst st, v')
  | Branch br nl nr =>
      let split_dim := bs_split_dim br in
      do v <- at_ q split_dim;
      let go_left := s_ltb s_zero (s_sub (s_sub (s_add (bs_left_max br) (bs_right_min br)) v) v) in
      let z := if go_left then s_sub (bs_right_min br) v else s_sub (bs_left_max br) v in
      do st1 <- search_nearest_fused vis sp indices q (S depth) (if go_left then nl else nr) node_box_distance st;
      do old_offset <- at_ (fst st1) split_dim;
      let node_box_distance' := add_square (ct_box ct depth) (s_sub node_box_distance old_offset) z in
      if s_leb node_box_distance' (v_max vis (snd st1)) then
        do st2 <- search_nearest_fused vis sp indices q (S depth) (if go_left then nr else nl) node_box_distance'
                    (set_nth (fst st1) split_dim (squared z), snd st1);
        Ok (set_nth (fst st2) split_dim old_offset, snd st2)
      else Ok st1
  end.

(** PT/kd_tree.hpp:106-120, 382-408: search_nearest of a tree over [sp]. *)
Definition search_fused {V} (sp : space F) (t : kd_tree_data Euclidean F) (vis : visitor F V) (x : list F) (v0 : V) : res V :=
  do _ <- guard (length x =? sp_sdim sp)%nat UbDim;
  do st <- search_nearest_fused vis sp (kd_indices t) x 0 (kd_root t) s_zero (tab (sp_sdim sp) (fun _ => s_zero), v0);
  Ok (snd st).

(** PT/kd_tree.hpp:125-129, 168-195, 256-268: search_nn, search_knn and
    search_radius. *)
Definition search_nn_fused (sp : space F) (t : kd_tree_data Euclidean F) (x : list F) (nn : neighbor F) : res (neighbor F) :=
  search_fused sp t visitor_nn x (visitor_nn_init nn).
Definition search_knn_fused (sp : space F) (t : kd_tree_data Euclidean F) (x : list F) (k : nat) (knn : list (neighbor F))
  : res (list (neighbor F)) :=
  do st0 <- visitor_knn_init (vector_resize knn (Nat.min k (sp_size sp)));
  do st <- search_fused sp t visitor_knn x st0;
  Ok (fst st).
Definition search_radius_fused (alg : std_algos) (sp : space F) (t : kd_tree_data Euclidean F) (x : list F) (radius : F)
    (sort : bool) : res (list (neighbor F)) :=
  do n <- search_fused sp t (visitor_radius radius) x [];
  Ok (if sort then std_sort alg _ neighbor_lt n else n).
End Fused.
