(** Model of nearest neighbour searches when coordinates and distances have an
    integer type narrower than int, e.g. std::uint8_t or std::int16_t.  C++
    converts the operands of arithmetic to int ([expr.arith.conv]); a result is
    converted back where it is stored or returned as the scalar type.

    Citations are relative to /repo.  [PT] abbreviates src/pico_tree/pico_tree. *)
From Coq Require Import List ZArith Bool Arith.
From Verif Require Import Base ModelBox ModelBuild ModelSearch ModelInt.
Import ListNotations.

Section Narrow.
(** Signed or not, the width, and what happens if an int overflows. *)
Variables (sgn : bool) (bits : Z) (iovf : Z -> Z).

(** Conversion of an int to the type: the value of the type that is congruent
    modulo 2^bits ([conv.integral]; for signed types implementation-defined before
    C++20, and this everywhere). *)
Definition narrow_lo : Z := if sgn then (- 2 ^ (bits - 1))%Z else 0%Z.
Definition narrow_hi : Z := if sgn then (2 ^ (bits - 1) - 1)%Z else (2 ^ bits - 1)%Z.
Definition narrow_conv (x : Z) : Z := if sgn then wrap_signed bits x else (x mod 2 ^ bits)%Z.

(** The scalar type as construction, boxes and visitors see it, where results are
    stored at once (PT/internal/box.hpp:76, PT/internal/kd_tree_builder.hpp:204,240).
    In the quotient plus minimum of line 240 the quotient of a value of the type
    is one itself, so that converting it in between changes nothing; likewise the
    product with scalar_type(0.5), which is 0, of line 204. *)
Definition Narrow : Scalar Z := Int_scalar narrow_lo narrow_hi narrow_conv.

(** int arithmetic. *)
Definition i_add (x y : Z) : Z := @s_add Z (Signed 32 iovf) x y.
Definition i_sub (x y : Z) : Z := @s_sub Z (Signed 32 iovf) x y.
Definition i_mul (x y : Z) : Z := @s_mul Z (Signed 32 iovf) x y.
Definition i_abs (x : Z) : Z := @s_abs Z (Signed 32 iovf) x.

(** PT/metric.hpp:36-51: internal::sum; [d += op(a, b)] adds ints and converts. *)
Definition narrow_sum (op : Z -> Z -> Z) (x y : list Z) : Z :=
  fold_left (fun d '(a, b) => narrow_conv (i_add d (op a b))) (combine x y) 0%Z.

(** PT/metric.hpp:78-124 with PT/distance.hpp:17-41: metric_l1 ([squares] false)
    and metric_l2_squared ([squares] true).  The template squared is instantiated
    for the int x - y.  Applied to one number, by the search to an int, operator()
    gives an int. *)
Definition narrow_metric (squares : bool) : metric Z :=
  Metric Euclidean
    (narrow_sum (fun x y => narrow_conv (if squares then i_mul (i_sub x y) (i_sub x y) else i_abs (i_sub x y))))
    (fun x => if squares then i_mul x x else i_abs x)
    (fun _ => R1).

(** PT/internal/kd_tree_search.hpp:52-105: search_nearest_euclidean.  The test
    of line 76 is on ints; new_offset and node_box_distance have the scalar type. *)
Fixpoint search_nearest_narrow {V} (m : metric Z) (vis : visitor Z V) (sp : space Z) (indices : list nat) (q : list Z)
    (n : node (branch_single Z)) (node_box_distance : Z) (st : list Z * V) : res (list Z * V) :=
  match n with
  | Leaf b e =>
      do is_ <- slice indices b e;
      do v' <- visit_range m vis sp q is_ (snd st);
      Ok (fst st, v')
  | Branch br nl nr =>
      let split_dim := bs_split_dim br in
      do v <- at_ q split_dim;
      let go_left := (0 <? i_sub (i_sub (i_add (bs_left_max br) (bs_right_min br)) v) v)%Z in
      let new_offset := narrow_conv (m_app m (if go_left then i_sub (bs_right_min br) v else i_sub (bs_left_max br) v)) in
      do st1 <- search_nearest_narrow m vis sp indices q (if go_left then nl else nr) node_box_distance st;
      do old_offset <- at_ (fst st1) split_dim;
      let node_box_distance' := narrow_conv (i_add (i_sub node_box_distance old_offset) new_offset) in
      if (node_box_distance' <=? v_max vis (snd st1))%Z then
        do st2 <- search_nearest_narrow m vis sp indices q (if go_left then nr else nl) node_box_distance'
                    (set_nth (fst st1) split_dim new_offset, snd st1);
        Ok (set_nth (fst st2) split_dim old_offset, snd st2)
      else Ok st1
  end.

(** PT/kd_tree.hpp:106-120, 382-408: search_nearest of a tree over [sp]. *)
Definition search_narrow {V} (m : metric Z) (sp : space Z) (t : kd_tree_data Euclidean Z) (vis : visitor Z V)
    (x : list Z) (v0 : V) : res V :=
  do _ <- guard (length x =? sp_sdim sp)%nat UbDim;
  do st <- search_nearest_narrow m vis sp (kd_indices t) x (kd_root t) 0%Z (tab (sp_sdim sp) (fun _ => 0%Z), v0);
  Ok (snd st).

(** PT/kd_tree.hpp:125-129, 168-195, 256-268: search_nn, search_knn and
    search_radius. *)
Definition search_nn_narrow (m : metric Z) (sp : space Z) (t : kd_tree_data Euclidean Z) (x : list Z)
    (nn : neighbor Z) : res (neighbor Z) :=
  search_narrow m sp t (@visitor_nn Z Narrow) x (@visitor_nn_init Z Narrow nn).
Definition search_knn_narrow (m : metric Z) (sp : space Z) (t : kd_tree_data Euclidean Z) (x : list Z) (k : nat)
    (knn : list (neighbor Z)) : res (list (neighbor Z)) :=
  do st0 <- @visitor_knn_init Z Narrow (@vector_resize Z Narrow knn (Nat.min k (sp_size sp)));
  do st <- search_narrow m sp t (@visitor_knn Z Narrow) x st0;
  Ok (fst st).
Definition search_radius_narrow (alg : std_algos) (m : metric Z) (sp : space Z) (t : kd_tree_data Euclidean Z) (x : list Z)
    (radius : Z) (sort : bool) : res (list (neighbor Z)) :=
  do n <- search_narrow m sp t (@visitor_radius Z Narrow radius) x [];
  Ok (if sort then std_sort alg _ (@neighbor_lt Z Narrow) n else n).
End Narrow.
