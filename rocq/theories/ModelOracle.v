(** Model of the checks of the test suite: what test/pico_tree/common.hpp expects
    of a tree, with its brute force search.

    Citations are relative to /repo. *)
From Coq Require Import List ZArith Bool Arith.
From Verif Require Import Base ModelBox ModelBuild ModelSearch.
Import ListNotations.

Section Oracle.
Context {T : Type} {S : Scalar T}.

(** test/pico_tree/common.hpp:10-20: float_eq and float_le, that is, the
    comparisons EXPECT_FLOAT_EQ and FloatLE of GoogleTest; and scalar_type(1.5). *)
Variables (float_eq float_le : T -> T -> bool) (three_halves : T).

(** test/pico_tree/common.hpp:54-79: search_knn by brute force.  The elements
    reordered by std::nth_element are represented by their indices.  Without points
    or with k = 0, [max_k - 1] wraps around and the iterator is advanced out of the
    vector. *)
Definition brute_knn (alg : std_algos) (p : list T) (sp : space T) (k : nat) (m : metric T)
  : res (list (neighbor T)) :=
  let dist i := m_dist m p (sp_at sp i) in
  let max_k := Nat.min k (sp_size sp) in
  do _ <- guard (0 <? max_k)%nat UbIndex;
  let knn := std_nth_element alg (fun i j => s_ltb (dist i) (dist j)) (max_k - 1) (seq 0 (sp_size sp)) in
  Ok (std_sort alg _ neighbor_lt (map (fun i => Neighbor i (dist i)) (firstn max_k knn))).

(** EXPECT_EQ of two scalars. *)
Definition expect_eq (x y : T) : bool := s_leb x y && s_leb y x.

(** test/pico_tree/common.hpp:193-201: the expectations of test_knn on the two
    results of the tree and that of the brute force search.  The two arrays of the
    tree are read at the positions of compare; when ASSERT_EQ fails the test ends. *)
Definition knn_expectations (results_exact results_apprx compare : list (neighbor T)) : res bool :=
  if (length compare =? length results_exact)%nat then
    do _ <- guard (length compare <=? length results_apprx)%nat UbIndex;
    Ok (forallb (fun '(e, c) => float_eq (n_distance e) (n_distance c)) (combine results_exact compare)
        && forallb (fun '(a, e) => float_le (n_distance a) (n_distance e)) (combine results_apprx results_exact))
  else Ok false.

(** test/pico_tree/common.hpp:176-202: test_knn.  Do all expectations hold? *)
Definition test_knn (alg : std_algos) (t : kd_tree T) (k : nat) (p : list T) : res bool :=
  let lp_scale := m_app (kt_metric t) three_halves in
  do results_exact <- search_knn t p k [];
  do results_apprx <- search_knn_approx t p k lp_scale [];
  do compare <- brute_knn alg p (kt_space t) k (kt_metric t);
  knn_expectations results_exact results_apprx compare.

(** test/pico_tree/common.hpp:149-173: the expectations of test_radius on the two
    results of the tree. *)
Definition radius_expectations (sp : space T) (m : metric T) (p : list T) (lp_radius lp_scale : T)
    (results_exact results_apprx : list (neighbor T)) : res bool :=
  do _ <- guard (forallb (fun r => in_space sp (n_index r)) (results_exact ++ results_apprx)) UbIndex;
  let dist i := m_dist m p (sp_at sp i) in
  let count := length (filter (fun j => s_leb (dist j) lp_radius) (seq 0 (sp_size sp))) in
  Ok (forallb (fun r => s_leb (dist (n_index r)) lp_radius && expect_eq (dist (n_index r)) (n_distance r)) results_exact
      && forallb (fun r => s_leb (dist (n_index r)) lp_radius
                           && float_eq (dist (n_index r)) (s_mul (n_distance r) lp_scale)) results_apprx
      && (count =? length results_exact)%nat && (length results_apprx <=? count)%nat).

(** test/pico_tree/common.hpp:130-174: test_radius. *)
Definition test_radius (alg : std_algos) (t : kd_tree T) (radius : T) : res bool :=
  let sp := kt_space t in
  let m := kt_metric t in
  do _ <- guard (in_space sp (Nat.div (sp_size sp) 2)) UbIndex;
  let p := sp_at sp (Nat.div (sp_size sp) 2) in
  let lp_radius := m_app m radius in
  let lp_scale := m_app m three_halves in
  do results_exact <- search_radius alg t p lp_radius false;
  do results_apprx <- search_radius_approx alg t p lp_radius lp_scale false;
  radius_expectations sp m p lp_radius lp_scale results_exact results_apprx.

(** box_map.contains(space[j]) for each of some indices; the type of the box map
    depends on the space category, test/pico_tree/common.hpp:94-99. *)
Fixpoint contains_each (m : metric T) (sp : space T) (b : box T) (l : list nat) : res (list bool) :=
  match l with
  | [] => Ok []
  | j :: l' =>
      do c <- query_contains m b (m_cat m) (sp_at sp j);
      do cs <- contains_each m sp b l';
      Ok (c :: cs)
  end.

(** test/pico_tree/common.hpp:114-127: the expectations of test_box on the indices
    returned by the tree. *)
Definition box_expectations (m : metric T) (sp : space T) (min max : list T) (idxs : list nat) : res bool :=
  do _ <- guard (forallb (in_space sp) idxs) UbIndex;
  do found <- contains_each m sp (Box min max) idxs;
  do all <- contains_each m sp (Box min max) (seq 0 (sp_size sp));
  let count := length (filter (fun c => c) all) in
  Ok (forallb (fun c => c) found && (count =? length idxs)%nat).

(** test/pico_tree/common.hpp:81-128: test_box; min and max hold min_v and max_v in
    every dimension. *)
Definition test_box (t : kd_tree T) (min_v max_v : T) : res bool :=
  let sp := kt_space t in
  let min := tab (sp_sdim sp) (fun _ => min_v) in
  let max := tab (sp_sdim sp) (fun _ => max_v) in
  do idxs <- search_box t min max;
  box_expectations (kt_metric t) sp min max idxs.
End Oracle.
