(** Model of the program that measures the precision of the kd_forest.

    Citations are relative to /repo.  [KF] abbreviates
    examples/kd_forest/kd_forest.cpp. *)
From Coq Require Import List ZArith Bool Arith.
From Verif Require Import Base ModelBox ModelBuild ModelSearch ModelSerial ModelCover ModelForest ModelFormat.
Import ListNotations.
Local Open Scope nat_scope.

Section Precision.
Context {T : Type} {S : Scalar T}.

(** The standard algorithms and containers, the object representation of a
    neighbor, and a value-initialized one. *)
Variables (alg : std_algos) (it : index_type) (pq : pqueue T) (cm : cmath T)
  (c : codec (neighbor T)) (neighbor0 : neighbor T).

(** KF:65-67: the loop of run_kd_tree. *)
Fixpoint nn_all (t : kd_tree T) (test : list (list T)) (nns : list (neighbor T)) : res (list (neighbor T)) :=
  match nns with
  | [] => Ok []
  | nn :: nns' =>
      match test with
      | [] => Ub UbIndex
      | x :: test' =>
          do r <- search_nn t x nn;
          do rs <- nn_all t test' nns';
          Ok (r :: rs)
      end
  end.

(** KF:43-76: run_kd_tree; nns afterwards, and the files.  The kd_tree has the
    default metric, start bounds and rule.  Simplifications: a file that exists can
    be opened for reading; nothing is printed. *)
Definition run_kd_tree (fuel : nat) (train : space T) (test : list (list T)) (fn_nns_gt : list Z)
    (tree_max_leaf_size : Z) (nns : list (neighbor T)) (fs : fsys) : io (list (neighbor T) * fsys) :=
  let nns0 := resize_to neighbor0 (length test) nns in
  match fs_bytes fs fn_nns_gt with
  | None =>
      let* t <- io_lift (kd_tree_make alg it metric_l2_squared fuel train (max_leaf_size tree_max_leaf_size)
                           bounds_from_space sliding_midpoint_max_side);
      let* nns1 <- io_lift (nn_all t test nns0);
      let* fs' <- write_bin c fn_nns_gt nns1 fs;
      io_ret (nns1, fs')
  | Some _ =>
      let* nns1 <- read_bin c neighbor0 fn_nns_gt nns0 fs;
      io_ret (nns1, fs)
  end.

(** KF:31-38: the loop of run_kd_forest; [nn] is the variable of KF:29, which keeps
    its value from one iteration to the next. *)
Fixpoint count_equal (f : kd_forest T) (max_leaves_visited : nat) (test : list (list T))
    (nns : list (neighbor T)) (nn : neighbor T) (equal : nat) : res nat :=
  match nns with
  | [] => Ok equal
  | g :: nns' =>
      match test with
      | [] => Ub UbIndex
      | x :: test' =>
          do nn' <- forest_search_nn pq f x max_leaves_visited nn;
          count_equal f max_leaves_visited test' nns' nn'
            (if n_index g =? n_index nn' then equal + 1 else equal)
      end
  end.

(** KF:12-41: run_kd_forest; [nn] is the uninitialized variable of KF:29. *)
Definition run_kd_forest (fuel : nat) (gauss : nat -> nat -> T) (train : space T) (test : list (list T))
    (nns : list (neighbor T)) (forest_size : nat) (forest_max_leaf_size : Z) (forest_max_leaves_visited : nat)
    (nn : neighbor T) : res nat :=
  do f <- kd_forest_make alg it cm metric_l2_squared fuel gauss train forest_max_leaf_size forest_size;
  count_equal f forest_max_leaves_visited test nns nn 0.

(** KF:82-110: run_dataset, after both data sets have been read (KF:91-92): the
    numerator and the denominator of the precision, and the files. *)
Definition run_dataset (fuel : nat) (gauss : nat -> nat -> T) (train : space T) (test : list (list T))
    (fn_nns_gt : list Z) (tree_max_leaf_size : Z) (forest_size : nat) (forest_max_leaf_size : Z)
    (forest_max_leaves_visited : nat) (nn : neighbor T) (fs : fsys) : io (nat * nat * fsys) :=
  let* (nns, fs') <- run_kd_tree fuel train test fn_nns_gt tree_max_leaf_size [] fs;
  let* equal <- io_lift (run_kd_forest fuel gauss train test nns forest_size forest_max_leaf_size
                           forest_max_leaves_visited nn);
  io_ret (equal, length nns, fs').
End Precision.
