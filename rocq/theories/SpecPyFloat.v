(** Specification of the arrays that the Python searches return. *)
From Coq Require Import List ZArith Bool Arith.
From Verif Require Import Base ModelSearch ModelPython SpecPython.
Import ListNotations.

(** [row] holds the [k] answers of query [i] of [n]: element i of the answer if k is one, row
    i otherwise (for queries given as rows; see C51 for columns). *)
Definition answer_row {T} (queries : ndarray T) (n k i : nat) (out : ndarray (neighbor T)) (row : list (neighbor T)) : Prop :=
  length row = k
  /\ (k = 1 -> nd_shape out = [n] /\ nd_get out [i] = nth_error row 0)
  /\ (k <> 1 -> is_row_major queries = true -> nd_shape out = [n; k] /\ forall j, j < k -> nd_get out [i; j] = nth_error row j).

(** What a row holds beyond the [n] points there are: zeros, and the largest value in the end. *)
Definition row_padding {T} {SC : Scalar T} (n k : nat) (row : list (neighbor T)) : Prop :=
  (forall j, n <= j -> j < k - 1 -> nth_error row j = Some (Neighbor 0 s_zero))
  /\ (n < k -> nth_error row (k - 1) = Some (Neighbor 0 s_max)).

(** A call returns [out] whatever the schedule of its threads, once they had enough turns. *)
Definition returns {A} (n : nat) (call : list nat -> py A) (out : A) : Prop :=
  (exists N, forall sched, fair n N sched -> call sched = ret out)
  /\ forall sched, call sched = OutOfFuel \/ call sched = ret out.
