(** Outcomes, scalar operations, small list helpers shared by the model.

    Citations are relative to /repo.  [PT] abbreviates src/pico_tree/pico_tree. *)
From Coq Require Import List ZArith Bool Arith.
Import ListNotations.

(** Why a run of the C++ program is undefined (or stops in an assert).  Not a
    transcription of code: the guide for C++ models asks for undefined
    behaviour as a distinct outcome. *)
Inductive ub_reason : Type :=
| UbIndex        (* out-of-range element access / iterator outside its range *)
| UbNull         (* null pointer dereference *)
| UbUninit       (* use of an uninitialised variable *)
| UbAssert       (* a failing assert (abort, or unchecked when NDEBUG) *)
| UbOverflow     (* value not representable in the index type *)
| UbShortRead    (* a stream read came up short; its target is indeterminate *)
| UbDangling     (* use of memory that is not allocated (any more) *)
| UbDoubleFree   (* delete of memory that is not allocated (any more) *)
| UbDim.         (* point with a different number of coordinates than sdim *)

(** Result of running a piece of code. [OutOfFuel] means "still running". *)
Inductive res (A : Type) : Type :=
| Ok (a : A)
| Ub (why : ub_reason)
| OutOfFuel.
Arguments Ok {A} a.
Arguments Ub {A} why.
Arguments OutOfFuel {A}.

(** Sequencing of outcomes (not a transcription; plumbing). *)
Definition bind {A B} (r : res A) (f : A -> res B) : res B :=
  match r with
  | Ok a => f a
  | Ub w => Ub w
  | OutOfFuel => OutOfFuel
  end.

Notation "'do' x <- e ; f" := (bind e (fun x => f))
  (at level 200, x pattern, e at level 100, f at level 200).

(** [guard b w] stops with [Ub w] unless [b] holds (plumbing). *)
Definition guard (b : bool) (w : ub_reason) : res unit :=
  if b then Ok tt else Ub w.

(** The operations the templates use on [scalar_type].
    - [s_max]/[s_lowest]: std::numeric_limits<scalar_type>::max()/lowest()
      (PT/internal/box.hpp:56-57,73; PT/internal/search_visitor.hpp:50,102)
    - [s_half]: scalar_type(0.5) (PT/internal/kd_tree_builder.hpp:204)
    - [s_two]: scalar_type(2.0) (PT/internal/kd_tree_builder.hpp:240)
    - [s_one]: scalar_type(1.0) (PT/distance.hpp:13, search_visitor.hpp:173)
    - arithmetic and comparisons: as used throughout. [a > b] is modelled as
      [b < a] and [a >= b] as [b <= a], which is what C++ arithmetic types give
      (also for NaN). *)
Class Scalar (T : Type) : Type := {
  s_zero : T;
  s_one : T;
  s_two : T;
  s_half : T;
  s_max : T;
  s_lowest : T;
  s_add : T -> T -> T;
  s_sub : T -> T -> T;
  s_mul : T -> T -> T;
  s_div : T -> T -> T;
  s_abs : T -> T;
  s_ltb : T -> T -> bool;
  s_leb : T -> T -> bool
}.

Declare Scope scalar_scope.
Delimit Scope scalar_scope with S.
Infix "+" := s_add : scalar_scope.
Infix "-" := s_sub : scalar_scope.
Infix "*" := s_mul : scalar_scope.
Infix "/" := s_div : scalar_scope.
Infix "<?" := s_ltb : scalar_scope.
Infix "<=?" := s_leb : scalar_scope.

(** std::min(a, b) and std::max(a, b) as specified by the C++ standard
    (used in PT/distance.hpp:28, PT/metric.hpp:144,175, PT/internal/segment.hpp:79). *)
Definition std_min {T} {S : Scalar T} (a b : T) : T :=
  if (b <? a)%S then b else a.
Definition std_max {T} {S : Scalar T} (a b : T) : T :=
  if (a <? b)%S then b else a.

(** Plumbing: array access, array update, building an array by index. *)
Definition get {T} {S : Scalar T} (l : list T) (i : nat) : T := nth i l s_zero.

Fixpoint set_nth {A} (l : list A) (i : nat) (x : A) : list A :=
  match l, i with
  | [], _ => []
  | _ :: r, O => x :: r
  | a :: r, S i' => a :: set_nth r i' x
  end.

Definition tab {A} (n : nat) (f : nat -> A) : list A := map f (seq 0 n).

(** Checked array access: reading outside is undefined behaviour. *)
Definition at_ {A} (l : list A) (i : nat) : res A :=
  match nth_error l i with
  | Some x => Ok x
  | None => Ub UbIndex
  end.

(** The range [begin()+b, begin()+e) of a vector, as iterated by
    [for (; begin < end; ++begin)] (PT/internal/kd_tree_search.hpp:55-57).
    Forming an iterator outside [begin(), end()] is undefined. *)
Definition slice {A} (l : list A) (b e : nat) : res (list A) :=
  if (b <=? length l) && (e <=? length l)
  then Ok (firstn (e - b) (skipn b l))
  else Ub UbIndex.

(** Integral index types, PT/kd_tree.hpp:22 ([Index_ = int] by default). *)
Record index_type : Type := { it_bits : Z; it_signed : bool }.
Definition it_int : index_type := {| it_bits := 32; it_signed := true |}.
Definition it_size_t : index_type := {| it_bits := 64; it_signed := false |}.

(** Largest value of an index type. *)
Definition it_max (it : index_type) : Z :=
  (if it_signed it then 2 ^ (it_bits it - 1) - 1 else 2 ^ it_bits it - 1)%Z.

(** static_cast<index_type>(v), PT/internal/kd_tree_builder.hpp:329.  Modular
    (C++20, and what all compilers do before). *)
Definition it_cast (it : index_type) (v : Z) : Z :=
  let m := (2 ^ it_bits it)%Z in
  let r := (v mod m)%Z in
  if it_signed it && (2 ^ (it_bits it - 1) <=? r)%Z then (r - m)%Z else r.
