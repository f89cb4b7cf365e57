(** Specifications for the cover tree of the examples: what a tree holds, which
    metrics it is meant for, and what the answers of queries mean when only the
    order of the scalars is known. *)
From Coq Require Import List ZArith QArith Bool Arith Permutation Sorted.
From Verif Require Import Base ModelBox ModelBuild ModelSearch Spec ModelCover.
Import ListNotations.

(** std::shuffle returns some rearrangement. *)
Definition shuffles (shuffle : list nat -> list nat) : Prop :=
  forall l, Permutation (shuffle l) l.

(** All points stored in a tree, root first. *)
Fixpoint stored {T} (n : cover_node T) : list nat :=
  match n with CoverNode _ _ i cs => i :: flat_map stored cs end.

(** [a] is a node of the tree [n]. *)
Inductive node_of {T} (a : cover_node T) : cover_node T -> Prop :=
| node_here : node_of a a
| node_below : forall l md i cs c, In c cs -> node_of a c -> node_of a (CoverNode l md i cs).

(** Adding one repeatedly reaches any level. *)
Definition counts_up {T} (S : Scalar T) : Prop :=
  forall a b : T, exists k, s_ltb (Nat.iter k (fun x => s_add x s_one) a) b = false.

(** The triangle inequality, in exact arithmetic, for all points of a space and
    a query. *)
Definition triangle {T} (val : T -> Q) (m : metric T) (sp : space T) (q : list T) : Prop :=
  forall c p, In c (sp_pts sp) -> In p (sp_pts sp) ->
    (val (m_dist m q c) <= val (m_dist m q p) + val (m_dist m c p))%Q.

(** The same for scalars of which only the order is known: subtracting an upper
    bound of the distance from [c] to [p] from the distance to [c] does not
    exceed the distance to [p]. *)
Definition triangle_ord {T} {S : Scalar T} (ok : T -> Prop) (m : metric T) (sp : space T)
    (q : list T) : Prop :=
  forall c p r, In c (sp_pts sp) -> In p (sp_pts sp) -> ok r ->
    s_leb (m_dist m c p) r = true ->
    ok (s_sub (m_dist m q c) r)
    /\ s_leb (s_sub (m_dist m q c) r) (m_dist m q p) = true.

(** Distances between points and to the query are comparable. *)
Definition distances_ok {T} {S : Scalar T} (ok : T -> Prop) (m : metric T) (sp : space T)
    (q : list T) : Prop :=
  forall i j, ok (m_dist m q (nth i (sp_pts sp) []))
    /\ ok (m_dist m (nth i (sp_pts sp) []) (nth j (sp_pts sp) [])).

(** * Answers in terms of the order only *)

(** [i] is a nearest point. *)
Definition ord_nearest {T} {S : Scalar T} (n : nat) (D : nat -> T) (i : nat) : Prop :=
  (i < n)%nat /\ forall j, (j < n)%nat -> s_leb (D i) (D j) = true.

(** The [k] nearest of [n] points, in order. *)
Record ord_knn {T} {S : Scalar T} (n k : nat) (D : nat -> T) (l : list (neighbor T)) : Prop := {
  ok_length : length l = Nat.min k n;
  ok_nodup : NoDup (map n_index l);
  ok_genuine : forall x, In x l -> (n_index x < n)%nat /\ n_distance x = D (n_index x);
  ok_sorted : StronglySorted (fun x y => s_leb (n_distance x) (n_distance y) = true) l;
  ok_nearest : forall x j, In x l -> (j < n)%nat -> ~ In j (map n_index l) ->
    s_leb (n_distance x) (D j) = true
}.

(** Exactly the points closer than [r], each once, with their distance. *)
Record ord_radius {T} {S : Scalar T} (n : nat) (D : nat -> T) (r : T) (l : list (neighbor T))
  : Prop := {
  or_nodup : NoDup (map n_index l);
  or_genuine : forall x, In x l -> (n_index x < n)%nat
    /\ n_distance x = D (n_index x) /\ s_ltb (n_distance x) r = true;
  or_complete : forall i, (i < n)%nat -> s_ltb (D i) r = true -> In i (map n_index l)
}.

(** Distance of point [i] of the space to [q], as a rational number. *)
Definition metric_to {T} (val : T -> Q) (m : metric T) (sp : space T) (q : list T) (i : nat) : Q :=
  val (m_dist m q (nth i (sp_pts sp) [])).
