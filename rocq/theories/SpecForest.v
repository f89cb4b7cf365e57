(** Specifications for the kd_forest. *)
From Coq Require Import List ZArith QArith Bool Arith Permutation.
From Verif Require Import Base ModelBox ModelBuild ModelSearch Spec ModelForest.
Import ListNotations.

(** std::priority_queue with std::greater: top() is a smallest element. *)
Record queue_laws {T} (S : Scalar T) (pq : pqueue T) : Prop := {
  ql_some : forall l, l <> [] -> pq_pop pq l <> None;
  ql_perm : forall l x r, pq_pop pq l = Some (x, r) -> Permutation (x :: r) l;
  ql_least : forall l x r, pq_pop pq l = Some (x, r) ->
    strict_weak (fun a b => s_ltb (fst a) (fst b)) l ->
    forall y, In y r -> s_ltb (fst y) (fst x) = false
}.

Local Open Scope Q_scope.

(** The scalar product, the length and the reflection at the hyperplane through
    the origin that is orthogonal to a unit vector [r]. *)
Fixpoint dot (x y : list Q) : Q :=
  match x, y with
  | a :: x', b :: y' => a * b + dot x' y'
  | _, _ => 0
  end.
Definition unit_vector (r : list Q) : Prop := dot r r == 1.
Definition reflect (r x : list Q) : list Q :=
  map (fun '(a, b) => b - 2 * dot r x * a) (combine r x).

(** All points are at most [b] away from the origin. *)
Definition norms_le {T} (val : T -> Q) (b : Q) (sp : space T) : Prop :=
  0 <= b /\ Forall (fun p => dot (map val p) (map val p) <= b * b) (sp_pts sp).

(** The random numbers of one tree can be normalised: not all are zero, and the
    square root of the sum of their squares is exact. *)
Definition draw_ok {T} (val : T -> Q) (root : T -> T) (g : list T) : Prop :=
  ~ dot (map val g) (map val g) == 0
  /\ forall x, val x == dot (map val g) (map val g) -> val (root x) * val (root x) == val x.

(** A tree of the forest: a unit vector, the reflected points and all indices. *)
Definition reflected_tree {T} (val : T -> Q) (sp : space T) (t : rkd_tree T) : Prop :=
  unit_vector (map val (rk_rotation t))
  /\ sp_sdim (rk_space t) = sp_sdim sp
  /\ Forall2 (fun x y => Forall2 Qeq (map val y) (reflect (map val (rk_rotation t)) (map val x)))
       (sp_pts sp) (sp_pts (rk_space t))
  /\ Permutation (kd_indices (rk_tree t)) (seq 0 (npts sp)).

(** What a visitor sees: indices and distances, one after the other. *)
Definition shown_to {T V} (vis : visitor T V) (l : list (nat * T)) (v : V) : V :=
  fold_left (fun st x => v_visit vis (fst x) (snd x) st) l v.
