(** Specifications for the structure of cover trees. *)
From Coq Require Import List ZArith Reals Bool Arith.
From Verif Require Import Base ModelBox ModelBuild ModelSearch Spec ModelCover.
Import ListNotations.
Local Open Scope R_scope.

(** The distance of the points [i] and [j] of a space. *)
Definition between {T} (m : metric T) (sp : space T) (i j : nat) : T :=
  m_dist m (nth i (sp_pts sp) []) (nth j (sp_pts sp) []).

(** The scalars are real numbers, as far as the construction computes with them. *)
Record real_ops {T} (S : Scalar T) (val : T -> R) : Prop := {
  ro_lt : forall x y, s_ltb x y = true <-> val x < val y;
  ro_le : forall x y, s_leb x y = true <-> val x <= val y;
  ro_add : forall x y, val (s_add x y) = val x + val y;
  ro_sub : forall x y, val (s_sub x y) = val x - val y;
  ro_one : val s_one = 1;
  ro_double : forall x, val (s_mul x s_two) = val x * 2
}.

(** The distances of the points of the space satisfy the axioms of a (pseudo)metric. *)
Record is_metric {T} (val : T -> R) (m : metric T) (sp : space T) : Prop := {
  im_self : forall i, (i < npts sp)%nat -> val (between m sp i i) = 0;
  im_sym : forall i j, (i < npts sp)%nat -> (j < npts sp)%nat ->
    val (between m sp i j) = val (between m sp j i);
  im_triangle : forall i j k, (i < npts sp)%nat -> (j < npts sp)%nat -> (k < npts sp)%nat ->
    val (between m sp i k) <= val (between m sp i j) + val (between m sp j k)
}.

(** What std::pow, std::log, std::floor and std::ceil compute, as far as it matters:
    powers of the base ([P]), and the levels whose power is just below and just above a
    distance. *)
Record powers {T} {S : Scalar T} (val : T -> R) (cm : cmath T) (base : T) (P : R -> R) : Prop := {
  pw_pow : forall x, val (c_pow cm base x) = P (val x);
  pw_pos : forall x, 0 < P x;
  pw_mono : forall x y, x <= y -> P x <= P y;
  pw_step : forall x, P (x + 1) = val base * P x;
  pw_floor : forall d, 0 < val d ->
    val d < P (val (c_floor cm (s_div (c_log cm d) (c_log cm base))) + 1);
  pw_ceil : forall d, 0 < val d ->
    val d <= P (val (c_ceil cm (s_div (c_log cm d) (c_log cm base))))
}.
