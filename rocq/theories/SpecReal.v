(** Real numbers as a scalar type, and the Euclidean distance. *)
From Coq Require Import List ZArith Reals Bool Arith.
From Verif Require Import Base ModelBox ModelBuild ModelSearch Spec.
Import ListNotations.
Local Open Scope R_scope.

(** The real numbers with given numeric_limits: the ideal a floating point type
    approximates, for metrics that take roots. *)
Definition R_scalar (mx : R) : Scalar R := {|
  s_zero := 0; s_one := 1; s_two := 2; s_half := / 2;
  s_max := mx; s_lowest := - mx;
  s_add := Rplus; s_sub := Rminus; s_mul := Rmult; s_div := Rdiv;
  s_abs := Rabs;
  s_ltb := fun x y => if Rlt_dec x y then true else false;
  s_leb := fun x y => if Rle_dec x y then true else false
|}.

(** The sum of the squared differences of the coordinates, and its root. *)
Fixpoint sum_sq (x y : list R) : R :=
  match x, y with
  | a :: x', b :: y' => (a - b) * (a - b) + sum_sq x' y'
  | _, _ => 0
  end.
Definition euclid (x y : list R) : R := sqrt (sum_sq x y).

(** Distance of point [i] of the space to [q]. *)
Definition euclid_to (sp : space R) (q : list R) (i : nat) : R := euclid q (nth i (sp_pts sp) []).
