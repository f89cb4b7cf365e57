(** Specification of approximate searches whose distances are rounded. *)
From Coq Require Import List ZArith Reals Bool Arith Sorted.
From Flocq Require Import Core.Core IEEE754.BinarySingleNaN.
From Verif Require Import Base ModelSearch Spec Floats SpecRound.
Import ListNotations.
Local Open Scope R_scope.

(** [k] of [n] points, none of which is farther than any other point by more than [tol]
    allows; distances are reported through [sc]. *)
Record knn_tolerated (n k : nat) (D : nat -> R) (sc : R -> R) (tol : R -> R -> Prop) (ans : list (nat * R)) : Prop := {
  kt_length : length ans = Nat.min k n;
  kt_nodup : NoDup (map fst ans);
  kt_genuine : forall i d, In (i, d) ans -> (i < n)%nat /\ d = sc (D i);
  kt_sorted : StronglySorted Rle (map snd ans);
  kt_nearest : forall i d j, In (i, d) ans -> (j < n)%nat -> ~ In j (map fst ans) -> tol (D i) (D j)
}.

(** Points nearer than [r], each once, and all those that are [near]. *)
Record radius_tolerated (n : nat) (D : nat -> R) (sc : R -> R) (r : R) (near : R -> Prop) (ans : list (nat * R)) : Prop := {
  rt_nodup : NoDup (map fst ans);
  rt_genuine : forall i d, In (i, d) ans -> (i < n)%nat /\ D i < r /\ d = sc (D i);
  rt_complete : forall i, (i < n)%nat -> near (D i) -> In i (map fst ans)
}.

Section Format.
Variables (prec emax : Z).
Local Notation F := (binary_float prec emax).
Local Notation rnd := (round radix2 (SpecFloat.fexp prec emax) ZnearestE).

(** A factor of at least one whose reciprocal does not underflow. *)
Definition factor_ok (ea : F) : Prop := finite prec emax ea /\ 1 <= B2R ea <= bpow radix2 (emax - 2).

(** A distance divided by the factor, as the searches do it: one reciprocal, one product. *)
Definition scaled (ea : F) (x : R) : R := rnd (x * rnd (1 / B2R ea)).

(** A point at [x] may be reported in place of one at [y]: [x] is at most the factor times
    [y], up to rounding, with [f] from the search. *)
Definition tolerated (ea : F) (f x y : R) : Prop :=
  (1 - 2 * bpow radix2 (- prec)) * x <= B2R ea * (f * y + bpow radix2 (SpecFloat.emin prec emax)).

(** A point at [x] is certainly reported within radius [r]. *)
Definition within_inner (ea : F) (f r x : R) : Prop :=
  B2R ea * (f * x + bpow radix2 (SpecFloat.emin prec emax)) < (1 - 2 * bpow radix2 (- prec)) * r.
End Format.
