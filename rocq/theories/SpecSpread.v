(** Specification of how points are spread. *)
From Coq Require Import List QArith Qabs ZArith Reals.
From Flocq Require Import Core.Core IEEE754.BinarySingleNaN.
From Verif Require Import Base ModelBox ModelBuild Spec Floats.
Import ListNotations.
Local Open Scope nat_scope.

(** No more than [m] of the points are related in pairs by [R]. *)
Definition at_most {T} (sp : space T) (m : nat) (R : list T -> list T -> Prop) : Prop :=
  forall is_ : list nat, NoDup is_ -> (forall i, In i is_ -> i < npts sp) ->
  (forall i j, In i is_ -> In j is_ -> R (nth i (sp_pts sp) []) (nth j (sp_pts sp) [])) -> length is_ <= m.

Section Exact.
Context {T : Type} {S : Scalar T} (val : T -> Q).

(** Each of the [n] coordinates differs by less than [delta]. *)
Definition close (n : nat) (delta : Q) (p q : list T) : Prop :=
  forall d, d < n -> (Qabs (val (nth d p s_zero) - val (nth d q s_zero)) < delta)%Q.

(** The [n] coordinates are the same. *)
Definition same_place (n : nat) (p q : list T) : Prop :=
  forall d, d < n -> (val (nth d p s_zero) == val (nth d q s_zero))%Q.

(** In dimension [d] the box the construction starts with is shorter than [x]. *)
Definition extent_below (sp : space T) (bnds : start_bounds T) (d : nat) (x : Q) : Prop :=
  match bnds with
  | bounds_from_space => forall p q, In p (sp_pts sp) -> In q (sp_pts sp) ->
      (val (nth d q s_zero) - val (nth d p s_zero) < x)%Q
  | bounds_user mn mx => (Qabs (val (nth d mx s_zero) - val (nth d mn s_zero)) < x)%Q
  end.
End Exact.

Section Float.
Variables (prec emax : Z).
Local Notation F := (binary_float prec emax).

Definition close_float (n : nat) (delta : R) (p q : list F) : Prop :=
  forall d, d < n -> (Rabs (B2R (nth d p (B754_zero false)) - B2R (nth d q (B754_zero false))) < delta)%R.

Definition extent_below_float (sp : space F) (bnds : start_bounds F) (d : nat) (x : R) : Prop :=
  match bnds with
  | bounds_from_space => forall p q, In p (sp_pts sp) -> In q (sp_pts sp) ->
      (B2R (nth d q (B754_zero false)) - B2R (nth d p (B754_zero false)) < x)%R
  | bounds_user mn mx => (Rabs (B2R (nth d mx (B754_zero false)) - B2R (nth d mn (B754_zero false))) < x)%R
  end.
End Float.

(** The sum over the [n] dimensions. *)
Definition sum_dims (n : nat) (k : nat -> nat) : nat := list_sum (map k (seq 0 n)).
