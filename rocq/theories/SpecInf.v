(** Specification of trees of floating point points some of whose coordinates
    are infinite. *)
From Coq Require Import List ZArith Reals Bool Arith Sorted.
From Flocq Require Import Core.Core IEEE754.BinarySingleNaN.
From Verif Require Import Base ModelBox ModelBuild ModelSearch Spec SpecRound Floats.
Import ListNotations.
Local Open Scope R_scope.

(** Nearest, up to a factor [f], among the points [pts]. *)
Definition nearest_among (pts : list nat) (D : nat -> R) (f : R) (i : nat) : Prop :=
  In i pts /\ forall j, In j pts -> D i <= f * D j.

(** [k] of the points [pts] in order of distance, none of which is farther than
    another point of [pts] by more than the factor [f]. *)
Record knn_among (pts : list nat) (k : nat) (D : nat -> R) (f : R) (ans : list (nat * R)) : Prop := {
  ka_length : length ans = Nat.min k (length pts);
  ka_nodup : NoDup (map fst ans);
  ka_genuine : forall i d, In (i, d) ans -> In i pts /\ d = D i;
  ka_sorted : StronglySorted Rle (map snd ans);
  ka_nearest : forall i d j, In (i, d) ans -> In j pts -> ~ In j (map fst ans) -> d <= f * D j
}.

(** Points of [pts] nearer than [r], each once; all those nearer than [r] by the
    factor [f]. *)
Record radius_among (pts : list nat) (D : nat -> R) (f r : R) (ans : list (nat * R)) : Prop := {
  ra_nodup : NoDup (map fst ans);
  ra_genuine : forall i d, In (i, d) ans -> In i pts /\ d = D i /\ d < r;
  ra_complete : forall i, In i pts -> f * D i < r -> In i (map fst ans)
}.

Section Format.
Variables (prec emax : Z).
Local Notation F := (binary_float prec emax).

(** A number, possibly infinite, but not NaN. *)
Definition number (x : F) : Prop := is_nan x = false.

(** Bounded by 2^e, or infinite. *)
Definition below_or_inf (e : Z) (x : F) : Prop :=
  below prec emax e x \/ exists s, x = B754_infinity s.

(** The points all of whose coordinates are finite, by index. *)
Definition finite_points (sp : space F) : list nat :=
  filter (fun i => forallb is_finite (nth i (sp_pts sp) [])) (seq 0 (npts sp)).

(** As [float_input], except that coordinates of the points may be infinite. *)
Record inf_input (em : exact_metric) (e : Z) (sp : space F) (q : list F) : Prop := {
  ii_metric : em = L1 \/ em = L2Squared;
  ii_exp : (SpecFloat.emin prec emax <= 2 * e + 2)%Z /\ (e + 3 < emax)%Z;
  ii_dim : (0 < sp_sdim sp)%nat;
  ii_fit : distance_bound em e (sp_sdim sp) <= bpow radix2 (emax - 3);
  ii_space : wf_space sp;
  ii_coords : all_coords (below_or_inf e) sp;
  ii_length : length q = sp_sdim sp;
  ii_query : Forall (below prec emax e) q
}.

(** Coordinate [k] of the points and of the bounds the caller passes, if any. *)
Definition coords_at (P : F -> Prop) (k : nat) (sp : space F) (bnds : start_bounds F) : Prop :=
  (forall p, In p (sp_pts sp) -> P (nth k p (B754_zero false)))
  /\ match bnds with
     | bounds_from_space => True
     | bounds_user mn mx => P (nth k mn (B754_zero false)) /\ P (nth k mx (B754_zero false))
     end.
End Format.
