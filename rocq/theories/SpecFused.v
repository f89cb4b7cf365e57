(** What contracted searches are supposed to answer. *)
From Coq Require Import List ZArith Reals Bool Arith.
From Flocq Require Import Core.Core IEEE754.BinarySingleNaN.
From Verif Require Import Base ModelBox ModelBuild ModelSearch Floats ModelFused Spec SpecRound.
Import ListNotations.
Local Open Scope R_scope.

Section Format.
Variables (prec emax : Z).
Context (Hprec : Prec_gt_0 prec) (Hmax : Prec_lt_emax prec emax).
Local Notation F := (binary_float prec emax).

(** The distance of point [i] as the contracted loop computes it. *)
Definition fused_computed (ct : contraction) (sp : space F) (q : list F) (i : nat) : R :=
  B2R (fused_distance prec emax Hprec Hmax ct q (sp_at sp i)).

(** Squares of differences do not underflow: each coordinate of the query is
    that of a point or at least 2^a away from it. *)
Record apart (a : Z) (sp : space F) (q : list F) : Prop := {
  ap_normal : (SpecFloat.emin prec emax + prec <= 2 * a)%Z;
  ap_coords : forall i k, (i < length (sp_pts sp))%nat -> (k < sp_sdim sp)%nat ->
    let x := B2R (nth k q (B754_zero false)) - B2R (nth k (sp_at sp i) (B754_zero false)) in
    x = 0 \/ bpow radix2 a <= Rabs x
}.

(** The rounding errors of a contracted search in [n] dimensions, down [h] levels. *)
Definition fused_slack (n h : nat) : R := 1 + 2 * INR (3 * h + (n + 1)) * bpow radix2 (- prec).
Definition fused_few (n h : nat) : Prop := INR (3 * h + (n + 1)) * bpow radix2 (- prec) <= / 16.
End Format.
