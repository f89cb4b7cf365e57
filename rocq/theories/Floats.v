(** IEEE 754 binary floating point as a scalar type: C++ [float] and [double].

    Flocq's [binary_float prec emax] is the set of IEEE floating point data of a
    format (53, 1024 for [double]; 24, 128 for [float]) with one NaN; its
    operations round to nearest, ties to even, as hardware does by default. *)
From Coq Require Import List ZArith Reals Bool Arith Lia Lra.
From Flocq Require Import Core.Core IEEE754.BinarySingleNaN Plus_error Relative.
From Verif Require Import Base ModelBox ModelBuild ModelSearch Spec.
Import ListNotations.

Section Format.
Variables (prec emax : Z).
Context (Hprec : Prec_gt_0 prec) (Hmax : Prec_lt_emax prec emax).

(** The operations of the templates, PT/internal/box.hpp, PT/metric.hpp,
    PT/internal/kd_tree_builder.hpp:204,240 and others (see [Scalar] in Base.v),
    on a floating point [scalar_type]. *)
Definition Float_scalar : Scalar (binary_float prec emax) := {|
  s_zero := B754_zero false;
  s_one := Bone;
  s_two := Bplus mode_NE Bone Bone;
  s_half := Bdiv mode_NE Bone (Bplus mode_NE Bone Bone);
  s_max := Bmax_float;
  s_lowest := Bopp Bmax_float;
  s_add := Bplus mode_NE;
  s_sub := Bminus mode_NE;
  s_mul := Bmult mode_NE;
  s_div := Bdiv mode_NE;
  s_abs := Babs;
  s_ltb := Bltb;
  s_leb := Bleb
|}.

(** A finite floating point number (neither infinite nor NaN). *)
Definition finite (x : binary_float prec emax) : Prop := is_finite x = true.

(** Bounded by a power of two. *)
Definition below (e : Z) (x : binary_float prec emax) : Prop :=
  finite x /\ (Rabs (B2R x) <= bpow radix2 e)%R.
End Format.

(** C++ [double] and [float]. *)
Lemma prec_gt_53 : Prec_gt_0 53. Proof. reflexivity. Qed.
Lemma prec_lt_1024 : Prec_lt_emax 53 1024. Proof. reflexivity. Qed.
Lemma prec_gt_24 : Prec_gt_0 24. Proof. reflexivity. Qed.
Lemma prec_lt_128 : Prec_lt_emax 24 128. Proof. reflexivity. Qed.
Definition F64 : Scalar (binary_float 53 1024) := Float_scalar 53 1024 prec_gt_53 prec_lt_1024.
Definition F32 : Scalar (binary_float 24 128) := Float_scalar 24 128 prec_gt_24 prec_lt_128.

(** The floating point number nearest to m * 2^e (a literal). *)
Definition f64 (m e : Z) : binary_float 53 1024 :=
  binary_normalize 53 1024 prec_gt_53 prec_lt_1024 mode_NE m e false.
