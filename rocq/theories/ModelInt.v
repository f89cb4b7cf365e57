(** Model of machine integers as the scalar type of points and distances.

    Citations are relative to /repo.  [PT] abbreviates src/pico_tree/pico_tree. *)
From Coq Require Import List ZArith Bool.
From Verif Require Import Base.

(** The value of an integer expression of a type with the values lo..hi whose
    mathematical value is [x] (C++ [expr.pre]/4, [basic.fundamental]): [x] when
    it is representable; [ovf x] stands for what happens otherwise.  Unsigned
    types wrap around.  For signed types that is undefined behaviour;
    theorems about them either quantify over all [ovf] or name one. *)
Definition int_fit (lo hi : Z) (ovf : Z -> Z) (x : Z) : Z :=
  if ((lo <=? x) && (x <=? hi))%Z then x else ovf x.

(** PT/core.hpp:26, PT/map.hpp:96: the scalar type may be any arithmetic type.
    An integer type with the values lo..hi: numeric_limits::max() and lowest()
    are hi and lo (PT/internal/box.hpp:56-57,73), scalar_type(0.5) is 0
    (PT/internal/kd_tree_builder.hpp:204), division truncates, and each operation
    is [int_fit] of the exact result.  Types narrower than int, whose
    operands C++ converts to int first, are in ModelNarrow.v. *)
Definition Int_scalar (lo hi : Z) (ovf : Z -> Z) : Scalar Z := {|
  s_zero := 0%Z; s_one := 1%Z; s_two := 2%Z; s_half := 0%Z;
  s_max := hi; s_lowest := lo;
  s_add := fun x y => int_fit lo hi ovf (x + y);
  s_sub := fun x y => int_fit lo hi ovf (x - y);
  s_mul := fun x y => int_fit lo hi ovf (x * y);
  s_div := fun x y => int_fit lo hi ovf (Z.quot x y);
  s_abs := fun x => int_fit lo hi ovf (Z.abs x);
  s_ltb := Z.ltb; s_leb := Z.leb
|}.

(** A signed two's complement type of the given width.  [ovf]: see [int_fit]. *)
Definition Signed (bits : Z) (ovf : Z -> Z) : Scalar Z :=
  Int_scalar (- 2 ^ (bits - 1)) (2 ^ (bits - 1) - 1) ovf.

(** What compilers make of signed overflow when they do not exploit that it is
    undefined: the result wraps around. *)
Definition wrap_signed (bits x : Z) : Z :=
  ((x + 2 ^ (bits - 1)) mod 2 ^ bits - 2 ^ (bits - 1))%Z.

(** An unsigned type of the given width; arithmetic is modulo 2^bits. *)
Definition Unsigned (bits : Z) : Scalar Z :=
  Int_scalar 0 (2 ^ bits - 1) (fun x => x mod 2 ^ bits)%Z.
