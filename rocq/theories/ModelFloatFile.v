(** How float and double are stored in files: the object representation of a
    floating point [scalar_type], which PT/internal/stream_wrapper.hpp:33-38,
    62-67, 77-82, 96-101 copies between memory and stream byte by byte. *)
From Coq Require Import List ZArith Bool Arith.
From Flocq Require Import IEEE754.BinarySingleNaN IEEE754.Bits.
From Flocq Require IEEE754.Binary.
From Verif Require Import Base ModelSerial.
Import ListNotations.

(** The IEEE 754 interchange format: a sign bit, [ew] bits of exponent, [mw] bits of
    mantissa, stored as an unsigned integer of [w] bytes (mw + ew + 1 = 8 w) in the byte
    order of the host.  Every sequence of [w] bytes is a value.  Simplification: there is
    one NaN, which is written as the bits of [nan]; the code keeps the bits. *)
Definition float_codec (little : bool) (w : nat) (mw ew : Z)
    (Hmw : (0 < mw)%Z) (Hew : (0 < ew)%Z) (Hmax : (mw + 1 < 2 ^ (ew - 1))%Z)
    (nan : {x : Binary.binary_float (mw + 1) (2 ^ (ew - 1)) | Binary.is_nan _ _ x = true})
  : codec (binary_float (mw + 1) (2 ^ (ew - 1))) :=
  Codec w w
    (fun x => let b := bytes_le w (bits_of_binary_float mw ew (Binary.BSN2B _ _ nan x)) in if little then b else rev b)
    (fun bs => Ok (Binary.B2BSN _ _ (binary_float_of_bits mw ew Hmw Hew Hmax (value_le (if little then bs else rev bs))))).

(** float, with the quiet NaN of most processors. *)
Definition float32_codec (little : bool) : codec (binary_float 24 128) :=
  float_codec little 4 23 8 eq_refl eq_refl eq_refl default_nan_pl32.
(** double. *)
Definition float64_codec (little : bool) : codec (binary_float 53 1024) :=
  float_codec little 8 52 11 eq_refl eq_refl eq_refl default_nan_pl64.
