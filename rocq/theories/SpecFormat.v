(** Specifications for the file formats of the examples. *)
From Coq Require Import Ascii String List ZArith Bool Arith Reals.
From Verif Require Import Base ModelSerial ModelFormat.
Import ListNotations.
Local Open Scope nat_scope.

(** A list of bytes. *)
Definition is_bytes (l : list Z) : Prop := Forall (fun b => (0 <= b < 256)%Z) l.

(** The [w] bytes of an integer, most significant first. *)
Definition big_endian_bytes (w : nat) (v : Z) : list Z :=
  map (fun i => (v / 256 ^ Z.of_nat (w - 1 - i)) mod 256)%Z (seq 0 w).

(** An integral type of [w] bytes, no wider than size_t, and its values. *)
Definition int_width (it : index_type) (w : nat) : Prop :=
  it_bits it = (8 * Z.of_nat w)%Z /\ 1 <= w <= 8.
Definition in_int (it : index_type) (v : Z) : Prop :=
  if it_signed it then (- 2 ^ (it_bits it - 1) <= v < 2 ^ (it_bits it - 1))%Z
  else (0 <= v < 2 ^ it_bits it)%Z.

(** The beginnings of MNIST files. *)
Definition mnist_images_start (n rows cols : Z) : list Z :=
  big_endian_bytes 4 2051 ++ big_endian_bytes 4 n ++ big_endian_bytes 4 rows ++ big_endian_bytes 4 cols.
Definition mnist_labels_start (n : Z) : list Z := big_endian_bytes 4 2049 ++ big_endian_bytes 4 n.

(** [a] is [b] up to the case of letters, where [b] is in lower case. *)
Definition same_but_case (a b : list Z) : Prop :=
  Forall2 (fun x y => x = y \/ (65 <= x <= 90 /\ y = x + 32)%Z) a b.

(** The rows of an xvecs file: a dimension, four bytes, and the values. *)
Definition xvecs_bytes {A} (c : codec A) (rows : list (list Z * list A)) : list Z :=
  flat_map (fun r => fst r ++ flat_map (c_enc c) (snd r)) rows.

(** White space: a space, or one of tab, newline, vertical tab, form feed, return. *)
Definition white (ch : Z) : Prop := ch = 32%Z \/ (9 <= ch <= 13)%Z.
(** A word, and blank space within a line. *)
Definition is_word (w : list Z) : Prop := w <> [] /\ Forall (fun ch => ~ white ch) w.
Definition is_blank (s : list Z) : Prop := Forall (fun ch => white ch /\ ch <> 10%Z) s.

(** A line of a scan: three words and whatever follows after a blank. *)
Definition scan_line (line w1 w2 w3 : list Z) : Prop :=
  exists s0 s1 s2 more,
    line = s0 ++ w1 ++ s1 ++ w2 ++ s2 ++ w3 ++ more
    /\ is_word w1 /\ is_word w2 /\ is_word w3
    /\ is_blank s0 /\ is_blank s1 /\ is_blank s2 /\ s1 <> [] /\ s2 <> []
    /\ (more = [] \/ exists ch r, more = ch :: r /\ white ch)
    /\ ~ In 10%Z more.

(** The numbers [xs] come first in the text, and then [rest]. *)
Fixpoint numbers_in {T} (num_get : list Z -> extraction T) (xs : list T) (text rest : list Z) : Prop :=
  match xs with
  | [] => text = rest
  | x :: r => exists more, num_get text = NumOk x more /\ numbers_in num_get r more rest
  end.

(** Squared distance and orientation of points with three real coordinates. *)
Definition sq_dist3 (p q : list R) : R :=
  ((nth 0 p 0 - nth 0 q 0) * (nth 0 p 0 - nth 0 q 0)
   + (nth 1 p 0 - nth 1 q 0) * (nth 1 p 0 - nth 1 q 0)
   + (nth 2 p 0 - nth 2 q 0) * (nth 2 p 0 - nth 2 q 0))%R.
Definition orient3 (o p q r : list R) : R :=
  let d (a : list R) (i : nat) := (nth i a 0 - nth i o 0)%R in
  (d p 0%nat * (d q 1%nat * d r 2%nat - d q 2%nat * d r 1%nat)
   - d p 1%nat * (d q 0%nat * d r 2%nat - d q 2%nat * d r 0%nat)
   + d p 2%nat * (d q 0%nat * d r 1%nat - d q 1%nat * d r 0%nat))%R.

(** Rotations about the coordinate axes. *)
Definition rot_x (a : R) (p : list R) : list R :=
  [nth 0 p 0; cos a * nth 1 p 0 - sin a * nth 2 p 0; sin a * nth 1 p 0 + cos a * nth 2 p 0]%R.
Definition rot_y (a : R) (p : list R) : list R :=
  [cos a * nth 0 p 0 + sin a * nth 2 p 0; nth 1 p 0; cos a * nth 2 p 0 - sin a * nth 0 p 0]%R.
Definition rot_z (a : R) (p : list R) : list R :=
  [cos a * nth 0 p 0 - sin a * nth 1 p 0; sin a * nth 0 p 0 + cos a * nth 1 p 0; nth 2 p 0]%R.
