(** Model of the file formats of the examples.

    Bytes and characters are integers, file names are lists of them.
    Citations are relative to /repo.  [PT] abbreviates src/pico_tree/pico_tree,
    [FO] examples/pico_toolshed/pico_toolshed/format, [TS]
    examples/pico_toolshed/pico_toolshed. *)
From Coq Require Import Ascii String List ZArith Bool Arith.
From Verif Require Import Base ModelBox ModelBuild ModelSearch ModelSerial.
Import ListNotations.
Local Open Scope nat_scope.

(** How a function of this file ends other than by returning: std::runtime_error
    (PT/internal/stream_wrapper.hpp:17, FO/format_mnist.hpp:44,54,71,
    FO/format_xvecs.hpp:50), std::out_of_range (basic_string::compare),
    std::length_error (vector::resize), std::exit (FO/format_uosr.hpp:122,127). *)
Inductive file_exn : Type := FileRuntimeError | FileOutOfRange | FileLengthError | ProcessExit.

(** Outcomes with exceptions (plumbing). *)
Definition io (A : Type) : Type := res (file_exn + A).
Definition io_ret {A} (a : A) : io A := Ok (inr a).
Definition io_throw {A} (e : file_exn) : io A := Ok (inl e).
Definition io_lift {A} (r : res A) : io A := do a <- r; Ok (inr a).
Definition io_bind {A B} (r : io A) (f : A -> io B) : io B :=
  do x <- r; match x with inl e => Ok (inl e) | inr a => f a end.
Definition io_throw_if (b : bool) (e : file_exn) : io unit := if b then io_throw e else io_ret tt.
Notation "'let*' x <- e ; f" := (io_bind e (fun x => f))
  (at level 200, x pattern, e at level 100, f at level 200).

(** The characters of a literal. *)
Definition chars (s : string) : list Z :=
  map (fun c => Z.of_nat (nat_of_ascii c)) (list_ascii_of_string s).
Definition chars_eqb (a b : list Z) : bool := if list_eq_dec Z.eq_dec a b then true else false.

(** The files: their bytes, and which names can be opened for writing.  A name
    without content cannot be opened for reading.  Not code of /repo. *)
Record fsys : Type := Fsys {
  fs_bytes : list Z -> option (list Z);
  fs_writable : list Z -> bool
}.

(** PT/internal/stream_wrapper.hpp:12-21: open_stream for reading: the bytes. *)
Definition open_in (fs : fsys) (name : list Z) : io (list Z) :=
  match fs_bytes fs name with
  | Some b => io_ret b
  | None => io_throw FileRuntimeError
  end.

(** PT/internal/stream_wrapper.hpp:12-21: open_stream with std::ios::out (which
    truncates), and then [bytes] are written.  Simplification: writing does not
    fail. *)
Definition write_file (fs : fsys) (name bytes : list Z) : io fsys :=
  if fs_writable fs name
  then io_ret (Fsys (fun n => if chars_eqb n name then Some bytes else fs_bytes fs n) (fs_writable fs))
  else io_throw FileRuntimeError.

(** std::istream::read into the bytes [dst]: what they are afterwards.  A short
    read stores what there is and sets failbit. *)
Definition read_into (dst : list Z) (s : stream) : list Z * stream :=
  match s with
  | None => (dst, None)
  | Some b =>
      if length dst <=? length b then (firstn (length dst) b, Some (skipn (length dst) b))
      else (b ++ skipn (length b) dst, None)
  end.

(** std::vector::resize(n); new elements are [d]. *)
Definition resize_to {A} (d : A) (n : nat) (l : list A) : list A :=
  firstn n l ++ repeat d (n - length l).

(** PT/internal/stream_wrapper.hpp:62-67: read(size, values), into existing
    values, down to the byte. *)
Definition read_values {A} (c : codec A) (vs : list A) (s : stream) : res (list A * stream) :=
  let '(bs, s') := read_into (write_array c vs) s in
  do l <- decode_all c (length vs) bs;
  Ok (l, s').

(** * Arrays of trivially copyable values *)
Section Bin.
Context {A : Type} (c : codec A) (d : A).

(** FO/format_bin.hpp:9-18: write_bin. *)
Definition write_bin (name : list Z) (v : list A) (fs : fsys) : io fsys :=
  match v with
  | [] => io_ret fs
  | _ :: _ => write_file fs name (write_array c v)
  end.

(** FO/format_bin.hpp:21-32: read_bin; the value of v afterwards. *)
Definition read_bin (name : list Z) (v : list A) (fs : fsys) : io (list A) :=
  let* bytes <- open_in fs name;
  let element_count := length bytes / c_size c in
  let* (l, _) <- io_lift (read_values c (resize_to d element_count v) (Some bytes));
  io_ret l.
End Bin.

(** * Byte order *)

(** FO/endian.hpp:8-19: swap_endian, on the bytes of the object. *)
Definition swap_endian_bytes (u : list Z) : list Z :=
  map (fun i => nth (length u - i - 1) u 0%Z) (seq 0 (length u)).
Definition swap_endian {A} (c : codec A) (u : A) : res A := c_dec c (swap_endian_bytes (c_enc c u)).

(** sizeof of an integral type, and the bytes of an object of the type. *)
Definition it_bytes (it : index_type) : nat := Z.to_nat (it_bits it / 8).
Definition int_object (little : bool) (it : index_type) (v : Z) : list Z :=
  let b := bytes_le (it_bytes it) v in if little then b else rev b.
Definition int_value (little : bool) (it : index_type) (bs : list Z) : Z :=
  it_cast it (value_le (if little then bs else rev bs)).

(** FO/endian.hpp:21-35: big_endian_to_native.  Shifts are of a size_t; the
    conversions back to T_ are modular. *)
Definition big_endian_to_native (little : bool) (it : index_type) (v : Z) : Z :=
  let v_object := int_object little it v in
  fold_left
    (fun native i =>
       it_cast it
         (Z.lor native
            (it_cast it ((Z.shiftl (nth i v_object 0%Z) (Z.of_nat ((it_bytes it - 1 - i) * 8))) mod 2 ^ 64)%Z)))
    (seq 0 (it_bytes it)) 0%Z.

(** std::int32_t. *)
Definition int32 : index_type := it_int.

(** * MNIST *)

(** FO/format_mnist.hpp:41-42, 68-69: wrapper.read(magic_number) and
    magic_number(). *)
Definition read_big_endian (little : bool) (it : index_type) (s : stream) : res (Z * stream) :=
  do (bs, s') <- read_bytes (it_bytes it) s;
  Ok (big_endian_to_native little it (int_value little it bs), s').

(** FO/format_mnist.hpp:47-51, 74-76: wrapper.read(header) for a header of [n]
    std::int32_t, and the conversion of each. *)
Definition read_mnist_header (little : bool) (n : nat) (s : stream) : res (list Z * stream) :=
  do (bs, s') <- read_bytes (n * it_bytes int32) s;
  Ok (tab n (fun i =>
        big_endian_to_native little int32
          (int_value little int32 (firstn (it_bytes int32) (skipn (i * it_bytes int32) bs)))), s').

(** A product of two std::int32_t; overflow is undefined
    (FO/format_mnist.hpp:53). *)
Definition int32_mul (a b : Z) : res Z :=
  if ((- 2 ^ 31 <=? a * b) && (a * b <? 2 ^ 31))%Z then Ok (a * b)%Z else Ub UbOverflow.

(** std::array<std::byte, n> and std::byte.  An array is a list with n elements. *)
Definition byte_array_codec (n : nat) : codec (list Z) := Codec n 1 (resize_to 0%Z n) (fun bs => Ok bs).
Definition byte_codec : codec Z :=
  Codec 1 1 (fun b => [b]) (fun bs => match bs with [b] => Ok b | _ => Ub UbUninit end).

(** FO/format_mnist.hpp:17-26: the magic numbers; the number of pixels (35). *)
Definition mnist_images_magic : Z := 2051.
Definition mnist_labels_magic : Z := 2049.
Definition image_size : nat := 28 * 28.

(** images.resize(static_cast<std::size_t>(n)): a negative number becomes too
    large.  Simplification: memory does not run out. *)
Definition resize_int {A} (d : A) (n : Z) (l : list A) : io (list A) :=
  if (n <? 0)%Z then io_throw FileLengthError else io_ret (resize_to d (Z.to_nat n) l).

(** FO/format_mnist.hpp:33-59: read_mnist_images; the value of images afterwards. *)
Definition read_mnist_images (little : bool) (name : list Z) (images : list (list Z)) (fs : fsys)
  : io (list (list Z)) :=
  let* bytes <- open_in fs name;
  let* (magic, s1) <- io_lift (read_big_endian little int32 (Some bytes));
  let* _ <- io_throw_if (negb (magic =? mnist_images_magic)%Z) FileRuntimeError;
  let* (header, s2) <- io_lift (read_mnist_header little 3 s1);
  let* pixels <- io_lift (int32_mul (nth 1 header 0%Z) (nth 2 header 0%Z));
  let* _ <- io_throw_if (negb (pixels =? Z.of_nat image_size)%Z) FileRuntimeError;
  let* images' <- resize_int (repeat 0%Z image_size) (nth 0 header 0%Z) images;
  let* (l, _) <- io_lift (read_values (byte_array_codec image_size) images' s2);
  io_ret l.

(** FO/format_mnist.hpp:61-80: read_mnist_labels. *)
Definition read_mnist_labels (little : bool) (name : list Z) (labels : list Z) (fs : fsys) : io (list Z) :=
  let* bytes <- open_in fs name;
  let* (magic, s1) <- io_lift (read_big_endian little int32 (Some bytes));
  let* _ <- io_throw_if (negb (magic =? mnist_labels_magic)%Z) FileRuntimeError;
  let* (header, s2) <- io_lift (read_mnist_header little 1 s1);
  let* labels' <- resize_int 0%Z (nth 0 header 0%Z) labels;
  let* (l, _) <- io_lift (read_values byte_codec labels' s2);
  io_ret l.

(** * fvecs, ivecs and bvecs *)

(** FO/format_xvecs.hpp:14-29: the scalar types and format_string. *)
Inductive xvecs_type : Type := XvecsByte | XvecsFloat | XvecsInt.
Definition format_string (t : xvecs_type) : list Z :=
  match t with
  | XvecsByte => chars "bvecs"
  | XvecsFloat => chars "fvecs"
  | XvecsInt => chars "ivecs"
  end.

(** FO/format_xvecs.hpp:31-36: to_lower.  Simplification: the global locale is
    the classic one. *)
Definition to_lower (s : list Z) : list Z :=
  map (fun c => if ((65 <=? c) && (c <=? 90))%Z then (c + 32)%Z else c) s.

Section Xvecs.
Context {A : Type} (c : codec A) (d : A).

(** FO/format_xvecs.hpp:62-66: the loop.  [coords] is read but not used. *)
Fixpoint read_rows (rows : list (list A)) (s : stream) : res (list (list A)) :=
  match rows with
  | [] => Ok []
  | r :: rest =>
      do (_, s1) <- read_bytes 4 s;
      do (r', s2) <- read_values c r s1;
      do rest' <- read_rows rest s2;
      Ok (r' :: rest')
  end.

(** FO/format_xvecs.hpp:40-67: read_xvecs for std::array<T_, n>.  The position
    passed to compare wraps around when the name is shorter than the ending. *)
Definition read_xvecs (t : xvecs_type) (n : nat) (name : list Z) (v : list (list A)) (fs : fsys)
  : io (list (list A)) :=
  let fmt := format_string t in
  let lower := to_lower name in
  let* _ <- io_throw_if (length lower <? length fmt) FileOutOfRange;
  let* _ <- io_throw_if (negb (chars_eqb (skipn (length lower - length fmt) lower) fmt)) FileRuntimeError;
  let* bytes <- open_in fs name;
  let row_size := 4 + c_size c * n in
  let row_count := length bytes / row_size in
  io_lift (read_rows (resize_to (repeat d n) row_count v) (Some bytes)).
End Xvecs.

(** * Text *)

(** std::isspace in the classic locale. *)
Definition is_space (c : Z) : bool := ((c =? 32) || ((9 <=? c) && (c <=? 13)))%Z.

(** The lines that repeated std::getline calls yield (FO/format_uosr.hpp:76);
    [cur] is the part of the current line already read, reversed. *)
Fixpoint read_lines (text cur : list Z) : list (list Z) :=
  match text with
  | [] => match cur with [] => [] | _ :: _ => [rev cur] end
  | ch :: r => if (ch =? 10)%Z then rev cur :: read_lines r [] else read_lines r (ch :: cur)
  end.

(** Not code: skip what satisfies [p], and the longest prefix that does. *)
Fixpoint drop_while (p : Z -> bool) (l : list Z) : list Z :=
  match l with
  | [] => []
  | x :: r => if p x then drop_while p r else l
  end.
Fixpoint take_while (p : Z -> bool) (l : list Z) : list Z :=
  match l with
  | [] => []
  | x :: r => if p x then x :: take_while p r else []
  end.

(** ss >> value (FO/format_uosr.hpp:83-87): the new value and what is left.  At
    the end of the text the value is not touched. *)
Definition extract_word (ss value : list Z) : list Z * list Z :=
  let t := drop_while is_space ss in
  match t with
  | [] => (value, [])
  | _ :: _ => (take_while (fun ch => negb (is_space ch)) t, drop_while (fun ch => negb (is_space ch)) t)
  end.

(** What stream >> x does to a double x at the given text (FO/format_uosr.hpp:102):
    a number and the text after it; a failure that assigns (zero, or the largest
    value); or, at the end of the text, a failure that leaves x as it was. *)
Inductive extraction (T : Type) : Type :=
| NumOk (x : T) (rest : list Z)
| NumFail (x : T)
| NumNone.
Arguments NumOk {T} x rest.
Arguments NumFail {T} x.
Arguments NumNone {T}.

Section Uosr.
Context {T : Type} {S : Scalar T}.
Local Open Scope scalar_scope.

(** strtod, operator>>(double&), std::sin, std::cos, deg_to_rad
    (FO/format_uosr.hpp:21) and operator<< (TS/point.hpp:79-81): arbitrary here. *)
Variables (strtod : list Z -> T) (num_get : list Z -> extraction T) (sin_ cos_ : T -> T) (deg_to_rad : T).
Variable (print : T -> list Z).

(** FO/format_uosr.hpp:24-26, 61-64: isometry.  R is column major. *)
Record isometry : Type := Isometry { iso_R : list T; iso_t : list T }.

(** FO/format_uosr.hpp:29-50: from_euler.  Simplification: [- x] is [0 - x]
    (the same but for the sign of a zero). *)
Definition from_euler (e t : list T) : isometry :=
  let sx := sin_ (get e 0) in
  let cx := cos_ (get e 0) in
  let sy := sin_ (get e 1) in
  let cy := cos_ (get e 1) in
  let sz := sin_ (get e 2) in
  let cz := cos_ (get e 2) in
  Isometry
    [cy * cz;
     sx * sy * cz + cx * sz;
     (s_zero - cx) * sy * cz + sx * sz;
     (s_zero - cy) * sz;
     (s_zero - sx) * sy * sz + cx * cz;
     cx * sy * sz + sx * cz;
     sy;
     (s_zero - sx) * cy;
     cx * cy] t.

(** FO/format_uosr.hpp:52-59: transform. *)
Definition transform (iso : isometry) (p : list T) : list T :=
  let R := iso_R iso in
  let rx := get p 0 * get R 0 + get p 1 * get R 3 + get p 2 * get R 6 in
  let ry := get p 0 * get R 1 + get p 1 * get R 4 + get p 2 * get R 7 in
  let rz := get p 0 * get R 2 + get p 1 * get R 5 + get p 2 * get R 8 in
  [rx + get (iso_t iso) 0; ry + get (iso_t iso) 1; rz + get (iso_t iso) 2].

(** FO/format_uosr.hpp:102: stream >> ... of [n] numbers.  After a failure later
    ones are not assigned; all are used. *)
Fixpoint scan_doubles (n : nat) (text : list Z) : res (list T) :=
  match n with
  | O => Ok []
  | Datatypes.S n' =>
      match num_get text with
      | NumNone => Ub UbUninit
      | NumFail x => match n' with O => Ok [x] | Datatypes.S _ => Ub UbUninit end
      | NumOk x rest => do xs <- scan_doubles n' rest; Ok (x :: xs)
      end
  end.

(** FO/format_uosr.hpp:99-109: read_pose. *)
Definition read_pose (text : list Z) : res isometry :=
  do xs <- scan_doubles 6 text;
  Ok (from_euler (map (fun x => x * deg_to_rad) (skipn 3 xs)) (firstn 3 xs)).

(** FO/format_uosr.hpp:80-89: the three numbers of a line. *)
Definition parse_point (line : list Z) : list T :=
  let '(v1, s1) := extract_word line [] in
  let '(v2, s2) := extract_word s1 v1 in
  let '(v3, _) := extract_word s2 v2 in
  [strtod v1; strtod v2; strtod v3].

(** FO/format_uosr.hpp:73-96 and 148-150: all points of a scan. *)
Definition read_scan (pose : isometry) (text : list Z) : list (list T) :=
  map (fun line => transform pose (parse_point line)) (read_lines text []).

(** FO/format_uosr.hpp:132-134: the pattern "^scan\d{3}.3d$"; the dot matches
    any character but a line terminator. *)
Definition is_digit (c : Z) : bool := ((48 <=? c) && (c <=? 57))%Z.
Definition is_scan_name (name : list Z) : bool :=
  match name with
  | [a; b; c; d; x; y; z; dot; e; f] =>
      chars_eqb [a; b; c; d] (chars "scan") && is_digit x && is_digit y && is_digit z
      && negb ((dot =? 10) || (dot =? 13))%Z && chars_eqb [e; f] (chars "3d")
  | _ => false
  end.

(** std::filesystem::path(path_3d).replace_extension(".pose")
    (FO/format_uosr.hpp:69-70), of a name that matches the pattern. *)
Definition pose_name (name : list Z) : list Z :=
  (if (nth 7 name 0 =? 46)%Z then firstn 7 name else name) ++ chars ".pose".

(** The regular files of a directory in the order of directory_iterator. *)
Definition directory : Type := list (list Z * list Z).
Definition dir_find (dir : directory) (name : list Z) : option (list Z) :=
  match find (fun f => chars_eqb (fst f) name) dir with
  | Some (_, b) => Some b
  | None => None
  end.

(** FO/format_uosr.hpp:144-151: the loop over the scans.  [cast] is
    point.cast<Scalar_>() (TS/point.hpp:51-58) on each coordinate. *)
Fixpoint read_scans {U : Type} (cast : T -> U) (dir : directory) (scans : directory) (points : list (list U))
  : io (list (list U)) :=
  match scans with
  | [] => io_ret points
  | (name, text) :: rest =>
      let* pose_text <- (match dir_find dir (pose_name name) with
                         | Some b => io_ret b
                         | None => io_throw FileRuntimeError
                         end);
      let* pose <- io_lift (read_pose pose_text);
      read_scans cast dir rest (points ++ map (map cast) (read_scan pose text))
  end.

(** FO/format_uosr.hpp:117-152: read_uosr.  [None]: no such directory. *)
Definition read_uosr {U : Type} (cast : T -> U) (root : option directory) (points : list (list U))
  : io (list (list U)) :=
  match root with
  | None => io_throw ProcessExit
  | Some dir => read_scans cast dir (filter (fun f => is_scan_name (fst f)) dir) points
  end.

(** TS/point.hpp:76-84: operator<<. *)
Definition print_point (p : list T) : list Z :=
  match p with
  | [] => []
  | x :: r => print x ++ flat_map (fun y => chars " " ++ print y) r
  end.

(** FO/format_ascii.hpp:9-19: write_ascii. *)
Definition write_ascii (name : list Z) (v : list (list T)) (fs : fsys) : io fsys :=
  match v with
  | [] => io_ret fs
  | _ :: _ => write_file fs name (flat_map (fun p => print_point p ++ [10%Z]) v)
  end.
End Uosr.
Arguments Isometry {T} _ _.
Arguments iso_R {T} _.
Arguments iso_t {T} _.
