(** Model of saving a tree to a stream of bytes and loading it.

    Citations are relative to /repo.  [PT] abbreviates src/pico_tree/pico_tree. *)
From Coq Require Import List ZArith Bool Arith.
From Verif Require Import Base ModelBox ModelBuild ModelSearch.
Import ListNotations.
Local Open Scope nat_scope.

(** The object representation of a trivially copyable type: its size, its
    alignment, the bytes of a value and the value of some bytes.  Not a
    transcription: what reinterpret_cast<char*>(&value) yields in
    PT/internal/stream_wrapper.hpp:36, 64, 73, 98.  Bytes are integers. *)
Record codec (A : Type) : Type := Codec {
  c_size : nat;
  c_align : nat;
  c_enc : A -> list Z;
  c_dec : list Z -> res A
}.
Arguments Codec {A} _ _ _ _.
Arguments c_size {A} _.
Arguments c_align {A} _.
Arguments c_enc {A} _ _.
Arguments c_dec {A} _ _.

(** [w] bytes of an integer, least significant first, and back. *)
Fixpoint bytes_le (w : nat) (v : Z) : list Z :=
  match w with
  | O => []
  | S w' => (v mod 256)%Z :: bytes_le w' (v / 256)%Z
  end.
Fixpoint value_le (bs : list Z) : Z :=
  match bs with
  | [] => 0%Z
  | b :: r => (b + 256 * value_le r)%Z
  end.

(** Unsigned integers of [w] bytes with values up to [mx] in the byte order of
    the host (PT/kd_tree.hpp:345, "does not take memory endianness into
    account").  Simplification: decoding a larger value (a negative one, for
    signed types) is undefined at once; the code would use it as an index. *)
Definition uint_codec (little : bool) (w : nat) (mx : Z) : codec nat :=
  Codec w w
    (fun v => let b := bytes_le w (Z.of_nat v) in if little then b else rev b)
    (fun bs => let v := value_le (if little then bs else rev bs) in
               if (v <=? mx)%Z then Ok (Z.to_nat v) else Ub UbOverflow).

(** Two's complement integers of [w] bytes. *)
Definition int_codec (little : bool) (w : nat) : codec Z :=
  Codec w w
    (fun v => let b := bytes_le w v in if little then b else rev b)
    (fun bs => let v := value_le (if little then bs else rev bs) in
               let m := (2 ^ (8 * Z.of_nat w))%Z in
               Ok (if (2 * v <? m)%Z then v else (v - m)%Z)).

(** sizeof(bool) is 1; bytes other than 0 and 1 are trap representations. *)
Definition bool_enc (b : bool) : list Z := [if b then 1%Z else 0%Z].
Definition bool_dec (bs : list Z) : res bool :=
  match bs with
  | [0%Z] => Ok false
  | [1%Z] => Ok true
  | _ => Ub UbUninit
  end.

(** Layout of structs in the C++ ABIs in use: every member at the next multiple
    of its alignment, padding in between and at the end. *)
Definition gap (align off : nat) : nat := (align - off mod align) mod align.

(** Offset after the members with the given sizes and alignments. *)
Fixpoint layout_end (off : nat) (fs : list (nat * nat)) : nat :=
  match fs with
  | [] => off
  | (sz, al) :: r => layout_end (off + gap al off + sz) r
  end.
Definition layout_align (fs : list (nat * nat)) : nat := fold_right (fun f a => Nat.max (snd f) a) 1 fs.
Definition layout_size (fs : list (nat * nat)) : nat :=
  let e := layout_end 0 fs in e + gap (layout_align fs) e.

(** The bytes of the members, cut out of the bytes of the struct. *)
Fixpoint layout_get (off : nat) (fs : list (nat * nat)) (bs : list Z) : list (list Z) :=
  match fs with
  | [] => []
  | (sz, al) :: r =>
      let o := off + gap al off in
      firstn sz (skipn o bs) :: layout_get (o + sz) r bs
  end.

(** The bytes of a struct from those of its members.  [pad] gives the content of
    padding bytes by position; it is arbitrary. *)
Fixpoint layout_put (pad : nat -> Z) (off : nat) (fs : list (nat * nat)) (ms : list (list Z)) : list Z :=
  match fs, ms with
  | (sz, al) :: r, m :: ms' =>
      map pad (seq off (gap al off)) ++ m ++ layout_put pad (off + gap al off + sz) r ms'
  | _, _ => []
  end.
Definition struct_put (pad : nat -> Z) (fs : list (nat * nat)) (ms : list (list Z)) : list Z :=
  let e := layout_end 0 fs in
  layout_put pad 0 fs ms ++ map pad (seq e (gap (layout_align fs) e)).

(** An input stream: the bytes still to come, or [None] once failbit is set.
    std::istream::read on a stream with failbit extracts nothing. *)
Definition stream : Type := option (list Z).

(** PT/internal/stream_wrapper.hpp:33-38: read a single value of [n] bytes.  The
    result of the read is not checked; when it comes up short the variable keeps
    indeterminate bytes, and every caller goes on to use it. *)
Definition read_bytes (n : nat) (s : stream) : res (list Z * stream) :=
  match s with
  | None => Ub UbShortRead
  | Some b => if n <=? length b then Ok (firstn n b, Some (skipn n b)) else Ub UbShortRead
  end.

Section Codecs.
Context {A : Type} (c : codec A).

(** The values of consecutive elements. *)
Fixpoint decode_all (n : nat) (bs : list Z) : res (list A) :=
  match n with
  | O => Ok []
  | S n' =>
      do a <- c_dec c (firstn (c_size c) bs);
      do r <- decode_all n' (skipn (c_size c) bs);
      Ok (a :: r)
  end.

(** PT/internal/stream_wrapper.hpp:62-67: read an array.  When it comes up short
    the remaining elements keep their previous content [init] and failbit is
    set.  Simplification: the elements that were still read are not tracked. *)
Definition read_array (n : nat) (init : A) (s : stream) : res (list A * stream) :=
  match s with
  | None => Ok (repeat init n, None)
  | Some b =>
      if n * c_size c <=? length b then
        do l <- decode_all n (firstn (n * c_size c) b);
        Ok (l, Some (skipn (n * c_size c) b))
      else Ok (repeat init n, None)
  end.

(** PT/internal/stream_wrapper.hpp:96-101: write an array. *)
Definition write_array (l : list A) : list Z := flat_map (c_enc c) l.
End Codecs.

Section Serial.
Context {T : Type} {SC : Scalar T}.
(** The byte order of the host, the index type and the object representation of
    the scalar type; size_t is 64 bits and int 32. *)
Variables (little : bool) (it : index_type) (tc : codec T).

(** Codecs of size_t, the index type and int. *)
Definition size_codec : codec nat := uint_codec little 8 (2 ^ 64 - 1).
Definition index_codec : codec nat := uint_codec little (Z.to_nat (it_bits it / 8)) (it_max it).
Definition dim_codec : codec nat := uint_codec little 4 (2 ^ 31 - 1).

(** Layouts of kd_tree_leaf, kd_tree_branch_single and kd_tree_branch_double
    (PT/internal/kd_tree_node.hpp:30-39, 42-50, 55-67). *)
Definition field {A} (c : codec A) : nat * nat := (c_size c, c_align c).
Definition leaf_layout : list (nat * nat) := [field index_codec; field index_codec].
Definition branch_layout (c : category) : list (nat * nat) :=
  match c with
  | Euclidean => [field dim_codec; field tc; field tc]
  | Topological => [field dim_codec; field tc; field tc; field tc; field tc]
  end.

(** The bytes of a leaf and of branch data.  [pad]: see [struct_put]. *)
Definition leaf_bytes (pad : nat -> Z) (b e : nat) : list Z :=
  struct_put pad leaf_layout [c_enc index_codec b; c_enc index_codec e].
Definition branch_bytes (pad : nat -> Z) (c : category) : branch_data c T -> list Z :=
  match c return branch_data c T -> list Z with
  | Euclidean => fun br =>
      struct_put pad (branch_layout Euclidean)
        [c_enc dim_codec (bs_split_dim br); c_enc tc (bs_left_max br); c_enc tc (bs_right_min br)]
  | Topological => fun br =>
      struct_put pad (branch_layout Topological)
        [c_enc dim_codec (bd_split_dim br); c_enc tc (bd_left_min br); c_enc tc (bd_left_max br);
         c_enc tc (bd_right_min br); c_enc tc (bd_right_max br)]
  end.

(** stream.read(node->data.leaf), stream.read(node->data.branch). *)
Definition leaf_value (bs : list Z) : res (nat * nat) :=
  match layout_get 0 leaf_layout bs with
  | [b; e] => do b' <- c_dec index_codec b; do e' <- c_dec index_codec e; Ok (b', e')
  | _ => Ub UbUninit
  end.
Definition branch_value (c : category) (bs : list Z) : res (branch_data c T) :=
  match c return res (branch_data c T) with
  | Euclidean =>
      match layout_get 0 (branch_layout Euclidean) bs with
      | [d; x; y] =>
          do d' <- c_dec dim_codec d; do x' <- c_dec tc x; do y' <- c_dec tc y;
          Ok (BranchSingle d' x' y')
      | _ => Ub UbUninit
      end
  | Topological =>
      match layout_get 0 (branch_layout Topological) bs with
      | [d; x; y; z; u] =>
          do d' <- c_dec dim_codec d; do x' <- c_dec tc x; do y' <- c_dec tc y;
          do z' <- c_dec tc z; do u' <- c_dec tc u;
          Ok (BranchDouble d' x' y' z' u')
      | _ => Ub UbUninit
      end
  end.

(** PT/internal/kd_tree_data.hpp:109-120: write_node.  The padding bytes of each
    node are those [pads] assigns to the number of bytes written so far in this
    call, [pos]. *)
Fixpoint write_node (pads : nat -> nat -> Z) (c : category) (n : node (branch_data c T)) (pos : nat)
  : list Z :=
  match n with
  | Leaf b e => bool_enc true ++ leaf_bytes (pads pos) b e
  | Branch br l r =>
      let h := bool_enc false ++ branch_bytes (pads pos) c br in
      let bl := write_node pads c l (pos + length h) in
      h ++ bl ++ write_node pads c r (pos + length h + length bl)
  end.

(** PT/internal/kd_tree_data.hpp:90-106: read_node.  Recursion is bounded by
    [fuel]; every call consumes at least one byte. *)
Fixpoint read_node (fuel : nat) (c : category) (s : stream)
  : res (node (branch_data c T) * stream) :=
  match fuel with
  | O => OutOfFuel
  | S fuel' =>
      do (b, s1) <- read_bytes 1 s;
      do is_leaf <- bool_dec b;
      if is_leaf : bool then
        do (lb, s2) <- read_bytes (layout_size leaf_layout) s1;
        do be <- leaf_value lb;
        Ok (Leaf (fst be) (snd be), s2)
      else
        do (bb, s2) <- read_bytes (layout_size (branch_layout c)) s1;
        do br <- branch_value c bb;
        do (l, s3) <- read_node fuel' c s2;
        do (r, s4) <- read_node fuel' c s3;
        Ok (Branch br l r, s4)
  end.

(** PT/internal/kd_tree_data.hpp:54-58, 130-135: save and write.  The spatial
    dimension, the indices, the root box, the nodes. *)
Definition save_data (pads : nat -> nat -> Z) {c : category} (t : kd_tree_data c T) : list Z :=
  c_enc size_codec (length (box_min (kd_root_box t)))
  ++ c_enc size_codec (length (kd_indices t)) ++ write_array index_codec (kd_indices t)
  ++ write_array tc (box_min (kd_root_box t))
  ++ write_array tc (box_max (kd_root_box t))
  ++ write_node pads c (kd_root t) 0.

(** PT/internal/kd_tree_data.hpp:43-52, 122-128: load and read.  The box has a
    run-time dimension; with a compile-time one the value read is ignored
    (PT/internal/box.hpp:164). *)
Definition load_data (c : category) (s : stream) : res (kd_tree_data c T * stream) :=
  do (b, s1) <- read_bytes (c_size size_codec) s;
  do sdim <- c_dec size_codec b;
  do (b2, s2) <- read_bytes (c_size size_codec) s1;
  do size <- c_dec size_codec b2;
  do (indices, s3) <- read_array index_codec size 0 s2;
  do (mn, s4) <- read_array tc sdim s_zero s3;
  do (mx, s5) <- read_array tc sdim s_zero s4;
  do (root, s6) <- read_node (S (match s5 with Some b => length b | None => 0 end)) c s5;
  Ok (KdTreeData indices (Box mn mx) root, s6).

(** PT/kd_tree.hpp:367-370: save(tree, stream): the bytes written. *)
Definition kd_tree_save (pads : nat -> nat -> Z) (t : kd_tree T) : list Z := save_data pads (kt_data t).

(** PT/kd_tree.hpp:350-353, 375-378: load(space, stream).  The metric is default
    constructed: its type fixes it. *)
Definition kd_tree_load (m : metric T) (sp : space T) (bytes : list Z) : res (kd_tree T * stream) :=
  do (data, s) <- load_data (m_cat m) (Some bytes);
  Ok (KdTree sp m data, s).
End Serial.
