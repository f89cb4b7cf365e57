(** Properties of the file formats of the examples, C78-C87. *)
From Coq Require Import Ascii String List ZArith QArith Reals Bool Arith Lia.
From Verif Require Import Base ModelSerial ModelFormat SpecSerial SpecFormat SpecReal Instances Examples
  FormatThms FormatMnist FormatText FormatTop.
Import ListNotations.
Local Open Scope nat_scope.

(** ** C78: arrays in binary files *)
Theorem C78_round_trip :
  forall (A : Type) (c : codec A) (P : A -> Prop), codec_ok c P ->
  forall (d : A) (name : list Z) (v0 : list A) (fs : fsys) (v : list A),
  0 < c_size c -> v <> [] -> Forall P v -> fs_writable fs name = true ->
  exists fs', write_bin c name v fs = Ok (inr fs')
    /\ fs_writable fs' = fs_writable fs
    /\ (forall other, other <> name -> fs_bytes fs' other = fs_bytes fs other)
    /\ read_bin c d name v0 fs' = Ok (inr v).
Proof. exact @write_read_bin. Qed.
Print Assumptions C78_round_trip.

(** The bytes after the last whole element are ignored. *)
Theorem C78_any_file :
  forall (A : Type) (c : codec A) (P : A -> Prop), codec_ok c P ->
  forall (d : A) (name : list Z) (v0 : list A) (fs : fsys) (v : list A) (rest : list Z),
  0 < c_size c -> Forall P v -> length rest < c_size c ->
  fs_bytes fs name = Some (flat_map (c_enc c) v ++ rest) ->
  read_bin c d name v0 fs = Ok (inr v).
Proof. exact @read_bin_any. Qed.
Print Assumptions C78_any_file.

Theorem C78_cannot_open :
  forall (A : Type) (c : codec A) (d : A) (name : list Z) (v : list A) (fs : fsys),
  (fs_bytes fs name = None -> read_bin c d name v fs = Ok (inl FileRuntimeError))
  /\ (v <> [] -> fs_writable fs name = false -> write_bin c name v fs = Ok (inl FileRuntimeError)).
Proof.
  exact (fun A c d name v fs => conj (bin_missing c d name v fs) (bin_unwritable c name v fs)).
Qed.
Print Assumptions C78_cannot_open.

Example C78_example :
  codec_ok i16 (fun v => (- 2 ^ 15 <= v < 2 ^ 15)%Z)
  /\ (exists fs', write_bin i16 (chars "a.bin") [258; -2; 7]%Z (files []) = Ok (inr fs')
        /\ fs_bytes fs' (chars "a.bin") = Some [2; 1; 254; 255; 7; 0]%Z
        /\ read_bin i16 0%Z (chars "a.bin") [1; 1; 1; 1]%Z fs' = Ok (inr [258; -2; 7]%Z))
  /\ read_bin i16 0%Z (chars "b.bin") [] (files [(chars "b.bin", [2; 1; 9]%Z)]) = Ok (inr [258]%Z).
Proof.
  split; [exact i16_ok|]. split; [|vm_compute; reflexivity]. eexists. split; [reflexivity|]. split; vm_compute; reflexivity.
Qed.

(** ** C79: an empty array *)
(** Writing no elements leaves an existing file as it is. *)
Theorem C79_refuted :
  ~ (forall (name : list Z) (v : list Z) (fs fs' : fsys),
       Forall (fun x => (- 2 ^ 15 <= x < 2 ^ 15)%Z) v -> fs_writable fs name = true ->
       write_bin i16 name v fs = Ok (inr fs') -> forall v0, read_bin i16 0%Z name v0 fs' = Ok (inr v)).
Proof. exact empty_bin_refuted. Qed.
Print Assumptions C79_refuted.

Example C79_example :
  let fs := files [(chars "a.bin", [5; 0; 6; 0]%Z)] in
  write_bin i16 (chars "a.bin") [] fs = Ok (inr fs)
  /\ read_bin i16 0%Z (chars "a.bin") [] fs = Ok (inr [5; 6]%Z)
  /\ write_bin i16 (chars "b.bin") [] fs = Ok (inr fs)
  /\ read_bin i16 0%Z (chars "b.bin") [] fs = Ok (inl FileRuntimeError).
Proof. repeat split; vm_compute; reflexivity. Qed.

(** ** C80: byte order *)
Theorem C80_big_endian :
  forall (little : bool) (it : index_type) (w : nat) (v : Z),
  int_width it w -> in_int it v ->
  big_endian_to_native little it (int_value little it (big_endian_bytes w v)) = v.
Proof. exact big_endian_correct. Qed.
Print Assumptions C80_big_endian.

Theorem C80_host :
  forall (it : index_type) (w : nat) (v : Z), int_width it w -> in_int it v ->
  big_endian_to_native false it v = v
  /\ big_endian_to_native true it v = int_value true it (swap_endian_bytes (int_object true it v)).
Proof. exact (fun it w v HW HV => conj (native_big it w v HW HV) (native_little it w v HW HV)). Qed.
Print Assumptions C80_host.

Theorem C80_swap :
  forall u : list Z, swap_endian_bytes u = rev u /\ swap_endian_bytes (swap_endian_bytes u) = u.
Proof. exact (fun u => conj (swap_is_rev u) (swap_twice u)). Qed.
Print Assumptions C80_swap.

Example C80_example :
  int_width it_int 4 /\ in_int it_int (-2051)%Z /\ int_width it_size_t 8
  /\ big_endian_bytes 4 (-2051) = [255; 255; 247; 253]%Z
  /\ int_value true it_int [255; 255; 247; 253]%Z = (-34078721)%Z
  /\ big_endian_to_native true it_int (-34078721) = (-2051)%Z
  /\ big_endian_to_native true it_size_t 1 = (2 ^ 56)%Z.
Proof.
  split; [split; [reflexivity|lia]|]. split; [split; reflexivity || (vm_compute; congruence)|].
  split; [split; [reflexivity|lia]|]. repeat split; vm_compute; reflexivity.
Qed.

(** ** C81: MNIST files *)
Theorem C81_images :
  forall (little : bool) (name : list Z) (old : list (list Z)) (fs : fsys) (images : list (list Z))
    (rows cols : Z) (rest : list Z),
  (rows * cols = 784)%Z -> Forall (fun im => length im = 28 * 28) images ->
  (Z.of_nat (length images) < 2 ^ 31)%Z ->
  fs_bytes fs name = Some (mnist_images_start (Z.of_nat (length images)) rows cols ++ concat images ++ rest) ->
  read_mnist_images little name old fs = Ok (inr images).
Proof. exact images_read. Qed.
Print Assumptions C81_images.

Theorem C81_labels :
  forall (little : bool) (name : list Z) (old : list Z) (fs : fsys) (labels rest : list Z),
  (Z.of_nat (length labels) < 2 ^ 31)%Z ->
  fs_bytes fs name = Some (mnist_labels_start (Z.of_nat (length labels)) ++ labels ++ rest) ->
  read_mnist_labels little name old fs = Ok (inr labels).
Proof. exact labels_read. Qed.
Print Assumptions C81_labels.

(** Files of another kind are refused. *)
Theorem C81_other_files :
  forall (little : bool) (name b rest : list Z) (fs : fsys) (old : list (list Z)) (old_labels : list Z),
  fs_bytes fs name = Some (b ++ rest) -> is_bytes b -> length b = 4 ->
  (b <> big_endian_bytes 4 2051 -> read_mnist_images little name old fs = Ok (inl FileRuntimeError))
  /\ (b <> big_endian_bytes 4 2049 -> read_mnist_labels little name old_labels fs = Ok (inl FileRuntimeError)).
Proof.
  exact (fun little name b rest fs old old_labels E HB HL =>
    conj (images_wrong_magic little name b rest fs old E HB HL)
         (labels_wrong_magic little name b rest fs old_labels E HB HL)).
Qed.
Print Assumptions C81_other_files.

Example C81_example : forall little,
  let image := repeat 7%Z (28 * 28) in
  let fs := files [(chars "i", mnist_images_start 2 28 28 ++ concat [image; repeat 9%Z (28 * 28)] ++ [1%Z]);
                   (chars "l", mnist_labels_start 3 ++ [5; 0; 4]%Z)] in
  read_mnist_images little (chars "i") [] fs = Ok (inr [image; repeat 9%Z (28 * 28)])
  /\ read_mnist_labels little (chars "l") [] fs = Ok (inr [5; 0; 4]%Z)
  /\ read_mnist_images little (chars "l") [] fs = Ok (inl FileRuntimeError)
  /\ firstn 8 (mnist_images_start 2 28 28) = [0; 0; 8; 3; 0; 0; 0; 2]%Z.
Proof. intros [|]; repeat split; vm_compute; reflexivity. Qed.

(** ** C82: MNIST files that are not what they say *)
(** A file that ends early is read without complaint. *)
Theorem C82_truncated_images :
  forall (little : bool) (name : list Z) (old : list (list Z)) (fs : fsys) (n : nat) (rows cols : Z) (pixels : list Z),
  (rows * cols = 784)%Z -> Forall (fun im => length im = 28 * 28) old ->
  (Z.of_nat n < 2 ^ 31)%Z -> length pixels < n * (28 * 28) ->
  fs_bytes fs name = Some (mnist_images_start (Z.of_nat n) rows cols ++ pixels) ->
  exists images, read_mnist_images little name old fs = Ok (inr images)
    /\ length images = n /\ Forall (fun im => length im = 28 * 28) images
    /\ concat images
       = pixels ++ skipn (length pixels) (concat (firstn n old ++ repeat (repeat 0%Z (28 * 28)) (n - length old))).
Proof. exact images_truncated. Qed.
Print Assumptions C82_truncated_images.

Theorem C82_truncated_labels :
  forall (little : bool) (name : list Z) (old : list Z) (fs : fsys) (n : nat) (labels : list Z),
  (Z.of_nat n < 2 ^ 31)%Z -> length labels < n ->
  fs_bytes fs name = Some (mnist_labels_start (Z.of_nat n) ++ labels) ->
  read_mnist_labels little name old fs
  = Ok (inr (labels ++ skipn (length labels) (firstn n old ++ repeat 0%Z (n - length old)))).
Proof. exact labels_truncated. Qed.
Print Assumptions C82_truncated_labels.

Theorem C82_refuted : forall little,
  ~ (forall (name : list Z) (fs : fsys) (n : nat) (pixels : list Z) (images : list (list Z)),
       fs_bytes fs name = Some (mnist_images_start (Z.of_nat n) 28 28 ++ pixels) ->
       read_mnist_images little name [] fs = Ok (inr images) -> n * (28 * 28) <= length pixels).
Proof. exact truncated_images_refuted. Qed.
Print Assumptions C82_refuted.

(** What the numbers in the header lead to. *)
Theorem C82_header :
  forall (little : bool) (name : list Z) (old : list (list Z)) (fs : fsys) (n h w : Z) (rest : list Z),
  fs_bytes fs name = Some (mnist_images_start n h w ++ rest) ->
  (- 2 ^ 31 <= n < 2 ^ 31)%Z -> (- 2 ^ 31 <= h < 2 ^ 31)%Z -> (- 2 ^ 31 <= w < 2 ^ 31)%Z ->
  ((h * w < - 2 ^ 31 \/ 2 ^ 31 <= h * w)%Z -> read_mnist_images little name old fs = Ub UbOverflow)
  /\ ((- 2 ^ 31 <= h * w < 2 ^ 31)%Z -> (h * w <> 784)%Z ->
       read_mnist_images little name old fs = Ok (inl FileRuntimeError))
  /\ ((h * w = 784)%Z -> (n < 0)%Z -> read_mnist_images little name old fs = Ok (inl FileLengthError)).
Proof. exact images_header_cases. Qed.
Print Assumptions C82_header.

(** Two images announced, one byte there.  14 x 56 and -28 x -28 pixels. *)
Example C82_example : forall little,
  let fs := files [(chars "t", mnist_images_start 2 28 28 ++ [7%Z]);
                   (chars "o", mnist_images_start 1 65536 65536);
                   (chars "s", mnist_images_start 1 14 56 ++ repeat 3%Z (28 * 28));
                   (chars "n", mnist_images_start 1 (-28) (-28) ++ repeat 3%Z (28 * 28));
                   (chars "m", mnist_images_start (-1) 28 28)] in
  read_mnist_images little (chars "t") [] fs = Ok (inr [7%Z :: repeat 0%Z (28 * 28 - 1); repeat 0%Z (28 * 28)])
  /\ read_mnist_images little (chars "o") [] fs = Ub UbOverflow
  /\ read_mnist_images little (chars "s") [] fs = Ok (inr [repeat 3%Z (28 * 28)])
  /\ read_mnist_images little (chars "n") [] fs = Ok (inr [repeat 3%Z (28 * 28)])
  /\ read_mnist_images little (chars "m") [] fs = Ok (inl FileLengthError).
Proof. intros [|]; repeat split; vm_compute; reflexivity. Qed.

(** ** C83: fvecs, ivecs and bvecs files *)
Theorem C83_rows :
  forall (A : Type) (c : codec A) (P : A -> Prop), codec_ok c P ->
  forall (t : xvecs_type) (n : nat) (stem ending : list Z) (d : A) (old : list (list A)) (fs : fsys)
    (rows : list (list Z * list A)) (rest : list Z),
  same_but_case ending (chars (match t with XvecsByte => "bvecs" | XvecsFloat => "fvecs" | XvecsInt => "ivecs" end)) ->
  Forall (fun r => length r = n) old ->
  Forall (fun r => length (fst r) = 4 /\ length (snd r) = n /\ Forall P (snd r)) rows ->
  length rest < 4 + c_size c * n ->
  fs_bytes fs (stem ++ ending) = Some (xvecs_bytes c rows ++ rest) ->
  read_xvecs c d t n (stem ++ ending) old fs = Ok (inr (map snd rows)).
Proof. exact xvecs_rows. Qed.
Print Assumptions C83_rows.

Theorem C83_name :
  forall (A : Type) (c : codec A) (t : xvecs_type) (n : nat) (name : list Z) (d : A) (old : list (list A)) (fs : fsys),
  ~ (exists stem ending, name = stem ++ ending
       /\ same_but_case ending
            (chars (match t with XvecsByte => "bvecs" | XvecsFloat => "fvecs" | XvecsInt => "ivecs" end))) ->
  read_xvecs c d t n name old fs = Ok (inl (if length name <? 5 then FileOutOfRange else FileRuntimeError)).
Proof. exact xvecs_names. Qed.
Print Assumptions C83_name.

Example C83_example :
  same_but_case (chars "BVecs") (chars "bvecs")
  /\ read_xvecs byte_codec 0%Z XvecsByte 2 (chars "x.BVecs") [[9; 9]]%Z
       (files [(chars "x.BVecs", [2; 0; 0; 0; 1; 2; 2; 0; 0; 0; 3; 4; 2; 0]%Z)]) = Ok (inr [[1; 2]; [3; 4]]%Z)
  /\ read_xvecs byte_codec 0%Z XvecsByte 2 (chars "x.fvecs") [] (files []) = Ok (inl FileRuntimeError).
Proof.
  split.
  - change (same_but_case [66; 86; 101; 99; 115]%Z [98; 118; 101; 99; 115]%Z).
    repeat (apply Forall2_cons; [first [left; reflexivity | right; split; [lia|reflexivity]]|]). apply Forall2_nil.
  - split; vm_compute; reflexivity.
Qed.

(** ** C84: the dimension in the file *)
(** The dimension stored with every row is not looked at. *)
Theorem C84_refuted :
  ~ (forall (name : list Z) (fs : fsys) (rows : list (list Z * list Z)) (v : list (list Z)),
       fs_bytes fs name = Some (xvecs_bytes byte_codec rows) ->
       (forall r, In r rows -> fst r = c_enc (int_codec true 4) (Z.of_nat (length (snd r)))) ->
       read_xvecs byte_codec 0%Z XvecsByte 2 name [] fs = Ok (inr v) -> v = map snd rows).
Proof. exact xvecs_dimension_refuted. Qed.
Print Assumptions C84_refuted.

(** Two rows of four read as rows of two; a name without a dot; a short name. *)
Example C84_example :
  let fs := files [(chars "x.bvecs", [4; 0; 0; 0; 1; 2; 3; 4; 4; 0; 0; 0; 5; 6; 7; 8]%Z); (chars "bvecs", [])] in
  read_xvecs byte_codec 0%Z XvecsByte 2 (chars "x.bvecs") [] fs = Ok (inr [[1; 2]; [0; 0]]%Z)
  /\ read_xvecs byte_codec 0%Z XvecsByte 2 (chars "bvecs") [] fs = Ok (inr [])
  /\ read_xvecs byte_codec 0%Z XvecsByte 2 (chars "a.b") [] fs = Ok (inl FileOutOfRange).
Proof. repeat split; vm_compute; reflexivity. Qed.

(** ** C85: poses *)
(** Six numbers: a translation, and angles of turns about the axes. *)
Theorem C85_motion :
  forall (mx : R) (num_get : list Z -> extraction R) (deg : R) (text rest : list Z) (t e : list R),
  length t = 3 -> length e = 3 -> numbers_in num_get (t ++ e) text rest ->
  exists pose, @read_pose R (R_scalar mx) num_get sin cos deg text = Ok pose
    /\ forall p, @transform R (R_scalar mx) pose p
       = (let r := rot_x (nth 0 e 0 * deg) (rot_y (nth 1 e 0 * deg) (rot_z (nth 2 e 0 * deg) p)) in
          [nth 0 r 0 + nth 0 t 0; nth 1 r 0 + nth 1 t 0; nth 2 r 0 + nth 2 t 0])%R.
Proof. exact pose_is_motion. Qed.
Print Assumptions C85_motion.

Theorem C85_keeps_distances :
  forall (mx : R) (num_get : list Z -> extraction R) (deg : R) (text : list Z) (pose : isometry),
  @read_pose R (R_scalar mx) num_get sin cos deg text = Ok pose ->
  forall o p q r, let f := @transform R (R_scalar mx) pose in
  sq_dist3 (f p) (f q) = sq_dist3 p q /\ orient3 (f o) (f p) (f q) (f r) = orient3 o p q r.
Proof. exact pose_keeps. Qed.
Print Assumptions C85_keeps_distances.

(** The pose at the origin without turns. *)
Example C85_example :
  (exists pose, @read_pose R (R_scalar 1000) (fun text => NumOk 0%R text) sin cos (PI / 180)%R [] = Ok pose
     /\ @transform R (R_scalar 1000) pose [1; 2; 3]%R = [1; 2; 3]%R)
  /\ sq_dist3 [1; 2; 3]%R [1; 0; 0]%R = 13%R.
Proof. exact identity_pose. Qed.

(** ** C86: scans *)
Theorem C86_lines :
  forall (T : Type) (S : Scalar T) (strtod : list Z -> T) (pose : isometry)
    (ls : list (list Z * (list Z * list Z * list Z))) (ended : bool),
  Forall (fun '(l, (w1, w2, w3)) => scan_line l w1 w2 w3) ls ->
  read_scan strtod pose
    (if ended then flat_map (fun l => fst l ++ [10%Z]) ls
     else match rev ls with
          | [] => []
          | l :: r => flat_map (fun l => fst l ++ [10%Z]) (rev r) ++ fst l
          end)
  = map (fun '(_, (w1, w2, w3)) => transform pose [strtod w1; strtod w2; strtod w3]) ls.
Proof. exact @read_scan_lines. Qed.
Print Assumptions C86_lines.

Theorem C86_directory :
  forall (T : Type) (S : Scalar T) (strtod : list Z -> T) (num_get : list Z -> extraction T)
    (sin_ cos_ : T -> T) (deg_to_rad : T) (U : Type) (cast : T -> U) (dir : directory) (pts : list (list U))
    (pose_of : list Z -> isometry),
  NoDup (map fst dir) ->
  (forall name text, In (name, text) dir -> is_scan_name name = true ->
     exists stem ptext, name = stem ++ chars ".3d" /\ In (stem ++ chars ".pose", ptext) dir
        /\ read_pose num_get sin_ cos_ deg_to_rad ptext = Ok (pose_of name)) ->
  read_uosr strtod num_get sin_ cos_ deg_to_rad cast (Some dir) pts
  = Ok (inr (pts ++ flat_map (fun f => map (map cast) (read_scan strtod (pose_of (fst f)) (snd f)))
                     (filter (fun f => is_scan_name (fst f)) dir))).
Proof. exact @read_uosr_all. Qed.
Print Assumptions C86_directory.

Theorem C86_names :
  forall name, is_scan_name name = true <->
  exists x y z ch, (48 <= x <= 57)%Z /\ (48 <= y <= 57)%Z /\ (48 <= z <= 57)%Z /\ ch <> 10%Z /\ ch <> 13%Z
    /\ name = chars "scan" ++ [x; y; z; ch] ++ chars "3d".
Proof. exact scan_name_char. Qed.
Print Assumptions C86_names.

(** Points written as text are lines of a scan. *)
Theorem C86_ascii :
  forall (T : Type) (S : Scalar T) (strtod : list Z -> T) (print : T -> list Z) (name : list Z) (v : list (list T))
    (fs : fsys),
  v <> [] -> Forall (fun p => length p = 3) v ->
  (forall p x, In p v -> In x p -> is_word (print x) /\ strtod (print x) = x) ->
  fs_writable fs name = true ->
  exists fs' bytes, write_ascii print name v fs = Ok (inr fs')
    /\ fs_bytes fs' name = Some bytes
    /\ (forall other, other <> name -> fs_bytes fs' other = fs_bytes fs other)
    /\ map (parse_point strtod) (read_lines bytes []) = v.
Proof. exact @ascii_round_trip. Qed.
Print Assumptions C86_ascii.

Example C86_example :
  let nl := [10%Z] in
  let dir := [(chars "scan001.pose", chars "1 2 3" ++ nl ++ chars "0 0 0"); (chars "notes", chars "x");
              (chars "scan001.3d", chars "4 5 6 99" ++ nl ++ chars " 7  8 9")] in
  scan_line (chars "4 5 6 99") (chars "4") (chars "5") (chars "6")
  /\ scan_line (chars " 7  8 9") (chars "7") (chars "8") (chars "9")
  /\ is_scan_name (chars "scan001.3d") = true
  /\ read_uosr digits next_number (fun _ => 0%Q) (fun _ => 1%Q) 1%Q (fun x => Qred x) (Some dir) []
     = Ok (inr [[5; 7; 9]; [8; 10; 12]]%Q)
  /\ (is_word (one_digit 7%Q) /\ digits (one_digit 7%Q) = 7%Q).
Proof.
  cbv zeta. split; [apply (line_b [] (chars "4") (chars " ") (chars "5") (chars " ") (chars "6") (chars " 99")); discriminate || reflexivity|].
  split; [apply (line_b (chars " ") (chars "7") (chars "  ") (chars "8") (chars " ") (chars "9") []); discriminate || reflexivity|].
  split; [vm_compute; reflexivity|]. split; [vm_compute; reflexivity|].
  split; [apply word_b; [discriminate|reflexivity]|vm_compute; reflexivity].
Qed.

(** ** C87: other lines and names *)
(** A line without three words still makes a point. *)
Theorem C87_refuted :
  ~ (forall (pose : isometry (T := Q)) (line : list Z),
       (forall w1 w2 w3, ~ scan_line line w1 w2 w3) -> read_scan digits pose (line ++ [10%Z]) = []).
Proof. exact bad_lines_refuted. Qed.
Print Assumptions C87_refuted.

Theorem C87_names_refuted :
  ~ (forall name, is_scan_name name = true -> exists stem, name = stem ++ chars ".3d").
Proof. exact scan_name_refuted. Qed.
Print Assumptions C87_names_refuted.

Theorem C87_missing_pose :
  forall (T U : Type) (S : Scalar T) (strtod : list Z -> T) (num_get : list Z -> extraction T)
    (sin_ cos_ : T -> T) (deg : T) (cast : T -> U) (dir : directory) (name text : list Z) (before after : directory)
    (pts : list (list U)),
  dir = before ++ (name, text) :: after -> is_scan_name name = true ->
  (forall f, In f before -> is_scan_name (fst f) = false) ->
  (forall stem b, name = stem ++ chars ".3d" -> ~ In (stem ++ chars ".pose", b) dir) ->
  (forall b, (forall stem, name <> stem ++ chars ".3d") -> ~ In (name ++ chars ".pose", b) dir) ->
  read_uosr strtod num_get sin_ cos_ deg cast (Some dir) pts = Ok (inl FileRuntimeError).
Proof. exact @no_pose_file. Qed.
Print Assumptions C87_missing_pose.

(** A pose with fewer than six numbers is read uninitialised. *)
Theorem C87_short_pose :
  forall (T : Type) (S : Scalar T) (num_get : list Z -> extraction T) (sin_ cos_ : T -> T) (deg : T)
    (xs : list T) (text rest : list Z),
  numbers_in num_get xs text rest ->
  num_get rest = NumNone /\ length xs < 6 \/ (exists x, num_get rest = NumFail x) /\ length xs < 5 ->
  read_pose num_get sin_ cos_ deg text = Ub UbUninit.
Proof. exact short_pose. Qed.
Print Assumptions C87_short_pose.

(** An empty line, a line with one and one with two numbers; a pose with five. *)
Example C87_example :
  let pose := Isometry [1; 0; 0; 0; 1; 0; 0; 0; 1]%Q [0; 0; 0]%Q in
  let nl := [10%Z] in
  map (map Qred) (read_scan digits pose (chars "4 5 6" ++ nl ++ nl ++ chars "7" ++ nl ++ chars "1 2" ++ nl))
  = [[4; 5; 6]; [0; 0; 0]; [7; 7; 7]; [1; 2; 2]]%Q
  /\ is_scan_name (chars "scan000x3d") = true
  /\ read_pose next_number (fun _ => 0%Q) (fun _ => 1%Q) 1%Q (chars "1 2 3 4 5") = Ub UbUninit.
Proof. repeat split; vm_compute; reflexivity. Qed.
