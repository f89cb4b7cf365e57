(** Witnesses and refutations for the file formats. *)
From Coq Require Import Ascii String List ZArith QArith Bool Arith Lia.
From Verif Require Import Base ModelSerial ModelFormat SpecSerial SpecFormat Instances Examples FormatThms FormatMnist FormatText.
Import ListNotations.
Local Open Scope nat_scope.

(** A file system with the given files; everything can be written. *)
Definition files (l : list (list Z * list Z)) : fsys :=
  Fsys (fun n => dir_find l n) (fun _ => true).

(** 16 bit integers. *)
Definition i16 : codec Z := int_codec true 2.
Lemma i16_ok : codec_ok i16 (fun v => (- 2 ^ 15 <= v < 2 ^ 15)%Z).
Proof.
  split.
  - intros v. apply (bytes_le_length 2).
  - intros v H. unfold i16, int_codec. cbn [c_dec c_enc]. rewrite value_bytes_le. cbv zeta.
    change (8 * Z.of_nat 2)%Z with 16%Z. f_equal.
    change (2 ^ 16)%Z with 65536%Z. change (2 ^ 15)%Z with 32768%Z in H.
    destruct (Z.ltb_spec v 0).
    + replace (v mod 65536)%Z with (v + 65536)%Z.
      * destruct (Z.ltb_spec (2 * (v + 65536)) 65536); lia.
      * symmetry. rewrite <- (Z_mod_plus_full v 1). apply Z.mod_small. lia.
    + rewrite Z.mod_small by lia. destruct (Z.ltb_spec (2 * v) 65536); lia.
Qed.

Lemma empty_bin_refuted :
  ~ (forall (name : list Z) (v : list Z) (fs fs' : fsys),
       Forall (fun x => (- 2 ^ 15 <= x < 2 ^ 15)%Z) v -> fs_writable fs name = true ->
       write_bin i16 name v fs = Ok (inr fs') -> forall v0, read_bin i16 0%Z name v0 fs' = Ok (inr v)).
Proof.
  intros H. specialize (H (chars "a.bin") [] (files [(chars "a.bin", [5; 0; 6; 0]%Z)]) _ (Forall_nil _) eq_refl eq_refl []).
  vm_compute in H. discriminate.
Qed.

(** * MNIST *)
Lemma truncated_images_refuted : forall little,
  ~ (forall (name : list Z) (fs : fsys) (n : nat) (pixels : list Z) (images : list (list Z)),
       fs_bytes fs name = Some (mnist_images_start (Z.of_nat n) 28 28 ++ pixels) ->
       read_mnist_images little name [] fs = Ok (inr images) -> n * image_size <= length pixels).
Proof.
  intros little H.
  destruct (images_truncated little (chars "t") [] (files [(chars "t", mnist_images_start (Z.of_nat 2) 28 28 ++ [7%Z])])
              2 28 28 [7%Z]) as (images & E & _); [reflexivity|constructor|reflexivity|vm_compute; lia|reflexivity|].
  specialize (H (chars "t") (files [(chars "t", mnist_images_start (Z.of_nat 2) 28 28 ++ [7%Z])]) 2 [7%Z] images eq_refl E). vm_compute in H. lia.
Qed.

(** * xvecs *)
Lemma xvecs_dimension_refuted :
  ~ (forall (name : list Z) (fs : fsys) (rows : list (list Z * list Z)) (v : list (list Z)),
       fs_bytes fs name = Some (xvecs_bytes byte_codec rows) ->
       (forall r, In r rows -> fst r = c_enc (int_codec true 4) (Z.of_nat (length (snd r)))) ->
       read_xvecs byte_codec 0%Z XvecsByte 2 name [] fs = Ok (inr v) -> v = map snd rows).
Proof.
  intros H.
  specialize (H (chars "x.bvecs")
    (files [(chars "x.bvecs", xvecs_bytes byte_codec [([4; 0; 0; 0], [1; 2; 3; 4]); ([4; 0; 0; 0], [5; 6; 7; 8])]%Z)])
    [([4; 0; 0; 0], [1; 2; 3; 4]); ([4; 0; 0; 0], [5; 6; 7; 8])]%Z [[1; 2]; [0; 0]]%Z eq_refl).
  assert (C : [[1; 2]; [0; 0]]%Z = [[1; 2; 3; 4]; [5; 6; 7; 8]]%Z); [|discriminate].
  apply H; [|vm_compute; reflexivity]. intros r [<-|[<-|[]]]; reflexivity.
Qed.

(** * Text *)

(** Decimal numbers of digits. *)
Definition digits (l : list Z) : Q := inject_Z (fold_left (fun a ch => (10 * a + (ch - 48))%Z) l 0%Z).
Definition next_number (text : list Z) : extraction Q :=
  let t := drop_while is_space text in
  match take_while is_digit t with
  | [] => match t with [] => NumNone | _ :: _ => NumFail 0%Q end
  | d => NumOk (digits d) (drop_while is_digit t)
  end.
Definition one_digit (q : Q) : list Z := [(48 + Qnum q)%Z].

Lemma bad_lines_refuted :
  ~ (forall (pose : isometry (T := Q)) (line : list Z),
       (forall w1 w2 w3, ~ scan_line line w1 w2 w3) -> read_scan digits pose (line ++ [10%Z]) = []).
Proof.
  intros H. assert (C : read_scan digits (Isometry [] []) ([] ++ [10%Z]) = []); [|vm_compute in C; discriminate].
  apply H. intros w1 w2 w3 S. apply (scan_line_nonempty _ _ _ _ S). reflexivity.
Qed.

Lemma is_digit_iff ch : is_digit ch = true <-> (48 <= ch <= 57)%Z.
Proof. unfold is_digit. rewrite andb_true_iff, !Z.leb_le. reflexivity. Qed.

Lemma scan_name_char name : is_scan_name name = true <->
  exists x y z ch, (48 <= x <= 57)%Z /\ (48 <= y <= 57)%Z /\ (48 <= z <= 57)%Z /\ ch <> 10%Z /\ ch <> 13%Z
    /\ name = chars "scan" ++ [x; y; z; ch] ++ chars "3d".
Proof.
  split.
  - intros H. unfold is_scan_name in H.
    destruct name as [|a [|b [|c [|d [|x [|y [|z [|dot [|e [|f [|]]]]]]]]]]]; try discriminate.
    repeat (apply andb_true_iff in H as [H ?]).
    match goal with H1 : chars_eqb [a; b; c; d] _ = true, H2 : chars_eqb [e; f] _ = true |- _ =>
      apply chars_eqb_eq in H1; apply chars_eqb_eq in H2; vm_compute in H1, H2;
      inversion H1; inversion H2; subst end.
    match goal with H1 : negb _ = true |- _ => apply negb_true_iff, orb_false_iff in H1 as [N1 N2] end.
    apply Z.eqb_neq in N1, N2. exists x, y, z, dot. rewrite <- !is_digit_iff. repeat split; assumption.
  - intros (x & y & z & ch & Hx & Hy & Hz & N1 & N2 & ->).
    apply is_digit_iff in Hx, Hy, Hz. apply Z.eqb_neq in N1, N2. cbn - [is_digit Z.eqb]. rewrite Hx, Hy, Hz, N1, N2. reflexivity.
Qed.

Lemma scan_name_refuted :
  ~ (forall name, is_scan_name name = true -> exists stem, name = stem ++ chars ".3d").
Proof.
  intros H. destruct (H (chars "scan000x3d") eq_refl) as [stem E].
  assert (L : length stem = 7). { apply (f_equal (@length Z)) in E. rewrite app_length in E. cbn in E. lia. }
  apply (f_equal (fun l => nth 7 l 0%Z)) in E. rewrite app_nth2, L in E by lia. vm_compute in E. discriminate.
Qed.

Lemma missing_pose {T U} {S : Scalar T} strtod num_get sin_ cos_ deg (cast : T -> U) dir name text before after pts :
  dir = before ++ (name, text) :: after -> is_scan_name name = true ->
  (forall f, In f before -> is_scan_name (fst f) = false) ->
  (forall b, ~ In (pose_name name, b) dir) ->
  read_uosr strtod num_get sin_ cos_ deg cast (Some dir) pts = Ok (inl FileRuntimeError).
Proof.
  intros E HN HB HP. unfold read_uosr.
  assert (EF : filter (fun f : list Z * list Z => is_scan_name (fst f)) dir
               = (name, text) :: filter (fun f : list Z * list Z => is_scan_name (fst f)) after).
  { rewrite E, filter_app. cbn [filter fst]. rewrite HN.
    replace (filter (fun f : list Z * list Z => is_scan_name (fst f)) before) with (@nil (list Z * list Z)); [reflexivity|].
    clear E. induction before as [|f before IH]; [reflexivity|]. cbn. rewrite HB by (left; reflexivity).
    apply IH. intros g Hg. apply HB. right. assumption. }
  rewrite EF. cbn [read_scans].
  assert (ED : dir_find dir (pose_name name) = None).
  { unfold dir_find. destruct (find _ dir) as [[n b]|] eqn:EFd; [|reflexivity].
    apply find_some in EFd as [I1 I2]. apply chars_eqb_eq in I2. cbn in I2. subst. exfalso. apply (HP b). assumption. }
  rewrite ED. reflexivity.
Qed.

Lemma pose_names name : is_scan_name name = true ->
  (exists stem, name = stem ++ chars ".3d" /\ pose_name name = stem ++ chars ".pose")
  \/ ((forall stem, name <> stem ++ chars ".3d") /\ pose_name name = name ++ chars ".pose").
Proof.
  intros H. pose proof H as H'. apply scan_name_char in H' as (x & y & z & ch & Hx & Hy & Hz & N1 & N2 & E).
  destruct (Z.eq_dec ch 46) as [->|N].
  - left. exists (chars "scan" ++ [x; y; z]). split; [rewrite E; reflexivity|].
    replace name with ((chars "scan" ++ [x; y; z]) ++ chars ".3d") in * by (rewrite E; reflexivity).
    apply pose_name_3d. exact H.
  - right. split.
    + intros stem E'. rewrite E in E'.
      assert (L : length stem = 7). { apply (f_equal (@length Z)) in E'. rewrite !app_length in E'. cbn in E'. lia. }
      apply (f_equal (fun l => nth 7 l 0%Z)) in E'. rewrite (app_nth2 stem), L in E' by lia. apply N. exact E'.
    + unfold pose_name. rewrite E. change (nth 7 (chars "scan" ++ [x; y; z; ch] ++ chars "3d") 0%Z) with ch.
      apply Z.eqb_neq in N. rewrite N. reflexivity.
Qed.

Lemma no_pose_file : forall (T U : Type) (S : Scalar T) (strtod : list Z -> T) (num_get : list Z -> extraction T)
    (sin_ cos_ : T -> T) (deg : T) (cast : T -> U) (dir : directory) (name text : list Z) (before after : directory)
    (pts : list (list U)),
  dir = before ++ (name, text) :: after -> is_scan_name name = true ->
  (forall f, In f before -> is_scan_name (fst f) = false) ->
  (forall stem b, name = stem ++ chars ".3d" -> ~ In (stem ++ chars ".pose", b) dir) ->
  (forall b, (forall stem, name <> stem ++ chars ".3d") -> ~ In (name ++ chars ".pose", b) dir) ->
  read_uosr strtod num_get sin_ cos_ deg cast (Some dir) pts = Ok (inl FileRuntimeError).
Proof.
  intros T U S strtod num_get sin_ cos_ deg cast dir name text before after pts E HN HB H1 H2.
  apply (missing_pose _ _ _ _ _ _ dir name text before after); try assumption.
  intros b. destruct (pose_names name HN) as [(stem & EN & ->)|[HS ->]]; [apply H1; exact EN|apply H2; exact HS].
Qed.

Lemma images_header_cases little name old fs n h w rest :
  fs_bytes fs name = Some (mnist_images_start n h w ++ rest) ->
  (- 2 ^ 31 <= n < 2 ^ 31)%Z -> (- 2 ^ 31 <= h < 2 ^ 31)%Z -> (- 2 ^ 31 <= w < 2 ^ 31)%Z ->
  ((h * w < - 2 ^ 31 \/ 2 ^ 31 <= h * w)%Z -> read_mnist_images little name old fs = Ub UbOverflow)
  /\ ((- 2 ^ 31 <= h * w < 2 ^ 31)%Z -> (h * w <> 784)%Z ->
       read_mnist_images little name old fs = Ok (inl FileRuntimeError))
  /\ ((h * w = 784)%Z -> (n < 0)%Z -> read_mnist_images little name old fs = Ok (inl FileLengthError)).
Proof.
  intros E Hn Hh Hw. rewrite (images_header little name old fs n h w rest E Hn Hh Hw).
  set (M := (2 ^ 31)%Z) in *.
  destruct (Z.leb_spec (- M) (h * w)), (Z.ltb_spec (h * w) M); cbn [andb];
    (split; [intros; (reflexivity || lia)|]);
    (split; [intros ? HN; try lia; destruct (Z.eqb_spec (h * w) 784); (reflexivity || lia)|]);
    intros HE HN; try (exfalso; unfold M in *; change (2 ^ 31)%Z with 2147483648%Z in *; lia);
    rewrite HE, Z.eqb_refl; destruct (Z.ltb_spec n 0); (reflexivity || lia).
Qed.

Lemma xvecs_rows : forall (A : Type) (c : codec A) (P : A -> Prop), codec_ok c P ->
  forall (t : xvecs_type) (n : nat) (stem ending : list Z) (d : A) (old : list (list A)) (fs : fsys)
    (rows : list (list Z * list A)) (rest : list Z),
  same_but_case ending (chars (match t with XvecsByte => "bvecs" | XvecsFloat => "fvecs" | XvecsInt => "ivecs" end)) ->
  Forall (fun r => length r = n) old ->
  Forall (fun r => length (fst r) = 4 /\ length (snd r) = n /\ Forall P (snd r)) rows ->
  length rest < 4 + c_size c * n ->
  fs_bytes fs (stem ++ ending) = Some (xvecs_bytes c rows ++ rest) ->
  read_xvecs c d t n (stem ++ ending) old fs = Ok (inr (map snd rows)).
Proof.
  intros A c P Hc t n stem ending d old fs rows rest HN. apply (xvecs_read c P Hc). destruct t; exact HN.
Qed.

Lemma xvecs_names : forall (A : Type) (c : codec A) (t : xvecs_type) (n : nat) (name : list Z) (d : A)
    (old : list (list A)) (fs : fsys),
  ~ (exists stem ending, name = stem ++ ending
       /\ same_but_case ending
            (chars (match t with XvecsByte => "bvecs" | XvecsFloat => "fvecs" | XvecsInt => "ivecs" end))) ->
  read_xvecs c d t n name old fs = Ok (inl (if length name <? 5 then FileOutOfRange else FileRuntimeError)).
Proof.
  intros A c t n name d old fs HN. apply xvecs_name. intros (stem & ending & E & H). apply HN.
  exists stem, ending. split; [exact E|]. destruct t; exact H.
Qed.

From Coq Require Import Reals Lra.
From Verif Require Import SpecReal.
Lemma pose_is_motion : forall (mx : R) (num_get : list Z -> extraction R) (deg : R) (text rest : list Z) (t e : list R),
  length t = 3 -> length e = 3 -> numbers_in num_get (t ++ e) text rest ->
  exists pose, @read_pose R (R_scalar mx) num_get sin cos deg text = Ok pose
    /\ forall p, @transform R (R_scalar mx) pose p
       = (let r := rot_x (nth 0 e 0 * deg) (rot_y (nth 1 e 0 * deg) (rot_z (nth 2 e 0 * deg) p)) in
          [nth 0 r 0 + nth 0 t 0; nth 1 r 0 + nth 1 t 0; nth 2 r 0 + nth 2 t 0])%R.
Proof.
  intros mx num_get deg text rest t e Lt Le H. apply scan_numbers in H. rewrite app_length, Lt, Le in H. cbn [Nat.add] in H.
  unfold read_pose. rewrite H. cbn [bind].
  replace (firstn 3 (t ++ e)) with t by (rewrite <- Lt, firstn_app, Nat.sub_diag, firstn_all, app_nil_r; reflexivity).
  replace (skipn 3 (t ++ e)) with e by (rewrite <- Lt, skipn_app, Nat.sub_diag, skipn_all; reflexivity).
  eexists. split; [reflexivity|]. intros p. rewrite euler_rotations.
  destruct e as [|e0 [|e1 [|e2 [|]]]]; try discriminate. reflexivity.
Qed.

Lemma pose_keeps : forall (mx : R) (num_get : list Z -> extraction R) (deg : R) (text : list Z) (pose : isometry),
  @read_pose R (R_scalar mx) num_get sin cos deg text = Ok pose ->
  forall o p q r, let f := @transform R (R_scalar mx) pose in
  sq_dist3 (f p) (f q) = sq_dist3 p q /\ orient3 (f o) (f p) (f q) (f r) = orient3 o p q r.
Proof.
  intros mx num_get deg text pose H o p q r. cbv zeta. destruct (pose_motion mx num_get deg text pose H) as (t & e & ->).
  split; [apply euler_isometry|apply euler_orientation].
Qed.

(** A pose with fewer numbers. *)
Lemma short_pose : forall (T : Type) (S : Scalar T) (num_get : list Z -> extraction T) (sin_ cos_ : T -> T) (deg : T)
    (xs : list T) (text rest : list Z),
  numbers_in num_get xs text rest ->
  num_get rest = NumNone /\ length xs < 6 \/ (exists x, num_get rest = NumFail x) /\ length xs < 5 ->
  read_pose num_get sin_ cos_ deg text = Ub UbUninit.
Proof.
  intros T S num_get sin_ cos_ deg xs text rest HX HR. unfold read_pose.
  assert (G : forall n, length xs < n -> num_get rest = NumNone \/ (exists x, num_get rest = NumFail x) /\ Datatypes.S (length xs) < n ->
    scan_doubles num_get n text = Ub UbUninit).
  { clear HR. revert text HX. induction xs as [|x xs IH]; intros text HX n HN HR; (destruct n as [|n]; [cbn in HN; lia|]).
    - cbn in HX. subst text. cbn [scan_doubles]. destruct HR as [->|[[x ->] HL]]; [reflexivity|].
      destruct n; [cbn in HL; lia|reflexivity].
    - destruct HX as (more & E & HX). cbn [scan_doubles]. rewrite E, (IH more HX); [reflexivity|cbn in HN; lia|].
      destruct HR as [HR|[HR HL]]; [left; exact HR|right; split; [exact HR|cbn in HL; lia]]. }
  rewrite G; [reflexivity|destruct HR as [[_ H]|[_ H]]; lia|].
  destruct HR as [[HR _]|[HR HL]]; [left; exact HR|right; split; [exact HR|lia]].
Qed.

Lemma identity_pose :
  (exists pose, @read_pose R (R_scalar 1000) (fun text => NumOk 0%R text) sin cos (PI / 180)%R [] = Ok pose
     /\ @transform R (R_scalar 1000) pose [1; 2; 3]%R = [1; 2; 3]%R)
  /\ sq_dist3 [1; 2; 3]%R [1; 0; 0]%R = 13%R.
Proof.
  split.
  - eexists. split; [reflexivity|]. rewrite euler_rotations. unfold rot_x, rot_y, rot_z. cbn [map nth skipn firstn].
    change (@s_mul R (R_scalar 1000) 0%R (PI / 180)%R) with (0 * (PI / 180))%R. rewrite Rmult_0_l, sin_0, cos_0.
    cbn [nth]. f_equal; [ring|]. f_equal; [ring|]. f_equal. ring.
  - unfold sq_dist3. cbn [nth]. ring.
Qed.

Lemma word_b w : w <> [] -> forallb (fun ch => negb (is_space ch)) w = true -> is_word w.
Proof.
  intros HN H. split; [exact HN|]. rewrite forallb_forall in H. apply Forall_forall. intros ch HI HW.
  apply is_space_iff in HW. specialize (H ch HI). rewrite HW in H. discriminate.
Qed.
Lemma blank_b s : forallb (fun ch => is_space ch && negb (ch =? 10)%Z) s = true -> is_blank s.
Proof.
  intros H. rewrite forallb_forall in H. apply Forall_forall. intros ch HI. specialize (H ch HI).
  apply andb_true_iff in H as [H1 H2]. split; [apply is_space_iff; exact H1|].
  apply negb_true_iff, Z.eqb_neq in H2. exact H2.
Qed.
Lemma more_b more : match more with [] => true | ch :: _ => is_space ch end = true ->
  more = [] \/ exists ch r, more = ch :: r /\ white ch.
Proof.
  destruct more as [|ch r]; intros H; [left; reflexivity|]. right. exists ch, r. split; [reflexivity|].
  apply is_space_iff. exact H.
Qed.
Lemma line_b s0 w1 s1 w2 s2 w3 more :
  w1 <> [] -> w2 <> [] -> w3 <> [] -> s1 <> [] -> s2 <> [] ->
  forallb (fun ch => negb (is_space ch)) (w1 ++ w2 ++ w3)
  && forallb (fun ch => is_space ch && negb (ch =? 10)%Z) (s0 ++ s1 ++ s2)
  && match more with [] => true | ch :: _ => is_space ch end
  && forallb (fun ch => negb (ch =? 10)%Z) more = true ->
  scan_line (s0 ++ w1 ++ s1 ++ w2 ++ s2 ++ w3 ++ more) w1 w2 w3.
Proof.
  intros N1 N2 N3 N4 N5 H. apply andb_true_iff in H as [H HM]. apply andb_true_iff in H as [H HS].
  apply andb_true_iff in H as [HW HB]. rewrite !forallb_app in HW, HB.
  apply andb_true_iff in HW as [W1 HW]. apply andb_true_iff in HW as [W2 W3].
  apply andb_true_iff in HB as [B1 HB]. apply andb_true_iff in HB as [B2 B3].
  exists s0, s1, s2, more. split; [reflexivity|].
  repeat (split; [first [apply word_b; assumption | apply blank_b; assumption | assumption | apply more_b; assumption]|]).
  intros C. rewrite forallb_forall in HM. apply HM in C. discriminate.
Qed.
