(** Proofs about the file formats: MNIST and xvecs. *)
From Coq Require Import Ascii String List ZArith Bool Arith Lia.
From Verif Require Import Base ModelSerial ModelFormat SpecSerial SpecFormat FormatThms.
Import ListNotations.
Local Open Scope nat_scope.

Lemma read_bytes_app (a rest : list Z) : read_bytes (length a) (Some (a ++ rest)) = Ok (a, Some rest).
Proof.
  unfold read_bytes. rewrite app_length. destruct (Nat.leb_spec (length a) (length a + length rest)); [|lia].
  rewrite firstn_app, skipn_app, Nat.sub_diag, firstn_all2, skipn_all2 by lia. cbn. rewrite app_nil_r. reflexivity.
Qed.

Lemma it_bytes_int32 : it_bytes int32 = 4.
Proof. reflexivity. Qed.

Definition in32 (v : Z) : Prop := (- 2 ^ 31 <= v < 2 ^ 31)%Z.
Lemma in32_in v : in32 v -> in_int int32 v.
Proof. intros H. exact H. Qed.

Lemma be32 little v : in32 v ->
  big_endian_to_native little int32 (int_value little int32 (big_endian_bytes 4 v)) = v.
Proof. intros H. apply (big_endian_correct little int32 4 v int32_width H). Qed.

Lemma read_be32 little v rest : in32 v ->
  read_big_endian little int32 (Some (big_endian_bytes 4 v ++ rest)) = Ok (v, Some rest).
Proof.
  intros H. unfold read_big_endian. change (it_bytes int32) with (length (big_endian_bytes 4 v)).
  rewrite read_bytes_app. cbn [bind]. rewrite be32 by assumption. reflexivity.
Qed.

Lemma header_length vs : length (flat_map (big_endian_bytes 4) vs) = length vs * 4.
Proof. induction vs; cbn [flat_map length]; [reflexivity|]. rewrite app_length, IHvs, big_endian_bytes_length. lia. Qed.

Lemma header_part vs i : i < length vs ->
  firstn 4 (skipn (i * 4) (flat_map (big_endian_bytes 4) vs)) = big_endian_bytes 4 (nth i vs 0%Z).
Proof.
  revert i. induction vs as [|v vs IH]; intros i Hi; [cbn in Hi; lia|]. cbn [flat_map].
  destruct i as [|i].
  - cbn [Nat.mul skipn nth]. rewrite firstn_app, big_endian_bytes_length, Nat.sub_diag, firstn_O, app_nil_r.
    apply firstn_all2. rewrite big_endian_bytes_length. lia.
  - cbn [nth]. rewrite skipn_app, big_endian_bytes_length.
    rewrite skipn_all2 by (rewrite big_endian_bytes_length; lia). cbn [app].
    replace (S i * 4 - 4) with (i * 4) by lia. apply IH. cbn in Hi. lia.
Qed.

Lemma read_header little vs rest : Forall in32 vs ->
  read_mnist_header little (length vs) (Some (flat_map (big_endian_bytes 4) vs ++ rest)) = Ok (vs, Some rest).
Proof.
  intros H. unfold read_mnist_header. rewrite it_bytes_int32, <- header_length, read_bytes_app. cbn [bind].
  do 2 f_equal. unfold tab. apply nth_ext with (d := 0%Z) (d' := 0%Z); [rewrite map_length, seq_length; reflexivity|].
  intros i Hi. rewrite map_length, seq_length in Hi.
  match goal with |- nth i (map ?f _) _ = _ => rewrite (nth_indep _ 0%Z (f 0)) by (rewrite map_length, seq_length; assumption);
    rewrite (map_nth f) end.
  rewrite seq_nth by assumption. cbn [Nat.add]. rewrite header_part by assumption. apply be32.
  rewrite Forall_forall in H. apply H. apply nth_In. assumption.
Qed.

Lemma mul784 a b : (a * b = 784)%Z -> in32 a /\ in32 b /\ int32_mul a b = Ok 784%Z.
Proof.
  intros E. assert (G : forall x y, (x * y = 784)%Z -> in32 x).
  { intros x y Exy. assert (Z.abs x <= 784)%Z.
    { assert (D : (Z.abs x | 784)%Z) by (apply Z.divide_abs_l; exists y; lia). apply Z.divide_pos_le in D; lia. }
    unfold in32. change (2 ^ 31)%Z with 2147483648%Z. lia. }
  split; [apply (G a b E)|]. split; [apply (G b a); lia|]. unfold int32_mul. rewrite E. reflexivity.
Qed.

Lemma byte_array_ok n : codec_ok (byte_array_codec n) (fun l => length l = n).
Proof.
  split; intros a; cbn [byte_array_codec c_enc c_size c_dec].
  - apply resize_length.
  - intros <-. unfold resize_to. rewrite firstn_all, Nat.sub_diag. cbn. rewrite app_nil_r. reflexivity.
Qed.

Lemma write_byte_arrays n l : Forall (fun a => length a = n) l -> write_array (byte_array_codec n) l = concat l.
Proof.
  unfold write_array. induction l as [|a l IH]; intros H; [reflexivity|]. inversion H; subst.
  cbn [flat_map concat]. rewrite IH by assumption. f_equal. cbn [byte_array_codec c_enc].
  unfold resize_to. rewrite firstn_all, Nat.sub_diag. cbn. apply app_nil_r.
Qed.

Lemma byte_ok : codec_ok byte_codec (fun _ => True).
Proof. split; intros a; reflexivity. Qed.

Lemma write_byte_list l : write_array byte_codec l = l.
Proof. unfold write_array. induction l as [|a l IH]; cbn in *; [reflexivity|]. rewrite IH. reflexivity. Qed.

Lemma resize_Forall {A} (P : A -> Prop) d n l : P d -> Forall P l -> Forall P (resize_to d n l).
Proof.
  intros Hd Hl. unfold resize_to. apply Forall_app. split.
  - rewrite Forall_forall in *. intros x Hx. apply Hl. rewrite <- (firstn_skipn n l). apply in_or_app. auto.
  - apply Forall_forall. intros x Hx. apply repeat_spec in Hx. subst. assumption.
Qed.

(** Everything up to the pixels. *)
Lemma images_start little name old fs n h w rest :
  fs_bytes fs name = Some (mnist_images_start n h w ++ rest) ->
  in32 n -> (0 <= n)%Z -> (h * w = 784)%Z ->
  read_mnist_images little name old fs
  = (let* (l, _) <- io_lift (read_values (byte_array_codec image_size)
                               (resize_to (repeat 0%Z image_size) (Z.to_nat n) old) (Some rest));
     io_ret l).
Proof.
  intros E Hn Hp HM. destruct (mul784 h w HM) as (Hh & Hw & HMul).
  unfold read_mnist_images, open_in. rewrite E. cbn [io_bind io_ret bind].
  unfold mnist_images_start. rewrite <- !app_assoc. rewrite read_be32 by (split; reflexivity || (vm_compute; congruence)).
  cbn [io_lift io_bind bind]. change (negb (2051 =? mnist_images_magic)%Z) with false. cbn [io_throw_if io_ret io_bind bind].
  pose proof (read_header little [n; h; w] rest) as RH. cbn [flat_map length] in RH. rewrite app_nil_r in RH.
  rewrite <- !app_assoc in RH. rewrite RH by (repeat (apply Forall_cons; [assumption|]); apply Forall_nil).
  cbn [io_lift io_bind bind nth]. rewrite HMul. cbn [io_lift io_bind bind].
  change (negb (784 =? Z.of_nat image_size)%Z) with false. cbn [io_throw_if io_ret io_bind bind].
  unfold resize_int. destruct (Z.ltb_spec n 0); [lia|]. cbn [io_ret io_bind bind]. reflexivity.
Qed.

Lemma images_read little name old fs images rows cols rest :
  (rows * cols = 784)%Z -> Forall (fun im => length im = image_size) images ->
  (Z.of_nat (length images) < 2 ^ 31)%Z ->
  fs_bytes fs name = Some (mnist_images_start (Z.of_nat (length images)) rows cols ++ concat images ++ rest) ->
  read_mnist_images little name old fs = Ok (inr images).
Proof.
  intros HM HI HN E. rewrite (images_start little name old fs _ _ _ _ E) by (assumption || unfold in32; lia).
  rewrite Nat2Z.id. rewrite <- (write_byte_arrays image_size images HI).
  rewrite (read_values_full _ _ (byte_array_ok image_size)); [reflexivity|apply resize_length|assumption].
Qed.

Lemma decode_arrays k n bs : n * k <= length bs ->
  exists l, decode_all (byte_array_codec k) n bs = Ok l /\ length l = n
    /\ Forall (fun a => length a = k) l /\ concat l = firstn (n * k) bs.
Proof.
  revert bs. induction n as [|n IH]; intros bs H; [exists []; repeat split; auto|].
  destruct (IH (skipn k bs)) as (l & E & L & F & C); [rewrite skipn_length; lia|].
  exists (firstn k bs :: l). cbn [decode_all byte_array_codec c_dec c_size bind]. fold (byte_array_codec k).
  rewrite E. cbn [bind]. split; [reflexivity|]. split; [cbn; lia|]. split.
  - constructor; [apply firstn_length_le; lia|assumption].
  - cbn [concat]. rewrite C. rewrite <- (firstn_skipn k (firstn (S n * k) bs)). f_equal.
    + rewrite firstn_firstn. f_equal. lia.
    + rewrite skipn_firstn_comm. f_equal. lia.
Qed.

(** A file that ends early: what is missing keeps the previous content. *)
Lemma images_truncated little name old fs n rows cols pixels :
  (rows * cols = 784)%Z -> Forall (fun im => length im = image_size) old ->
  (Z.of_nat n < 2 ^ 31)%Z -> length pixels < n * image_size ->
  fs_bytes fs name = Some (mnist_images_start (Z.of_nat n) rows cols ++ pixels) ->
  exists images, read_mnist_images little name old fs = Ok (inr images)
    /\ length images = n /\ Forall (fun im => length im = image_size) images
    /\ concat images = pixels ++ skipn (length pixels) (concat (resize_to (repeat 0%Z image_size) n old)).
Proof.
  intros HM HO HN HL E. rewrite (images_start little name old fs _ _ _ _ E) by (assumption || unfold in32; lia).
  rewrite Nat2Z.id. set (old' := resize_to (repeat 0%Z image_size) n old).
  assert (HO' : Forall (fun im => length im = image_size) old')
    by (apply resize_Forall; [apply repeat_length|assumption]).
  assert (HLo : length old' = n) by apply resize_length.
  assert (HC : length (concat old') = n * image_size).
  { rewrite <- (write_byte_arrays image_size old' HO'). rewrite (write_array_length _ _ (byte_array_ok image_size)).
    rewrite HLo. reflexivity. }
  unfold read_values, read_into. rewrite write_byte_arrays by assumption.
  destruct (Nat.leb_spec (length (concat old')) (length pixels)); [lia|].
  destruct (decode_arrays image_size (length old') (pixels ++ skipn (length pixels) (concat old'))) as (l & EL & LL & FL & CL).
  { rewrite app_length, skipn_length, HC, HLo. apply Nat.eq_le_incl. lia. }
  rewrite EL. exists l. split; [reflexivity|]. split; [lia|]. split; [assumption|]. rewrite CL.
  apply firstn_all2. rewrite app_length, skipn_length, HC, HLo. apply Nat.eq_le_incl. lia.
Qed.

Lemma labels_start little name old fs n rest :
  fs_bytes fs name = Some (mnist_labels_start n ++ rest) -> in32 n -> (0 <= n)%Z ->
  read_mnist_labels little name old fs
  = (let* (l, _) <- io_lift (read_values byte_codec (resize_to 0%Z (Z.to_nat n) old) (Some rest)); io_ret l).
Proof.
  intros E Hn Hp. unfold read_mnist_labels, open_in. rewrite E. cbn [io_bind io_ret bind].
  unfold mnist_labels_start. rewrite <- !app_assoc. rewrite read_be32 by (split; reflexivity || (vm_compute; congruence)).
  cbn [io_lift io_bind bind]. change (negb (2049 =? mnist_labels_magic)%Z) with false. cbn [io_throw_if io_ret io_bind bind].
  pose proof (read_header little [n] rest) as RH. cbn [flat_map length] in RH. rewrite app_nil_r in RH.
  rewrite RH by (repeat (apply Forall_cons; [assumption|]); apply Forall_nil). cbn [io_lift io_bind bind nth].
  unfold resize_int. destruct (Z.ltb_spec n 0); [lia|]. cbn [io_ret io_bind bind]. reflexivity.
Qed.

Lemma labels_read little name old fs labels rest :
  (Z.of_nat (length labels) < 2 ^ 31)%Z ->
  fs_bytes fs name = Some (mnist_labels_start (Z.of_nat (length labels)) ++ labels ++ rest) ->
  read_mnist_labels little name old fs = Ok (inr labels).
Proof.
  intros HN E. rewrite (labels_start little name old fs _ _ E) by (unfold in32; lia).
  rewrite Nat2Z.id. rewrite <- (write_byte_list labels) at 2.
  rewrite (read_values_full _ _ byte_ok); [reflexivity|apply resize_length|]. apply Forall_forall. auto.
Qed.

Lemma labels_truncated little name old fs n labels :
  (Z.of_nat n < 2 ^ 31)%Z -> length labels < n ->
  fs_bytes fs name = Some (mnist_labels_start (Z.of_nat n) ++ labels) ->
  read_mnist_labels little name old fs = Ok (inr (labels ++ skipn (length labels) (resize_to 0%Z n old))).
Proof.
  intros HN HL E. rewrite (labels_start little name old fs _ _ E) by (unfold in32; lia).
  rewrite Nat2Z.id. unfold read_values, read_into. rewrite write_byte_list.
  destruct (Nat.leb_spec (length (resize_to 0%Z n old)) (length labels)); [rewrite resize_length in *; lia|].
  set (bs := labels ++ skipn (length labels) (resize_to 0%Z n old)).
  assert (HB : length (resize_to 0%Z n old) = length bs).
  { unfold bs. rewrite app_length, skipn_length. lia. }
  rewrite HB. rewrite <- (write_byte_list bs) at 2. rewrite (decode_write_array _ _ byte_ok); [reflexivity|].
  apply Forall_forall. auto.
Qed.

(** * What is rejected *)
Lemma read_be32_any little b rest : is_bytes b -> length b = 4 ->
  read_big_endian little int32 (Some (b ++ rest)) = Ok (it_cast int32 (horner b), Some rest).
Proof.
  intros HB HL. unfold read_big_endian. rewrite it_bytes_int32, <- HL, read_bytes_app. cbn [bind].
  rewrite (big_endian_horner little int32 4 b int32_width HB HL). reflexivity.
Qed.

Lemma be32_inj b v : is_bytes b -> length b = 4 -> in32 v -> it_cast int32 (horner b) = v -> b = big_endian_bytes 4 v.
Proof.
  intros HB HL HV E.
  assert (EH : horner b = (v mod 2 ^ 32)%Z).
  { pose proof (it_cast_mod int32 (horner b) ltac:(reflexivity)) as M. rewrite E in M.
    change (it_bits int32) with 32%Z in M. rewrite M. symmetry. apply Z.mod_small.
    pose proof (horner_range b HB) as R. rewrite HL in R. exact R. }
  assert (EB : horner (big_endian_bytes 4 v) = (v mod 2 ^ 32)%Z) by apply (horner_big_endian 4 v).
  rewrite horner_value_le in EH, EB.
  assert (R : rev b = rev (big_endian_bytes 4 v)).
  { rewrite <- (bytes_le_value (rev b)) by (apply Forall_rev; assumption).
    rewrite <- (bytes_le_value (rev (big_endian_bytes 4 v))) by (apply Forall_rev, big_endian_bytes_ok).
    rewrite !rev_length, HL, big_endian_bytes_length, EH, EB. reflexivity. }
  rewrite <- (rev_involutive b), R, rev_involutive. reflexivity.
Qed.

Lemma wrong_magic little name b rest fs m :
  fs_bytes fs name = Some (b ++ rest) -> is_bytes b -> length b = 4 -> in32 m -> b <> big_endian_bytes 4 m ->
  exists v s, open_in fs name = Ok (inr (b ++ rest))
    /\ read_big_endian little int32 (Some (b ++ rest)) = Ok (v, s) /\ (v =? m)%Z = false.
Proof.
  intros E HB HL HM HN. exists (it_cast int32 (horner b)), (Some rest). unfold open_in. rewrite E.
  split; [reflexivity|]. split; [apply read_be32_any; assumption|].
  apply Z.eqb_neq. intros C. apply HN. apply be32_inj; assumption.
Qed.

Lemma images_wrong_magic little name b rest fs old :
  fs_bytes fs name = Some (b ++ rest) -> is_bytes b -> length b = 4 -> b <> big_endian_bytes 4 2051 ->
  read_mnist_images little name old fs = Ok (inl FileRuntimeError).
Proof.
  intros E HB HL HN. destruct (wrong_magic little name b rest fs 2051 E HB HL) as (v & s & E1 & E2 & E3);
    [split; reflexivity || (vm_compute; congruence)|assumption|].
  unfold read_mnist_images. rewrite E1. cbn [io_bind bind]. rewrite E2. cbn [io_lift io_bind bind].
  change mnist_images_magic with 2051%Z. rewrite E3. reflexivity.
Qed.

Lemma labels_wrong_magic little name b rest fs old :
  fs_bytes fs name = Some (b ++ rest) -> is_bytes b -> length b = 4 -> b <> big_endian_bytes 4 2049 ->
  read_mnist_labels little name old fs = Ok (inl FileRuntimeError).
Proof.
  intros E HB HL HN. destruct (wrong_magic little name b rest fs 2049 E HB HL) as (v & s & E1 & E2 & E3);
    [split; reflexivity || (vm_compute; congruence)|assumption|].
  unfold read_mnist_labels. rewrite E1. cbn [io_bind bind]. rewrite E2. cbn [io_lift io_bind bind].
  change mnist_labels_magic with 2049%Z. rewrite E3. reflexivity.
Qed.

(** The header decides: other numbers of pixels, overflow, negative numbers. *)
Lemma images_header little name old fs n h w rest :
  fs_bytes fs name = Some (mnist_images_start n h w ++ rest) -> in32 n -> in32 h -> in32 w ->
  read_mnist_images little name old fs
  = if ((- 2 ^ 31 <=? h * w) && (h * w <? 2 ^ 31))%Z then
      if (h * w =? 784)%Z then
        if (n <? 0)%Z then Ok (inl FileLengthError)
        else (let* (l, _) <- io_lift (read_values (byte_array_codec image_size)
                               (resize_to (repeat 0%Z image_size) (Z.to_nat n) old) (Some rest));
              io_ret l)
      else Ok (inl FileRuntimeError)
    else Ub UbOverflow.
Proof.
  intros E Hn Hh Hw. unfold read_mnist_images, open_in. rewrite E. cbn [io_bind io_ret bind].
  unfold mnist_images_start. rewrite <- !app_assoc. rewrite read_be32 by (split; reflexivity || (vm_compute; congruence)).
  cbn [io_lift io_bind bind]. change (negb (2051 =? mnist_images_magic)%Z) with false. cbn [io_throw_if io_ret io_bind bind].
  pose proof (read_header little [n; h; w] rest) as RH. cbn [flat_map length] in RH. rewrite app_nil_r in RH.
  rewrite <- !app_assoc in RH. rewrite RH by (repeat (apply Forall_cons; [assumption|]); apply Forall_nil).
  cbn [io_lift io_bind bind nth]. unfold int32_mul. destruct (_ && _)%bool; [|reflexivity].
  cbn [io_lift io_bind bind]. change (Z.of_nat image_size) with 784%Z. destruct (h * w =? 784)%Z; [|reflexivity].
  cbn [negb io_throw_if io_ret io_bind bind]. unfold resize_int. destruct (n <? 0)%Z; reflexivity.
Qed.

(** * xvecs *)
Lemma to_lower_case a b : same_but_case a b -> Forall (fun ch => (97 <= ch <= 122)%Z) b -> to_lower a = b.
Proof.
  unfold same_but_case, to_lower. induction 1 as [|x y a b H HF IH]; intros HB; [reflexivity|].
  inversion HB; subst. cbn [map]. rewrite IH by assumption. f_equal.
  destruct H as [->|[H ->]].
  - destruct (Z.leb_spec 65 y), (Z.leb_spec y 90); cbn; lia.
  - destruct (Z.leb_spec 65 x), (Z.leb_spec x 90); cbn; lia.
Qed.

Lemma format_letters t : Forall (fun ch => (97 <= ch <= 122)%Z) (format_string t) /\ length (format_string t) = 5.
Proof. split; [|destruct t; reflexivity]. destruct t; vm_compute; repeat constructor; congruence. Qed.

Lemma to_lower_app a b : to_lower (a ++ b) = to_lower a ++ to_lower b.
Proof. apply map_app. Qed.

Lemma name_passes t stem ending : same_but_case ending (format_string t) ->
  let lower := to_lower (stem ++ ending) in
  (length lower <? length (format_string t)) = false
  /\ chars_eqb (skipn (length lower - length (format_string t)) lower) (format_string t) = true.
Proof.
  intros H. destruct (format_letters t) as [HL H5]. cbv zeta. rewrite to_lower_app, (to_lower_case _ _ H HL), app_length.
  split; [apply Nat.ltb_ge; lia|]. apply chars_eqb_eq. rewrite skipn_app.
  replace (length (to_lower stem) + length (format_string t) - length (format_string t)) with (length (to_lower stem)) by lia.
  rewrite skipn_all2 by lia. rewrite Nat.sub_diag. reflexivity.
Qed.

Lemma to_lower_inv a b : to_lower a = b -> Forall (fun ch => (97 <= ch <= 122)%Z) b -> same_but_case a b.
Proof.
  unfold to_lower, same_but_case. revert b. induction a as [|x a IH]; intros b E HB.
  - subst. constructor.
  - destruct b as [|y b]; [discriminate|]. cbn [map] in E. inversion E; subst. inversion HB; subst.
    constructor; [|apply IH; [reflexivity|assumption]].
    destruct (Z.leb_spec 65 x), (Z.leb_spec x 90); cbn [andb]; [right|left|left|left]; lia.
Qed.

Section XvecsThm.
Context {A : Type} (c : codec A) (P : A -> Prop) (Hc : codec_ok c P).

Lemma read_rows_full n (rows : list (list Z * list A)) old rest :
  length old = length rows -> Forall (fun r => length r = n) old ->
  Forall (fun r => length (fst r) = 4 /\ length (snd r) = n /\ Forall P (snd r)) rows ->
  read_rows c old (Some (xvecs_bytes c rows ++ rest)) = Ok (map snd rows).
Proof.
  unfold xvecs_bytes. revert old. induction rows as [|[k r] rows IH]; intros old HL HO HR.
  - destruct old; [reflexivity|cbn in HL; lia].
  - destruct old as [|o old]; [cbn in HL; lia|]. inversion HO; subst. inversion HR as [|? ? (K4 & RN & RP) HR']; subst.
    cbn [fst snd] in *. cbn [read_rows flat_map map fst snd]. rewrite <- !app_assoc. rewrite <- K4, read_bytes_app. cbn [bind].
    change (flat_map (c_enc c) r) with (write_array c r).
    rewrite (read_values_full c P Hc) by (assumption || lia). cbn [bind].
    rewrite IH; [reflexivity|cbn in HL; lia|assumption|assumption].
Qed.

Lemma xvecs_length n (rows : list (list Z * list A)) :
  Forall (fun r => length (fst r) = 4 /\ length (snd r) = n /\ Forall P (snd r)) rows ->
  length (xvecs_bytes c rows) = length rows * (4 + c_size c * n).
Proof.
  unfold xvecs_bytes. induction 1 as [|[k r] rows (K4 & RN & RP) H IH]; [reflexivity|].
  cbn [flat_map fst snd length] in *. rewrite !app_length, IH, K4.
  change (flat_map (c_enc c) r) with (write_array c r). rewrite (write_array_length c P Hc), RN. lia.
Qed.

Lemma xvecs_read t n stem ending d old fs rows rest :
  same_but_case ending (format_string t) ->
  Forall (fun r => length r = n) old ->
  Forall (fun r => length (fst r) = 4 /\ length (snd r) = n /\ Forall P (snd r)) rows ->
  length rest < 4 + c_size c * n ->
  fs_bytes fs (stem ++ ending) = Some (xvecs_bytes c rows ++ rest) ->
  read_xvecs c d t n (stem ++ ending) old fs = Ok (inr (map snd rows)).
Proof.
  intros HN HO HR HT E. destruct (name_passes t stem ending HN) as [N1 N2]. unfold read_xvecs.
  rewrite N1, N2. cbn [negb io_throw_if io_ret io_bind bind]. unfold open_in. rewrite E. cbn [io_ret io_bind bind].
  assert (EC : length (xvecs_bytes c rows ++ rest) / (4 + c_size c * n) = length rows).
  { rewrite app_length, (xvecs_length n rows HR), Nat.div_add_l by lia. rewrite Nat.div_small by lia. lia. }
  rewrite EC. rewrite (read_rows_full n); [reflexivity|apply resize_length| |assumption].
  apply resize_Forall; [apply repeat_length|assumption].
Qed.

Lemma xvecs_name t n name d old fs :
  ~ (exists stem ending, name = stem ++ ending /\ same_but_case ending (format_string t)) ->
  read_xvecs c d t n name old fs = Ok (inl (if length name <? 5 then FileOutOfRange else FileRuntimeError)).
Proof.
  intros HN. destruct (format_letters t) as [HL H5]. unfold read_xvecs. rewrite H5.
  replace (length (to_lower name)) with (length name) by (symmetry; apply map_length).
  destruct (Nat.ltb_spec (length name) 5) as [L|L]; [reflexivity|]. cbn [io_throw_if io_ret io_bind bind].
  destruct (chars_eqb _ _) eqn:E; [|reflexivity]. exfalso. apply HN. apply chars_eqb_eq in E.
  exists (firstn (length name - 5) name), (skipn (length name - 5) name). split; [symmetry; apply firstn_skipn|].
  apply to_lower_inv; [|assumption]. rewrite <- E. unfold to_lower. rewrite skipn_map. reflexivity.
Qed.
End XvecsThm.
