(** Proofs about the file formats: binary arrays, byte order, MNIST, xvecs. *)
From Coq Require Import Ascii String List ZArith Bool Arith Lia.
From Verif Require Import Base ModelSerial ModelFormat SpecSerial SpecFormat.
Import ListNotations.
Local Open Scope nat_scope.

Lemma chars_eqb_eq a b : chars_eqb a b = true <-> a = b.
Proof. unfold chars_eqb. destruct (list_eq_dec Z.eq_dec a b); split; congruence. Qed.

Lemma resize_length {A} (d : A) n l : length (resize_to d n l) = n.
Proof. unfold resize_to. rewrite app_length, firstn_length, repeat_length. lia. Qed.

Section Values.
Context {A : Type} (c : codec A) (P : A -> Prop) (Hc : codec_ok c P).

Lemma write_array_length (l : list A) : length (write_array c l) = length l * c_size c.
Proof.
  unfold write_array. induction l as [|a l IH]; cbn; [reflexivity|].
  rewrite app_length, (ck_len _ _ Hc), IH. reflexivity.
Qed.

Lemma decode_write_array (l : list A) : Forall P l -> decode_all c (length l) (write_array c l) = Ok l.
Proof.
  unfold write_array. induction l as [|a l IH]; intros HF; cbn; [reflexivity|].
  inversion HF; subst.
  rewrite firstn_app, (ck_len _ _ Hc), Nat.sub_diag. cbn. rewrite app_nil_r.
  rewrite firstn_all2 by (rewrite (ck_len _ _ Hc); lia).
  rewrite (ck_dec _ _ Hc) by assumption. cbn.
  rewrite skipn_app, (ck_len _ _ Hc), Nat.sub_diag. cbn.
  rewrite skipn_all2 by (rewrite (ck_len _ _ Hc); lia). cbn. rewrite IH by assumption. reflexivity.
Qed.

(** Reading as many values as there are overwrites everything. *)
Lemma read_values_full (old l : list A) rest :
  length old = length l -> Forall P l ->
  read_values c old (Some (write_array c l ++ rest)) = Ok (l, Some rest).
Proof.
  intros HL HF. unfold read_values, read_into. rewrite write_array_length, HL.
  rewrite app_length, write_array_length.
  destruct (Nat.leb_spec (length l * c_size c) (length l * c_size c + length rest)); [|lia].
  rewrite firstn_app, write_array_length, Nat.sub_diag. cbn. rewrite app_nil_r.
  rewrite firstn_all2 by (rewrite write_array_length; lia).
  rewrite decode_write_array by assumption. cbn.
  rewrite skipn_app, write_array_length, Nat.sub_diag. cbn.
  rewrite skipn_all2 by (rewrite write_array_length; lia). reflexivity.
Qed.

Lemma read_bin_any d name v0 fs (v : list A) rest :
  0 < c_size c -> Forall P v -> length rest < c_size c ->
  fs_bytes fs name = Some (write_array c v ++ rest) ->
  read_bin c d name v0 fs = Ok (inr v).
Proof.
  intros Hs HF Hr E. unfold read_bin, open_in. rewrite E. cbn.
  assert (EC : length (write_array c v ++ rest) / c_size c = length v).
  { rewrite app_length, write_array_length, Nat.div_add_l by lia. rewrite Nat.div_small by lia. lia. }
  rewrite EC. rewrite (read_values_full _ v rest); [reflexivity| |assumption]. apply resize_length.
Qed.

Lemma write_read_bin d name v0 fs (v : list A) :
  0 < c_size c -> v <> [] -> Forall P v -> fs_writable fs name = true ->
  exists fs', write_bin c name v fs = Ok (inr fs')
    /\ fs_writable fs' = fs_writable fs
    /\ (forall other, other <> name -> fs_bytes fs' other = fs_bytes fs other)
    /\ read_bin c d name v0 fs' = Ok (inr v).
Proof.
  intros Hs Hv HF HW. unfold write_bin, write_file. rewrite HW. destruct v as [|a v]; [congruence|].
  eexists. split; [reflexivity|]. split; [reflexivity|]. cbn [fs_bytes]. split.
  - intros other HN. destruct (chars_eqb other name) eqn:E; [|reflexivity]. apply chars_eqb_eq in E. congruence.
  - apply (read_bin_any d name v0 _ (a :: v) []); [assumption|assumption|cbn; lia|].
    cbn [fs_bytes]. destruct (chars_eqb name name) eqn:E; [rewrite app_nil_r; reflexivity|].
    exfalso. assert (chars_eqb name name = true) by (apply chars_eqb_eq; reflexivity). congruence.
Qed.
End Values.

Lemma bin_missing {A} (c : codec A) (d : A) name v fs :
  fs_bytes fs name = None -> read_bin c d name v fs = Ok (inl FileRuntimeError).
Proof. intros E. unfold read_bin, open_in. rewrite E. reflexivity. Qed.

Lemma bin_unwritable {A} (c : codec A) name (v : list A) fs :
  v <> [] -> fs_writable fs name = false -> write_bin c name v fs = Ok (inl FileRuntimeError).
Proof. intros H E. unfold write_bin, write_file. rewrite E. destruct v; [congruence|reflexivity]. Qed.

(** * Byte order *)
Lemma swap_is_rev u : swap_endian_bytes u = rev u.
Proof.
  unfold swap_endian_bytes. apply nth_ext with (d := 0%Z) (d' := 0%Z).
  - rewrite map_length, seq_length, rev_length. reflexivity.
  - intros i Hi. rewrite map_length, seq_length in Hi.
    rewrite (nth_indep _ 0%Z (nth (length u - 0 - 1) u 0%Z)) by (rewrite map_length, seq_length; assumption).
    rewrite map_nth with (f := fun i => nth (length u - i - 1) u 0%Z).
    rewrite seq_nth by assumption. rewrite rev_nth by assumption. f_equal. lia.
Qed.

Lemma bytes_le_length w v : length (bytes_le w v) = w.
Proof. revert v. induction w; intros; cbn; auto. Qed.

Lemma bytes_le_value bs : is_bytes bs -> bytes_le (length bs) (value_le bs) = bs.
Proof.
  induction bs as [|b bs IH]; intros H; cbn [length bytes_le value_le]; [reflexivity|]. inversion H; subst.
  assert (E1 : ((b + 256 * value_le bs) mod 256 = b)%Z).
  { rewrite Z.mul_comm, Z_mod_plus_full. apply Z.mod_small. assumption. }
  assert (E2 : ((b + 256 * value_le bs) / 256 = value_le bs)%Z).
  { rewrite Z.mul_comm, Z.div_add by lia. rewrite Z.div_small by assumption. lia. }
  rewrite E1, E2, IH by assumption. reflexivity.
Qed.

Lemma bytes_le_mod w v m : (m mod 2 ^ (8 * Z.of_nat w) = v mod 2 ^ (8 * Z.of_nat w))%Z -> bytes_le w m = bytes_le w v.
Proof.
  revert v m. induction w as [|w IH]; intros v m H; [reflexivity|]. cbn [bytes_le].
  replace (8 * Z.of_nat (S w))%Z with (8 * Z.of_nat w + 8)%Z in H by lia.
  rewrite Z.pow_add_r in H by lia. change (2 ^ 8)%Z with 256%Z in H.
  set (M := (2 ^ (8 * Z.of_nat w))%Z) in *. assert (HM : (0 < M)%Z) by (apply Z.pow_pos_nonneg; lia).
  rewrite (Z.mul_comm M 256) in H.
  rewrite !Z.rem_mul_r in H by lia.
  pose proof (Z.mod_pos_bound m 256 ltac:(lia)). pose proof (Z.mod_pos_bound v 256 ltac:(lia)).
  assert (E1 : (m mod 256 = v mod 256)%Z) by nia.
  assert (E2 : ((m / 256) mod M = (v / 256) mod M)%Z) by nia.
  rewrite E1. f_equal. apply IH. exact E2.
Qed.

Lemma value_le_range bs : is_bytes bs -> (0 <= value_le bs < 2 ^ (8 * Z.of_nat (length bs)))%Z.
Proof.
  induction bs as [|b bs IH]; intros H; [cbn; lia|]. inversion H; subst. cbn [value_le length].
  specialize (IH H3). replace (8 * Z.of_nat (S (length bs)))%Z with (8 + 8 * Z.of_nat (length bs))%Z by lia.
  rewrite Z.pow_add_r by lia. change (2 ^ 8)%Z with 256%Z. lia.
Qed.

Lemma it_cast_mod it v : (0 < it_bits it)%Z -> (it_cast it v mod 2 ^ it_bits it = v mod 2 ^ it_bits it)%Z.
Proof.
  intros H. unfold it_cast. set (M := (2 ^ it_bits it)%Z). assert (0 < M)%Z by (apply Z.pow_pos_nonneg; lia).
  destruct (it_signed it && _).
  - rewrite Zminus_mod, Z_mod_same_full, Z.sub_0_r. rewrite !Zmod_mod. reflexivity.
  - apply Zmod_mod.
Qed.

Lemma it_cast_congr it a b : (a mod 2 ^ it_bits it = b mod 2 ^ it_bits it)%Z -> it_cast it a = it_cast it b.
Proof. intros H. unfold it_cast. rewrite H. reflexivity. Qed.

Lemma it_cast_in it v : (0 < it_bits it)%Z -> in_int it v -> it_cast it v = v.
Proof.
  intros Hb H. unfold it_cast, in_int in *.
  assert (E : (2 ^ it_bits it = 2 * 2 ^ (it_bits it - 1))%Z).
  { replace (it_bits it) with (1 + (it_bits it - 1))%Z at 1 by lia. rewrite Z.pow_add_r by lia. reflexivity. }
  destruct (it_signed it); cbn [andb].
  - set (H0 := (2 ^ (it_bits it - 1))%Z) in *. rewrite E.
    destruct (Z.ltb_spec v 0) as [L|L].
    + replace (v mod (2 * H0))%Z with (v + 2 * H0)%Z.
      * destruct (Z.leb_spec H0 (v + 2 * H0)); lia.
      * symmetry. rewrite <- (Z_mod_plus_full v 1). rewrite Z.mul_1_l. apply Z.mod_small. lia.
    + rewrite Z.mod_small by lia. destruct (Z.leb_spec H0 v); lia.
  - rewrite Z.mod_small by lia. reflexivity.
Qed.

Lemma int_object_value little it w bs :
  int_width it w -> is_bytes bs -> length bs = w -> int_object little it (int_value little it bs) = bs.
Proof.
  intros [Hb Hw] HB HL. unfold int_object, int_value.
  assert (EW : it_bytes it = w). { unfold it_bytes. rewrite Hb, Z.mul_comm, Z.div_mul by lia. lia. }
  rewrite EW.
  assert (G : forall l, is_bytes l -> length l = w -> bytes_le w (it_cast it (value_le l)) = l).
  { intros l Hl Ll. rewrite (bytes_le_mod w (value_le l)).
    - rewrite <- Ll at 1. apply bytes_le_value. assumption.
    - rewrite <- Hb. apply it_cast_mod. lia. }
  destruct little; [apply G; assumption|].
  rewrite G; [apply rev_involutive| |rewrite rev_length; assumption].
  unfold is_bytes in *. apply Forall_rev. assumption.
Qed.

(** Shifting the bytes together. *)
Definition horner (bs : list Z) : Z := fold_left (fun a b => (256 * a + b)%Z) bs 0%Z.

Lemma horner_app bs b : horner (bs ++ [b]) = (256 * horner bs + b)%Z.
Proof. unfold horner. rewrite fold_left_app. reflexivity. Qed.

Lemma horner_range bs : is_bytes bs -> (0 <= horner bs < 256 ^ Z.of_nat (length bs))%Z.
Proof.
  induction bs as [|b bs IH] using rev_ind; intros H; [cbn; lia|].
  unfold is_bytes in *. apply Forall_app in H as [H1 H2]. inversion H2; subst.
  rewrite horner_app, app_length. cbn [length]. replace (Z.of_nat (length bs + 1)) with (Z.of_nat (length bs) + 1)%Z by lia.
  rewrite Z.pow_add_r by lia. specialize (IH H1). lia.
Qed.

Lemma horner_value_le bs : horner bs = value_le (rev bs).
Proof.
  induction bs as [|b bs IH] using rev_ind; [reflexivity|]. rewrite horner_app, rev_app_distr, IH. cbn [rev app value_le]. lia.
Qed.

Lemma low_lor a b k : (0 <= k)%Z -> (0 <= b < 2 ^ k)%Z -> Z.lor (a * 2 ^ k) b = (a * 2 ^ k + b)%Z.
Proof.
  intros Hk Hb. symmetry. rewrite <- Z.lxor_lor; [apply Z.add_nocarry_lxor|];
  apply Z.bits_inj'; intros n Hn; rewrite Z.land_spec, Z.bits_0, <- Z.shiftl_mul_pow2 by lia;
  rewrite Z.shiftl_spec by lia;
  (destruct (Z.ltb_spec n k) as [L|L]; [rewrite Z.testbit_neg_r by lia; reflexivity|]);
  assert (E : Z.testbit b n = false)
    by (destruct (Z.eq_dec b 0) as [->|NZ]; [apply Z.bits_0|]; apply Z.bits_above_log2; [lia|];
        assert (Z.log2 b < k)%Z by (apply Z.log2_lt_pow2; lia); lia);
  rewrite E, andb_false_r; reflexivity.
Qed.

(** What the first [n] of [w] bytes contribute, modulo 2^(8w). *)
Lemma big_endian_fold it w bs n :
  int_width it w -> is_bytes bs -> length bs = w -> n <= w ->
  fold_left
    (fun native i =>
       it_cast it
         (Z.lor native
            (it_cast it ((Z.shiftl (nth i bs 0%Z) (Z.of_nat ((w - 1 - i) * 8))) mod 2 ^ 64)%Z)))
    (seq 0 n) 0%Z
  = it_cast it (horner (firstn n bs) * 2 ^ (8 * Z.of_nat (w - n)))%Z.
Proof.
  intros [Hb Hw] HB HL. induction n as [|n IH]; intros Hn.
  - cbn [seq fold_left firstn horner]. change (horner []) with 0%Z. rewrite Z.mul_0_l. unfold it_cast. rewrite Z.mod_0_l by (apply Z.pow_nonzero; lia).
    destruct (it_signed it); [|reflexivity]. cbn [andb].
    destruct (Z.leb_spec (2 ^ (it_bits it - 1)) 0); [|reflexivity].
    assert (0 < 2 ^ (it_bits it - 1))%Z by (apply Z.pow_pos_nonneg; lia). lia.
  - rewrite seq_S, fold_left_app. cbn [fold_left Nat.add]. rewrite IH by lia.
    destruct (nth_error bs n) as [b|] eqn:En; [|apply nth_error_None in En; lia].
    assert (Hn2 : nth n bs 0%Z = b) by (apply nth_error_nth; assumption).
    assert (Hb2 : (0 <= b < 256)%Z).
    { unfold is_bytes in HB. rewrite Forall_forall in HB. apply HB. eapply nth_error_In; eassumption. }
    assert (EF : firstn (S n) bs = firstn n bs ++ [b]).
    { rewrite <- (firstn_skipn n bs) at 1. rewrite firstn_app, firstn_firstn, Nat.min_r by lia.
      rewrite firstn_length_le by lia. replace (S n - n) with 1 by lia. f_equal.
      destruct (skipn n bs) as [|x xs] eqn:Es.
      - assert (length (skipn n bs) = 0) by (rewrite Es; reflexivity). rewrite skipn_length in H. lia.
      - assert (nth_error (firstn n bs ++ skipn n bs) n = Some b) by (rewrite firstn_skipn; assumption).
        rewrite nth_error_app2 in H by (rewrite firstn_length; lia).
        rewrite firstn_length_le, Nat.sub_diag, Es in H by lia. cbn in H. cbn. congruence. }
    rewrite EF, horner_app, Hn2.
    set (h := horner (firstn n bs)). set (k := (8 * Z.of_nat (w - S n))%Z).
    replace (Z.of_nat ((w - 1 - n) * 8)) with k by (unfold k; lia).
    replace (8 * Z.of_nat (w - n))%Z with (8 + k)%Z by (unfold k; lia).
    assert (Hk : (0 <= k)%Z) by (unfold k; lia).
    rewrite Z.shiftl_mul_pow2 by assumption.
    assert (HP : (2 ^ (8 + k) = 256 * 2 ^ k)%Z) by (rewrite Z.pow_add_r by lia; reflexivity).
    assert (HK : (0 < 2 ^ k)%Z) by (apply Z.pow_pos_nonneg; lia).
    assert (HK2 : (2 ^ (8 + k) <= 2 ^ it_bits it)%Z) by (apply Z.pow_le_mono_r; unfold k; lia).
    assert (HM64 : (2 ^ it_bits it <= 2 ^ 64)%Z) by (apply Z.pow_le_mono_r; lia).
    rewrite (Z.mod_small (b * 2 ^ k) (2 ^ 64)) by nia.
    apply it_cast_congr.
    (* modulo 2^bits, [lor] works on representatives *)
    set (N := it_bits it) in *. assert (HN : (0 <= N)%Z) by lia.
    assert (LOR : forall a b', (Z.lor a b' mod 2 ^ N = Z.lor (a mod 2 ^ N) (b' mod 2 ^ N))%Z).
    { intros. rewrite <- !Z.land_ones by assumption. apply Z.bits_inj'. intros m Hm.
      rewrite !Z.land_spec, !Z.lor_spec, !Z.land_spec, <- andb_orb_distrib_l. reflexivity. }
    rewrite LOR. rewrite !it_cast_mod by (unfold N; lia). rewrite <- LOR.
    rewrite HP. replace (h * (256 * 2 ^ k))%Z with (h * 2 ^ (8 + k))%Z by (rewrite HP; ring).
    rewrite low_lor by nia. f_equal. rewrite HP. ring.
Qed.

Lemma big_endian_horner little it w bs :
  int_width it w -> is_bytes bs -> length bs = w ->
  big_endian_to_native little it (int_value little it bs) = it_cast it (horner bs).
Proof.
  intros HW HB HL. unfold big_endian_to_native. rewrite (int_object_value little it w bs HW HB HL).
  assert (EW : it_bytes it = w). { destruct HW as [Hb Hw]. unfold it_bytes. rewrite Hb, Z.mul_comm, Z.div_mul by lia. lia. }
  rewrite EW. rewrite (big_endian_fold it w bs w HW HB HL) by lia.
  rewrite firstn_all2 by lia. rewrite Nat.sub_diag. cbn. rewrite Z.mul_1_r. reflexivity.
Qed.

Lemma big_endian_bytes_length w v : length (big_endian_bytes w v) = w.
Proof. unfold big_endian_bytes. rewrite map_length, seq_length. reflexivity. Qed.

Lemma big_endian_bytes_ok w v : is_bytes (big_endian_bytes w v).
Proof.
  unfold big_endian_bytes, is_bytes. rewrite Forall_map, Forall_forall. intros i _.
  apply Z.mod_pos_bound. lia.
Qed.

Lemma big_endian_bytes_S w v :
  big_endian_bytes (S w) v = big_endian_bytes w (v / 256) ++ [(v mod 256)%Z].
Proof.
  unfold big_endian_bytes. rewrite seq_S, map_app. cbn [map Nat.add].
  f_equal.
  - apply map_ext_in. intros i Hi. apply in_seq in Hi. rewrite Z.div_div by (try apply Z.pow_pos_nonneg; lia).
    f_equal. f_equal. replace (Z.of_nat (S w - 1 - i)) with (1 + Z.of_nat (w - 1 - i))%Z by lia.
    rewrite Z.pow_add_r by lia. reflexivity.
  - replace (S w - 1 - w) with 0 by lia. cbn. rewrite Z.div_1_r. reflexivity.
Qed.

Lemma horner_big_endian w v : horner (big_endian_bytes w v) = (v mod 256 ^ Z.of_nat w)%Z.
Proof.
  revert v. induction w as [|w IH]; intros v; [cbn; rewrite Z.mod_1_r; reflexivity|].
  rewrite big_endian_bytes_S, horner_app, IH.
  replace (Z.of_nat (S w)) with (1 + Z.of_nat w)%Z by lia. rewrite Z.pow_add_r by lia. rewrite Z.pow_1_r.
  rewrite Z.rem_mul_r by (try apply Z.pow_pos_nonneg; lia). ring.
Qed.

Lemma big_endian_correct little it w v :
  int_width it w -> in_int it v ->
  big_endian_to_native little it (int_value little it (big_endian_bytes w v)) = v.
Proof.
  intros HW HV. rewrite (big_endian_horner little it w) by (assumption || apply big_endian_bytes_ok || apply big_endian_bytes_length).
  rewrite horner_big_endian. destruct HW as [Hb Hw].
  replace (256 ^ Z.of_nat w)%Z with (2 ^ it_bits it)%Z by (rewrite Hb, Z.pow_mul_r by lia; reflexivity).
  rewrite (it_cast_congr it _ v) by apply Zmod_mod. apply it_cast_in; [lia|assumption].
Qed.

Lemma int32_width : int_width int32 4.
Proof. split; [reflexivity|lia]. Qed.

Lemma swap_twice u : swap_endian_bytes (swap_endian_bytes u) = u.
Proof. rewrite !swap_is_rev. apply rev_involutive. Qed.

Lemma it_bytes_width it w : int_width it w -> it_bytes it = w.
Proof. intros [Hb Hw]. unfold it_bytes. rewrite Hb, Z.mul_comm, Z.div_mul by lia. lia. Qed.

Lemma bytes_le_ok w v : is_bytes (bytes_le w v).
Proof.
  revert v. induction w; intros; cbn; constructor; [apply Z.mod_pos_bound; lia|apply IHw].
Qed.

Lemma value_bytes_le w v : value_le (bytes_le w v) = (v mod 2 ^ (8 * Z.of_nat w))%Z.
Proof.
  revert v. induction w as [|w IH]; intros v; [cbn; rewrite Z.mod_1_r; reflexivity|].
  cbn [bytes_le value_le]. rewrite IH.
  replace (8 * Z.of_nat (S w))%Z with (8 + 8 * Z.of_nat w)%Z by lia. rewrite Z.pow_add_r by lia.
  change (2 ^ 8)%Z with 256%Z. rewrite Z.rem_mul_r by (try apply Z.pow_pos_nonneg; lia). reflexivity.
Qed.

(** On a big-endian host nothing changes, on a little-endian one the bytes are
    turned around. *)
Lemma native_big it w v : int_width it w -> in_int it v -> big_endian_to_native false it v = v.
Proof.
  intros HW HV. assert (HB : (0 < it_bits it)%Z) by (destruct HW; lia).
  assert (E : v = int_value false it (rev (bytes_le w v))).
  { unfold int_value. rewrite rev_involutive, value_bytes_le. destruct HW as [Hb Hw]. rewrite <- Hb.
    rewrite (it_cast_congr it _ v) by apply Zmod_mod. symmetry. apply it_cast_in; assumption. }
  rewrite E at 1. rewrite (big_endian_horner false it w).
  - rewrite horner_value_le, rev_involutive, value_bytes_le. destruct HW as [Hb Hw]. rewrite <- Hb.
    rewrite (it_cast_congr it _ v) by apply Zmod_mod. apply it_cast_in; assumption.
  - assumption.
  - apply Forall_rev, bytes_le_ok.
  - rewrite rev_length. apply bytes_le_length.
Qed.

Lemma native_little it w v : int_width it w -> in_int it v ->
  big_endian_to_native true it v = int_value true it (swap_endian_bytes (int_object true it v)).
Proof.
  intros HW HV. assert (HB : (0 < it_bits it)%Z) by (destruct HW; lia).
  assert (E : v = int_value true it (bytes_le w v)).
  { unfold int_value. rewrite value_bytes_le. destruct HW as [Hb Hw]. rewrite <- Hb.
    rewrite (it_cast_congr it _ v) by apply Zmod_mod. symmetry. apply it_cast_in; assumption. }
  rewrite E at 1. rewrite (big_endian_horner true it w).
  - rewrite horner_value_le. unfold int_object. rewrite (it_bytes_width it w HW).
    rewrite swap_is_rev. reflexivity.
  - assumption.
  - apply bytes_le_ok.
  - apply bytes_le_length.
Qed.
