(** The Python bindings. *)
From Coq Require Import Ascii String List ZArith Bool Arith Lia.
From Verif Require Import Base ModelBox ModelBuild ModelSearch ModelSerial ModelPython Spec SpecSerial SpecPython
  Lemmas SerialThms ParThms ParSearch.
Import ListNotations.
Local Open Scope nat_scope.

(** * DArray *)
Lemma to_size_small x : (0 <= x < 2 ^ 64)%Z -> to_size x = x.
Proof. apply Z.mod_small. Qed.

Lemma at_size_ok {A} (l : list A) i : (0 <= i < Z.of_nat (length l))%Z ->
  exists x, at_size l i = Ok x /\ nth_error l (Z.to_nat i) = Some x.
Proof.
  intros H. unfold at_size. destruct (Z.ltb_spec i (Z.of_nat (length l))); [|lia].
  unfold at_. destruct (nth_error l (Z.to_nat i)) as [x|] eqn:E; eauto.
  apply nth_error_None in E. lia.
Qed.

Lemma darray_get_spec {A} (a : list A) i : (Z.of_nat (length a) < 2 ^ 63)%Z -> (- 2 ^ 63 <= i < 2 ^ 63)%Z ->
  darray_get a i = match python_item a i with Some x => ret x | None => throw ExnIndexError end.
Proof.
  intros Hn Hi. unfold darray_get, python_item. set (n := Z.of_nat (length a)) in *.
  assert (Hn0 : (0 <= n)%Z) by (subst n; lia).
  assert (G : forall i', (i' < 2 ^ 63)%Z ->
    (let! _ <- throw_if ((i' <? 0)%Z || (n <=? to_size i')%Z) ExnIndexError; lift (at_size a (to_size i')))
    = match (if (0 <=? i')%Z then nth_error a (Z.to_nat i') else None) with Some x => ret x | None => throw ExnIndexError end).
  { intros i' Hi'. destruct (Z.ltb_spec i' 0), (Z.leb_spec 0 i'); try lia; cbn [orb].
    - reflexivity.
    - rewrite to_size_small by lia. destruct (Z.leb_spec n i').
      + cbn. rewrite (proj2 (nth_error_None _ _)) by (subst n; lia). reflexivity.
      + cbn. destruct (at_size_ok a i') as (x & -> & ->); [subst n; lia|]. reflexivity. }
  destruct (Z.ltb_spec i 0), (Z.leb_spec 0 i); try lia.
  - assert (E : to_diff (to_size i + to_size n) = (n + i)%Z).
    { unfold to_diff, to_size. rewrite <- Zplus_mod. replace (i + n)%Z with (n + i)%Z by lia.
      destruct (Z_lt_le_dec (n + i) 0) as [Lt|Ge].
      - assert (M : ((n + i) mod 2 ^ 64 = n + i + 2 ^ 64)%Z).
        { symmetry. apply Z.mod_unique_pos with (-1)%Z; lia. }
        rewrite M. destruct (Z.ltb_spec (n + i + 2 ^ 64) (2 ^ 63)); lia.
      - rewrite Z.mod_small by lia. destruct (Z.ltb_spec (n + i) (2 ^ 63)); lia. }
    rewrite E. apply G. lia.
  - rewrite G by lia. destruct (Z.leb_spec 0 i); [|lia]. reflexivity.
Qed.

Lemma to_size_add a b : to_size (to_size a + to_size b) = to_size (a + b).
Proof. unfold to_size. symmetry. apply Zplus_mod. Qed.

Lemma darray_copy_spec {A} (a : list A) (st : Z) (count : nat) : forall s, (Z.of_nat (length a) < 2 ^ 63)%Z ->
  (forall m : nat, (m < count)%nat -> 0 <= s + Z.of_nat m * st < Z.of_nat (length a))%Z ->
  exists r, darray_copy a (to_size s) (to_size st) count = Ok r
    /\ forall m, nth_error r m = if m <? count then nth_error a (Z.to_nat (s + Z.of_nat m * st)) else None.
Proof.
  induction count as [|count IH]; intros s Hn H; cbn [darray_copy].
  - exists []. split; [auto|]. intros [|m]; reflexivity.
  - pose proof (H 0 ltac:(lia)) as H0. rewrite (to_size_small s) by lia.
    destruct (at_size_ok a s) as (x & E & Ex); [lia|]. rewrite E. cbn [bind].
    replace (to_size (s + to_size st)) with (to_size (s + st)).
    2:{ rewrite <- (to_size_small s) at 2 by lia. symmetry. apply to_size_add. }
    destruct (IH (s + st)%Z Hn) as (r & Er & Hr).
    { intros m Hm. specialize (H (S m) ltac:(lia)). lia. }
    rewrite Er. cbn [bind]. exists (x :: r). split; [auto|]. intros [|m].
    + cbn. rewrite <- Ex. f_equal. lia.
    + cbn [nth_error]. rewrite Hr. change (S m <? S count) with (m <? count).
      destruct (m <? count); [|auto]. f_equal. lia.
Qed.

Lemma clip_zero s : (Z.max (- (2 ^ 63 - 1)) (clip_ssize s) =? 0)%Z = (s =? 0)%Z.
Proof. unfold clip_ssize. destruct (Z.eqb_spec s 0), (Z.eqb_spec (Z.max (- (2 ^ 63 - 1)) (Z.max (- 2 ^ 63) (Z.min (2 ^ 63 - 1) s))) 0); lia. Qed.

Lemma darray_slice_spec {A} (a : list A) start stop step : (Z.of_nat (length a) < 2 ^ 63)%Z ->
  let k := match step with Some s => s | None => 1%Z end in
  (k = 0%Z -> darray_slice a start stop step = throw ExnValueError)
  /\ (k <> 0%Z -> exists r, darray_slice a start stop step = ret r /\ python_slice a start stop k r).
Proof.
  intros Hn k. unfold darray_slice, slice_compute. set (n := Z.of_nat (length a)) in *.
  assert (Hn0 : (0 <= n)%Z) by (subst n; lia).
  set (st := match step with Some s => _ | None => _ end).
  assert (Hst : (st = 0 <-> k = 0)%Z /\ (0 < st <-> 0 < k)%Z /\ (- 2 ^ 63 < st < 2 ^ 63)%Z
    /\ (st = k \/ (2 ^ 63 - 1 <= st /\ 2 ^ 63 <= k) \/ (st <= - (2 ^ 63 - 1) /\ k <= - 2 ^ 63))%Z).
  { subst st k. unfold clip_ssize. destruct step as [s|]; lia. }
  destruct Hst as (H1 & H2 & H3 & H4). clearbody st k. split; intros Hk.
  - destruct (Z.eqb_spec st 0) as [_|]; [reflexivity|lia].
  - destruct (Z.eqb_spec st 0) as [|Nst]; [lia|]. cbn [throw_if ret pbind bind].
    set (s1 := adjust_index n st _). set (e1 := adjust_index n st _).
    set (i := python_bound n k (if (0 <? k)%Z then 0 else n - 1)%Z start).
    set (j := python_bound n k (if (0 <? k)%Z then n else (-1))%Z stop).
    assert (Es : s1 = i).
    { subst s1 i. unfold adjust_index, python_bound, clip_ssize.
      destruct start as [s|]; destruct (Z.ltb_spec st 0), (Z.ltb_spec 0 k); try lia;
        repeat match goal with |- context[(?x <? ?y)%Z] => destruct (Z.ltb_spec x y) end;
        repeat match goal with |- context[(?x <=? ?y)%Z] => destruct (Z.leb_spec x y) end; lia. }
    assert (Ee : e1 = j).
    { subst e1 j. unfold adjust_index, python_bound, clip_ssize.
      destruct stop as [s|]; destruct (Z.ltb_spec st 0), (Z.ltb_spec 0 k); try lia;
        repeat match goal with |- context[(?x <? ?y)%Z] => destruct (Z.ltb_spec x y) end;
        repeat match goal with |- context[(?x <=? ?y)%Z] => destruct (Z.leb_spec x y) end; lia. }
    rewrite Es, Ee. clear Es Ee s1 e1.
    assert (Bi : if (0 <? k)%Z then (0 <= i <= n)%Z else (-1 <= i < n)%Z).
    { subst i. unfold python_bound. destruct (Z.ltb_spec 0 k), start as [x|]; try lia; destruct (Z.ltb_spec x 0); lia. }
    assert (Bj : if (0 <? k)%Z then (0 <= j <= n)%Z else (-1 <= j < n)%Z).
    { subst j. unfold python_bound. destruct (Z.ltb_spec 0 k), stop as [x|]; try lia; destruct (Z.ltb_spec x 0); lia. }
    set (len := if (st <? 0)%Z then _ else _).
    (* the number of elements *)
    assert (Hlen : forall m : nat, (m < Z.to_nat len) <->
       (if (0 <? k)%Z then (Z.of_nat m * k < j - i)%Z else (j - i < Z.of_nat m * k)%Z)).
    { intros m. subst len. destruct (Z.ltb_spec st 0), (Z.ltb_spec 0 k); try lia.
      - destruct (Z.ltb_spec j i).
        + assert (D := Z.div_mod (i - j - 1) (- st) ltac:(lia)).
          assert (B := Z.mod_pos_bound (i - j - 1) (- st) ltac:(lia)).
          assert (Q : (0 <= (i - j - 1) / - st)%Z) by (apply Z.div_pos; lia).
          set (qq := ((i - j - 1) / - st)%Z) in *. set (rr := ((i - j - 1) mod - st)%Z) in *. clearbody qq rr.
          destruct H4 as [->|[|H4]]; [|lia|].
          * split; intros; nia.
          * assert (qq = 0)%Z by nia. subst qq. split; intros Hm.
            -- assert (m = 0) by lia. subst m. lia.
            -- assert (Z.of_nat m = 0)%Z by nia. lia.
        + split; intros; nia.
      - destruct (Z.ltb_spec i j).
        + assert (D := Z.div_mod (j - i - 1) st ltac:(lia)).
          assert (B := Z.mod_pos_bound (j - i - 1) st ltac:(lia)).
          assert (Q : (0 <= (j - i - 1) / st)%Z) by (apply Z.div_pos; lia).
          set (qq := ((j - i - 1) / st)%Z) in *. set (rr := ((j - i - 1) mod st)%Z) in *. clearbody qq rr.
          destruct H4 as [->|[H4|]]; [| |lia].
          * split; intros; nia.
          * assert (qq = 0)%Z by nia. subst qq. split; intros Hm.
            -- assert (m = 0) by lia. subst m. lia.
            -- assert (Z.of_nat m = 0)%Z by nia. lia.
        + split; intros; nia. }
    assert (Hpos : forall m : nat, m < Z.to_nat len -> (Z.of_nat m * st = Z.of_nat m * k)%Z).
    { intros m Hm. apply Hlen in Hm. destruct H4 as [->|H4]; [auto|].
      assert (Z.of_nat m = 0)%Z by (destruct (Z.ltb_spec 0 k); nia). lia. }
    clearbody len.
    destruct (darray_copy_spec a st (Z.to_nat len) i Hn) as (r & Er & Hr).
    { intros m Hm. rewrite (Hpos m Hm). apply Hlen in Hm. fold n.
      destruct (Z.ltb_spec 0 k); nia. }
    exists r. split.
    { unfold lift. rewrite Er. reflexivity. }
    unfold python_slice. fold n. cbv zeta. fold i j. intros m. rewrite Hr.
    specialize (Hlen m). specialize (Hpos m).
    destruct (Nat.ltb_spec m (Z.to_nat len)) as [Lm|Lm].
    + rewrite Hpos by auto. apply Hlen in Lm. destruct (0 <? k)%Z.
      * rewrite (proj2 (Z.ltb_lt _ _)) by auto. reflexivity.
      * rewrite (proj2 (Z.ltb_lt _ _)) by auto. reflexivity.
    + destruct (0 <? k)%Z; [destruct (Z.ltb_spec (Z.of_nat m * k) (j - i))|destruct (Z.ltb_spec (j - i) (Z.of_nat m * k))];
        auto; exfalso; assert (m < Z.to_nat len) by (apply Hlen; auto); lia.
Qed.

(** * The header *)
Lemma bytes_eqb_eq a : forall b, bytes_eqb a b = true <-> a = b.
Proof.
  induction a as [|x a IH]; intros [|y b]; cbn; split; intros H; try discriminate; auto.
  - apply andb_prop in H as [H1 H2]. apply Z.eqb_eq in H1. apply IH in H2. congruence.
  - injection H as -> ->. rewrite Z.eqb_refl. apply IH. reflexivity.
Qed.

Lemma value_le_inj a : forall b, bytes a -> bytes b -> length a = length b -> value_le a = value_le b -> a = b.
Proof.
  induction a as [|x a IH]; intros [|y b] Ha Hb L E; cbn [value_le length] in *; try discriminate; auto.
  inversion Ha; subst. inversion Hb; subst. cbn beta in *.
  assert (x = y /\ value_le a = value_le b) as [-> ?] by lia.
  f_equal. apply IH; auto.
Qed.

Lemma bytes_le_bytes w : forall v, bytes (bytes_le w v).
Proof. induction w; intros v; cbn; constructor; [apply Z.mod_pos_bound; lia|apply IHw]. Qed.

Lemma bytes_value_bound b : bytes b -> (0 <= value_le b < 2 ^ (8 * Z.of_nat (length b)))%Z.
Proof.
  induction b as [|x b IH]; intros H; cbn [value_le length]; [lia|]. inversion H; subst. cbn beta in *.
  specialize (IH H3). replace (8 * Z.of_nat (S (length b)))%Z with (8 + 8 * Z.of_nat (length b))%Z by lia.
  rewrite Z.pow_add_r by lia. change (2 ^ 8)%Z with 256%Z. lia.
Qed.

Lemma bytes_rev b : bytes b -> bytes (rev b).
Proof. apply Forall_rev. Qed.

(** All bytes decode, and to one value each. *)
Lemma uint_dec_enc little w b : bytes b -> length b = w ->
  exists v, c_dec (uint_codec little w (2 ^ (8 * Z.of_nat w) - 1)) b = Ok v
    /\ c_enc (uint_codec little w (2 ^ (8 * Z.of_nat w) - 1)) v = b.
Proof.
  intros Hb L. cbn [c_dec c_enc uint_codec].
  set (bs := if little then b else rev b).
  assert (Hbs : bytes bs) by (subst bs; destruct little; auto using bytes_rev).
  assert (Lbs : length bs = w) by (subst bs; destruct little; rewrite ?rev_length; auto).
  pose proof (bytes_value_bound bs Hbs) as B. rewrite Lbs in B.
  rewrite (proj2 (Z.leb_le _ _)) by lia. eexists. split; [reflexivity|].
  rewrite Z2Nat.id by lia.
  assert (E : bytes_le w (value_le bs) = bs).
  { apply value_le_inj; auto using bytes_le_bytes. { rewrite bytes_le_len; auto. } apply value_bytes; lia. }
  rewrite E. subst bs. destruct little; rewrite ?rev_involutive; reflexivity.
Qed.

Lemma split_at {A} n (b : list A) : n <= length b -> exists x y, b = x ++ y /\ length x = n.
Proof.
  intros H. exists (firstn n b), (skipn n b). split; [symmetry; apply firstn_skipn|apply firstn_length_le; auto].
Qed.

Section Header.
Variable little : bool.

Lemma metric_string_len m : length (metric_string m) <= 9.
Proof. destruct m; cbn; lia. Qed.
Lemma metric_string_nonzero m : Forall (fun x => x <> 0%Z) (metric_string m).
Proof. destruct m; repeat constructor; discriminate. Qed.

Lemma metric_from_string_spec s :
  (exists m, s = metric_string m /\ metric_from_string s = ret m)
  \/ ((forall m, s <> metric_string m) /\ metric_from_string s = throw ExnRuntimeError).
Proof.
  unfold metric_from_string.
  destruct (bytes_eqb s (metric_string MetricL1)) eqn:E1; [left; exists MetricL1; apply bytes_eqb_eq in E1; auto|].
  destruct (bytes_eqb s (metric_string MetricL2Squared)) eqn:E2; [left; exists MetricL2Squared; apply bytes_eqb_eq in E2; auto|].
  destruct (bytes_eqb s (metric_string MetricLPInf)) eqn:E3; [left; exists MetricLPInf; apply bytes_eqb_eq in E3; auto|].
  right. split; [|auto]. intros m ->.
  assert (R : forall l, bytes_eqb l l = true) by (intros l; apply bytes_eqb_eq; auto).
  destruct m; rewrite R in *; discriminate.
Qed.

Lemma metric_string_inj m m' : metric_string m = metric_string m' -> m = m'.
Proof. destruct m, m'; intros H; auto; vm_compute in H; discriminate H. Qed.

Lemma size_enc_len v : length (c_enc (size_codec little) v) = 8.
Proof. cbn. destruct little; cbn; reflexivity. Qed.
Lemma version_enc_len v : length (c_enc (version_codec little) v) = 4.
Proof. cbn. destruct little; cbn; reflexivity. Qed.

Lemma header_write_len m : 16 <= length (header_write little m).
Proof. unfold header_write. rewrite !app_length, size_enc_len, version_enc_len. cbn. lia. Qed.

(** Reading gives a metric exactly for its header; the rest of the stream remains. *)
Lemma header_read_spec b : bytes b ->
  (exists m rest, b = header_write little m ++ rest /\ header_read little (Some b) = ret (m, Some rest))
  \/ ((forall m rest, b <> header_write little m ++ rest)
      /\ (header_read little (Some b) = throw ExnRuntimeError
          \/ (length b < 16 /\ header_read little (Some b) = Ub UbShortRead))).
Proof.
  intros Hb. unfold header_read.
  assert (Short : length b < 16 -> forall m rest, b <> header_write little m ++ rest).
  { intros H m rest ->. rewrite app_length in H. pose proof (header_write_len m). lia. }
  destruct (Nat.lt_ge_cases (length b) 4) as [L4|L4].
  { right. split; [apply Short; lia|]. right. split; [lia|]. rewrite read_bytes_short by auto. reflexivity. }
  destruct (split_at 4 b L4) as (sg & r1 & -> & Lsg).
  assert (Hr1 : bytes r1) by (apply Forall_app in Hb; tauto).
  rewrite read_bytes_app by auto. cbn [lift bind pbind ret].
  destruct (bytes_eqb sg pkd_signature) eqn:Esg.
  2:{ right. split; [|left; reflexivity]. intros m rest E. unfold header_write in E.
      rewrite <- !app_assoc in E.
      assert (sg = pkd_signature).
      { apply (f_equal (firstn 4)) in E. rewrite !firstn_len_app in E; auto. }
      apply bytes_eqb_eq in H. congruence. }
  apply bytes_eqb_eq in Esg. cbn [negb throw_if ret pbind bind].
  destruct (Nat.lt_ge_cases (length r1) 4) as [L8|L8].
  { right. split; [apply Short; rewrite app_length; lia|]. right. split; [rewrite app_length; lia|].
    rewrite read_bytes_short by auto. reflexivity. }
  destruct (split_at 4 r1 L8) as (vb & r2 & -> & Lvb).
  assert (Hvb : bytes vb /\ bytes r2) by (apply Forall_app in Hr1; tauto).
  destruct Hvb as [Hvb Hr2].
  destruct (uint_dec_enc little 4 vb Hvb Lvb) as (v & Dv & Ev).
  change (2 ^ (8 * Z.of_nat 4) - 1)%Z with (2 ^ 32 - 1)%Z in Dv, Ev. fold (version_codec little) in Dv, Ev.
  rewrite read_bytes_app by auto. cbn [lift bind pbind ret]. rewrite Dv. cbn [lift bind pbind ret].
  destruct (Nat.eqb_spec v 1) as [->|Nv].
  2:{ right. split; [|left; reflexivity]. intros m rest E. unfold header_write in E.
      rewrite <- !app_assoc in E. rewrite Esg in E. apply app_inv_head in E.
      assert (F : vb = c_enc (version_codec little) 1).
      { apply (f_equal (firstn 4)) in E. rewrite !firstn_len_app in E; auto using version_enc_len. }
      assert (K : c_dec (version_codec little) vb = Ok 1).
      { rewrite F. apply (ck_dec _ _ (uint_codec_ok little 4 (2 ^ 32 - 1) ltac:(lia))). lia. }
      congruence. }
  cbn [negb throw_if ret pbind bind]. unfold read_string.
  destruct (Nat.lt_ge_cases (length r2) 8) as [L16|L16].
  { right. assert (length (sg ++ vb ++ r2) < 16) by (rewrite !app_length; lia).
    split; [apply Short; auto|]. right. split; [auto|].
    rewrite read_bytes_short by auto. reflexivity. }
  destruct (split_at 8 r2 L16) as (zb & r3 & -> & Lzb).
  assert (Hzb : bytes zb /\ bytes r3) by (apply Forall_app in Hr2; tauto).
  destruct Hzb as [Hzb Hr3].
  destruct (uint_dec_enc little 8 zb Hzb Lzb) as (z & Dz & Ez).
  change (2 ^ (8 * Z.of_nat 8) - 1)%Z with (2 ^ 64 - 1)%Z in Dz, Ez. fold (size_codec little) in Dz, Ez.
  rewrite read_bytes_app by auto. cbn [lift bind pbind ret]. rewrite Dz. cbn [lift bind pbind ret].
  assert (Hdr : forall m rest, sg ++ vb ++ zb ++ r3 = header_write little m ++ rest -> z = length (metric_string m) /\ r3 = metric_string m ++ rest).
  { intros m rest E. unfold header_write in E. rewrite <- !app_assoc in E.
    rewrite Esg in E. apply app_inv_head in E. rewrite Ev in E. apply app_inv_head in E.
    assert (F : zb = c_enc (size_codec little) (length (metric_string m))).
    { apply (f_equal (firstn 8)) in E. rewrite !firstn_len_app in E; auto using size_enc_len. }
    split.
    - assert (K : c_dec (size_codec little) zb = Ok (length (metric_string m))).
      { rewrite F. apply (ck_dec _ _ (uint_codec_ok little 8 (2 ^ 64 - 1) ltac:(lia))).
        pose proof (metric_string_len m). lia. }
      congruence.
    - rewrite F in E. apply app_inv_head in E. auto. }
  destruct (Z.ltb_spec (2 ^ 63 - 1) (Z.of_nat z)) as [Big|Small].
  { right. split; [|left; reflexivity]. intros m rest E. destruct (Hdr m rest E) as [-> _].
    pose proof (metric_string_len m). lia. }
  cbn [throw_if ret pbind bind].
  destruct (Nat.leb_spec z (length r3)) as [Lz|Lz]; cbn [pbind bind ret].
  - destruct (metric_from_string_spec (firstn z r3)) as [(m & Em & Rm)|[Nm Rm]]; rewrite Rm; cbn [pbind bind ret].
    + left. exists m, (skipn z r3). split; [|reflexivity].
      rewrite Esg, <- Ev, <- Ez. unfold header_write. rewrite <- !app_assoc.
      do 2 f_equal. assert (Ln : length (metric_string m) = z) by (rewrite <- Em; apply firstn_length_le; auto).
      rewrite Ln. f_equal. rewrite <- Em. symmetry. apply firstn_skipn.
    + right. split; [|left; reflexivity]. intros m rest E. destruct (Hdr m rest E) as [-> Er3].
      apply (Nm m). rewrite Er3. apply firstn_len_app. reflexivity.
  - destruct (metric_from_string_spec (r3 ++ repeat 0%Z (z - length r3))) as [(m & Em & Rm)|[Nm Rm]]; rewrite Rm; cbn [pbind bind ret].
    + exfalso. pose proof (metric_string_nonzero m) as NZ. rewrite <- Em in NZ. apply Forall_app in NZ as [_ NZ].
      destruct (z - length r3) as [|d] eqn:Ed; [lia|]. cbn in NZ. inversion NZ; subst. congruence.
    + right. split; [|left; reflexivity]. intros m rest E. destruct (Hdr m rest E) as [-> Er3].
      rewrite Er3, app_length in Lz. lia.
Qed.
End Header.
