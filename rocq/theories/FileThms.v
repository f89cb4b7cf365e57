(** Proofs about the bytes of a saved tree. *)
From Coq Require Import List ZArith Bool Arith Lia.
From Verif Require Import Base ModelBox ModelBuild ModelSearch ModelSerial SpecFile.
Import ListNotations.
Local Open Scope nat_scope.

Lemma bytes_le_number w : forall v, (0 <= v)%Z ->
  bytes_le w v = map (fun k => ((v / 256 ^ Z.of_nat k) mod 256)%Z) (seq 0 w).
Proof.
  induction w as [|w IH]; intros v Hv; cbn [bytes_le seq map]; auto.
  f_equal.
  - change (Z.of_nat 0) with 0%Z. rewrite Z.pow_0_r, Z.div_1_r. reflexivity.
  - rewrite IH by (apply Z.div_pos; lia). rewrite <- seq_shift, map_map. apply map_ext. intros k.
    rewrite Z.div_div by lia. rewrite Nat2Z.inj_succ, Z.pow_succ_r by lia. reflexivity.
Qed.

Lemma rev_seq w : rev (seq 0 w) = map (fun k => w - 1 - k) (seq 0 w).
Proof.
  induction w as [|w IH]; auto.
  rewrite seq_S at 1. rewrite rev_app_distr. cbn [rev app]. rewrite IH. cbn [seq map]. f_equal; [lia|].
  rewrite <- seq_shift, map_map. apply map_ext. intros k. lia.
Qed.
Lemma rev_seq_map {A} (f : nat -> A) w : rev (map f (seq 0 w)) = map (fun k => f (w - 1 - k)) (seq 0 w).
Proof. rewrite <- map_rev, rev_seq, map_map. reflexivity. Qed.

Lemma enc_number little w mx v : c_enc (uint_codec little w mx) v = number little w v.
Proof.
  unfold uint_codec, number. cbn [c_enc]. rewrite bytes_le_number by lia. destruct little; auto.
  rewrite rev_seq_map. reflexivity.
Qed.

Lemma gap_0 a : gap a 0 = 0.
Proof.
  unfold gap. destruct a; auto. rewrite Nat.mod_0_l by lia. rewrite Nat.sub_0_r. apply Nat.mod_same. lia.
Qed.
Lemma gap_mult a k : a <> 0 -> gap a (k * a) = 0.
Proof. intros H. unfold gap. rewrite Nat.mod_mul by auto. rewrite Nat.sub_0_r. apply Nat.mod_same. auto. Qed.

Section File.
Context {T : Type}.
Variables (little : bool) (it : index_type) (tc : codec T) (pads : nat -> nat -> Z).
Hypotheses (H0 : (0 < it_bits it)%Z) (H8 : (it_bits it mod 8 = 0)%Z)
  (AL : c_align tc = c_size tc) (SZ : c_size tc = 4 \/ c_size tc = 8).
Let iw := Z.to_nat (it_bits it / 8).

Lemma iw_pos : iw <> 0.
Proof.
  unfold iw. pose proof (Z.div_mod (it_bits it) 8 ltac:(lia)). lia.
Qed.

Lemma leaf_text pad b e : leaf_bytes little it pad b e = number little iw b ++ number little iw e.
Proof.
  unfold leaf_bytes, struct_put, leaf_layout, field, index_codec. cbn [layout_put layout_end c_size c_align uint_codec].
  fold iw. change (layout_align [(iw, iw); (iw, iw)]) with (Nat.max iw (Nat.max iw 1)).
  replace (Nat.max iw (Nat.max iw 1)) with iw by (pose proof iw_pos; lia).
  pose proof iw_pos as P. rewrite gap_0, !Nat.add_0_l.
  pose proof (gap_mult iw 1 P) as G1. rewrite Nat.mul_1_l in G1. rewrite G1.
  rewrite Nat.add_0_r. pose proof (gap_mult iw 2 P) as G2. replace (2 * iw) with (iw + iw) in G2 by lia. rewrite G2.
  cbn [seq map app]. rewrite !app_nil_r. f_equal; apply enc_number.
Qed.

Lemma branch_bytes_text pad c br : exists hole, length hole = hole_size tc
  /\ branch_bytes little tc pad c br = number little 4 (branch_dim c br) ++ hole ++ branch_text tc c br.
Proof.
  unfold hole_size. destruct c; unfold branch_bytes, struct_put, branch_layout, field, dim_codec;
    cbn [layout_put layout_end c_size c_align uint_codec]; rewrite AL.
  - destruct SZ as [E|E]; rewrite E.
    + exists []. split; [reflexivity|].
      change (layout_align [(4, 4); (4, 4); (4, 4)]) with 4.
      change (gap 4 0) with 0. change (gap 4 (0 + 0 + 4)) with 0. change (gap 4 (0 + 0 + 4 + 0 + 4)) with 0.
      change (gap 4 (0 + 0 + 4 + 0 + 4 + 0 + 4)) with 0.
      cbn [seq map app branch_text branch_dim]. rewrite !app_nil_r. f_equal; [apply enc_number].
    + exists (map pad (seq 4 4)). split; [rewrite map_length, seq_length; reflexivity|].
      change (layout_align [(4, 4); (8, 8); (8, 8)]) with 8.
      change (gap 4 0) with 0. change (gap 8 (0 + 0 + 4)) with 4. change (gap 8 (0 + 0 + 4 + 4 + 8)) with 0.
      change (gap 8 (0 + 0 + 4 + 4 + 8 + 0 + 8)) with 0.
      cbn [seq map app Nat.add branch_text branch_dim]. rewrite !app_nil_r. f_equal; [apply enc_number].
  - destruct SZ as [E|E]; rewrite E.
    + exists []. split; [reflexivity|].
      change (layout_align [(4, 4); (4, 4); (4, 4); (4, 4); (4, 4)]) with 4.
      change (gap 4 0) with 0. change (gap 4 (0 + 0 + 4)) with 0. change (gap 4 (0 + 0 + 4 + 0 + 4)) with 0.
      change (gap 4 (0 + 0 + 4 + 0 + 4 + 0 + 4)) with 0. change (gap 4 (0 + 0 + 4 + 0 + 4 + 0 + 4 + 0 + 4)) with 0.
      change (gap 4 (0 + 0 + 4 + 0 + 4 + 0 + 4 + 0 + 4 + 0 + 4)) with 0.
      cbn [seq map app branch_text branch_dim]. rewrite !app_nil_r. f_equal; [apply enc_number].
    + exists (map pad (seq 4 4)). split; [rewrite map_length, seq_length; reflexivity|].
      change (layout_align [(4, 4); (8, 8); (8, 8); (8, 8); (8, 8)]) with 8.
      change (gap 4 0) with 0. change (gap 8 (0 + 0 + 4)) with 4. change (gap 8 (0 + 0 + 4 + 4 + 8)) with 0.
      change (gap 8 (0 + 0 + 4 + 4 + 8 + 0 + 8)) with 0. change (gap 8 (0 + 0 + 4 + 4 + 8 + 0 + 8 + 0 + 8)) with 0.
      change (gap 8 (0 + 0 + 4 + 4 + 8 + 0 + 8 + 0 + 8 + 0 + 8)) with 0.
      cbn [seq map app Nat.add branch_text branch_dim]. rewrite !app_nil_r. f_equal; [apply enc_number].
Qed.

Lemma write_node_text c nd : forall pos, node_text little iw tc c nd (write_node little it tc pads c nd pos).
Proof.
  induction nd as [b e|br l IHl r IHr]; intros pos; cbn [write_node].
  - rewrite leaf_text. constructor.
  - set (h := bool_enc false ++ branch_bytes little tc (pads pos) c br).
    destruct (branch_bytes_text (pads pos) c br) as (hole & L & E).
    replace h with (0%Z :: number little 4 (branch_dim c br) ++ hole ++ branch_text tc c br) at 1
      by (unfold h; rewrite E; reflexivity).
    rewrite <- app_comm_cons, <- !app_assoc. constructor; auto.
Qed.

Lemma save_text c (t : kd_tree_data c T) : file_text little iw tc t (save_data little it tc pads t).
Proof.
  exists (write_node little it tc pads c (kd_root t) 0). split; [apply write_node_text|].
  unfold save_data, size_codec. rewrite !enc_number. unfold write_array, index_codec. fold iw.
  rewrite (flat_map_ext _ (number little iw)) by (intros v; apply enc_number). reflexivity.
Qed.
End File.

Lemma number_len little w v : length (number little w v) = w.
Proof. unfold number. rewrite map_length, seq_length. reflexivity. Qed.

Lemma diff_app a : forall a' b b', length a = length a' ->
  differences (a ++ b) (a' ++ b') = differences a a' + differences b b'.
Proof.
  unfold differences. induction a as [|x a IH]; intros [|x' a'] b b' L; try discriminate; auto.
  cbn [app combine filter fst snd]. destruct (negb (Z.eqb x x')); cbn [length]; rewrite IH by (cbn in L; lia); lia.
Qed.
Lemma diff_same a : differences a a = 0.
Proof.
  unfold differences. induction a as [|x a IH]; auto. cbn [combine filter fst snd]. rewrite Z.eqb_refl. exact IH.
Qed.
Lemma diff_le a : forall b, differences a b <= length a.
Proof.
  unfold differences. induction a as [|x a IH]; intros [|y b]; cbn [combine filter length]; try lia.
  specialize (IH b). destruct (negb _); cbn [length]; lia.
Qed.

Section Same.
Context {T : Type}.
Variables (little : bool) (iw : nat) (tc : codec T).

Lemma node_texts c nd x : node_text little iw tc c nd x -> forall y, node_text little iw tc c nd y ->
  length x = length y /\ differences x y <= hole_size tc * branches nd.
Proof.
  induction 1 as [b e|br l r hole tl tr L Hl IHl Hr IHr]; intros y Hy; inversion Hy; subst.
  - split; auto. rewrite diff_same. lia.
  - match goal with A : node_text _ _ _ _ l ?a, B : node_text _ _ _ _ r ?b |- _ =>
      destruct (IHl _ A) as [L1 D1]; destruct (IHr _ B) as [L2 D2] end.
    cbn [length branches]. split.
    + rewrite !app_length. lia.
    + rewrite !app_comm_cons. rewrite diff_app by reflexivity. rewrite diff_same.
      rewrite diff_app by congruence. rewrite diff_app by reflexivity. rewrite diff_same.
      rewrite diff_app by assumption.
      pose proof (diff_le hole hole0). nia.
Qed.

Lemma file_texts c (t : kd_tree_data c T) x y : file_text little iw tc t x -> file_text little iw tc t y ->
  length x = length y /\ differences x y <= hole_size tc * branches (kd_root t).
Proof.
  intros (n1 & H1 & ->) (n2 & H2 & ->). destruct (node_texts _ _ _ H1 _ H2) as [L D].
  rewrite !app_length. split; [lia|].
  repeat (rewrite diff_app by reflexivity; rewrite diff_same, Nat.add_0_l). exact D.
Qed.

Lemma no_differences x : forall y, length x = length y -> differences x y = 0 -> x = y.
Proof.
  unfold differences. induction x as [|a x IH]; intros [|b y] L D; try discriminate; auto.
  cbn [combine filter fst snd] in D. destruct (Z.eqb a b) eqn:E; cbn [negb length] in D; [|discriminate].
  apply Z.eqb_eq in E. subst b. f_equal. apply IH; auto.
Qed.
End Same.

Lemma same_file {T} (little : bool) (it : index_type) (tc : codec T) :
  (0 < it_bits it)%Z -> (it_bits it mod 8 = 0)%Z -> c_align tc = c_size tc -> c_size tc = 4 ->
  forall (pads pads' : nat -> nat -> Z) (tree : kd_tree T),
  kd_tree_save little it tc pads tree = kd_tree_save little it tc pads' tree.
Proof.
  intros H0 H8 AL SZ pads pads' tree. unfold kd_tree_save.
  destruct (file_texts _ _ _ _ _ _ _ (save_text little it tc pads H0 H8 AL (or_introl SZ) _ (kt_data tree))
    (save_text little it tc pads' H0 H8 AL (or_introl SZ) _ (kt_data tree))) as [L D].
  apply no_differences; auto. unfold hole_size in D. rewrite SZ in D. change (4 =? 8) with false in D. cbn [Nat.mul] in D. lia.
Qed.

Lemma similar_file {T} (little : bool) (it : index_type) (tc : codec T) :
  (0 < it_bits it)%Z -> (it_bits it mod 8 = 0)%Z -> c_align tc = c_size tc -> c_size tc = 4 \/ c_size tc = 8 ->
  forall (pads pads' : nat -> nat -> Z) (tree : kd_tree T),
  length (kd_tree_save little it tc pads tree) = length (kd_tree_save little it tc pads' tree)
  /\ differences (kd_tree_save little it tc pads tree) (kd_tree_save little it tc pads' tree)
     <= 4 * branches (kd_root (kt_data tree)).
Proof.
  intros H0 H8 AL SZ pads pads' tree. unfold kd_tree_save.
  destruct (file_texts _ _ _ _ _ _ _ (save_text little it tc pads H0 H8 AL SZ _ (kt_data tree))
    (save_text little it tc pads' H0 H8 AL SZ _ (kt_data tree))) as [L D].
  split; auto. unfold hole_size in D. destruct SZ as [E|E]; rewrite E in D; [change (4 =? 8) with false in D|change (8 =? 8) with true in D]; cbv iota in D; lia.
Qed.

Lemma tree_text {T} (little : bool) (it : index_type) (tc : codec T) :
  (0 < it_bits it)%Z -> (it_bits it mod 8 = 0)%Z -> c_align tc = c_size tc -> c_size tc = 4 \/ c_size tc = 8 ->
  forall (pads : nat -> nat -> Z) (tree : kd_tree T),
  file_text little (Z.to_nat (it_bits it / 8)) tc (kt_data tree) (kd_tree_save little it tc pads tree).
Proof. intros H0 H8 AL SZ pads tree. exact (save_text little it tc pads H0 H8 AL SZ _ (kt_data tree)). Qed.
