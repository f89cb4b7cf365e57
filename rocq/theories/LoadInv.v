(** Loading any bytes: what comes out is what the bytes say. *)
From Coq Require Import List ZArith Bool Arith Lia.
From Verif Require Import Base ModelBox ModelBuild ModelSearch ModelSerial Spec SpecSerial SpecShape SpecLoad Lemmas
  Visitors SerialThms.
Import ListNotations.
Local Open Scope nat_scope.

Notation byte := (fun b => (0 <= b < 256)%Z).

Lemma bytes_value bs : Forall byte bs -> bytes_le (length bs) (value_le bs) = bs.
Proof.
  induction 1 as [|b bs Hb _ IH]; cbn [length bytes_le value_le]; auto.
  replace (b + 256 * value_le bs)%Z with (b + value_le bs * 256)%Z by lia.
  rewrite Z.mod_add, Z.div_add, Z.mod_small, Z.div_small by lia. rewrite Z.add_0_l, IH. reflexivity.
Qed.
Lemma value_range bs : Forall byte bs -> (0 <= value_le bs < 2 ^ (8 * Z.of_nat (length bs)))%Z.
Proof.
  induction 1 as [|b bs Hb _ IH]; cbn [length value_le]; [cbn; lia|].
  replace (8 * Z.of_nat (S (length bs)))%Z with (8 + 8 * Z.of_nat (length bs))%Z by lia.
  rewrite Z.pow_add_r by lia. change (2 ^ 8)%Z with 256%Z. lia.
Qed.

Lemma uint_exact little w mx : codec_exact (uint_codec little w mx) (fun _ => True).
Proof.
  intros bs v L F D _. cbn [uint_codec c_size c_dec c_enc] in *.
  destruct (Z.leb_spec (value_le (if little then bs else rev bs)) mx); [|discriminate]. injection D as <-.
  destruct little.
  - rewrite Z2Nat.id by apply (value_range bs F). subst w. apply bytes_value; auto.
  - assert (F' : Forall byte (rev bs)) by (apply Forall_rev; auto).
    rewrite Z2Nat.id by apply (value_range _ F'). subst w. rewrite <- (rev_length bs), bytes_value by auto.
    apply rev_involutive.
Qed.

Lemma bytes_le_mod w : forall v, bytes_le w (v - 2 ^ (8 * Z.of_nat w)) = bytes_le w v.
Proof.
  induction w as [|w IH]; intros v; cbn [bytes_le]; auto.
  replace (8 * Z.of_nat (S w))%Z with (8 + 8 * Z.of_nat w)%Z by lia.
  rewrite Z.pow_add_r by lia. change (2 ^ 8)%Z with 256%Z.
  replace (v - 256 * 2 ^ (8 * Z.of_nat w))%Z with (v + (- 2 ^ (8 * Z.of_nat w)) * 256)%Z by lia.
  rewrite Z.mod_add, Z.div_add by lia. f_equal. apply IH.
Qed.
Lemma int_exact little w : codec_exact (int_codec little w) (fun _ => True).
Proof.
  intros bs v L F D _. cbn [int_codec c_size c_dec c_enc] in *.
  apply (f_equal (fun r => match r with Ok x => x | _ => v end)) in D. cbv beta iota zeta in D.
  assert (F' : Forall byte (rev bs)) by (apply Forall_rev; auto).
  destruct little.
  - subst w v. destruct (2 * value_le bs <? 2 ^ (8 * Z.of_nat (length bs)))%Z; rewrite ?bytes_le_mod;
      apply bytes_value; auto.
  - subst w v. rewrite <- (rev_length bs).
    destruct (2 * value_le (rev bs) <? 2 ^ (8 * Z.of_nat (length (rev bs))))%Z; rewrite ?bytes_le_mod;
      rewrite bytes_value by auto; apply rev_involutive.
Qed.

(** * Structs *)
Lemma layout_end_ge fs : forall off, off <= layout_end off fs.
Proof. induction fs as [|[sz al] fs IH]; intros off; cbn [layout_end]; auto. specialize (IH (off + gap al off + sz)). lia. Qed.

Lemma map_nth_seq (bs : list Z) d : forall k off, off + k <= length bs ->
  map (fun j => nth j bs d) (seq off k) = firstn k (skipn off bs).
Proof.
  induction k as [|k IH]; intros off H; cbn [seq map]; auto.
  rewrite IH by lia. destruct (skipn off bs) as [|x r] eqn:E.
  { apply (f_equal (@length _)) in E. rewrite skipn_length in E. simpl in E. lia. }
  cbn [firstn]. f_equal.
  - rewrite <- (firstn_skipn off bs), E, app_nth2; rewrite firstn_length_le by lia; auto.
    rewrite Nat.sub_diag. reflexivity.
  - f_equal. replace (Datatypes.S off) with (off + 1) by lia. rewrite <- skipn_skipn_add, E. reflexivity.
Qed.

Lemma firstn_add {A} (l : list A) a b : firstn (a + b) l = firstn a l ++ firstn b (skipn a l).
Proof. revert l. induction a as [|a IH]; intros [|x l]; cbn [Nat.add firstn skipn app]; auto; rewrite ?firstn_nil; auto. f_equal. auto. Qed.

Lemma layout_put_get pad bs fs : (forall j, j < length bs -> pad j = nth j bs 0%Z) ->
  forall off, layout_end off fs <= length bs ->
  layout_put pad off fs (layout_get off fs bs) = firstn (layout_end off fs - off) (skipn off bs).
Proof.
  intros HP. induction fs as [|[sz al] fs IH]; intros off H; cbn [layout_put layout_get layout_end] in *.
  - rewrite Nat.sub_diag. reflexivity.
  - pose proof (layout_end_ge fs (off + gap al off + sz)) as G. rewrite IH by auto.
    rewrite (map_ext_in _ (fun j => nth j bs 0%Z)) by (intros j Hj; apply in_seq in Hj; apply HP; lia).
    rewrite map_nth_seq by lia.
    set (e := layout_end (off + gap al off + sz) fs) in *.
    replace (e - off) with (gap al off + (sz + (e - (off + gap al off + sz)))) by lia.
    rewrite !firstn_add, !skipn_skipn_add. rewrite ?Nat.add_assoc. reflexivity.
Qed.

Lemma struct_put_get pad bs fs : (forall j, j < length bs -> pad j = nth j bs 0%Z) ->
  length bs = layout_size fs -> struct_put pad fs (layout_get 0 fs bs) = bs.
Proof.
  intros HP L. unfold struct_put. unfold layout_size in L.
  rewrite layout_put_get by (auto; lia). rewrite Nat.sub_0_r. cbn [skipn].
  rewrite (map_ext_in _ (fun j => nth j bs 0%Z)) by (intros j Hj; apply in_seq in Hj; apply HP; lia).
  rewrite map_nth_seq by lia. rewrite <- firstn_add, firstn_all2; auto. lia.
Qed.

Lemma layout_get_len bs fs : forall off, layout_end off fs <= length bs ->
  Forall2 (fun f m => length m = fst f /\ (Forall byte bs -> Forall byte m)) fs (layout_get off fs bs).
Proof.
  induction fs as [|[sz al] fs IH]; intros off H; cbn [layout_get layout_end] in *; constructor.
  - pose proof (layout_end_ge fs (off + gap al off + sz)). split.
    + cbn [fst]. rewrite firstn_length_le; auto. rewrite skipn_length. lia.
    + intros F. apply Forall_forall. intros x Hx. rewrite Forall_forall in F. apply F.
      rewrite <- (firstn_skipn (off + gap al off) bs). apply in_or_app; right.
      rewrite <- (firstn_skipn sz (skipn (off + gap al off) bs)). apply in_or_app; left; auto.
  - apply IH. auto.
Qed.

Lemma read_bytes_inv n b x : read_bytes n (Some b) = Ok x ->
  exists r, (fst x = firstn n b /\ snd x = Some r) /\ b = firstn n b ++ r /\ length (firstn n b) = n.
Proof.
  unfold read_bytes. destruct (Nat.leb_spec n (length b)); [|discriminate]. intros [= <-].
  eexists. split; [split; reflexivity|]. split; [symmetry; apply firstn_skipn|apply firstn_length_le; auto].
Qed.

Lemma decode_inv {A} (c : codec A) P : codec_exact c P ->
  forall n bs l, length bs = n * c_size c -> Forall byte bs ->
  decode_all c n bs = Ok l -> Forall P l -> write_array c l = bs /\ length l = n.
Proof.
  intros HE. induction n as [|n IH]; intros bs l L F D FP; cbn [decode_all] in D.
  - injection D as <-. destruct bs; [auto|discriminate].
  - destruct (c_dec c (firstn (c_size c) bs)) as [a| |] eqn:Ea; try discriminate. cbn [bind] in D.
    destruct (decode_all c n (skipn (c_size c) bs)) as [r| |] eqn:Er; try discriminate. cbn [bind] in D.
    injection D as <-. inversion FP as [|? ? Pa Pr]; subst.
    change (Datatypes.S n * c_size c) with (c_size c + n * c_size c) in L.
    assert (Ls : length (skipn (c_size c) bs) = n * c_size c) by (rewrite skipn_length; lia).
    assert (La : length (firstn (c_size c) bs) = c_size c) by (apply firstn_length_le; lia).
    rewrite <- (firstn_skipn (c_size c) bs) in F. apply Forall_app in F as [F1 F2].
    destruct (IH _ _ Ls F2 Er Pr) as [E1 E2].
    split; [|cbn [length]; lia]. unfold write_array in *. cbn [flat_map]. rewrite E1, (HE _ _ La F1 Ea Pa).
    apply firstn_skipn.
Qed.
Lemma decode_len {A} (c : codec A) : forall n bs l, decode_all c n bs = Ok l -> length l = n.
Proof.
  induction n as [|n IH]; intros bs l D; cbn [decode_all] in D; [injection D as <-; auto|].
  destruct (c_dec c (firstn (c_size c) bs)) as [a| |]; try discriminate. cbn [bind] in D.
  destruct (decode_all c n (skipn (c_size c) bs)) as [r| |] eqn:Er; try discriminate. injection D as <-.
  cbn [length]. f_equal. eapply IH; eauto.
Qed.

Lemma read_array_inv {A} (c : codec A) n init b x : read_array c n init (Some b) = Ok x ->
  (exists l r, x = (l, Some r) /\ b = firstn (n * c_size c) b ++ r /\ length (firstn (n * c_size c) b) = n * c_size c
     /\ decode_all c n (firstn (n * c_size c) b) = Ok l)
  \/ snd x = None.
Proof.
  unfold read_array. destruct (Nat.leb_spec (n * c_size c) (length b)).
  - destruct (decode_all c n (firstn (n * c_size c) b)) as [l| |] eqn:E; try discriminate. intros [= <-]. left.
    exists l, (skipn (n * c_size c) b). split; auto. split; [symmetry; apply firstn_skipn|].
    split; [apply firstn_length_le; auto|auto].
  - intros [= <-]. right; auto.
Qed.

Section Trees.
Context {T : Type} {SC : Scalar T}.
Variables (little : bool) (it : index_type) (tc : codec T) (P : T -> Prop).
Local Notation wn := (write_node little it tc).
Local Notation rn := (read_node little it tc).

Local Notation LS := (layout_size (leaf_layout little it)).
Local Notation BS c := (layout_size (branch_layout little tc c)).

Lemma leaf_value_inv pad bs be : Forall byte bs -> length bs = LS ->
  (forall j, j < length bs -> pad j = nth j bs 0%Z) ->
  leaf_value little it bs = Ok be -> leaf_bytes little it pad (fst be) (snd be) = bs.
Proof.
  intros F L HP H. unfold leaf_value in H. unfold leaf_bytes.
  pose proof (layout_get_len bs (leaf_layout little it) 0 ltac:(unfold layout_size in L; lia)) as G.
  pose proof (struct_put_get pad bs (leaf_layout little it) HP L) as EP. rewrite <- EP.
  destruct (layout_get 0 (leaf_layout little it) bs) as [|x [|y [|z r]]] eqn:E; try discriminate.
  unfold leaf_layout in G. inversion G as [|? ? ? ? [Lx Fx] G']; subst. inversion G' as [|? ? ? ? [Ly Fy] G'']; subst.
  destruct (c_dec (index_codec little it) x) as [x'| |] eqn:Ex; try discriminate. cbn [bind] in H.
  destruct (c_dec (index_codec little it) y) as [y'| |] eqn:Ey; try discriminate. cbn [bind] in H.
  injection H as <-. cbn [fst snd].
  f_equal. f_equal; [|f_equal]; eapply uint_exact; eauto.
Qed.

Hypothesis TE : codec_exact tc P.

Ltac dec_step H := match type of H with
  | context [c_dec ?c ?x] => let v := fresh "v" in let E := fresh "E" in
      destruct (c_dec c x) as [v| |] eqn:E; try discriminate; cbn [bind] in H end.
Lemma branch_value_inv pad c bs br : Forall byte bs -> length bs = BS c ->
  (forall j, j < length bs -> pad j = nth j bs 0%Z) ->
  branch_value little tc c bs = Ok br -> Forall P (branch_scalars br) -> branch_bytes little tc pad c br = bs.
Proof.
  intros F L HP H FP.
  pose proof (layout_get_len bs (branch_layout little tc c) 0 ltac:(unfold layout_size in L; lia)) as G.
  pose proof (struct_put_get pad bs (branch_layout little tc c) HP L) as EP.
  destruct c; unfold branch_value in H; unfold branch_bytes; rewrite <- EP at 1.
  - destruct (layout_get 0 (branch_layout little tc Euclidean) bs) as [|x [|y [|z [|u r]]]] eqn:E; try discriminate.
    cbn [branch_layout] in G.
    repeat match goal with G : Forall2 _ (_ :: _) (_ :: _) |- _ => inversion G; clear G; subst end.
    repeat dec_step H. injection H as <-. cbn [branch_scalars] in FP.
    repeat match goal with G : Forall P (_ :: _) |- _ => inversion G; clear G; subst end.
    cbn [bs_split_dim bs_left_max bs_right_min] in *.
    f_equal. f_equal; [|f_equal; [|f_equal]]; first [eapply uint_exact; eauto; tauto|eapply TE; eauto; tauto].
  - destruct (layout_get 0 (branch_layout little tc Topological) bs) as [|x [|y [|z [|u [|w [|t r]]]]]] eqn:E; try discriminate.
    cbn [branch_layout] in G.
    repeat match goal with G : Forall2 _ (_ :: _) (_ :: _) |- _ => inversion G; clear G; subst end.
    repeat dec_step H. injection H as <-. cbn [branch_scalars] in FP.
    repeat match goal with G : Forall P (_ :: _) |- _ => inversion G; clear G; subst end.
    cbn [bd_split_dim bd_left_min bd_left_max bd_right_min bd_right_max] in *.
    f_equal. f_equal; [|f_equal; [|f_equal; [|f_equal; [|f_equal]]]];
      first [eapply uint_exact; eauto; tauto|eapply TE; eauto; tauto].
Qed.

Definition node_size (c : category) (nd : node (branch_data c T)) : nat :=
  leaf_count nd * (1 + LS) + branch_count nd * (1 + BS c).

(** What was read is what [nb] says, and only these bytes were consumed. *)
Lemma read_node_inv c : forall fuel bs nd s, rn fuel c (Some bs) = Ok (nd, s) ->
  exists nb rest, bs = nb ++ rest /\ s = Some rest /\ length nb = node_size c nd
  /\ (Forall byte bs -> Forall P (node_scalars nd) ->
      forall pads pos, (forall p j, pos <= p -> p - pos + 1 + j < length nb -> pads p j = nth (p - pos + 1 + j) nb 0%Z) ->
      wn pads c nd pos = nb).
Proof.
  induction fuel as [|fuel IH]; intros bs nd s H; [discriminate|]. cbn [read_node] in H.
  destruct (read_bytes 1 (Some bs)) as [[b s1]| |] eqn:E1; try discriminate. cbn [bind] in H.
  apply read_bytes_inv in E1 as (r1 & [X Y] & Eb & L1). cbn [fst snd] in X, Y. subst.
  destruct (bool_dec (firstn 1 bs)) as [[|]| |] eqn:Ed; try discriminate; cbn [bind] in H.
  - destruct (read_bytes LS (Some r1)) as [[lb s2]| |] eqn:E2; try discriminate. cbn [bind] in H.
    apply read_bytes_inv in E2 as (r2 & [X Y] & Eb2 & L2). cbn [fst snd] in X, Y. subst.
    destruct (leaf_value little it (firstn LS r1)) as [be| |] eqn:E3; try discriminate. cbn [bind] in H.
    injection H as <- <-.
    assert (E0 : firstn 1 bs = bool_enc true).
    { revert Ed L1. destruct (firstn 1 bs) as [|x [|y l]]; intros Ed L1; try discriminate. cbn [bool_dec] in Ed.
      destruct x as [|[?|?|]|?]; try discriminate. reflexivity. }
    exists (firstn 1 bs ++ firstn LS r1), r2. split; [rewrite <- app_assoc, <- Eb2; exact Eb|]. split; auto. split.
    { unfold node_size. cbn [leaf_count branch_count]. rewrite app_length, L1, L2. lia. }
    intros F _ pads pos HP. cbn [write_node]. rewrite E0 in *. f_equal.
    rewrite Eb in F. apply Forall_app in F as [_ F]. rewrite Eb2 in F. apply Forall_app in F as [F _].
    apply (leaf_value_inv (pads pos) _ be); auto.
    intros j Hj. rewrite HP by (rewrite ?app_length; cbn [length bool_enc]; lia).
    replace (pos - pos + 1 + j) with (Datatypes.S j) by lia. reflexivity.
  - destruct (read_bytes (BS c) (Some r1)) as [[bb s2]| |] eqn:E2; try discriminate. cbn [bind] in H.
    apply read_bytes_inv in E2 as (r2 & [X Y] & Eb2 & L2). cbn [fst snd] in X, Y. subst.
    destruct (branch_value little tc c (firstn (BS c) r1)) as [br| |] eqn:E3; try discriminate. cbn [bind] in H.
    destruct (rn fuel c (Some r2)) as [[l s3]| |] eqn:El; try discriminate. cbn [bind] in H.
    apply IH in El as (nl & r3 & -> & -> & Ll & Wl).
    destruct (rn fuel c (Some r3)) as [[r s4]| |] eqn:Er; try discriminate. cbn [bind] in H.
    apply IH in Er as (nr & r4 & -> & -> & Lr & Wr). injection H as <- <-.
    assert (E0 : firstn 1 bs = bool_enc false).
    { revert Ed L1. destruct (firstn 1 bs) as [|x [|y l']]; intros Ed L1; try discriminate. cbn [bool_dec] in Ed.
      destruct x as [|[?|?|]|?]; try discriminate. reflexivity. }
    set (h := firstn 1 bs ++ firstn (BS c) r1) in *.
    assert (Lh : length h = 1 + BS c) by (unfold h; rewrite app_length, L1, L2; reflexivity).
    exists (h ++ nl ++ nr), r4.
    assert (EB : bs = h ++ nl ++ nr ++ r4) by (unfold h; rewrite <- !app_assoc, <- Eb2; exact Eb).
    split; [rewrite EB at 1; rewrite <- !app_assoc; reflexivity|]. split; auto. split.
    { rewrite !app_length, Lh, Ll, Lr. unfold node_size. cbn [leaf_count branch_count]. lia. }
    intros F FP pads pos HP. cbn [node_scalars] in FP. apply Forall_app in FP as [FB FP]. apply Forall_app in FP as [FL FR].
    rewrite !app_length, Lh in HP.
    assert (Fh : Forall byte h /\ Forall byte (nl ++ nr ++ r4)) by (apply Forall_app; rewrite <- EB; auto).
    destruct Fh as [Fh Fn]. cbn [write_node].
    assert (EH : bool_enc false ++ branch_bytes little tc (pads pos) c br = h).
    { unfold h. rewrite E0. f_equal. apply branch_value_inv; auto.
      - unfold h in Fh. apply Forall_app in Fh as [_ Fh]. exact Fh.
      - intros j Hj. rewrite HP by lia. unfold h. rewrite E0. replace (pos - pos + 1 + j) with (Datatypes.S j) by lia.
        cbn [bool_enc app nth]. rewrite app_nth1 by auto. reflexivity. }
    rewrite EH, Lh.
    assert (EL : wn pads c l (pos + (1 + BS c)) = nl).
    { apply Wl; auto. intros p j Hp Hj. rewrite HP by lia.
      rewrite app_nth2 by lia. rewrite app_nth1 by lia. f_equal. lia. }
    rewrite EL. f_equal. f_equal.
    apply Wr; auto.
    { apply Forall_app in Fn as [_ Fn]. exact Fn. }
    intros p j Hp Hj. rewrite HP by lia. rewrite app_nth2 by lia. rewrite app_nth2 by lia. f_equal. lia.
Qed.

(** * The whole file *)
Lemma load_inv c bs data s : load_data little it tc c (Some bs) = Ok (data, s) ->
  exists fb rest, bs = fb ++ rest /\ s = Some rest
  /\ length (box_max (kd_root_box data)) = length (box_min (kd_root_box data))
  /\ length fb = 16 + length (kd_indices data) * c_size (index_codec little it)
                 + 2 * (length (box_min (kd_root_box data)) * c_size tc) + node_size c (kd_root data)
  /\ (Forall byte bs -> Forall P (tree_scalars data) ->
      exists pads, save_data little it tc pads data = fb).
Proof.
  intros H. unfold load_data in H.
  destruct (read_bytes (c_size (size_codec little)) (Some bs)) as [[b s1]| |] eqn:E1; try discriminate. cbn [bind] in H.
  apply read_bytes_inv in E1 as (r1 & [X Y] & Eb1 & L1). cbn [fst snd] in X, Y. subst b s1. set (b1 := firstn _ bs) in *.
  destruct (c_dec (size_codec little) b1) as [sdim| |] eqn:D1; try discriminate. cbn [bind] in H.
  destruct (read_bytes (c_size (size_codec little)) (Some r1)) as [[b s2]| |] eqn:E2; try discriminate. cbn [bind] in H.
  apply read_bytes_inv in E2 as (r2 & [X Y] & Eb2 & L2). cbn [fst snd] in X, Y. subst b s2. set (b2 := firstn _ r1) in *.
  destruct (c_dec (size_codec little) b2) as [size| |] eqn:D2; try discriminate. cbn [bind] in H.
  destruct (read_array (index_codec little it) size 0 (Some r2)) as [[idx s3]| |] eqn:E3; try discriminate. cbn [bind] in H.
  apply read_array_inv in E3 as [(? & r3 & [= -> ->] & Eb3 & L3 & D3)|X3].
  2:{ cbn [snd] in X3. subst s3. cbn [read_array bind] in H. cbn [read_node read_bytes bind] in H. discriminate. }
  destruct (read_array tc sdim s_zero (Some r3)) as [[mn s4]| |] eqn:E4; try discriminate. cbn [bind] in H.
  apply read_array_inv in E4 as [(? & r4 & [= -> ->] & Eb4 & L4 & D4)|X4].
  2:{ cbn [snd] in X4. subst s4. cbn [read_array bind] in H. cbn [read_node read_bytes bind] in H. discriminate. }
  destruct (read_array tc sdim s_zero (Some r4)) as [[mx s5]| |] eqn:E5; try discriminate. cbn [bind] in H.
  apply read_array_inv in E5 as [(? & r5 & [= -> ->] & Eb5 & L5 & D5)|X5].
  2:{ cbn [snd] in X5. subst s5. cbn [read_node read_bytes bind] in H. discriminate. }
  destruct (rn (S (length r5)) c (Some r5)) as [[root s6]| |] eqn:E6; try discriminate. cbn [bind] in H.
  injection H as <- <-. cbn [kd_indices kd_root_box kd_root box_min box_max].
  apply read_node_inv in E6 as (nb & rest & -> & -> & L6 & W6).
  set (b3 := firstn _ r2) in *. set (b4 := firstn _ r3) in *. set (b5 := firstn _ r4) in *.
  assert (EB : bs = (b1 ++ b2 ++ b3 ++ b4 ++ b5 ++ nb) ++ rest).
  { rewrite Eb1 at 1. rewrite Eb2 at 1. rewrite Eb3 at 1. rewrite Eb4 at 1. rewrite Eb5 at 1.
    rewrite <- !app_assoc. reflexivity. }
  exists (b1 ++ b2 ++ b3 ++ b4 ++ b5 ++ nb), rest. split; [exact EB|]. split; auto.
  pose proof (decode_len _ _ _ _ D3) as N3. pose proof (decode_len _ _ _ _ D4) as N4. pose proof (decode_len _ _ _ _ D5) as N5.
  split; [congruence|]. split.
  { rewrite !app_length, L1, L2, L3, L4, L5, L6, N3, N4. change (c_size (size_codec little)) with 8. lia. }
  intros F FP. rewrite EB in F. apply Forall_app in F as [F Fr].
  pose proof F as FA. repeat rewrite Forall_app in FA. destruct FA as (F1 & F2 & F3 & F4 & F5 & F6).
  unfold tree_scalars in FP. cbn [kd_indices kd_root_box kd_root box_min box_max] in FP.
  rewrite !Forall_app in FP. destruct FP as (P1 & P2 & P3).
  exists (fun p j => nth (p + 1 + j) nb 0%Z).
  unfold save_data. cbn [kd_indices kd_root_box kd_root box_min box_max]. rewrite N3, N4.
  f_equal; [eapply uint_exact; eauto|]. f_equal; [eapply uint_exact; eauto|].
  f_equal; [apply (decode_inv _ (fun _ => True) (uint_exact _ _ _) _ _ _ L3 F3 D3); apply Forall_forall; auto|].
  f_equal; [apply (decode_inv _ _ TE _ _ _ L4 F4 D4 P1)|].
  f_equal; [apply (decode_inv _ _ TE _ _ _ L5 F5 D5 P2)|].
  apply W6; auto. { apply Forall_app; auto. }
  intros p j _ _. f_equal. lia.
Qed.

Lemma branch_height {B} (nd : node B) : height nd <= branch_count nd.
Proof. induction nd; cbn [height branch_count]; lia. Qed.

(** * Loading ends *)
Hypothesis TD : forall bs, c_dec tc bs <> OutOfFuel.
Lemma uint_dec_fuel w mx bs : c_dec (uint_codec little w mx) bs <> OutOfFuel.
Proof. cbn [c_dec uint_codec]. destruct (_ <=? mx)%Z; discriminate. Qed.
Lemma decode_fuel {A} (cd : codec A) : (forall bs, c_dec cd bs <> OutOfFuel) -> forall n bs, decode_all cd n bs <> OutOfFuel.
Proof.
  intros HD. induction n as [|n IH]; intros bs; cbn [decode_all]; [discriminate|].
  specialize (HD (firstn (c_size cd) bs)). destruct (c_dec cd (firstn (c_size cd) bs)); cbn [bind]; try congruence.
  specialize (IH (skipn (c_size cd) bs)). destruct (decode_all cd n (skipn (c_size cd) bs)); cbn [bind]; congruence.
Qed.
Lemma read_array_fuel {A} (cd : codec A) n init s : (forall bs, c_dec cd bs <> OutOfFuel) -> read_array cd n init s <> OutOfFuel.
Proof.
  intros HD. destruct s as [b|]; cbn [read_array]; [|discriminate]. destruct (_ <=? _); [|discriminate].
  pose proof (decode_fuel cd HD n (firstn (n * c_size cd) b)) as K.
  destruct (decode_all cd n (firstn (n * c_size cd) b)); cbn [bind]; congruence.
Qed.
Lemma read_bytes_fuel n s : read_bytes n s <> OutOfFuel.
Proof. destruct s; cbn [read_bytes]; [destruct (_ <=? _)|]; discriminate. Qed.
Lemma leaf_value_fuel bs : leaf_value little it bs <> OutOfFuel.
Proof.
  assert (K : forall x, c_dec (index_codec little it) x <> OutOfFuel) by (intros x; apply uint_dec_fuel).
  unfold leaf_value, leaf_layout, field. cbn [layout_get].
  repeat (match goal with |- context [c_dec ?c ?x] => pose proof (K x); destruct (c_dec c x) end;
    cbn [bind]; try congruence).
Qed.
Lemma branch_value_fuel c bs : branch_value little tc c bs <> OutOfFuel.
Proof.
  assert (K : forall x, c_dec (dim_codec little) x <> OutOfFuel) by (intros x; apply uint_dec_fuel).
  destruct c; unfold branch_value, branch_layout, field; cbn [layout_get];
  repeat (match goal with
    | |- context [c_dec (dim_codec little) ?x] => pose proof (K x); destruct (c_dec (dim_codec little) x)
    | |- context [c_dec tc ?x] => pose proof (TD x); destruct (c_dec tc x)
    end; cbn [bind]; try congruence).
Qed.

Lemma read_node_fuel c : forall fuel bs, length bs < fuel -> rn fuel c (Some bs) <> OutOfFuel.
Proof.
  induction fuel as [|fuel IH]; intros bs H; [lia|]. cbn [read_node].
  destruct (read_bytes 1 (Some bs)) as [[b s1]| |] eqn:E1; cbn [bind]; try discriminate.
  2:{ exfalso. eapply read_bytes_fuel; eauto. }
  apply read_bytes_inv in E1 as (r1 & [X Y] & Eb & L1). cbn [fst snd] in X, Y. subst.
  apply (f_equal (@length _)) in Eb. rewrite app_length, L1 in Eb.
  destruct (bool_dec (firstn 1 bs)) as [[|]| |] eqn:Ed; cbn [bind]; try discriminate.
  - destruct (read_bytes LS (Some r1)) as [[lb s2]| |] eqn:E2; cbn [bind]; try discriminate.
    2:{ exfalso. eapply read_bytes_fuel; eauto. }
    pose proof (leaf_value_fuel lb). destruct (leaf_value little it lb); cbn [bind]; congruence.
  - destruct (read_bytes (BS c) (Some r1)) as [[bb s2]| |] eqn:E2; cbn [bind]; try discriminate.
    2:{ exfalso. eapply read_bytes_fuel; eauto. }
    apply read_bytes_inv in E2 as (r2 & [X Y] & Eb2 & L2). cbn [fst snd] in X, Y. subst.
    apply (f_equal (@length _)) in Eb2. rewrite app_length, L2 in Eb2.
    pose proof (branch_value_fuel c (firstn (BS c) r1)).
    destruct (branch_value little tc c (firstn (BS c) r1)); cbn [bind]; try congruence.
    pose proof (IH r2 ltac:(lia)). destruct (rn fuel c (Some r2)) as [[l s3]| |] eqn:El; cbn [bind]; try congruence.
    apply read_node_inv in El as (nl & r3 & -> & -> & Ll & _). rewrite app_length in *.
    pose proof (IH r3 ltac:(lia)). destruct (rn fuel c (Some r3)) as [[r s4]| |]; cbn [bind]; congruence.
  - exfalso. unfold bool_dec in Ed. destruct (firstn 1 bs) as [|[|[?|?|]|?] [|? ?]]; discriminate.
Qed.

Lemma load_ends c s : load_data little it tc c s <> OutOfFuel.
Proof.
  unfold load_data.
  pose proof (read_bytes_fuel (c_size (size_codec little)) s). destruct (read_bytes (c_size (size_codec little)) s) as [[b s1]| |]; cbn [bind]; try congruence.
  pose proof (uint_dec_fuel 8 (2 ^ 64 - 1) b) as K. change (uint_codec little 8 (2 ^ 64 - 1)) with (size_codec little) in K.
  destruct (c_dec (size_codec little) b) as [sdim| |]; cbn [bind]; try congruence.
  pose proof (read_bytes_fuel (c_size (size_codec little)) s1). destruct (read_bytes (c_size (size_codec little)) s1) as [[b2 s2]| |]; cbn [bind]; try congruence.
  pose proof (uint_dec_fuel 8 (2 ^ 64 - 1) b2) as K2. change (uint_codec little 8 (2 ^ 64 - 1)) with (size_codec little) in K2.
  destruct (c_dec (size_codec little) b2) as [size| |]; cbn [bind]; try congruence.
  pose proof (read_array_fuel (index_codec little it) size 0 s2 (uint_dec_fuel _ _)).
  destruct (read_array (index_codec little it) size 0 s2) as [[idx s3]| |]; cbn [bind]; try congruence.
  pose proof (read_array_fuel tc sdim s_zero s3 TD). destruct (read_array tc sdim s_zero s3) as [[mn s4]| |]; cbn [bind]; try congruence.
  pose proof (read_array_fuel tc sdim s_zero s4 TD). destruct (read_array tc sdim s_zero s4) as [[mx s5]| |]; cbn [bind]; try congruence.
  destruct s5 as [b5|].
  - pose proof (read_node_fuel c (S (length b5)) b5 ltac:(lia)). destruct (rn (S (length b5)) c (Some b5)) as [[root s6]| |]; cbn [bind]; congruence.
  - cbn [read_node read_bytes bind]. discriminate.
Qed.
End Trees.

(** * Long chains *)
Fixpoint chain (k : nat) : node (branch_data Euclidean Z) :=
  match k with
  | O => Leaf 0 0
  | S k' => @Branch (branch_data Euclidean Z) (BranchSingle 0 0%Z 0%Z) (chain k') (Leaf 0 0)
  end.
Definition chain_data (k : nat) : kd_tree_data Euclidean Z := KdTreeData [] (Box [] []) (chain k).

Lemma chain_counts k : leaf_count (chain k) = S k /\ branch_count (chain k) = k /\ height (chain k) = k.
Proof. induction k as [|k (A & B & C)]; cbn [chain leaf_count branch_count height]; auto. lia. Qed.

Lemma bytes_check bs : forallb (fun b => (0 <=? b)%Z && (b <? 256)%Z) bs = true -> Forall byte bs.
Proof.
  intros H. apply Forall_forall. intros b Hb. rewrite forallb_forall in H. apply H, andb_prop in Hb as [A B]. lia.
Qed.
Lemma chain_file {SC : Scalar Z} k : exists bytes,
  Forall byte bytes /\ length bytes = 25 + 22 * k
  /\ load_data true it_int (int_codec true 4) Euclidean (Some bytes) = Ok (chain_data k, Some []).
Proof.
  set (fit := fun v => (-2 ^ 31 <= v < 2 ^ 31)%Z).
  assert (K : codec_ok (int_codec true 4) fit) by (apply (int_codec_ok true 4); lia).
  exists (save_data true it_int (int_codec true 4) (fun _ _ => 0%Z) (chain_data k)).
  assert (E : load_data true it_int (int_codec true 4) Euclidean
    (Some (save_data true it_int (int_codec true 4) (fun _ _ => 0%Z) (chain_data k) ++ [])) = Ok (chain_data k, Some [])).
  { apply (load_save true it_int (int_codec true 4) fit eq_refl eq_refl K).
    unfold data_fits. cbn [kd_root chain_data kd_root_box box_min box_max kd_indices length].
    split; auto. split; [lia|]. split; [lia|]. split; auto. split; auto. split; auto.
    induction k as [|k IH]; cbn [chain node_fits].
    - split; vm_compute; discriminate.
    - split; [repeat split; cbn; unfold fit; lia|]. split; [exact IH|split; vm_compute; discriminate]. }
  rewrite app_nil_r in E. split; [|split; [|exact E]].
  - unfold save_data. cbn [kd_root_box chain_data box_min box_max kd_indices kd_root length].
    assert (HL : forall pos, Forall byte (write_node true it_int (int_codec true 4) (fun _ _ => 0%Z) Euclidean (chain k) pos)).
    { clear E. induction k as [|k IH]; intros pos; cbn [chain write_node].
      - apply bytes_check. vm_compute. reflexivity.
      - apply Forall_app. split; [apply bytes_check; vm_compute; reflexivity|]. apply Forall_app. split; [apply IH|].
        apply bytes_check. cbn [leaf_bytes]. vm_compute. reflexivity. }
    apply Forall_app. split; [apply bytes_check; vm_compute; reflexivity|].
    apply Forall_app. split; [apply bytes_check; vm_compute; reflexivity|].
    cbn [write_array flat_map app]. apply HL.
  - destruct (load_inv true it_int (int_codec true 4) (fun _ => True) (int_exact true 4) _ _ _ _ E)
      as (fb & rest & EB & ER & _ & L & _).
    injection ER as <-. rewrite app_nil_r in EB. rewrite EB, L. cbn [kd_root_box chain_data box_min kd_indices kd_root length].
    destruct (chain_counts k) as (A & B & _). unfold node_size. rewrite A, B.
    change (layout_size (leaf_layout true it_int)) with 8.
    change (layout_size (branch_layout true (int_codec true 4) Euclidean)) with 12. lia.
Qed.

Lemma deep_file {SC : Scalar Z} k : exists (bytes : list Z) (data : kd_tree_data Euclidean Z),
  Forall byte bytes /\ length bytes = 25 + 22 * k
  /\ load_data true it_int (int_codec true 4) Euclidean (Some bytes) = Ok (data, Some [])
  /\ height (kd_root data) = k /\ kd_indices data = [].
Proof.
  destruct (chain_file (SC := SC) k) as (b & F & L & E). exists b, (chain_data k). split; auto. split; auto. split; auto.
  split; auto. apply chain_counts.
Qed.

Lemma load_canonical {T} {SC : Scalar T} little it tc (P : T -> Prop) : codec_exact tc P ->
  forall c bytes (data : kd_tree_data c T) s,
  load_data little it tc c (Some bytes) = Ok (data, s) ->
  Forall byte bytes -> Forall P (tree_scalars data) ->
  exists rest pads, s = Some rest /\ bytes = save_data little it tc pads data ++ rest.
Proof.
  intros TE c bytes data s H F FP. destruct (load_inv little it tc P TE c bytes data s H) as (fb & rest & E & -> & _ & _ & K).
  destruct (K F FP) as (pads & <-). exists rest, pads. auto.
Qed.

Lemma leaves_branches {B} (nd : node B) : leaf_count nd = S (branch_count nd).
Proof. induction nd; cbn [leaf_count branch_count]; lia. Qed.

Lemma load_consumed {T} {SC : Scalar T} little it tc c bytes (data : kd_tree_data c T) s :
  load_data little it tc c (Some bytes) = Ok (data, s) ->
  let leaf := 1 + layout_size (leaf_layout little it) in
  let branch := 1 + layout_size (branch_layout little tc c) in
  exists rest, s = Some rest
    /\ length bytes = 16 + length (kd_indices data) * c_size (index_codec little it)
         + 2 * (length (box_min (kd_root_box data)) * c_size tc)
         + leaf_count (kd_root data) * leaf + branch_count (kd_root data) * branch + length rest
    /\ length (box_max (kd_root_box data)) = length (box_min (kd_root_box data))
    /\ height (kd_root data) * (leaf + branch) + leaf + 16 <= length bytes.
Proof.
  intros H leaf branch.
  destruct (load_inv little it tc (fun _ => False) ltac:(intros ? ? ? ? ? []) c bytes data s H) as (fb & rest & E & -> & LB & L & _).
  exists rest. split; auto. apply (f_equal (@length _)) in E. rewrite app_length, L in E. unfold node_size in E.
  fold leaf branch in E.
  pose proof (branch_height (kd_root data)) as HB. pose proof (leaves_branches (kd_root data)) as LL.
  assert (LE : height (kd_root data) * (leaf + branch) <= branch_count (kd_root data) * (leaf + branch))
    by (apply Nat.mul_le_mono_r; auto).
  rewrite LL in *. split; [lia|]. split; [auto|]. rewrite E. nia.
Qed.

Lemma load_terminates {T} {SC : Scalar T} little it (tc : codec T) : (forall bs, c_dec tc bs <> OutOfFuel) ->
  forall c s, load_data little it tc c s <> OutOfFuel.
Proof. apply (load_ends little it tc (fun _ => False)). intros ? ? ? ? ? []. Qed.
