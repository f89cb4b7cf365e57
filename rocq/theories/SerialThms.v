(** Saving and loading. *)
From Coq Require Import List ZArith Bool Arith Permutation Lia.
From Verif Require Import Base ModelBox ModelBuild ModelSearch ModelSerial Spec SpecSerial Lemmas Instances
  BuildProofs BuildOrder BuildShape BuildThms.
Import ListNotations.
Local Open Scope nat_scope.

Lemma bytes_le_len w : forall v, length (bytes_le w v) = w.
Proof. induction w; simpl; auto. Qed.

Lemma value_bytes w : forall v, (0 <= v < 2 ^ (8 * Z.of_nat w))%Z -> value_le (bytes_le w v) = v.
Proof.
  induction w; intros v H.
  - cbn [bytes_le value_le]. change (2 ^ (8 * Z.of_nat 0))%Z with 1%Z in H. lia.
  - cbn [bytes_le value_le]. rewrite IHw.
    + pose proof (Z.div_mod v 256). lia.
    + assert (E : (2 ^ (8 * Z.of_nat (S w)) = 256 * 2 ^ (8 * Z.of_nat w))%Z).
      { replace (8 * Z.of_nat (S w))%Z with (8 + 8 * Z.of_nat w)%Z by lia.
        rewrite Z.pow_add_r by lia. reflexivity. }
      split; [apply Z.div_pos; lia|]. apply Z.div_lt_upper_bound; lia.
Qed.

Lemma value_bytes_mod w : forall v, value_le (bytes_le w v) = (v mod 2 ^ (8 * Z.of_nat w))%Z.
Proof.
  induction w; intros v.
  - cbn [bytes_le value_le]. change (2 ^ (8 * Z.of_nat 0))%Z with 1%Z. rewrite Z.mod_1_r. reflexivity.
  - cbn [bytes_le value_le]. rewrite IHw.
    replace (8 * Z.of_nat (S w))%Z with (8 + 8 * Z.of_nat w)%Z by lia.
    rewrite Z.pow_add_r by lia. change (2 ^ 8)%Z with 256%Z.
    rewrite Z.rem_mul_r by (try lia; apply Z.pow_nonzero; lia). reflexivity.
Qed.

Lemma uint_codec_ok little w mx : (mx < 2 ^ (8 * Z.of_nat w))%Z ->
  codec_ok (uint_codec little w mx) (fun v => (Z.of_nat v <= mx)%Z).
Proof.
  intros H. constructor; intros v; cbn [c_enc c_size c_dec uint_codec].
  - destruct little; rewrite ?rev_length; apply bytes_le_len.
  - intros Hv. destruct little; rewrite ?rev_involutive, value_bytes by lia;
      destruct (Z.leb_spec (Z.of_nat v) mx); try lia; rewrite Nat2Z.id; reflexivity.
Qed.

Lemma int_codec_ok little w : (0 < w) ->
  codec_ok (int_codec little w)
    (fun v => (- 2 ^ (8 * Z.of_nat w - 1) <= v < 2 ^ (8 * Z.of_nat w - 1))%Z).
Proof.
  intros H. constructor; intros v; cbn [c_enc c_size c_dec int_codec].
  - destruct little; rewrite ?rev_length; apply bytes_le_len.
  - intros Hv.
    assert (E : (2 ^ (8 * Z.of_nat w) = 2 * 2 ^ (8 * Z.of_nat w - 1))%Z).
    { rewrite <- Z.pow_succ_r by lia. f_equal. lia. }
    assert (K : ((v mod 2 ^ (8 * Z.of_nat w) = v /\ 0 <= v) \/
                 (v mod 2 ^ (8 * Z.of_nat w) = v + 2 ^ (8 * Z.of_nat w) /\ v < 0))%Z).
    { destruct (Z_lt_le_dec v 0).
      - right. split; auto. symmetry. apply Z.mod_unique_pos with (-1)%Z; lia.
      - left. split; auto. apply Z.mod_small. lia. }
    destruct little; rewrite ?rev_involutive, value_bytes_mod;
      (destruct (Z.ltb_spec (2 * (v mod 2 ^ (8 * Z.of_nat w))) (2 ^ (8 * Z.of_nat w))); f_equal; lia).
Qed.

(** * Layouts *)
Lemma layout_put_len pad fs : forall off ms, Forall2 (fun f m => length m = fst f) fs ms ->
  off + length (layout_put pad off fs ms) = layout_end off fs.
Proof.
  induction fs as [|[sz al] fs IH]; intros off ms F; inversion F; subst; cbn [layout_put layout_end length].
  - lia.
  - rewrite !app_length, map_length, seq_length. cbn [fst] in *. rewrite <- (IH _ l') by auto. lia.
Qed.

Lemma firstn_len_app {A} n (a b : list A) : length a = n -> firstn n (a ++ b) = a.
Proof. intros <-. rewrite firstn_app, Nat.sub_diag, firstn_all. cbn. apply app_nil_r. Qed.
Lemma skipn_len_app {A} n (a b : list A) : length a = n -> skipn n (a ++ b) = b.
Proof. intros <-. rewrite skipn_app, Nat.sub_diag, skipn_all. reflexivity. Qed.

Lemma layout_get_put pad fs : forall off ms pre post, length pre = off ->
  Forall2 (fun f m => length m = fst f) fs ms ->
  layout_get off fs (pre ++ layout_put pad off fs ms ++ post) = ms.
Proof.
  induction fs as [|[sz al] fs IH]; intros off ms pre post Hp F; inversion F; subst;
    cbn [layout_put layout_get fst] in *; auto.
  f_equal.
  - rewrite <- !app_assoc. rewrite app_assoc. rewrite skipn_len_app.
    + apply firstn_len_app; auto.
    + rewrite app_length, map_length, seq_length. reflexivity.
  - match goal with |- context [map pad ?s ++ ?y ++ ?r] =>
      replace (pre ++ (map pad s ++ y ++ r) ++ post) with ((pre ++ map pad s ++ y) ++ r ++ post)
        by (rewrite <- !app_assoc; reflexivity) end.
    apply IH; auto. rewrite !app_length, map_length, seq_length. lia.
Qed.

Lemma struct_put_len pad fs ms : Forall2 (fun f m => length m = fst f) fs ms ->
  length (struct_put pad fs ms) = layout_size fs.
Proof.
  intros F. unfold struct_put, layout_size. rewrite app_length, map_length, seq_length.
  pose proof (layout_put_len pad fs 0 ms F). lia.
Qed.

Lemma struct_get_put pad fs ms : Forall2 (fun f m => length m = fst f) fs ms ->
  layout_get 0 fs (struct_put pad fs ms) = ms.
Proof.
  intros F. unfold struct_put. exact (layout_get_put pad fs 0 ms [] _ eq_refl F).
Qed.

(** * Elementary reads *)
Lemma read_bytes_app n (a r : list Z) : length a = n -> read_bytes n (Some (a ++ r)) = Ok (a, Some r).
Proof.
  intros H. unfold read_bytes. rewrite app_length.
  destruct (Nat.leb_spec n (length a + length r)); [|lia].
  rewrite firstn_len_app, skipn_len_app by auto. reflexivity.
Qed.

Lemma read_bytes_short n p : length p < n -> read_bytes n (Some p) = Ub UbShortRead.
Proof. intros H. unfold read_bytes. destruct (Nat.leb_spec n (length p)); [lia|reflexivity]. Qed.

Section Arr.
Context {A : Type} (c : codec A) (P : A -> Prop) (CK : codec_ok c P).

Lemma write_array_len l : length (write_array c l) = length l * c_size c.
Proof.
  induction l as [|a l IH]; [reflexivity|]. unfold write_array in *. cbn [flat_map]. rewrite app_length, IH, (ck_len _ _ CK). reflexivity.
Qed.

Lemma decode_write l : Forall P l -> decode_all c (length l) (write_array c l) = Ok l.
Proof.
  induction 1 as [|a l Ha F IH]; [reflexivity|]. unfold write_array in *. cbn [length decode_all flat_map].
  rewrite firstn_len_app, skipn_len_app by apply (ck_len _ _ CK).
  rewrite (ck_dec _ _ CK) by auto. cbn [bind]. rewrite IH. reflexivity.
Qed.

Lemma read_array_app l init r : Forall P l ->
  read_array c (length l) init (Some (write_array c l ++ r)) = Ok (l, Some r).
Proof.
  intros F. unfold read_array. rewrite app_length, write_array_len.
  destruct (Nat.leb_spec (length l * c_size c) (length l * c_size c + length r)); [|lia].
  rewrite firstn_len_app, skipn_len_app by apply write_array_len. rewrite decode_write by auto. reflexivity.
Qed.

Lemma read_array_short n init p : length p < n * c_size c ->
  read_array c n init (Some p) = Ok (repeat init n, None).
Proof. intros H. unfold read_array. destruct (Nat.leb_spec (n * c_size c) (length p)); [lia|reflexivity]. Qed.
End Arr.

(** A proper prefix of [a ++ b] is a proper prefix of [a], or [a] and a proper
    prefix of [b]. *)
Lemma prefix_app {A} (a b p s : list A) : p ++ s = a ++ b -> s <> [] ->
  length p < length a \/ exists p', p = a ++ p' /\ p' ++ s = b.
Proof.
  intros E N. destruct (Nat.lt_ge_cases (length p) (length a)) as [H|H]; [left; auto|right].
  exists (skipn (length a) p).
  assert (E1 : firstn (length a) (p ++ s) = a) by (rewrite E; apply firstn_len_app; auto).
  assert (E2 : skipn (length a) (p ++ s) = b) by (rewrite E; apply skipn_len_app; auto).
  rewrite firstn_app in E1. rewrite skipn_app in E2.
  replace (length a - length p) with 0 in * by lia. cbn [firstn skipn] in *. rewrite app_nil_r in E1.
  split; auto. rewrite <- E1 at 1. symmetry. rewrite E1 at 1. rewrite <- E1 at 1. apply firstn_skipn.
Qed.

(** * Trees *)
Section Trees.
Context {T : Type} {SC : Scalar T}.
Variables (little : bool) (it : index_type) (tc : codec T) (fit : T -> Prop).
Hypotheses (ITW : (0 < it_bits it)%Z) (IT8 : (it_bits it mod 8 = 0)%Z) (TC : codec_ok tc fit).
Local Notation ic := (index_codec little it).
Local Notation dc := (dim_codec little).
Local Notation zc := (size_codec little).

Lemma zc_ok : codec_ok zc (fun v => (Z.of_nat v < 2 ^ 64)%Z).
Proof.
  pose proof (uint_codec_ok little 8 (2 ^ 64 - 1)) as H. destruct H as [A B]; [reflexivity|].
  constructor; auto. intros a Ha. apply B. lia.
Qed.
Lemma dc_ok : codec_ok dc (fun v => (Z.of_nat v < 2 ^ 31)%Z).
Proof.
  pose proof (uint_codec_ok little 4 (2 ^ 31 - 1)) as H. destruct H as [A B]; [reflexivity|].
  constructor; auto. intros a Ha. apply B. lia.
Qed.
Lemma ic_ok : codec_ok ic (fun v => (Z.of_nat v <= it_max it)%Z).
Proof.
  apply uint_codec_ok. pose proof (Z.div_mod (it_bits it) 8).
  assert (0 <= it_bits it / 8)%Z by (apply Z.div_pos; lia).
  replace (8 * Z.of_nat (Z.to_nat (it_bits it / 8)))%Z with (it_bits it) by lia.
  unfold it_max. assert (2 ^ it_bits it = 2 * 2 ^ (it_bits it - 1))%Z.
  { rewrite <- Z.pow_succ_r by lia. f_equal. lia. }
  assert (0 < 2 ^ (it_bits it - 1))%Z by (apply Z.pow_pos_nonneg; lia).
  destruct (it_signed it); lia.
Qed.

Local Notation branch_fits := (branch_fits fit).
Local Notation node_fits := (node_fits it fit).
Local Notation data_fits := (data_fits it fit).

Lemma leaf_len pad b e : length (leaf_bytes little it pad b e) = layout_size (leaf_layout little it).
Proof.
  apply struct_put_len. unfold leaf_layout.
  repeat (apply Forall2_cons; [apply (ck_len _ _ ic_ok)|]). constructor.
Qed.
Lemma leaf_rt pad b e : (Z.of_nat b <= it_max it)%Z -> (Z.of_nat e <= it_max it)%Z ->
  leaf_value little it (leaf_bytes little it pad b e) = Ok (b, e).
Proof.
  intros Hb He. unfold leaf_value, leaf_bytes. rewrite struct_get_put.
  - rewrite !(ck_dec _ _ ic_ok) by auto. reflexivity.
  - unfold leaf_layout. repeat (apply Forall2_cons; [apply (ck_len _ _ ic_ok)|]). constructor.
Qed.
Lemma branch_len pad c br : length (branch_bytes little tc pad c br) = layout_size (branch_layout little tc c).
Proof.
  destruct c; apply struct_put_len;
    repeat (apply Forall2_cons; [first [apply (ck_len _ _ dc_ok)|apply (ck_len _ _ TC)]|]); constructor.
Qed.
Lemma branch_rt pad c br : branch_fits br ->
  branch_value little tc c (branch_bytes little tc pad c br) = Ok br.
Proof.
  intros F. destruct c; unfold branch_value, branch_bytes; rewrite struct_get_put
    by (repeat (apply Forall2_cons; [first [apply (ck_len _ _ dc_ok)|apply (ck_len _ _ TC)]|]); constructor).
  - destruct br as [d x y]; cbn [bs_split_dim bs_left_max bs_right_min]; destruct F as (F1 & F2 & F3);
      cbn [bs_split_dim bs_left_max bs_right_min] in *.
    rewrite (ck_dec _ _ dc_ok), !(ck_dec _ _ TC) by auto. reflexivity.
  - destruct br as [d x y z u]; cbn [bd_split_dim bd_left_min bd_left_max bd_right_min bd_right_max];
      destruct F as (F1 & F2 & F3 & F4 & F5); cbn [bd_split_dim bd_left_min bd_left_max bd_right_min bd_right_max] in *.
    rewrite (ck_dec _ _ dc_ok), !(ck_dec _ _ TC) by auto. reflexivity.
Qed.

Local Notation wn := (write_node little it tc).
Local Notation rn := (read_node little it tc).

Lemma node_rt pads c nd : forall pos fuel rest, node_fits nd -> length (wn pads c nd pos) <= fuel ->
  rn fuel c (Some (wn pads c nd pos ++ rest)) = Ok (nd, Some rest).
Proof.
  induction nd as [b e|br nl IHl nr IHr]; intros pos fuel rest F L; cbn [write_node] in *.
  - destruct fuel; [cbn [bool_enc app length] in L; lia|]. cbn [read_node].
    rewrite <- app_assoc. rewrite read_bytes_app by reflexivity. cbn [bind bool_dec bool_enc].
    rewrite read_bytes_app by apply leaf_len. cbn [bind]. destruct F. rewrite leaf_rt by auto. reflexivity.
  - destruct fuel; [cbn [bool_enc app length] in L; lia|]. cbn [read_node]. destruct F as (F1 & F2 & F3).
    rewrite <- !app_assoc. rewrite read_bytes_app by reflexivity. cbn [bind bool_dec bool_enc].
    rewrite read_bytes_app by apply branch_len. cbn [bind]. rewrite branch_rt by auto. cbn [bind].
    rewrite !app_length in L. cbn [length bool_enc] in L.
    rewrite IHl by (auto; rewrite ?app_length in *; cbn [length bool_enc] in *; lia). cbn [bind].
    rewrite IHr by (auto; rewrite ?app_length in *; cbn [length bool_enc] in *; lia). reflexivity.
Qed.

Lemma node_prefix pads c nd : forall pos fuel p s, node_fits nd -> length p < fuel ->
  p ++ s = wn pads c nd pos -> s <> [] -> rn fuel c (Some p) = Ub UbShortRead.
Proof.
  induction nd as [b e|br nl IHl nr IHr]; intros pos fuel p s F L E N; cbn [write_node] in *.
  - destruct fuel; [lia|]. cbn [read_node].
    apply prefix_app in E as [E|(p1 & -> & E)]; auto.
    { rewrite read_bytes_short by exact E. reflexivity. }
    rewrite read_bytes_app by reflexivity. cbn [bind bool_dec bool_enc].
    rewrite read_bytes_short; [reflexivity|].
    apply (f_equal (@length _)) in E. rewrite app_length, leaf_len in E. destruct s; [congruence|]. simpl in E. lia.
  - destruct fuel; [lia|]. cbn [read_node]. destruct F as (F1 & F2 & F3). rewrite <- app_assoc in E.
    apply prefix_app in E as [E|(p1 & -> & E)]; auto.
    { rewrite read_bytes_short by exact E. reflexivity. }
    rewrite read_bytes_app by reflexivity. cbn [bind bool_dec bool_enc].
    apply prefix_app in E as [E|(p2 & -> & E)]; auto.
    { rewrite branch_len in E. rewrite read_bytes_short by exact E. reflexivity. }
    rewrite read_bytes_app by apply branch_len. cbn [bind]. rewrite branch_rt by auto. cbn [bind].
    cbn [app length bool_enc] in L. rewrite app_length in L.
    pose proof E as E0.
    apply prefix_app in E as [E|(p3 & -> & E)]; auto.
    + match goal with E : _ < length (write_node _ _ _ _ _ _ ?P) |- _ => set (pos' := P) in * end.
      assert (EX : p2 ++ skipn (length p2) (wn pads c nl pos') = wn pads c nl pos').
      { match goal with X : p2 ++ s = ?w ++ ?z |- _ => 
          assert (K : firstn (length p2) (w ++ z) = p2) by (rewrite <- X; apply firstn_len_app; auto) end.
        rewrite firstn_app in K. rewrite (proj2 (Nat.sub_0_le _ _)) in K by lia. cbn [firstn] in K.
        rewrite app_nil_r in K. rewrite <- K at 1. apply firstn_skipn. }
      assert (EN : skipn (length p2) (wn pads c nl pos') <> []).
      { intros K. apply (f_equal (@length _)) in K. rewrite skipn_length in K. simpl in K. lia. }
      rewrite (IHl _ fuel p2 _ F2 ltac:(lia) EX EN). reflexivity.
    + rewrite app_length in L.
      clear E0. rewrite node_rt by (auto; lia). cbn [bind].
      rewrite (IHr _ fuel p3 s F3 ltac:(lia) E N). reflexivity.
Qed.

Local Notation save := (save_data little it tc).
Local Notation load := (load_data little it tc).

Lemma load_save pads c (t : kd_tree_data c T) rest : data_fits t ->
  load c (Some (save pads t ++ rest)) = Ok (t, Some rest).
Proof.
  destruct t as [idx [mn mx] root]. unfold data_fits. cbn [kd_indices kd_root_box kd_root box_min box_max].
  intros (LX & L1 & L2 & F1 & F2 & F3 & F4).
  unfold load_data, save_data. cbn [kd_indices kd_root_box kd_root box_min box_max].
  rewrite <- !app_assoc.
  rewrite read_bytes_app by apply (ck_len _ _ zc_ok). cbn [bind].
  rewrite (ck_dec _ _ zc_ok) by (simpl; lia). cbn [bind].
  rewrite read_bytes_app by apply (ck_len _ _ zc_ok). cbn [bind].
  rewrite (ck_dec _ _ zc_ok) by auto. cbn [bind].
  rewrite (read_array_app _ _ ic_ok) by auto. cbn [bind].
  rewrite (read_array_app _ _ TC) by auto. cbn [bind].
  rewrite <- LX. rewrite (read_array_app _ _ TC) by auto. cbn [bind].
  rewrite node_rt; auto. rewrite app_length. lia.
Qed.

Lemma read_node_failed fuel c : rn (S fuel) c None = Ub UbShortRead.
Proof. reflexivity. Qed.

Lemma read_array_failed {A} (cd : codec A) n init : read_array cd n init None = Ok (repeat init n, None).
Proof. reflexivity. Qed.

Lemma load_prefix pads c (t : kd_tree_data c T) p s : data_fits t ->
  p ++ s = save pads t -> s <> [] -> load c (Some p) = Ub UbShortRead.
Proof.
  destruct t as [idx [mn mx] root]. unfold data_fits. cbn [kd_indices kd_root_box kd_root box_min box_max].
  intros (LX & L1 & L2 & F1 & F2 & F3 & F4).
  unfold load_data, save_data. cbn [kd_indices kd_root_box kd_root box_min box_max].
  intros E N.
  apply prefix_app in E as [E|(p1 & -> & E)]; auto.
  { rewrite (ck_len _ _ zc_ok) in E. rewrite read_bytes_short by exact E. reflexivity. }
  rewrite read_bytes_app by apply (ck_len _ _ zc_ok). cbn [bind].
  rewrite (ck_dec _ _ zc_ok) by (simpl; lia). cbn [bind].
  apply prefix_app in E as [E|(p2 & -> & E)]; auto.
  { rewrite (ck_len _ _ zc_ok) in E. rewrite read_bytes_short by exact E. reflexivity. }
  rewrite read_bytes_app by apply (ck_len _ _ zc_ok). cbn [bind].
  rewrite (ck_dec _ _ zc_ok) by auto. cbn [bind].
  apply prefix_app in E as [E|(p3 & -> & E)]; auto.
  { rewrite (write_array_len _ _ ic_ok) in E. rewrite read_array_short by exact E. cbn [bind].
    rewrite !read_array_failed. cbn [bind]. rewrite !read_array_failed. cbn [bind]. reflexivity. }
  rewrite (read_array_app _ _ ic_ok) by auto. cbn [bind].
  apply prefix_app in E as [E|(p4 & -> & E)]; auto.
  { rewrite (write_array_len _ _ TC) in E. rewrite read_array_short by exact E. cbn [bind].
    rewrite !read_array_failed. cbn [bind]. reflexivity. }
  rewrite (read_array_app _ _ TC) by auto. cbn [bind]. rewrite <- LX.
  apply prefix_app in E as [E|(p5 & -> & E)]; auto.
  { rewrite (write_array_len _ _ TC) in E. rewrite read_array_short by exact E. cbn [bind]. reflexivity. }
  rewrite (read_array_app _ _ TC) by auto. cbn [bind].
  erewrite node_prefix; eauto.
Qed.

(** Built trees fit. *)
Variables (sp : space T) (alg : std_algos).
Hypotheses (OL : ord_laws SC fit) (WF : wf_space sp) (OKS : all_coords fit sp) (SL : std_laws alg).

Lemma spans_fits c nd b l : node_spans (R_holds fit sp c) nd b l ->
  (Z.of_nat (sp_sdim sp) <= 2 ^ 31)%Z -> (Z.of_nat (b + length l) <= it_max it)%Z -> node_fits nd.
Proof.
  intros H HS. induction H as [b l|br nl nr b l r H1 IH1 H2 IH2 R]; intros HM; cbn [node_fits].
  - lia.
  - rewrite app_length in HM. split; [|split; [apply IH1; lia|apply IH2; lia]].
    destruct R as (lb & rb & d & -> & Hd & W1 & W2 & O1 & O2 & _).
    destruct (O1 d Hd) as [A1 A2], (O2 d Hd) as [B1 B2].
    destruct c; cbn [set_branch branch_fits bs_split_dim bs_left_max bs_right_min bd_split_dim bd_left_min
      bd_left_max bd_right_min bd_right_max]; repeat split; auto; lia.
Qed.

Lemma built_fits c fuel stop bnds ru t :
  (ru = midpoint_max_side -> mid_ok SC fit) -> bounds_coords fit sp bnds ->
  (Z.of_nat (sp_sdim sp) < 2 ^ 31)%Z -> (Z.of_nat (length (sp_pts sp)) <= it_max it)%Z ->
  (it_bits it <= 64)%Z ->
  build c alg it fuel sp stop bnds ru = Ok t -> data_fits t.
Proof.
  intros HM HB HS HL H64 H.
  pose proof (build_holds fit OL sp WF OKS alg SL c it fuel stop bnds ru t ltac:(auto) H) as [HP HN].
  apply build_inv in H as (_ & _ & bx & _ & EB).
  pose proof (box_from_bounds_ok fit OL sp WF OKS bnds HB) as OB.
  pose proof (box_from_bounds_wf sp bnds) as [W1 W2]. rewrite <- EB in *.
  assert (LI : length (kd_indices t) = length (sp_pts sp)) by (rewrite (Permutation_length HP); apply seq_length).
  assert (M64 : (it_max it < 2 ^ 64)%Z).
  { assert (2 ^ it_bits it <= 2 ^ 64)%Z by (apply Z.pow_le_mono_r; lia).
    assert (2 ^ (it_bits it - 1) <= 2 ^ 64)%Z by (apply Z.pow_le_mono_r; lia).
    unfold it_max. destruct (it_signed it); lia. }
  unfold data_fits. rewrite W1, W2. split; [auto|]. split; [auto|]. split; [lia|].
  split; [|split; [|split]].
  - apply Forall_forall. intros i Hi. apply (Permutation_in _ HP) in Hi. apply in_seq in Hi. lia.
  - apply Forall_forall. intros x Hx. apply In_nth with (d := s_zero) in Hx as (d & Hd & <-).
    apply OB. rewrite <- W1. auto.
  - apply Forall_forall. intros x Hx. apply In_nth with (d := s_zero) in Hx as (d & Hd & <-).
    apply OB. rewrite <- W2. auto.
  - eapply spans_fits; eauto; lia.
Qed.

(** kd_tree::load(space, kd_tree::save(tree)). *)
Lemma tree_load_save pads m fuel stop bnds ru tree rest :
  (ru = midpoint_max_side -> mid_ok SC fit) -> bounds_coords fit sp bnds ->
  (Z.of_nat (sp_sdim sp) < 2 ^ 31)%Z -> (Z.of_nat (length (sp_pts sp)) <= it_max it)%Z ->
  (it_bits it <= 64)%Z ->
  kd_tree_make alg it m fuel sp stop bnds ru = Ok tree ->
  kd_tree_load little it tc m sp (kd_tree_save little it tc pads tree ++ rest) = Ok (tree, Some rest).
Proof.
  intros HM HB HS HL H64 H. apply kd_tree_make_inv in H as (data & -> & H).
  apply built_fits in H; auto. unfold kd_tree_load, kd_tree_save. cbn [kt_metric kt_data].
  rewrite load_save by auto. reflexivity.
Qed.

Lemma tree_load_prefix pads m fuel stop bnds ru tree p s :
  (ru = midpoint_max_side -> mid_ok SC fit) -> bounds_coords fit sp bnds ->
  (Z.of_nat (sp_sdim sp) < 2 ^ 31)%Z -> (Z.of_nat (length (sp_pts sp)) <= it_max it)%Z ->
  (it_bits it <= 64)%Z ->
  kd_tree_make alg it m fuel sp stop bnds ru = Ok tree ->
  p ++ s = kd_tree_save little it tc pads tree -> s <> [] ->
  kd_tree_load little it tc m sp p = Ub UbShortRead.
Proof.
  intros HM HB HS HL H64 H E N. apply kd_tree_make_inv in H as (data & -> & H).
  apply built_fits in H; auto. unfold kd_tree_load, kd_tree_save in *. cbn [kt_metric kt_data] in *.
  erewrite load_prefix by eauto. reflexivity.
Qed.
End Trees.
