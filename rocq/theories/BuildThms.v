(** Construction as a whole: from create_node to the constructor. *)
From Coq Require Import List ZArith QArith Qabs Bool Arith Permutation Lia Lqa.
From Verif Require Import Base ModelBox ModelBuild ModelSearch Spec Lemmas Instances
  BuildProofs BuildOrder BuildShape.
Import ListNotations.
Local Open Scope nat_scope.

Section Range.
Context {T : Type} {S : Scalar T} (val : T -> Q) (EL : exact_laws S val).

Lemma between_no_overflow x y z : no_overflow val x -> no_overflow val y ->
  ((val x <= z <= val y) \/ (val y <= z <= val x))%Q ->
  (val s_lowest <= z <= val s_max /\ 2 * Qabs z < - val s_lowest)%Q.
Proof.
  unfold no_overflow, representable. intros [[A1 A2] A3] [[B1 B2] B3] H.
  split; [lra|].
  pose proof (Qle_Qabs (val x)). pose proof (Qle_Qabs (val y)).
  pose proof (Qle_Qabs (- val x)) as C. pose proof (Qle_Qabs (- val y)) as D.
  rewrite Qabs_opp in C, D.
  destruct (Qlt_le_dec z 0).
  - rewrite Qabs_neg by lra. lra.
  - rewrite Qabs_pos by lra. lra.
Qed.

Lemma exact_range : range_laws S (no_overflow val).
Proof.
  constructor.
  - intros x y [[A1 A2] A3] [[B1 B2] B3]. apply (ltb_val val EL). rewrite (el_sub _ _ EL).
    pose proof (Qle_Qabs (val x)). pose proof (Qle_Qabs (- val y)) as D. rewrite Qabs_opp in D. lra.
  - intros x y Hx Hy.
    assert (H : (val (s_add (s_mul (s_sub y x) s_half) x) == (val y - val x) * val s_half + val x)%Q).
    { rewrite (el_add _ _ EL), (el_mul _ _ EL), (el_sub _ _ EL). reflexivity. }
    unfold no_overflow at 1, representable. rewrite H.
    apply between_no_overflow with (x := x) (y := y); auto.
    pose proof (el_half _ _ EL) as [H0 H1].
    destruct (Qlt_le_dec (val x) (val y)); [left|right]; nra.
  - intros x y Hx Hy.
    assert (H : (val (s_add (s_div (s_sub y x) s_two) x) == val (s_div (s_sub y x) s_two) + val x)%Q).
    { rewrite (el_add _ _ EL). reflexivity. }
    unfold no_overflow at 1, representable. rewrite H.
    apply between_no_overflow with (x := x) (y := y); auto.
    pose proof (el_div_two_pos _ _ EL (s_sub y x)) as P.
    pose proof (el_div_two_neg _ _ EL (s_sub y x)) as N.
    rewrite (el_sub _ _ EL) in P, N.
    destruct (Qlt_le_dec (val x) (val y)); [left; specialize (P ltac:(lra))|right; specialize (N ltac:(lra))]; lra.
  - intros x [[A1 A2] A3]. destruct (s_ltb x s_max) eqn:E; auto. right.
    apply (ltb_val_false val EL) in E.
    assert (val s_max == val x)%Q by lra. unfold no_overflow, representable. rewrite H.
    repeat split; lra.
  - intros x [[A1 A2] A3]. destruct (s_ltb s_lowest x) eqn:E; auto. exfalso.
    apply (ltb_val_false val EL) in E. pose proof (Qle_Qabs (- val x)) as D. rewrite Qabs_opp in D.
    pose proof (el_lowest _ _ EL). lra.
Qed.
End Range.

Section Build.
Context {T : Type} {S : Scalar T}.

Lemma build_inv c alg it fuel (sp : space T) stop bnds ru t :
  build c alg it fuel sp stop bnds ru = Ok t ->
  stop_assert stop = true /\ (0 < length (sp_pts sp) /\ bounds_dim sp bnds = true) /\
  exists bx', create_node c alg ru it stop sp fuel 0 0 (seq 0 (length (sp_pts sp))) (box_from_bounds sp bnds)
    = Ok (kd_root t, kd_indices t, bx') /\ kd_root_box t = box_from_bounds sp bnds.
Proof.
  unfold build. intros H. okbind H. okbind H. okbind H. okbind H.
  apply guard_ok in E, E0, E2. apply Nat.ltb_lt in E0. unfold sp_size in *.
  okbind H. destruct a3 as [[nd s] b]. injection H as <-. simpl. eauto 7.
Qed.

Lemma bounds_coords_dim (P : T -> Prop) (sp : space T) bnds :
  bounds_coords P sp bnds -> bounds_dim sp bnds = true.
Proof.
  destruct bnds; simpl; auto. intros (A & B & _). rewrite A, B, Nat.eqb_refl. reflexivity.
Qed.

Lemma kd_tree_make_inv alg it m fuel (sp : space T) stop bnds ru t :
  kd_tree_make alg it m fuel sp stop bnds ru = Ok t ->
  exists data, t = KdTree sp m data /\ build (m_cat m) alg it fuel sp stop bnds ru = Ok data.
Proof.
  unfold kd_tree_make. intros H. okbind H. injection H as <-. eauto.
Qed.

Section Ord.
Variables (ok : T -> Prop) (OL : ord_laws S ok) (sp : space T).
Hypotheses (WF : wf_space sp) (OKS : all_coords ok sp).
Variables (alg : std_algos) (SL : std_laws alg).

(** Facts that need the order only. *)
Lemma build_holds c it fuel stop bnds ru t :
  (ru = midpoint_max_side -> mid_ok S ok /\ bounds_coords ok sp bnds) ->
  build c alg it fuel sp stop bnds ru = Ok t ->
  Permutation (kd_indices t) (seq 0 (length (sp_pts sp)))
  /\ node_spans (R_holds ok sp c) (kd_root t) 0 (kd_indices t).
Proof.
  intros HM H. apply build_inv in H as (_ & _ & bx' & H & HB).
  apply (create_node_holds ok OL sp WF OKS alg SL) in H.
  - tauto.
  - intros Hm. apply HM; auto.
  - apply box_from_bounds_wf.
  - intros Hm. apply (box_from_bounds_ok ok OL sp WF OKS). apply HM; auto.
Qed.

Lemma build_c01 c it fuel stop bnds ru t :
  (ru = midpoint_max_side -> mid_ok S ok /\ bounds_coords ok sp bnds) ->
  build c alg it fuel sp stop bnds ru = Ok t ->
  Permutation (kd_indices t) (seq 0 (length (sp_pts sp)))
  /\ consecutive 0 (leaf_intervals (kd_root t)) (length (sp_pts sp)).
Proof.
  intros HM H. apply build_holds in H as [P N]; auto. split; auto.
  apply spans_intervals in N. rewrite (Permutation_length P), seq_length in N. exact N.
Qed.

Lemma build_leaf_size c it fuel m bnds ru t :
  index_type_ok it -> (0 < m <= it_max it)%Z ->
  build c alg it fuel sp (max_leaf_size m) bnds ru = Ok t ->
  Forall (fun '(_, len) => (Z.of_nat len <= m)%Z) (leaf_levels 0 (kd_root t)).
Proof.
  intros Hi Hm H. apply build_inv in H as (_ & _ & bx' & H & HB).
  apply create_node_leaves in H. eapply Forall_impl; [|exact H].
  intros [h len]. simpl. rewrite it_cast_fits by (auto; lia). apply Z.leb_le.
Qed.

Lemma build_leaf_depth c it fuel m bnds ru t :
  index_type_ok it -> (0 <= m <= it_max it)%Z ->
  build c alg it fuel sp (max_leaf_depth m) bnds ru = Ok t ->
  Forall (fun '(h, len) => (Z.of_nat h <= m)%Z /\ ((Z.of_nat h < m)%Z -> len <= 1))
         (leaf_levels 0 (kd_root t)).
Proof.
  intros Hi Hm H. apply build_inv in H as (_ & _ & bx' & H & HB).
  pose proof (it_cast_fits it m Hi Hm) as Hc.
  pose proof H as H'. apply create_node_leaves in H'.
  eapply create_node_depth in H; eauto; try lia.
  rewrite Forall_forall in *. intros [h len] Hin. specialize (H _ Hin). specialize (H' _ Hin).
  simpl in *. split; auto. intros Hlt. rewrite Hc in H'. apply orb_prop in H' as [H'|H'].
  - apply Z.eqb_eq in H'. lia.
  - apply Nat.leb_le in H'. auto.
Qed.

Lemma build_nonempty c it fuel stop bnds ru t : ru <> midpoint_max_side ->
  build c alg it fuel sp stop bnds ru = Ok t ->
  Forall (fun '(_, len) => 1 <= len) (leaf_levels 0 (kd_root t))
  /\ node_points (kd_root t) = length (sp_pts sp)
  /\ every_branch (fun _ l r => 1 <= node_points l /\ 1 <= node_points r) (kd_root t)
  /\ (ru = median_max_side ->
      every_branch (fun _ l r => node_points l <= node_points r <= node_points l + 1) (kd_root t)).
Proof.
  intros Hru H. apply build_inv in H as (_ & [Hn _] & bx' & H & HB).
  apply (create_node_nonempty ok OL sp WF OKS alg SL) in H; auto.
  - rewrite seq_length in H. exact H.
  - apply box_from_bounds_wf.
  - apply length_nonnil. rewrite seq_length. lia.
Qed.

Lemma build_median_levels c it fuel m bnds t h :
  index_type_ok it -> (0 < m <= it_max it)%Z ->
  build c alg it fuel sp (max_leaf_size m) bnds median_max_side = Ok t ->
  (Z.of_nat (length (sp_pts sp)) <= m * 2 ^ Z.of_nat h)%Z ->
  Forall (fun '(lv, _) => lv <= h) (leaf_levels 0 (kd_root t)).
Proof.
  intros Hi Hm H Hh. apply build_inv in H as (_ & [Hn _] & bx' & H & HB).
  eapply (create_node_median_levels ok OL sp WF OKS alg SL c median_max_side it (max_leaf_size m) m) in H; eauto.
  - apply it_cast_fits; auto; lia.
  - apply box_from_bounds_wf.
  - rewrite seq_length. exact Hh.
Qed.

Lemma seq_in_space : Forall (fun i => in_space sp i = true) (seq 0 (length (sp_pts sp))).
Proof. apply Forall_forall. intros i Hi. apply in_space_lt. apply In_seq0; auto. Qed.

Lemma stop_fits_leaf1 it stop : index_type_ok it -> stop_fits it stop ->
  forall depth, is_leaf it stop depth 1 = true.
Proof.
  intros Hi Hs depth. destruct stop; simpl in *.
  - rewrite it_cast_fits by (auto; lia). apply Z.leb_le. lia.
  - apply orb_true_r.
Qed.

Lemma build_total (good : T -> Prop) c it fuel stop bnds ru :
  range_laws S good -> all_coords good sp -> bounds_coords good sp bnds ->
  ru <> midpoint_max_side -> index_type_ok it -> stop_fits it stop ->
  sp_pts sp <> [] -> (Z.of_nat (length (sp_pts sp)) <= it_max it)%Z ->
  length (sp_pts sp) <= fuel ->
  exists t, build c alg it fuel sp stop bnds ru = Ok t.
Proof.
  intros RL G GB Hru Hi Hs NE Hsz Hf.
  assert (0 < length (sp_pts sp)) by (destruct (sp_pts sp); simpl; [congruence|lia]).
  destruct (create_node_total ok OL sp WF OKS alg SL c ru it stop good RL G Hru
              (stop_fits_leaf1 it stop Hi Hs) fuel 0 0 (seq 0 (length (sp_pts sp))) (box_from_bounds sp bnds))
    as (nd & s & bx' & E).
  - apply box_from_bounds_wf.
  - apply (box_from_bounds_good good RL); auto.
  - apply seq_in_space.
  - rewrite seq_length. lia.
  - unfold build, sp_size. rewrite guard_true by (destruct stop; simpl in *; auto; apply Z.ltb_lt; lia).
    cbn [bind]. rewrite guard_true by (apply Nat.ltb_lt; auto). cbn [bind].
    rewrite guard_true by (apply Z.leb_le; auto). cbn [bind].
    rewrite guard_true by (eapply bounds_coords_dim; eauto). cbn [bind]. rewrite E. cbn [bind]. eauto.
Qed.

Lemma build_total_depth (good : T -> Prop) c it fuel m bnds ru :
  range_laws S good -> all_coords good sp -> bounds_coords good sp bnds ->
  index_type_ok it -> (0 <= m <= it_max it)%Z ->
  sp_pts sp <> [] -> (Z.of_nat (length (sp_pts sp)) <= it_max it)%Z ->
  (m < Z.of_nat fuel)%Z ->
  exists t, build c alg it fuel sp (max_leaf_depth m) bnds ru = Ok t.
Proof.
  intros RL G GB Hi Hm NE Hsz Hf.
  assert (0 < length (sp_pts sp)) by (destruct (sp_pts sp); simpl; [congruence|lia]).
  destruct (create_node_total_depth ok OL sp WF OKS alg SL c ru it (max_leaf_depth m) good RL G m eq_refl
              (it_cast_fits it m Hi Hm) fuel 0 0 (seq 0 (length (sp_pts sp))) (box_from_bounds sp bnds))
    as (nd & s & bx' & E).
  - apply box_from_bounds_wf.
  - apply (box_from_bounds_good good RL); auto.
  - apply seq_in_space.
  - rewrite seq_length. lia.
  - lia.
  - simpl. exact Hf.
  - unfold build, sp_size. cbn [stop_assert guard bind].
    rewrite guard_true by (apply Nat.ltb_lt; auto). cbn [bind].
    rewrite guard_true by (apply Z.leb_le; auto). cbn [bind].
    rewrite guard_true by (eapply bounds_coords_dim; eauto). cbn [bind]. rewrite E. cbn [bind]. eauto.
Qed.

(** Reading an interval of the indices. *)
Definition interval (ind : list nat) (p : nat * nat) : list nat :=
  firstn (snd p - fst p) (skipn (fst p) ind).

Lemma spans_leaf_ranges {B} R (nd : node B) b l :
  node_spans R nd b l ->
  forall pre post acc, b = length pre ->
  Forall (fun '(_, len) => 1 <= len) (leaf_levels 0 nd) ->
  exists rs, insert_leaf_range (pre ++ l ++ post) nd acc = Ok (acc ++ rs)
    /\ concat rs = l /\ Forall (fun r => r <> []) rs
    /\ map (@length nat) rs = map snd (leaf_levels 0 nd).
Proof.
  assert (LS : forall (x : node B) h h', map snd (leaf_levels h x) = map snd (leaf_levels h' x)).
  { induction x as [bb ee|dd ll IHl rr IHr]; intros; simpl; auto. rewrite !map_app. f_equal; auto. }
  assert (LF : forall (x : node B) h h', Forall (fun '(_, len) => 1 <= len) (leaf_levels h x) ->
                      Forall (fun '(_, len) => 1 <= len) (leaf_levels h' x)).
  { induction x as [bb ee|dd ll IHl rr IHr]; intros h h' HF; simpl in *.
    - inversion HF; constructor; auto.
    - apply Forall_app in HF as []. apply Forall_app; eauto. }
  induction 1 as [b l|br nl nr b l r H1 IH1 H2 IH2 HR]; intros pre post acc Hb HF.
  - simpl in *. inversion HF as [|? ? Hx _]; subst.
    replace (length pre + length l - length pre) with (length l) in Hx |- * by lia.
    destruct (Nat.eqb_spec (length pre) (length pre + length l)); [lia|].
    rewrite slice_app. cbn [bind]. exists [l]. simpl. rewrite app_nil_r. repeat split; auto.
    constructor; auto. apply length_nonnil; lia.
  - simpl in HF. apply Forall_app in HF as [F1 F2]. apply (LF _ _ 0) in F1, F2.
    destruct (IH1 pre (r ++ post) acc Hb F1) as (r1 & A1 & A2 & A3 & A4).
    destruct (IH2 (pre ++ l) post (acc ++ r1)) as (r2 & B1 & B2 & B3 & B4); auto.
    { rewrite app_length. lia. }
    exists (r1 ++ r2). simpl. rewrite <- (app_assoc l r post), A1. cbn [bind].
    rewrite <- (app_assoc pre l) in B1. rewrite B1.
    split; [rewrite app_assoc; reflexivity|]. split; [rewrite concat_app; congruence|].
    split; [apply Forall_app; auto|]. rewrite !map_app, A4, B4. f_equal; apply LS.
Qed.

Lemma build_leaf_ranges c it fuel stop bnds ru t : ru <> midpoint_max_side ->
  build c alg it fuel sp stop bnds ru = Ok t ->
  exists rs, leaf_ranges t = Ok rs
    /\ Permutation (concat rs) (seq 0 (length (sp_pts sp)))
    /\ Forall (fun r => r <> []) rs
    /\ map (@length nat) rs = map snd (leaf_levels 0 (kd_root t)).
Proof.
  intros Hru H. pose proof (build_nonempty _ _ _ _ _ _ _ Hru H) as (NE & _).
  apply build_holds in H as [P N]; [|congruence].
  destruct (spans_leaf_ranges _ _ _ _ N [] [] [] eq_refl NE) as (rs & A & B & C & D).
  simpl in A. rewrite app_nil_r in A. exists rs. unfold leaf_ranges. rewrite A, B. auto.
Qed.

End Ord.
End Build.
