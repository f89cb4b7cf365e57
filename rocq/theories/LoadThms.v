(** Proofs about trees from anywhere. *)
From Coq Require Import List ZArith QArith Qabs Qminmax Bool Arith Permutation Sorted Lia Lqa.
From Verif Require Import Base ModelBox ModelBuild ModelSearch ModelSerial Spec SpecSerial SpecLoad Lemmas Instances
  BuildProofs BuildOrder BuildShape BuildThms SearchProofs SearchThms Metrics Visitors QueryThms BoxThms SafeThms TopThms
  OrdQuery ExactQuery CellThms SerialThms.
Import ListNotations.
Local Open Scope nat_scope.

Lemma in_skipn {A} b (l : list A) x : In x (skipn b l) -> In x l.
Proof. intros H. rewrite <- (firstn_skipn b l). apply in_or_app; auto. Qed.
Lemma in_firstn {A} b (l : list A) x : In x (firstn b l) -> In x l.
Proof. intros H. rewrite <- (firstn_skipn b l). apply in_or_app; auto. Qed.

Lemma leaf_intervals_ne {B} (nd : node B) : leaf_intervals nd <> [].
Proof. induction nd; simpl; try discriminate. intros H. apply app_eq_nil in H as [H _]. auto. Qed.
Lemma report_left_hd {B} (nd : node B) : report_left nd = fst (hd (0, 0) (leaf_intervals nd)).
Proof.
  induction nd as [b e|br l IHl r IHr]; simpl; auto. rewrite IHl.
  pose proof (leaf_intervals_ne l). destruct (leaf_intervals l); [congruence|reflexivity].
Qed.
Lemma last_app_ne {A} (a b : list A) d : b <> [] -> last (a ++ b) d = last b d.
Proof.
  intros H. induction a as [|x a IH]; auto. cbn [app]. rewrite <- IH. cbn [last].
  destruct (a ++ b) eqn:E; auto. apply app_eq_nil in E as [_ ->]. congruence.
Qed.
Lemma in_last_ne {A} (l : list A) d : l <> [] -> In (last l d) l.
Proof.
  induction l as [|x l IH]; [congruence|]. intros _. destruct l as [|y l]; [left; auto|].
  right. apply IH. discriminate.
Qed.
Lemma report_right_last {B} (nd : node B) : report_right nd = snd (last (leaf_intervals nd) (0, 0)).
Proof.
  induction nd as [b e|br l IHl r IHr]; auto. cbn [report_right leaf_intervals]. rewrite IHr.
  rewrite last_app_ne by apply leaf_intervals_ne. reflexivity.
Qed.

(** * Safety *)
Section Safe.
Context {T : Type} {S : Scalar T}.
Variables (m : metric T) (sp : space T) (indices : list nat) (q : list T).
Let n := sp_sdim sp.
Let N := length (sp_pts sp).
Hypotheses (FI : Forall (fun i => i < N) indices).

Lemma slice_incl b e : b <= length indices -> e <= length indices ->
  exists l, slice indices b e = Ok l /\ incl l indices /\ length l <= e - b.
Proof.
  intros Hb He. unfold slice. apply Nat.leb_le in Hb, He. rewrite Hb, He. cbn [andb].
  eexists. split; [reflexivity|]. split.
  - intros x Hx. eapply in_skipn, in_firstn, Hx.
  - apply firstn_le_length.
Qed.

Lemma incl_in_space l : incl l indices -> Forall (fun i => in_space sp i = true) l.
Proof.
  intros H. apply Forall_forall. intros i Hi. apply in_space_lt. rewrite Forall_forall in FI. apply FI, H, Hi.
Qed.

Section Nearest.
Hypothesis (LQ : length q = n).
Context {V : Type} (vis : visitor T V).

Lemma decide_safe c br : m_cat m = c -> br_split_dim c br < n -> branch_proper m c br ->
  exists sd gl no, decide m q c br = Ok (sd, gl, no) /\ sd < n.
Proof.
  intros Hc Hd Hp. destruct c; cbn [br_split_dim branch_proper decide] in *.
  - unfold decide_euclidean. rewrite (at_lt q _ s_zero) by (rewrite LQ; auto). cbn [bind]. eauto.
  - unfold decide_topological. rewrite (at_lt q _ s_zero) by (rewrite LQ; auto). cbn [bind]. unfold box_distance.
    destruct (m_dim_space m (bd_split_dim br)) eqn:E.
    + destruct (Hp eq_refl) as [P1 P2]. rewrite !guard_true by (unfold segment_r1_ok; auto). cbn [bind]. eauto.
    + cbn [bind]. eauto.
Qed.

Lemma search_gen_safe c nd : m_cat m = c ->
  Forall (fun '(b, e) => b <= length indices /\ e <= length indices) (leaf_intervals nd) ->
  every_branch (fun br _ _ => br_split_dim c br < n /\ branch_proper m c br) nd ->
  forall d o st, length o = n -> exists tr o', incl tr indices /\ length tr <= node_points nd
    /\ search_gen m vis sp indices q (decide m q c) nd d (o, st) = Ok (o', visits m vis sp q tr st)
    /\ length o' = n.
Proof.
  intros Hc. induction nd as [b e|br nl IHl nr IHr]; intros FL FB d o st Lo.
  - cbn [leaf_intervals] in FL. pose proof (Forall_inv FL) as [Hb He].
    destruct (slice_incl b e Hb He) as (l & E & I & L).
    exists l, o. split; auto. split; auto. cbn [search_gen]. rewrite E. cbn [bind fst snd].
    rewrite (visit_range_visits m vis sp q) by (apply incl_in_space; auto). cbn [bind]. auto.
  - cbn [leaf_intervals every_branch] in *. apply Forall_app in FL as [Fl Fr]. destruct FB as ((Hd & Hp) & Bl & Br).
    destruct (decide_safe c br Hc Hd Hp) as (sd & gl & no & E & Hsd).
    cbn [search_gen]. rewrite E. cbn [bind].
    assert (C1 : forall dd oo s', length oo = n -> exists tr o', incl tr indices
      /\ length tr <= node_points (if gl then nl else nr)
      /\ search_gen m vis sp indices q (decide m q c) (if gl then nl else nr) dd (oo, s') = Ok (o', visits m vis sp q tr s')
      /\ length o' = n) by (destruct gl; auto).
    assert (C2 : forall dd oo s', length oo = n -> exists tr o', incl tr indices
      /\ length tr <= node_points (if gl then nr else nl)
      /\ search_gen m vis sp indices q (decide m q c) (if gl then nr else nl) dd (oo, s') = Ok (o', visits m vis sp q tr s')
      /\ length o' = n) by (destruct gl; auto).
    destruct (C1 d o st Lo) as (t1 & o1 & I1 & L1 & E1 & Lo1). rewrite E1. cbn [bind fst snd].
    rewrite (at_lt o1 sd s_zero) by (rewrite Lo1; auto). cbn [bind].
    assert (PN : node_points (Branch br nl nr) = node_points (if gl then nl else nr) + node_points (if gl then nr else nl))
      by (destruct gl; cbn [node_points]; lia).
    destruct (s_leb _ _).
    + match goal with |- context [search_gen _ _ _ _ _ _ _ ?dd (?oo, ?ss)] =>
        destruct (C2 dd oo ss) as (t2 & o2 & I2 & L2 & E2 & Lo2); [rewrite length_set_nth; auto|] end.
      rewrite E2. cbn [bind fst snd]. exists (t1 ++ t2), (set_nth o2 sd (nth sd o1 s_zero)).
      split; [intros x Hx; apply in_app_or in Hx as [Hx|Hx]; auto|].
      split; [rewrite app_length, PN; lia|]. split; [rewrite visits_app; reflexivity|rewrite length_set_nth; auto].
    + exists t1, o1. split; auto. split; [rewrite PN; lia|]. auto.
Qed.
End Nearest.

Section Box.
Variables (mn mx : list T).

Lemma collect_safe l : incl l indices -> forall idxs, incl idxs indices ->
  exists out, collect_range m sp (Box mn mx) Euclidean l idxs = Ok out /\ incl out indices.
Proof.
  induction l as [|i l IH]; intros HI idxs HO; cbn [collect_range]; eauto.
  assert (Ii : In i indices) by (apply HI; left; auto).
  rewrite guard_true by (apply in_space_lt; rewrite Forall_forall in FI; apply FI; auto).
  cbn [bind query_contains]. apply IH.
  - intros x Hx. apply HI. right; auto.
  - destruct (box_contains _ _); auto. intros x Hx. apply in_app_or in Hx as [Hx|[<-|[]]]; auto.
Qed.

Lemma report_safe {B} (nd : node B) idxs : ordered_ranges nd ->
  Forall (fun '(b, e) => b <= length indices /\ e <= length indices) (leaf_intervals nd) -> incl idxs indices ->
  exists out, report_node indices nd idxs = Ok out /\ incl out indices.
Proof.
  intros HO FL HI.
  assert (K : report_node indices nd idxs = (do _ <- guard (report_left nd <=? report_right nd) UbIndex;
     do is_ <- slice indices (report_left nd) (report_right nd); Ok (idxs ++ is_))) by (destruct nd; reflexivity).
  rewrite K. assert (HR : report_left nd <= report_right nd).
  { rewrite report_left_hd, report_right_last. destruct nd; apply HO. }
  rewrite guard_true by (apply Nat.leb_le; auto). cbn [bind].
  assert (HE : report_right nd <= length indices).
  { rewrite report_right_last. rewrite Forall_forall in FL. pose proof (leaf_intervals_ne nd) as NE.
    pose proof (FL _ (@in_last_ne _ (leaf_intervals nd) (0, 0) NE)) as L. destruct (last _ _). apply L. }
  destruct (slice_incl (report_left nd) (report_right nd)) as (l & E & I & _); [lia|lia|].
  rewrite E. cbn [bind]. eexists. split; [reflexivity|]. intros x Hx. apply in_app_or in Hx as [Hx|Hx]; auto.
Qed.

Lemma box_node_safe nd :
  Forall (fun '(b, e) => b <= length indices /\ e <= length indices) (leaf_intervals nd) -> ordered_ranges nd ->
  every_branch (fun br _ _ => bs_split_dim br < n) nd ->
  forall b idxs, box_wf n b -> incl idxs indices ->
  exists b' out, search_box_node m sp indices (Box mn mx) Euclidean nd (b, idxs) = Ok (b', out)
    /\ box_wf n b' /\ incl out indices.
Proof.
  induction nd as [bb e|br nl IHl nr IHr]; intros FL OR FB b idxs W HI.
  - cbn [leaf_intervals] in FL. pose proof (Forall_inv FL) as [Hb He].
    destruct (slice_incl bb e Hb He) as (l & E & I & _).
    cbn [search_box_node]. rewrite E. cbn [bind fst snd].
    destruct (collect_safe l I idxs HI) as (out & Eo & Io). rewrite Eo. cbn [bind]. eauto.
  - cbn [leaf_intervals every_branch] in *. apply Forall_app in FL as [Fl Fr]. destruct FB as (Hd & Bl & Br).
    cbn [ordered_ranges] in OR. destruct OR as (_ & Ol & Or).
    cbn [search_box_node br_split_dim br_left_max br_right_min fst snd].
    destruct W as [W1 W2].
    rewrite (at_lt (box_max b) (bs_split_dim br) s_zero) by lia. cbn [bind query_contains_box].
    set (box1 := box_set_max b _ _).
    assert (B1 : box_wf n box1) by (apply box_set_max_wf; split; auto).
    assert (C1 : exists b1 o1, (if box_contains_box (Box mn mx) box1
         then do idxs0 <- report_node indices nl idxs; Ok (box1, idxs0)
         else if intersects_left (Box mn mx) Euclidean br
              then search_box_node m sp indices (Box mn mx) Euclidean nl (box1, idxs) else Ok (box1, idxs))
         = Ok (b1, o1) /\ box_wf n b1 /\ incl o1 indices).
    { destruct (box_contains_box _ _).
      - destruct (report_safe nl idxs Ol Fl HI) as (o & E & I). rewrite E. cbn [bind]. exists box1, o. auto.
      - destruct (intersects_left _ _ _); [apply IHl; auto|exists box1, idxs; auto]. }
    destruct C1 as (b1 & o1 & E1 & Wb1 & I1). match type of E1 with ?x = _ => match goal with |- context [bind ?y _] => change y with x end end.
    rewrite E1. cbn [bind fst snd].
    set (box2 := box_set_max b1 _ _). assert (B2 : box_wf n box2) by (apply box_set_max_wf; auto).
    pose proof B2 as [B21 B22].
    rewrite (at_lt (box_min box2) (bs_split_dim br) s_zero) by lia. cbn [bind].
    set (box3 := box_set_min box2 _ _).
    assert (B3 : box_wf n box3) by (apply box_set_min_wf; auto).
    assert (C2 : exists b2 o2, (if box_contains_box (Box mn mx) box3
         then do idxs0 <- report_node indices nr o1; Ok (box3, idxs0)
         else if intersects_right (Box mn mx) Euclidean br
              then search_box_node m sp indices (Box mn mx) Euclidean nr (box3, o1) else Ok (box3, o1))
         = Ok (b2, o2) /\ box_wf n b2 /\ incl o2 indices).
    { destruct (box_contains_box (Box mn mx) box3).
      - destruct (report_safe nr o1 Or Fr I1) as (o & E & I). rewrite E. cbn [bind]. exists box3, o. auto.
      - destruct (intersects_right _ _ _); [apply IHr; auto|exists box3, o1; auto]. }
    destruct C2 as (b2 & o2 & E2 & Wb2 & I2). match type of E2 with ?x = _ => match goal with |- context [bind ?y _] => change y with x end end.
    rewrite E2. cbn [bind fst snd].
    do 2 eexists. split; [reflexivity|]. split; [apply box_set_min_wf; auto|auto].
Qed.
End Box.
End Safe.

(** A tree whose numbers are in range can be searched. *)
Section SafeTop.
Context {T : Type} {S : Scalar T}.
Variables (m : metric T) (sp : space T) (data : kd_tree_data (m_cat m) T).
Hypothesis IR : in_range m sp data.

Lemma nearest_safe {V} (vis : visitor T V) q v0 : length q = sp_sdim sp ->
  exists tr, (forall i, In i tr -> i < npts sp) /\ length tr <= node_points (kd_root data)
    /\ search_nearest (KdTree sp m data) vis q v0
       = Ok (fold_left (fun st i => v_visit vis i (m_dist m q (nth i (sp_pts sp) [])) st) tr v0).
Proof.
  intros LQ. destruct IR as [FI FL FB].
  destruct (search_gen_safe m sp (kd_indices data) q FI LQ vis (m_cat m) (kd_root data) eq_refl FL FB
    s_zero (offsets0 sp) v0) as (tr & o' & I & L & E & _); [apply length_tab|].
  exists tr. split; [intros i Hi; rewrite Forall_forall in FI; apply FI, I, Hi|]. split; auto.
  unfold search_nearest. cbn [kt_space kt_metric kt_data]. rewrite LQ, Nat.eqb_refl. cbn [guard bind].
  rewrite search_nearest_root_gen, E. reflexivity.
Qed.
End SafeTop.

Lemma box_safe {T} {S : Scalar T} (m : metric T) (sp : space T) (data : kd_tree_data (m_cat m) T) (mn mx : list T) :
  m_cat m = Euclidean -> in_range m sp data -> ordered_ranges (kd_root data) ->
  length (box_min (kd_root_box data)) = sp_sdim sp -> length (box_max (kd_root_box data)) = sp_sdim sp ->
  length mn = sp_sdim sp -> length mx = sp_sdim sp ->
  exists out, search_box (KdTree sp m data) mn mx = Ok out /\ forall i, In i out -> i < npts sp.
Proof.
  intros CAT [FI FL FB] OR W1 W2 L1 L2. unfold search_box. cbn [kt_space kt_metric kt_data].
  rewrite L1, L2, Nat.eqb_refl. cbn [andb guard bind].
  destruct m as [cat md ma ms]. cbn [m_cat] in *. subst cat.
  destruct (box_node_safe {| m_cat := Euclidean; m_dist := md; m_app := ma; m_dim_space := ms |} sp (kd_indices data) FI mn mx
    (kd_root data) FL OR) with (b := kd_root_box data) (idxs := @nil nat)
    as (b' & out & E & _ & I); auto.
  - clear - FB. revert FB. generalize (kd_root data) as nd. induction nd; cbn [every_branch]; intuition.
  - split; auto.
  - intros x [].
  - match goal with E : ?x = Ok _ |- context [bind ?y _] => change y with x end. rewrite E. cbn [bind snd]. exists out. split; auto.
    intros i Hi. rewrite Forall_forall in FI. apply FI, I, Hi.
Qed.

(** * Exactness *)
Lemma consecutive_le a l b : consecutive a l b -> a <= b.
Proof. induction 1; lia. Qed.
Lemma consecutive_split l1 l2 : forall a c, consecutive a (l1 ++ l2) c ->
  exists b, consecutive a l1 b /\ consecutive b l2 c.
Proof.
  induction l1 as [|x l1 IH]; cbn [app]; intros a c H.
  - exists a. split; [constructor|auto].
  - inversion H as [|? b0 ? ? Hab Hr]; subst. destruct (IH _ _ Hr) as (b & H1 & H2).
    exists b. split; [constructor; auto|auto].
Qed.
Lemma firstn_skipn_split {A} (l : list A) a b c : a <= b -> b <= c ->
  firstn (b - a) (skipn a l) ++ firstn (c - b) (skipn b l) = firstn (c - a) (skipn a l).
Proof.
  intros H1 H2. replace (c - a) with ((b - a) + (c - b)) by lia.
  rewrite <- (firstn_skipn (b - a) (skipn a l)) at 2.
  assert (E : skipn b l = skipn (b - a) (skipn a l)).
  { rewrite skipn_skipn_add. f_equal. lia. }
  rewrite E. generalize (skipn a l) as x. intros x.
  destruct (Nat.le_gt_cases (b - a) (length x)) as [L|L].
  - rewrite firstn_app. rewrite firstn_length_le by auto. rewrite (firstn_all2 (n := b - a + (c - b)) (firstn (b - a) x)).
    + f_equal. f_equal. lia.
    + rewrite firstn_length_le by auto. lia.
  - rewrite (skipn_all2 x) by lia. rewrite firstn_nil, !app_nil_r. rewrite (firstn_all2 (n := b - a)) by lia.
    rewrite firstn_all2 by lia. reflexivity.
Qed.

Lemma indices_consecutive {B} (indices : list nat) (nd : node B) : forall a c,
  consecutive a (leaf_intervals nd) c -> node_indices indices nd = firstn (c - a) (skipn a indices).
Proof.
  unfold node_indices. induction nd as [b e|br l IHl r IHr]; intros a c H; cbn [leaf_intervals flat_map] in *.
  - inversion H as [|? b0 ? ? Hab Hr]; subst. inversion Hr; subst. rewrite app_nil_r. reflexivity.
  - apply consecutive_split in H as (b & H1 & H2). rewrite flat_map_app, (IHl _ _ H1), (IHr _ _ H2).
    apply firstn_skipn_split; [eapply consecutive_le; eauto|eapply consecutive_le; eauto].
Qed.

Lemma spans_of {B} (R : B -> list nat -> list nat -> Prop) (indices : list nat) (nd : node B) : forall a c,
  consecutive a (leaf_intervals nd) c -> c <= length indices -> every_branch_at R indices nd ->
  node_spans R nd a (firstn (c - a) (skipn a indices)).
Proof.
  induction nd as [b e|br l IHl r IHr]; intros a c H Hc HB.
  - cbn [leaf_intervals] in H. inversion H as [|? b0 ? ? Hab Hr]; subst. inversion Hr; subst.
    assert (L : length (firstn (c - b) (skipn b indices)) = c - b).
    { rewrite firstn_length_le; auto. rewrite skipn_length. lia. }
    replace c with (b + length (firstn (c - b) (skipn b indices))) at 1 by lia. constructor.
  - cbn [leaf_intervals] in H. cbn [every_branch_at] in HB. destruct HB as (HR & Hl & Hr).
    apply consecutive_split in H as (b & H1 & H2).
    pose proof (consecutive_le _ _ _ H1) as L1. pose proof (consecutive_le _ _ _ H2) as L2.
    rewrite <- (firstn_skipn_split indices a b c) by auto.
    rewrite (indices_consecutive _ _ _ _ H1), (indices_consecutive _ _ _ _ H2) in HR.
    assert (L : length (firstn (b - a) (skipn a indices)) = b - a).
    { rewrite firstn_length_le; auto. rewrite skipn_length. lia. }
    constructor; auto.
    + apply IHl; auto. lia.
    + rewrite L. replace (a + (b - a)) with b by lia. apply IHr; auto.
Qed.

Lemma true_branch_search {T} {S : Scalar T} (val : T -> Q) m sp c (br : branch_data c T) l r :
  true_branch val m sp c br l r <-> R_search val m sp c br l r.
Proof. destruct c; reflexivity. Qed.

Section Exact.
Context {T : Type} {S : Scalar T} (val : T -> Q) (EL : exact_laws S val).
Variable sp : space T.
Variables (m : metric T) (data : kd_tree_data (m_cat m) T).
Hypothesis TO : tree_of val m sp data.
Let n := sp_sdim sp.
Let N := length (sp_pts sp).

Lemma tree_of_spans : node_spans (R_search val m sp (m_cat m)) (kd_root data) 0 (kd_indices data).
Proof.
  destruct TO as [P C B].
  assert (L : length (kd_indices data) = npts sp) by (rewrite (Permutation_length P); apply seq_length).
  assert (L' : npts sp <= length (kd_indices data)) by (rewrite L; auto).
  pose proof (spans_of _ _ _ _ _ C L' B) as K.
  rewrite Nat.sub_0_r, <- L in K. cbn [skipn] in K. rewrite firstn_all in K.
  eapply node_spans_impl; [exact K|]. intros br l r _ _ H. apply true_branch_search; auto.
Qed.

Variables (q : list T) (t : nat -> Q -> Q -> Q).
Hypotheses (HT : terms_for val m t) (LQ : length q = n) (HQ : point_ok val m n q)
  (EX : forall j, j < N -> (D_low val t sp q j <= val (m_dist m q (sp_at sp j)))%Q).

Lemma tree_of_contract :
  contract (ok := fun _ => True) m sp q (fun V vis v0 => search_nearest (KdTree sp m data) vis q v0).
Proof.
  intros V vis Inv v0 HI _ HV. pose proof tree_of_spans as NS. destruct TO as [P _ _].
  assert (Hin : forall i, In i (kd_indices data) <-> i < N).
  { intros i. unfold N. rewrite <- In_seq0. split; apply Permutation_in; auto; symmetry; auto. }
  destruct (search_gen_spec m vis sp (kd_indices data) q (R_search val m sp (m_cat m)) (decide m q (m_cat m))
              Inv (fun st j => (val (v_max vis st) <= D_low val t sp q j)%Q)
              (LB_sum val t sp q) (kd_indices data)) with
    (nd := kd_root data) (b := 0) (l := kd_indices data) (pre := @nil nat) (post := @nil nat)
    (o := offsets0 sp) (d := s_zero (Scalar := S)) (st := v0)
    as (tr & rest & Pt & E & HF).
  - intros st i HIs Hi. apply HV; auto. apply Hin; auto.
  - intros st i j HIs Hi HFj. apply Hin in Hi. destruct (HV st i Hi HIs) as [_ M]. apply (leb_val val EL) in M. lra.
  - intros. eapply LB_sum_incl; eauto.
  - intros o d l st HL HIs EL' j Hj. apply (leb_val_false val EL) in EL'.
    pose proof (LB_sum_low val t sp q o d l j HL Hj). lra.
  - intros br l r o d HR Hi HL. eapply step_search; eauto.
  - exact NS.
  - rewrite app_nil_r. reflexivity.
  - reflexivity.
  - apply Forall_forall. intros i Hi. apply in_space_lt. apply Hin; auto.
  - apply incl_refl.
  - apply LB_sum_start; auto. destruct HT as [HT'|HT']; [apply (et_nonneg _ _ _ HT')|apply (tt_nonneg _ _ _ HT')].
  - exact HI.
  - exists tr, rest. split; [rewrite Pt; auto|]. split.
    + unfold search_nearest. cbn [kt_space kt_metric kt_data]. fold n. rewrite LQ, Nat.eqb_refl. cbn [guard bind].
      rewrite search_nearest_root_gen, E. reflexivity.
    + intros j Hj. apply (leb_val val EL). eapply Qle_trans; [exact (HF j Hj)|]. apply EX.
      apply Hin. eapply Permutation_in; [exact Pt|]. apply in_or_app; auto.
Qed.
End Exact.

Lemma consecutive_app l1 l2 : forall a b c, consecutive a l1 b -> consecutive b l2 c -> consecutive a (l1 ++ l2) c.
Proof.
  induction l1 as [|x l1 IH]; cbn [app]; intros a b c H1 H2; inversion H1; subst; auto. constructor; eauto.
Qed.
Lemma spans_consecutive {B} (R : B -> list nat -> list nat -> Prop) (nd : node B) b l :
  node_spans R nd b l -> consecutive b (leaf_intervals nd) (b + length l).
Proof.
  induction 1 as [b l|br nl nr b l r H1 IH1 H2 IH2 HR]; cbn [leaf_intervals].
  - constructor; [lia|constructor].
  - rewrite app_length, Nat.add_assoc. eapply consecutive_app; eauto.
Qed.

(** Trees that are made are trees of the points. *)
Lemma made_tree_of {T} {S : Scalar T} (val : T -> Q) (EL : exact_laws S val) em sp alg (SL : std_laws alg)
    it fuel stop bnds ru tree q :
  kd_tree_make alg it (metric_of em) fuel sp stop bnds ru = Ok tree ->
  usable val em sp bnds q ->
  exists data, tree = KdTree sp (metric_of em) data /\ tree_of val (metric_of em) sp data.
Proof.
  intros HM US. pose proof (bnds_ok val EL em sp alg it fuel stop bnds ru _ q HM US) as HB.
  apply kd_tree_make_inv in HM as (data & -> & HBd). exists data. split; auto.
  apply (build_order val EL sp (us_space _ _ _ _ _ US) (us_range _ _ _ _ _ US) (metric_of em) alg SL) in HBd as [P N0]; auto.
  2:{ eapply points_ok; eauto. }
  assert (NS : node_spans (true_branch val (metric_of em) sp (m_cat (metric_of em))) (kd_root data) 0 (kd_indices data)).
  { eapply node_spans_impl; [exact N0|]. intros. apply true_branch_search. eapply R_order_search; eauto. }
  constructor.
  - exact P.
  - apply spans_consecutive in NS. rewrite (Permutation_length P), seq_length in NS. exact NS.
  - pose proof (spans_every_branch sp _ _ _ _ NS [] [] eq_refl) as K. rewrite app_nil_r in K. exact K.
Qed.

Section TopTree.
Context {T : Type} {S : Scalar T} (val : T -> Q) (EL : exact_laws S val).
Variables (em : exact_metric) (sp : space T) (data : kd_tree_data (m_cat (metric_of em)) T) (q : list T).
Hypotheses (TO : tree_of val (metric_of em) sp data) (US : usable val em sp bounds_from_space q) (N0 : 0 < npts sp).
Let tree := KdTree sp (metric_of em) data.

Lemma tree_run : contract (ok := fun _ => True) (metric_of em) sp q (fun V vis v0 => search_nearest tree vis q v0).
Proof.
  apply (tree_of_contract val EL sp (metric_of em) data TO q (terms_of em)).
  - apply (exact_terms val EL em).
  - apply (us_query _ _ _ _ _ US).
  - eapply query_ok; eauto.
  - intros j Hj. rewrite (low_eq val EL em sp 0 _ q US j Hj). apply Qle_refl.
Qed.

Let D_eq j (H : j < npts sp) := dist_eq val EL em sp 0 _ q US j H.

Lemma tree_radius (alg : std_algos) (SL : std_laws alg) r sort : exists l,
  search_radius alg tree q r sort = Ok l
  /\ filter_answer (npts sp) (fun i => (dist_to val em sp q i < val r)%Q) (dist_to val em sp q) (answers val l)
  /\ (sort = true -> StronglySorted Qle (map (fun x => val (n_distance x)) l)).
Proof.
  destruct (eq_radius_sort val EL (metric_of em) sp q _ tree_run alg SL r sort) as (l & E & A & St).
  exists l. split; [exact E|]. split; [|exact St]. eapply filter_answer_ext; [| |exact A].
  - intros; apply D_eq; auto.
  - intros j Hj. cbn beta. rewrite (D_eq j Hj). reflexivity.
Qed.

Hypothesis FIT : distances_fit val em sp q.
Lemma tree_fit j : j < length (sp_pts sp) -> (val (m_dist (metric_of em) q (sp_at sp j)) < val s_max)%Q.
Proof. intros Hj. rewrite (D_eq j Hj). apply FIT; auto. Qed.

Lemma tree_nn nn0 : exists i d, search_nn tree q nn0 = Ok (Neighbor i d)
  /\ (val d == dist_to val em sp q i)%Q /\ is_nearest (npts sp) (dist_to val em sp q) i.
Proof.
  destruct (eq_nn val EL (metric_of em) sp q _ tree_run N0 tree_fit nn0) as (i & d & E & V & I).
  exists i, d. split; [exact E|]. split.
  - rewrite V. apply D_eq. apply I.
  - eapply is_nearest_ext; [|exact I]. intros; apply D_eq; auto.
Qed.

Lemma tree_knn k knn0 : 0 < k -> exists out, search_knn tree q k knn0 = Ok out
  /\ knn_answer (npts sp) k (dist_to val em sp q) (answers val out).
Proof.
  intros Hk. destruct (eq_knn val EL (metric_of em) sp q _ tree_run N0 tree_fit k knn0 Hk) as (out & E & A).
  exists out. split; [exact E|]. eapply knn_answer_ext; [|exact A]. intros; apply D_eq; auto.
Qed.
End TopTree.

Section Box.
Context {T : Type} {S : Scalar T} (val : T -> Q) (EL : exact_laws S val).
Variables (sp : space T) (WF : wf_space sp) (m : metric T) (CAT : m_cat m = Euclidean).
Variables (data : kd_tree_data (m_cat m) T) (mn mx : list T).
Hypotheses (TO : tree_of val m sp data) (BO : box_of sp (kd_root_box data))
  (Lmn : length mn = sp_sdim sp) (Lmx : length mx = sp_sdim sp).

Lemma tree_box : exists ans, search_box (KdTree sp m data) mn mx = Ok ans
  /\ index_answer (npts sp) (fun i => inside mn mx (nth i (sp_pts sp) [])) ans.
Proof.
  pose proof (tree_of_spans val sp m data TO) as NS. destruct TO as [P _ _].
  destruct m as [cat md ma ms]. cbn [m_cat] in *. subst cat.
  set (b := kd_root_box data) in *.
  assert (HO : holds sp b (kd_indices data)).
  { intros i Hi d Hd. apply (bo_in _ _ BO); auto. apply (Permutation_in _ P) in Hi. apply In_seq0 in Hi. auto. }
  assert (OKT : forall n b, ok_box (fun _ : T => True) n b) by (intros ? ? ? ?; auto).
  assert (HN : node_spans (R_holds (fun _ => True) sp Euclidean) (kd_root data) 0 (kd_indices data)).
  { eapply node_spans_impl; [exact NS|]. intros br l r Il Ir (Hd & Hl & Hr & _).
    exists (box_set_max b (bs_split_dim br) (bs_left_max br)), (box_set_min b (bs_split_dim br) (bs_right_min br)),
      (bs_split_dim br).
    pose proof (bo_min _ _ BO) as L1. pose proof (bo_max _ _ BO) as L2. fold b in L1, L2.
    split; [|split; [exact Hd|split; [split|split; [split|split; [apply OKT|split; [apply OKT|split; intros i Hi d Hd']]]]]].
    - destruct br as [sd lm rm]. cbn [set_branch bs_split_dim bs_left_max bs_right_min box_set_max box_set_min box_min box_max] in *.
      rewrite !get_set_same by lia. reflexivity.
    - cbn [box_set_max box_min]. auto.
    - cbn [box_set_max box_max]. rewrite length_set_nth. auto.
    - cbn [box_set_min box_min]. rewrite length_set_nth. auto.
    - cbn [box_set_min box_max]. auto.
    - cbn [box_set_max box_min box_max]. destruct (HO i (Il _ Hi) d Hd') as [A B]. split; [exact A|].
      destruct (Nat.eq_dec (bs_split_dim br) d) as [<-|Ne].
      + rewrite get_set_same by lia. apply (leb_val val EL). apply Hl; auto.
      + rewrite get_set_other by auto. exact B.
    - cbn [box_set_min box_min box_max]. destruct (HO i (Ir _ Hi) d Hd') as [A B]. split; [|exact B].
      destruct (Nat.eq_dec (bs_split_dim br) d) as [<-|Ne].
      + rewrite get_set_same by lia. apply (leb_val val EL). apply Hr; auto.
      + rewrite get_set_other by auto. exact A. }
  unfold search_box. cbn [kt_space kt_metric kt_data]. rewrite Lmn, Lmx, Nat.eqb_refl.
  cbn [andb guard bind]. fold b.
  assert (OKP : forall n p, ok_point (fun _ : T => True) n p) by (intros ? ? ? ?; auto).
  erewrite (box_node_euclidean (fun _ => True) (exact_ord val EL) sp WF (all_coords_true sp) _ (kd_indices data) mn mx Lmn Lmx (OKP _ _) (OKP _ _) _ _ _ HN [] []).
  - cbn [bind snd app]. eexists. split; [reflexivity|]. apply perm_filter_answer; auto.
    intros i Hi. eapply iff_trans; [eapply (box_contains_iff (fun _ => True) (exact_ord val EL)); eauto|].
    unfold inside, in_box. rewrite Lmn. reflexivity.
  - rewrite app_nil_r. reflexivity.
  - reflexivity.
  - apply perm_in_space; auto.
  - split; [apply (bo_min _ _ BO)|apply (bo_max _ _ BO)].
  - auto.
  - exact HO.
Qed.
End Box.
