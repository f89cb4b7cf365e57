(** Orthogonal range queries on constructed trees. *)
From Coq Require Import List ZArith QArith Bool Arith Permutation Lia Lqa.
From Verif Require Import Base ModelBox ModelBuild ModelSearch Spec Lemmas Instances
  BuildProofs BuildOrder BuildShape BuildThms.
Import ListNotations.
Local Open Scope nat_scope.

Lemma spans_report {B} (R : B -> list nat -> list nat -> Prop) nd b l :
  node_spans R nd b l -> report_left nd = b /\ report_right nd = b + length l.
Proof.
  induction 1 as [b l|br nl nr b l r H1 [IH1 IH1'] H2 [IH2 IH2'] HR]; simpl; auto.
  rewrite app_length. split; auto. lia.
Qed.

Lemma report_node_spans {B} (R : B -> list nat -> list nat -> Prop) nd b l pre post idxs :
  node_spans R nd b l -> b = length pre ->
  report_node (pre ++ l ++ post) nd idxs = Ok (idxs ++ l).
Proof.
  intros H Hb. assert (K : report_node (pre ++ l ++ post) nd idxs =
    (do _ <- guard (b <=? b + length l) UbIndex;
     do is_ <- slice (pre ++ l ++ post) b (b + length l); Ok (idxs ++ is_))).
  { destruct (spans_report _ _ _ _ H) as [E1 E2]. unfold report_node. destruct nd; cbn [report_left report_right] in *; rewrite E1, E2; reflexivity. }
  rewrite K. rewrite guard_true by (apply Nat.leb_le; lia). cbn [bind]. subst b.
  rewrite slice_app. reflexivity.
Qed.

Lemma filter_all {A} (p : A -> bool) l : (forall x, In x l -> p x = true) -> filter p l = l.
Proof. induction l; simpl; intros H; auto. rewrite H by auto. f_equal. auto. Qed.
Lemma filter_none {A} (p : A -> bool) l : (forall x, In x l -> p x = false) -> filter p l = [].
Proof. induction l; simpl; intros H; auto. rewrite H by auto. auto. Qed.

Section Box.
Context {T : Type} {S : Scalar T} (ok : T -> Prop) (OL : ord_laws S ok).
Variables (sp : space T) (WF : wf_space sp) (OKS : all_coords ok sp).
Let n := sp_sdim sp.
Local Notation le x y := (s_leb x y = true).

Definition oproper (b : box T) : Prop := forall d, d < n -> le (get (box_min b) d) (get (box_max b) d).

Definition sub_box (a b : box T) : Prop := forall d, d < n ->
  le (get (box_min b) d) (get (box_min a) d) /\ le (get (box_max a) d) (get (box_max b) d).

(** Every node with the box that construction computed for it. *)
Inductive boxed (c : category) : node (branch_data c T) -> nat -> list nat -> box T -> Prop :=
| boxed_leaf off l bx : box_wf n bx -> ok_box ok n bx -> oproper bx -> holds sp bx l ->
    boxed c (Leaf off (off + length l)) off l bx
| boxed_branch nl nr off l r lb rb d : boxed c nl off l lb -> boxed c nr (off + length l) r rb -> d < n ->
    boxed c (Branch (set_branch c lb rb d) nl nr) off (l ++ r) (box_fit_box lb rb).

Lemma fit_box_sub a b : box_wf n a -> ok_box ok n a -> ok_box ok n b ->
  sub_box a (box_fit_box a b) /\ sub_box b (box_fit_box a b).
Proof.
  intros W Oa Ob. split; intros d Hd; rewrite (get_fit_box_min n), (get_fit_box_max n) by auto;
    destruct (Oa d Hd), (Ob d Hd);
    destruct (s_ltb (get (box_min b) d) _) eqn:E1, (s_ltb (get (box_max a) d) _) eqn:E2; split;
    try (apply (leb_refl ok OL); auto; fail); try (apply (ltb_leb ok OL); auto; fail);
    apply (ltb_false ok OL); auto.
Qed.

Lemma fit_box_lub a b x : box_wf n a -> sub_box a x -> sub_box b x -> sub_box (box_fit_box a b) x.
Proof.
  intros W Ha Hb d Hd. rewrite (get_fit_box_min n), (get_fit_box_max n) by auto.
  destruct (Ha d Hd), (Hb d Hd). destruct (s_ltb _ _), (s_ltb _ _); auto.
Qed.

Lemma sub_box_trans a b x : ok_box ok n a -> ok_box ok n b -> ok_box ok n x ->
  sub_box a b -> sub_box b x -> sub_box a x.
Proof.
  intros Oa Ob Ox H1 H2 d Hd. destruct (H1 d Hd), (H2 d Hd), (Oa d Hd), (Ob d Hd), (Ox d Hd).
  split; eapply (leb_trans ok OL); [| | |eassumption|eassumption| | | |eassumption|eassumption]; auto.
Qed.

Lemma sub_box_holds a b l : Forall (fun i => in_space sp i = true) l ->
  ok_box ok n a -> ok_box ok n b -> sub_box a b -> holds sp a l -> holds sp b l.
Proof.
  intros F Oa Ob H HO i Hi d Hd. destruct (HO i Hi d Hd), (H d Hd), (Oa d Hd), (Ob d Hd).
  rewrite Forall_forall in F. pose proof (ok_point_at ok sp WF OKS i (F i Hi) d Hd).
  split; eapply (leb_trans ok OL); [| | |eassumption|eassumption| | | |eassumption|eassumption]; auto.
Qed.

Lemma boxed_facts c nd off l bx : boxed c nd off l bx -> Forall (fun i => in_space sp i = true) l ->
  box_wf n bx /\ ok_box ok n bx /\ oproper bx /\ holds sp bx l.
Proof.
  induction 1 as [|nl nr off l r lb rb d H1 IH1 H2 IH2 Hd]; intros F; auto.
  apply Forall_app in F as [Fl Fr]. destruct (IH1 Fl) as (W1 & O1 & P1 & HO1), (IH2 Fr) as (W2 & O2 & P2 & HO2).
  destruct (fit_box_sub lb rb W1 O1 O2) as [S1 S2].
  assert (OF : ok_box ok n (box_fit_box lb rb)) by (apply box_fit_box_ok; auto).
  split; [apply box_fit_box_wf; auto|]. split; auto. split.
  - intros k Hk. destruct (S1 k Hk), (O1 k Hk), (OF k Hk).
    eapply (leb_trans ok OL); [| | |eassumption|]; auto.
    eapply (leb_trans ok OL); [| | |apply P1|]; auto.
  - intros i Hi. apply in_app_or in Hi as [Hi|Hi].
    + apply (sub_box_holds lb (box_fit_box lb rb) l); auto.
    + apply (sub_box_holds rb (box_fit_box lb rb) r); auto.
Qed.

Lemma boxed_spans c nd off l bx : boxed c nd off l bx -> node_spans (fun _ _ _ => True) nd off l.
Proof. induction 1; constructor; auto. Qed.

Section Search.
Variables (m : metric T) (indices : list nat) (mn mx : list T).
Hypotheses (Lmn : length mn = n) (Lmx : length mx = n)
  (Omn : ok_point ok n mn) (Omx : ok_point ok n mx).
Let query := Box mn mx.

Lemma box_contains_iff x : ok_point ok n x ->
  box_contains query x = true <-> in_box n query x.
Proof.
  intros OX. unfold box_contains, box_size, query. cbn [box_min box_max]. rewrite Lmn.
  rewrite forallb_forall. split.
  - intros H d Hd. specialize (H d ltac:(apply In_seq0; auto)).
    apply negb_true_iff, orb_false_iff in H as [A B]. cbn [box_min box_max].
    split; apply (ltb_false ok OL); auto.
  - intros H d Hd. apply In_seq0 in Hd. destruct (H d Hd) as [A B]. cbn [box_min box_max] in *.
    apply negb_true_iff, orb_false_iff.
    split; apply (leb_not_ltb ok OL); auto.
Qed.

Lemma corners_ok b : ok_box ok n b -> ok_point ok n (box_min b) /\ ok_point ok n (box_max b).
Proof. intros H. split; intros d Hd; apply H; auto. Qed.

Lemma contains_box_all b x : ok_box ok n b -> ok_point ok n x ->
  box_contains_box query b = true -> in_box n b x -> box_contains query x = true.
Proof.
  intros OB OX H HI. unfold box_contains_box in H. apply andb_prop in H as [A B].
  destruct (corners_ok b OB) as [C1 C2].
  apply box_contains_iff in A; auto. apply box_contains_iff in B; auto. apply box_contains_iff; auto.
  intros d Hd. destruct (A d Hd) as [A1 _], (B d Hd) as [_ B2], (HI d Hd) as [I1 I2], (OB d Hd).
  cbn [query box_min box_max] in *. split.
  - eapply (leb_trans ok OL); [| | |exact A1|exact I1]; auto.
  - eapply (leb_trans ok OL); [| | |exact I2|exact B2]; auto.
Qed.

(** * Euclidean spaces *)
Let hit (i : nat) : bool := box_contains query (sp_at sp i).

Lemma collect_euclidean l : Forall (fun i => in_space sp i = true) l -> forall idxs,
  collect_range m sp query Euclidean l idxs = Ok (idxs ++ filter hit l).
Proof.
  induction 1 as [|i l Hi _ IH]; intros idxs; cbn [collect_range filter].
  - rewrite app_nil_r. reflexivity.
  - rewrite guard_true by auto. cbn [bind query_contains]. rewrite IH. unfold hit at 2.
    destruct (box_contains query (sp_at sp i)); auto. rewrite <- app_assoc. reflexivity.
Qed.

Lemma set_restore (l : list T) d x y : at_ l d = Ok x -> set_nth (set_nth l d y) d x = l.
Proof. intros H. apply set_nth_restore. apply at_ok; auto. Qed.

Lemma box_node_euclidean nd b0 l : node_spans (R_holds ok sp Euclidean) nd b0 l ->
  forall pre post b idxs, indices = pre ++ l ++ post -> b0 = length pre ->
  Forall (fun i => in_space sp i = true) l ->
  box_wf n b -> ok_box ok n b -> holds sp b l ->
  search_box_node m sp indices query Euclidean nd (b, idxs) = Ok (b, idxs ++ filter hit l).
Proof.
  induction 1 as [b0 l|br nl nr b0 l r H1 IH1 H2 IH2 HR]; intros pre post b idxs Hi Hb F W O HO.
  - cbn [search_box_node]. subst b0. rewrite Hi, slice_app. cbn [bind fst snd].
    rewrite collect_euclidean by auto. reflexivity.
  - destruct HR as (lb & rb & d & -> & Hd & Wl & Wr & Ol & Or & Hl & Hr).
    apply Forall_app in F as [Fl Fr]. rewrite Forall_forall in Fl, Fr.
    assert (OKP : forall i, In i (l ++ r) -> ok_point ok n (sp_at sp i)).
    { intros i Hx. apply (ok_point_at ok sp WF OKS). apply in_app_or in Hx as [Hx|Hx]; auto. }
    destruct b as [bmn bmx]. destruct W as [W1 W2]. cbn [box_min box_max] in W1, W2.
    cbn [search_box_node br_split_dim br_left_max br_right_min set_branch bs_split_dim bs_left_max bs_right_min fst snd box_max box_min].
    rewrite (at_lt bmx d s_zero) by lia. cbn [bind query_contains_box].
    set (box1 := box_set_max (Box bmn bmx) d (get (box_max lb) d)).
    assert (O1 : ok_box ok n box1).
    { apply box_set_max_ok; auto. - split; auto. - apply Ol; auto. }
    assert (HO1 : holds sp box1 l).
    { intros i Hx k Hk. destruct (HO i ltac:(apply in_or_app; auto) k Hk) as [A B].
      unfold box1. cbn [box_set_max box_min box_max] in *. split; auto.
      destruct (Nat.eq_dec d k) as [<-|Ne].
      - rewrite get_set_same by lia. apply (Hl i Hx d Hd).
      - rewrite get_set_other by auto. auto. }
    assert (EL : (if box_contains_box query box1
                  then do idxs0 <- report_node indices nl idxs; Ok (box1, idxs0)
                  else if intersects_left query Euclidean (BranchSingle d (get (box_max lb) d) (get (box_min rb) d))
                       then search_box_node m sp indices query Euclidean nl (box1, idxs)
                       else Ok (box1, idxs)) = Ok (box1, idxs ++ filter hit l)).
    { destruct (box_contains_box query box1) eqn:EC.
      - rewrite Hi, <- app_assoc. rewrite (report_node_spans (R_holds ok sp Euclidean) nl b0 l) by auto.
        cbn [bind]. rewrite filter_all; auto.
        intros i Hx. unfold hit. apply (contains_box_all box1); auto. apply OKP, in_or_app; auto.
      - destruct (intersects_left _ _ _) eqn:EI.
        + apply (IH1 pre (r ++ post)); auto.
          * rewrite Hi, <- app_assoc. reflexivity.
          * apply Forall_forall; auto.
          * apply box_set_max_wf. split; auto.
        + rewrite filter_none, app_nil_r; auto. intros i Hx. unfold hit.
          destruct (box_contains query (sp_at sp i)) eqn:E; auto. exfalso.
          apply box_contains_iff in E; [|apply OKP, in_or_app; auto].
          destruct (E d Hd) as [A _]. destruct (Hl i Hx d Hd) as [_ B]. cbn [query box_min] in A.
          assert (X : le (get mn d) (get (box_max lb) d)).
          { eapply (leb_trans ok OL); [| | |exact A|exact B]; auto. - apply OKP; auto. apply in_or_app; auto. - apply Ol; auto. }
          cbn [intersects_left bs_split_dim bs_left_max query box_min] in EI. congruence. }
    rewrite EL. cbn [bind fst snd].
    assert (EB : box_set_max box1 d (nth d bmx s_zero) = Box bmn bmx).
    { unfold box1, box_set_max. cbn [box_min box_max]. rewrite set_restore by (apply at_lt; lia). reflexivity. }
    rewrite EB. cbn [box_min]. rewrite (at_lt bmn d s_zero) by lia. cbn [bind].
    set (box3 := box_set_min (Box bmn bmx) d (get (box_min rb) d)).
    assert (O3 : ok_box ok n box3).
    { apply box_set_min_ok; auto. - split; auto. - apply Or; auto. }
    assert (HO3 : holds sp box3 r).
    { intros i Hx k Hk. destruct (HO i ltac:(apply in_or_app; auto) k Hk) as [A B].
      unfold box3. cbn [box_set_min box_min box_max] in *. split; auto.
      destruct (Nat.eq_dec d k) as [<-|Ne].
      - rewrite get_set_same by lia. apply (Hr i Hx d Hd).
      - rewrite get_set_other by auto. auto. }
    assert (ER : forall id0, (if box_contains_box query box3
                  then do idxs0 <- report_node indices nr id0; Ok (box3, idxs0)
                  else if intersects_right query Euclidean (BranchSingle d (get (box_max lb) d) (get (box_min rb) d))
                       then search_box_node m sp indices query Euclidean nr (box3, id0)
                       else Ok (box3, id0)) = Ok (box3, id0 ++ filter hit r)).
    { intros id0. destruct (box_contains_box query box3) eqn:EC.
      - rewrite Hi, <- app_assoc. rewrite (app_assoc pre).
        rewrite (report_node_spans (R_holds ok sp Euclidean) nr (b0 + length l) r) by (auto; rewrite app_length; lia).
        cbn [bind]. rewrite filter_all; auto.
        intros i Hx. unfold hit. apply (contains_box_all box3); auto. apply OKP, in_or_app; auto.
      - destruct (intersects_right _ _ _) eqn:EI.
        + apply (IH2 (pre ++ l) post); auto.
          * rewrite Hi, <- !app_assoc. reflexivity.
          * rewrite app_length. lia.
          * apply Forall_forall; auto.
          * apply box_set_min_wf. split; auto.
        + rewrite filter_none, app_nil_r; auto. intros i Hx. unfold hit.
          destruct (box_contains query (sp_at sp i)) eqn:E; auto. exfalso.
          apply box_contains_iff in E; [|apply OKP, in_or_app; auto].
          destruct (E d Hd) as [_ A]. destruct (Hr i Hx d Hd) as [B _]. cbn [query box_max] in A.
          assert (X : le (get (box_min rb) d) (get mx d)).
          { eapply (leb_trans ok OL); [| | |exact B|exact A]; auto. - apply Or; auto. - apply OKP; auto. apply in_or_app; auto. }
          cbn [intersects_right bs_split_dim bs_right_min query box_max] in EI. congruence. }
    rewrite ER. cbn [bind fst snd]. unfold box3. cbn [box_set_min box_min box_max].
    unfold box_set_min. cbn [box_min box_max]. rewrite set_restore by (apply at_lt; lia).
    rewrite filter_app, app_assoc. reflexivity.
Qed.

(** * Topological spaces *)
Definition tdim (d : nat) (x : T) : bool :=
  match m_dim_space m d with
  | R1 => segment_r1_contains (get mn d) (get mx d) x
  | S1 => segment_s1_contains (get mn d) (get mx d) x
  end.
Definition tdim_seg (d : nat) (a b : T) : bool :=
  match m_dim_space m d with
  | R1 => segment_r1_contains_seg (get mn d) (get mx d) a b
  | S1 => segment_s1_contains_seg (get mn d) (get mx d) a b
  end.
Definition thit (x : list T) : bool := forallb (fun d => tdim d (get x d)) (seq 0 n).

Hypothesis QOK : forall d, d < n -> m_dim_space m d = R1 -> le (get mn d) (get mx d).

Lemma mbox_contains_val x : mbox_contains m query x = Ok (thit x).
Proof.
  unfold mbox_contains, box_size, query, thit. cbn [box_min]. rewrite Lmn.
  assert (K : forall k i, i + k <= n -> mbox_contains_from m (Box mn mx) x i k
    = Ok (forallb (fun d => tdim d (get x d)) (seq i k))).
  { induction k as [|k IH]; intros i Hi; [reflexivity|].
    cbn [mbox_contains_from seq forallb box_min box_max].
    assert (E : mbox_dim_contains m i (get mn i) (get mx i) (get x i) = Ok (tdim i (get x i))).
    { unfold mbox_dim_contains, tdim. destruct (m_dim_space m i) eqn:E; auto.
      rewrite guard_true; auto. unfold segment_r1_ok. apply QOK; auto. lia. }
    rewrite E. cbn [bind]. destruct (tdim i (get x i)); cbn [andb]; auto.
    replace (i + 1) with (Datatypes.S i) by lia. apply IH. lia. }
  apply K. lia.
Qed.

Lemma mbox_contains_box_val b : oproper b ->
  mbox_contains_box m query b
  = Ok (forallb (fun d => tdim_seg d (get (box_min b) d) (get (box_max b) d)) (seq 0 n)).
Proof.
  intros HP. unfold mbox_contains_box, box_size, query. cbn [box_min]. rewrite Lmn.
  assert (K : forall k i, i + k <= n -> mbox_contains_box_from m (Box mn mx) b i k
    = Ok (forallb (fun d => tdim_seg d (get (box_min b) d) (get (box_max b) d)) (seq i k))).
  { induction k as [|k IH]; intros i Hi; [reflexivity|].
    cbn [mbox_contains_box_from seq forallb]. cbn [box_min box_max].
    rewrite guard_true by (apply HP; lia). cbn [bind].
    assert (E : mbox_dim_contains_seg m i (get mn i) (get mx i) (get (box_min b) i) (get (box_max b) i)
      = Ok (tdim_seg i (get (box_min b) i) (get (box_max b) i))).
    { unfold mbox_dim_contains_seg, tdim_seg. destruct (m_dim_space m i) eqn:E; auto.
      rewrite guard_true; auto. unfold segment_r1_ok. apply QOK; auto. lia. }
    rewrite E. cbn [bind]. destruct (tdim_seg _ _ _); cbn [andb]; auto.
    replace (i + 1) with (Datatypes.S i) by lia. apply IH. lia. }
  apply K. lia.
Qed.

Lemma tdim_seg_all d a b x : d < n -> ok a -> ok b -> ok x -> le a x -> le x b ->
  tdim_seg d a b = true -> tdim d x = true.
Proof.
  intros Hd Oa Ob Ox A B H. unfold tdim_seg, tdim in *.
  assert (L : le (get mn d) a -> le (get mn d) x) by (intros; eapply (leb_trans ok OL); [| | |eassumption|eassumption]; auto).
  assert (R : le b (get mx d) -> le x (get mx d)) by (intros; eapply (leb_trans ok OL); [| | |eassumption|eassumption]; auto).
  destruct (m_dim_space m d).
  - unfold segment_r1_contains_seg, segment_r1_contains in *. apply andb_prop in H as [H1 H2].
    rewrite L, R; auto.
  - unfold segment_s1_contains_seg, segment_s1_contains in *. destruct (segment_s1_linear _ _).
    + apply andb_prop in H as [H1 H2]. rewrite L, R; auto.
    + apply orb_prop in H as [H1|H1]; [rewrite L by auto; auto|rewrite R by auto; apply orb_true_r].
Qed.

Lemma thit_seg_all b x : ok_box ok n b -> ok_point ok n x -> in_box n b x ->
  forallb (fun d => tdim_seg d (get (box_min b) d) (get (box_max b) d)) (seq 0 n) = true -> thit x = true.
Proof.
  intros OB OX HI H. unfold thit. rewrite forallb_forall in *. intros d Hd. specialize (H d Hd).
  apply In_seq0 in Hd. destruct (OB d Hd), (HI d Hd).
  apply (tdim_seg_all d (get (box_min b) d) (get (box_max b) d)); auto.
Qed.

(** A point of the left (right) side inside the query box makes intersects_left
    (intersects_right) true. *)
Lemma tdim_touch d a b x : d < n -> ok a -> ok b -> ok x -> le a x -> le x b ->
  tdim d x = true -> le (get mn d) b \/ le a (get mx d).
Proof.
  intros Hd Oa Ob Ox A B H. unfold tdim in H.
  assert (L : le (get mn d) x -> le (get mn d) b) by (intros; eapply (leb_trans ok OL); [| | |eassumption|eassumption]; auto).
  assert (R : le x (get mx d) -> le a (get mx d)) by (intros; eapply (leb_trans ok OL); [| | |eassumption|eassumption]; auto).
  destruct (m_dim_space m d).
  - unfold segment_r1_contains in H. apply andb_prop in H as [H1 H2]. auto.
  - unfold segment_s1_contains in H. destruct (segment_s1_linear _ _).
    + apply andb_prop in H as [H1 H2]. auto.
    + apply orb_prop in H as [H1|H1]; auto.
Qed.

Lemma thit_inside x : ok_point ok n x ->
  thit x = true <-> inside_topological (m_dim_space m) mn mx x.
Proof.
  intros OX. unfold thit, inside_topological. rewrite forallb_forall, Lmn. split.
  - intros H d Hd. specialize (H d ltac:(apply In_seq0; auto)). unfold tdim in H.
    fold (get mn d). fold (get mx d). fold (get x d). cbv zeta.
    destruct (m_dim_space m d).
    + apply andb_prop in H. auto.
    + unfold segment_s1_contains, segment_s1_linear in H. destruct (s_leb (get mn d) (get mx d)).
      * apply andb_prop in H. split; auto; discriminate.
      * apply orb_prop in H. split; auto; discriminate.
  - intros H d Hd. apply In_seq0 in Hd. specialize (H d Hd). unfold tdim.
    fold (get mn d) in H. fold (get mx d) in H. fold (get x d) in H. cbv zeta in H.
    destruct (m_dim_space m d).
    + apply andb_true_intro. auto.
    + unfold segment_s1_contains, segment_s1_linear. destruct (s_leb (get mn d) (get mx d)).
      * apply andb_true_intro. apply H; auto.
      * apply orb_true_intro. apply H; auto.
Qed.

Lemma collect_topological l : Forall (fun i => in_space sp i = true) l -> forall idxs,
  collect_range m sp query Topological l idxs = Ok (idxs ++ filter (fun i => thit (sp_at sp i)) l).
Proof.
  induction 1 as [|i l Hi _ IH]; intros idxs; cbn [collect_range filter].
  - rewrite app_nil_r. reflexivity.
  - rewrite guard_true by auto. cbn [bind query_contains]. rewrite mbox_contains_val. cbn [bind]. rewrite IH.
    destruct (thit (sp_at sp i)); auto. rewrite <- app_assoc. reflexivity.
Qed.

Lemma box_node_topological nd b0 l bx : boxed Topological nd b0 l bx ->
  forall pre post b idxs, indices = pre ++ l ++ post -> b0 = length pre ->
  Forall (fun i => in_space sp i = true) l ->
  box_wf n b -> ok_box ok n b -> sub_box bx b ->
  search_box_node m sp indices query Topological nd (b, idxs)
  = Ok (b, idxs ++ filter (fun i => thit (sp_at sp i)) l).
Proof.
  induction 1 as [b0 l bx|nl nr b0 l r lb rb d H1 IH1 H2 IH2 Hd]; intros pre post b idxs Hi Hb F W O SB.
  - cbn [search_box_node]. subst b0. rewrite Hi, slice_app. cbn [bind fst snd].
    rewrite collect_topological by auto. reflexivity.
  - apply Forall_app in F as [Fl Fr].
    destruct (boxed_facts _ _ _ _ _ H1 Fl) as (Wl & Ol & Pl & Hl).
    destruct (boxed_facts _ _ _ _ _ H2 Fr) as (Wr & Or & Pr & Hr).
    destruct (fit_box_sub lb rb Wl Ol Or) as [SL SR].
    assert (OF : ok_box ok n (box_fit_box lb rb)) by (apply box_fit_box_ok; auto).
    assert (SLb : sub_box lb b) by (eapply sub_box_trans; [| | |exact SL|exact SB]; auto).
    assert (SRb : sub_box rb b) by (eapply sub_box_trans; [| | |exact SR|exact SB]; auto).
    assert (OKPl : forall i, In i l -> ok_point ok n (sp_at sp i)).
    { intros i Hx. apply (ok_point_at ok sp WF OKS). rewrite Forall_forall in Fl; auto. }
    assert (OKPr : forall i, In i r -> ok_point ok n (sp_at sp i)).
    { intros i Hx. apply (ok_point_at ok sp WF OKS). rewrite Forall_forall in Fr; auto. }
    destruct b as [bmn bmx]. destruct W as [W1 W2]. cbn [box_min box_max] in W1, W2.
    cbn [search_box_node br_split_dim br_left_max br_right_min set_branch bd_split_dim bd_left_max bd_right_min fst snd box_max box_min].
    rewrite (at_lt bmx d s_zero) by lia. cbn [bind query_contains_box].
    set (box1 := box_set_max (Box bmn bmx) d (get (box_max lb) d)).
    assert (O1 : ok_box ok n box1).
    { apply box_set_max_ok; auto. - split; auto. - apply Ol; auto. }
    assert (W1' : box_wf n box1) by (apply box_set_max_wf; split; auto).
    assert (S1' : sub_box lb box1).
    { intros k Hk. destruct (SLb k Hk) as [A B]. cbn [box1 box_set_max box_min box_max] in *. split; auto.
      destruct (Nat.eq_dec d k) as [<-|Ne].
      - rewrite get_set_same by lia. apply (leb_refl ok OL). apply Ol; auto.
      - rewrite get_set_other by auto. auto. }
    assert (P1 : oproper box1).
    { intros k Hk. destruct (S1' k Hk) as [A B]. destruct (Ol k Hk), (O1 k Hk).
      eapply (leb_trans ok OL); [| | |exact A|]; auto.
      eapply (leb_trans ok OL); [| | |apply Pl|]; auto. }
    rewrite mbox_contains_box_val by auto. cbn [bind].
    set (brd := BranchDouble d (get (box_min lb) d) (get (box_max lb) d) (get (box_min rb) d) (get (box_max rb) d)).
    assert (EL : (if forallb (fun d0 => tdim_seg d0 (get (box_min box1) d0) (get (box_max box1) d0)) (seq 0 n)
                  then do idxs0 <- report_node indices nl idxs; Ok (box1, idxs0)
                  else if intersects_left query Topological brd
                       then search_box_node m sp indices query Topological nl (box1, idxs)
                       else Ok (box1, idxs)) = Ok (box1, idxs ++ filter (fun i => thit (sp_at sp i)) l)).
    { destruct (forallb (fun d0 => tdim_seg d0 (get (box_min box1) d0) (get (box_max box1) d0)) (seq 0 n)) eqn:EC.
      - rewrite Hi, <- app_assoc. rewrite (report_node_spans _ nl b0 l pre _ idxs (boxed_spans _ _ _ _ _ H1)) by auto.
        cbn [bind]. rewrite filter_all; auto.
        intros i Hx. apply (thit_seg_all box1); auto.
        apply (sub_box_holds lb box1 l); auto.
      - destruct (intersects_left _ _ _) eqn:EI.
        + apply (IH1 pre (r ++ post)); auto. rewrite Hi, <- app_assoc. reflexivity.
        + rewrite filter_none, app_nil_r; auto. intros i Hx.
          destruct (thit (sp_at sp i)) eqn:E; auto. exfalso.
          unfold thit in E. rewrite forallb_forall in E. specialize (E d ltac:(apply In_seq0; auto)).
          destruct (Hl i Hx d Hd) as [A B]. destruct (Ol d Hd).
          apply (tdim_touch d (get (box_min lb) d) (get (box_max lb) d)) in E; auto; [|apply OKPl; auto].
          cbn [intersects_left brd bd_split_dim bd_left_max bd_left_min query box_min box_max] in EI.
          apply orb_false_iff in EI as [E1 E2]. destruct E; congruence. }
    rewrite EL. cbn [bind fst snd].
    assert (EB : box_set_max box1 d (nth d bmx s_zero) = Box bmn bmx).
    { unfold box1, box_set_max. cbn [box_min box_max]. rewrite set_restore by (apply at_lt; lia). reflexivity. }
    rewrite EB. cbn [box_min]. rewrite (at_lt bmn d s_zero) by lia. cbn [bind].
    set (box3 := box_set_min (Box bmn bmx) d (get (box_min rb) d)).
    assert (O3 : ok_box ok n box3).
    { apply box_set_min_ok; auto. - split; auto. - apply Or; auto. }
    assert (W3' : box_wf n box3) by (apply box_set_min_wf; split; auto).
    assert (S3' : sub_box rb box3).
    { intros k Hk. destruct (SRb k Hk) as [A B]. cbn [box3 box_set_min box_min box_max] in *. split; auto.
      destruct (Nat.eq_dec d k) as [<-|Ne].
      - rewrite get_set_same by lia. apply (leb_refl ok OL). apply Or; auto.
      - rewrite get_set_other by auto. auto. }
    assert (P3 : oproper box3).
    { intros k Hk. destruct (S3' k Hk) as [A B]. destruct (Or k Hk), (O3 k Hk).
      eapply (leb_trans ok OL); [| | |exact A|]; auto.
      eapply (leb_trans ok OL); [| | |apply Pr|]; auto. }
    rewrite mbox_contains_box_val by auto. cbn [bind].
    assert (ER : forall id0, (if forallb (fun d0 => tdim_seg d0 (get (box_min box3) d0) (get (box_max box3) d0)) (seq 0 n)
                  then do idxs0 <- report_node indices nr id0; Ok (box3, idxs0)
                  else if intersects_right query Topological brd
                       then search_box_node m sp indices query Topological nr (box3, id0)
                       else Ok (box3, id0)) = Ok (box3, id0 ++ filter (fun i => thit (sp_at sp i)) r)).
    { intros id0. destruct (forallb (fun d0 => tdim_seg d0 (get (box_min box3) d0) (get (box_max box3) d0)) (seq 0 n)) eqn:EC.
      - rewrite Hi, <- app_assoc. rewrite (app_assoc pre).
        rewrite (report_node_spans _ nr (b0 + length l) r _ _ id0 (boxed_spans _ _ _ _ _ H2)) by (rewrite app_length; lia).
        cbn [bind]. rewrite filter_all; auto.
        intros i Hx. apply (thit_seg_all box3); auto.
        apply (sub_box_holds rb box3 r); auto.
      - destruct (intersects_right _ _ _) eqn:EI.
        + apply (IH2 (pre ++ l) post); auto.
          * rewrite Hi, <- !app_assoc. reflexivity.
          * rewrite app_length. lia.
        + rewrite filter_none, app_nil_r; auto. intros i Hx.
          destruct (thit (sp_at sp i)) eqn:E; auto. exfalso.
          unfold thit in E. rewrite forallb_forall in E. specialize (E d ltac:(apply In_seq0; auto)).
          destruct (Hr i Hx d Hd) as [A B]. destruct (Or d Hd).
          apply (tdim_touch d (get (box_min rb) d) (get (box_max rb) d)) in E; auto; [|apply OKPr; auto].
          cbn [intersects_right brd bd_split_dim bd_right_max bd_right_min query box_min box_max] in EI.
          apply orb_false_iff in EI as [E1 E2]. destruct E; congruence. }
    rewrite ER. cbn [bind fst snd]. unfold box3. cbn [box_set_min box_min box_max].
    unfold box_set_min. cbn [box_min box_max]. rewrite set_restore by (apply at_lt; lia).
    rewrite filter_app, app_assoc. reflexivity.
Qed.
End Search.

(** * Boxes computed by construction *)
Section Build.
Variables (alg : std_algos) (SL : std_laws alg).
Variables (c : category) (ru : rule) (it : index_type) (stop : stop_condition).
Local Notation cn := (create_node c alg ru it stop sp).
Hypothesis FIN : ok_finite S ok.
Hypothesis MID : ru = midpoint_max_side -> mid_ok S ok /\ mid_between S ok.

Lemma fit_sub a b x : box_wf n a -> sub_box a b -> in_box n b x -> sub_box (box_fit a x) b.
Proof.
  intros W H HI d Hd. rewrite (get_fit_min n), (get_fit_max n) by auto.
  destruct (H d Hd), (HI d Hd). destruct (s_ltb _ _), (s_ltb _ _); auto.
Qed.

Lemma bbox_sub seg b : seg <> [] -> Forall (fun i => in_space sp i = true) seg ->
  ok_box ok n b -> holds sp b seg -> sub_box (compute_bounding_box sp seg) b.
Proof.
  intros NE F OB H. unfold compute_bounding_box.
  assert (I : sub_box (box_inverse_max (sp_sdim sp)) b).
  { destruct seg as [|i seg]; [congruence|]. inversion F; subst.
    intros d Hd. destruct (H i (or_introl eq_refl) d Hd) as [A B]. destruct (OB d Hd).
    pose proof (ok_point_at ok sp WF OKS i H2 d Hd) as OX. destruct (FIN _ OX) as [C D].
    unfold box_inverse_max, get at 2 3. cbn [box_min box_max]. rewrite !nth_tab by auto.
    split; eapply (leb_trans ok OL); [| | |eassumption|eassumption| | | |eassumption|eassumption]; auto;
      first [apply (ol_max _ _ OL)|apply (ol_lowest _ _ OL)]. }
  assert (W : box_wf n (box_inverse_max (sp_sdim sp))) by apply inverse_max_wf.
  revert I W. clear NE. generalize (box_inverse_max (sp_sdim sp)) as a.
  induction seg as [|i seg IH]; intros a I W; auto. cbn [fold_left].
  apply IH.
  - inversion F; auto.
  - intros j Hj. apply H. right; auto.
  - apply fit_sub; auto. apply H. left; auto.
  - apply box_fit_wf; auto.
Qed.

Lemma holds_oproper b seg : Forall (fun i => in_space sp i = true) seg -> ok_box ok n b ->
  seg <> [] -> holds sp b seg -> oproper b.
Proof.
  intros F OB NE H d Hd. destruct seg as [|i seg]; [congruence|]. inversion F; subst.
  destruct (H i (or_introl eq_refl) d Hd), (OB d Hd).
  eapply (leb_trans ok OL); [| | |eassumption|eassumption]; auto.
  apply (ok_point_at ok sp WF OKS i); auto.
Qed.

Lemma create_node_boxed fuel : forall depth off seg bx nd seg' bx',
  box_wf n bx -> (ru = midpoint_max_side -> ok_box ok n bx /\ oproper bx) ->
  cn fuel depth off seg bx = Ok (nd, seg', bx') ->
  seg <> [] \/ ru = midpoint_max_side ->
  boxed c nd off seg' bx'
  /\ (forall b, box_wf n b -> ok_box ok n b -> holds sp b seg ->
        (ru = midpoint_max_side -> sub_box bx b) -> sub_box bx' b).
Proof.
  assert (MID' : ru = midpoint_max_side -> mid_ok S ok) by (intros; apply MID; auto).
  induction fuel as [|fuel IH]; intros depth off seg bx nd seg' bx' W MP H NE; [discriminate|].
  pose proof H as Hfull.
  apply (create_node_holds ok OL sp WF OKS alg SL c ru it stop MID') in Hfull; [|auto|intros; apply MP; auto].
  destruct Hfull as (PS & FS & WF' & OB' & HS & _).
  assert (H2 : is_leaf it stop depth (length seg) = false -> ru <> midpoint_max_side -> 2 <= length seg).
  { intros HL Hru. exact (create_node_two ok OL sp WF OKS alg SL c ru it stop _ _ _ _ _ _ Hru W HL H). }
  cbn [create_node] in H. destruct (is_leaf it stop depth (length seg)) eqn:HL.
  - okbind H. clear E. injection H as <- <- <-.
    destruct (list_eq_dec Nat.eq_dec seg []) as [->|Hne].
    + destruct NE as [NE|NE]; [congruence|].
      destruct (MP NE) as [MP1 MP2]. rewrite NE in *. split; [constructor; auto|auto].
    + assert (E : match ru with
          | midpoint_max_side => match seg with [] => bx | _ :: _ => compute_bounding_box sp seg end
          | _ => compute_bounding_box sp seg end = compute_bounding_box sp seg).
      { destruct ru; auto. destruct seg; congruence. }
      rewrite E in *. split.
      * constructor; auto. apply (holds_oproper _ seg); auto.
      * intros b Wb Ob Hb _. apply bbox_sub; auto.
  - specialize (H2 eq_refl).
    okbind H. destruct a as [[[l r] d] v].
    okbind H. destruct a as [[nl sl] lb]. okbind H. destruct a as [[nr sr] rb].
    injection H as <- <- <-.
    apply (splitter_facts ok OL sp WF OKS alg SL) in E; auto.
    pose proof (sf_dim _ _ _ _ _ _ _ _ _ E) as Hd. fold n in Hd.
    pose proof (sf_perm _ _ _ _ _ _ _ _ _ E) as HP.
    assert (RD : {ru = midpoint_max_side} + {ru <> midpoint_max_side}) by (destruct ru; [right|left|right]; congruence).
    assert (NEl : l <> [] \/ ru = midpoint_max_side).
    { destruct RD as [Hm|Hm]; auto. left. apply (sf_nonempty _ _ _ _ _ _ _ _ _ E); auto. }
    assert (NEr : r <> [] \/ ru = midpoint_max_side).
    { destruct RD as [Hm|Hm]; auto. left. apply (sf_nonempty _ _ _ _ _ _ _ _ _ E); auto. }
    assert (Ov : ru = midpoint_max_side -> ok v).
    { intros Hm. rewrite (sf_val_mid _ _ _ _ _ _ _ _ _ E Hm).
      destruct (MP Hm) as [MO _]. destruct (MO d Hd). apply MID'; auto. }
    assert (Hv : ru = midpoint_max_side -> le (get (box_min bx) d) v /\ le v (get (box_max bx) d)).
    { intros Hm. rewrite (sf_val_mid _ _ _ _ _ _ _ _ _ E Hm).
      destruct (MP Hm) as [MO MP']. destruct (MO d Hd). apply MID; auto. }
    assert (WL := box_set_max_wf n bx d v W). assert (WR := box_set_min_wf n bx d v W).
    assert (OL' : ru = midpoint_max_side -> ok_box ok n (box_set_max bx d v)).
    { intros Hm. apply box_set_max_ok; auto. apply MP; auto. }
    assert (OR' : ru = midpoint_max_side -> ok_box ok n (box_set_min bx d v)).
    { intros Hm. apply box_set_min_ok; auto. apply MP; auto. }
    destruct W as [Wa Wb].
    assert (PL : ru = midpoint_max_side -> oproper (box_set_max bx d v)).
    { intros Hm k Hk. destruct (MP Hm) as [_ MP']. cbn [box_set_max box_min box_max].
      destruct (Nat.eq_dec d k) as [<-|Ne].
      - rewrite get_set_same by lia. apply Hv; auto.
      - rewrite get_set_other by auto. auto. }
    assert (PR : ru = midpoint_max_side -> oproper (box_set_min bx d v)).
    { intros Hm k Hk. destruct (MP Hm) as [_ MP']. cbn [box_set_min box_min box_max].
      destruct (Nat.eq_dec d k) as [<-|Ne].
      - rewrite get_set_same by lia. apply Hv; auto.
      - rewrite get_set_other by auto. auto. }
    pose proof E0 as HA1. pose proof E1 as HA2.
    apply (create_node_holds ok OL sp WF OKS alg SL c ru it stop MID') in HA1; auto.
    apply (create_node_holds ok OL sp WF OKS alg SL c ru it stop MID') in HA2; auto.
    destruct HA1 as (P1 & F1 & W1 & O1 & Ho1 & _). destruct HA2 as (P2 & F2 & W2 & O2 & Ho2 & _).
    apply IH in E0 as (B1 & U1); auto. apply IH in E1 as (B2 & U2); auto.
    split.
    + constructor; auto. rewrite (Permutation_length P1). exact B2.
    + intros b WB OB HB SB.
      assert (Hl : holds sp b l).
      { intros i Hi. apply HB. eapply Permutation_in; [exact HP|]. apply in_or_app; auto. }
      assert (Hr : holds sp b r).
      { intros i Hi. apply HB. eapply Permutation_in; [exact HP|]. apply in_or_app; auto. }
      apply fit_box_lub; auto.
      * apply U1; auto. intros Hm k Hk. destruct (SB Hm k Hk) as [A B]. cbn [box_set_max box_min box_max].
        split; auto. destruct (Nat.eq_dec d k) as [<-|Ne].
        -- rewrite get_set_same by lia. destruct (MP Hm) as [MO _]. destruct (MO d Hd), (OB d Hd).
           eapply (leb_trans ok OL); [| | |apply Hv|exact B]; auto.
        -- rewrite get_set_other by auto. auto.
      * apply U2; auto. intros Hm k Hk. destruct (SB Hm k Hk) as [A B]. cbn [box_set_min box_min box_max].
        split; auto. destruct (Nat.eq_dec d k) as [<-|Ne].
        -- rewrite get_set_same by lia. destruct (MP Hm) as [MO _]. destruct (MO d Hd), (OB d Hd).
           eapply (leb_trans ok OL); [| | |exact A|apply Hv]; auto.
        -- rewrite get_set_other by auto. auto.
Qed.
End Build.

(** * search_box *)
Section Top.
Variables (alg : std_algos) (SL : std_laws alg) (m : metric T) (it : index_type) (fuel : nat)
  (stop : stop_condition) (bnds : start_bounds T) (ru : rule) (tree : kd_tree T) (mn mx : list T).
Hypotheses (HT : kd_tree_make alg it m fuel sp stop bnds ru = Ok tree)
  (HBC : bounds_coords ok sp bnds) (HBE : bounds_enclose sp bnds)
  (Lmn : length mn = n) (Lmx : length mx = n) (Fmn : Forall ok mn) (Fmx : Forall ok mx).

Lemma perm_filter_answer idx p (P : nat -> Prop) : Permutation idx (seq 0 (length (sp_pts sp))) ->
  (forall i, i < length (sp_pts sp) -> (p i = true <-> P i)) ->
  index_answer (length (sp_pts sp)) P (filter p idx).
Proof.
  intros HP H. split.
  - apply NoDup_filter. eapply Permutation_NoDup; [symmetry; exact HP|]. apply seq_NoDup.
  - intros i. rewrite filter_In. split.
    + intros [A B]. apply (Permutation_in _ HP) in A. apply In_seq0 in A. split; auto. apply H; auto.
    + intros [A B]. split; [|apply H; auto]. eapply Permutation_in; [symmetry; exact HP|]. apply In_seq0. auto.
Qed.

Lemma root_ok : box_wf n (box_from_bounds sp bnds) /\ ok_box ok n (box_from_bounds sp bnds)
  /\ forall seg, Forall (fun i => in_space sp i = true) seg -> holds sp (box_from_bounds sp bnds) seg.
Proof.
  split; [apply box_from_bounds_wf|]. split; [apply (box_from_bounds_ok ok OL sp WF OKS); auto|].
  intros seg F. apply (box_from_bounds_holds ok OL sp WF OKS); auto.
Qed.

Lemma perm_in_space idx : Permutation idx (seq 0 (length (sp_pts sp))) ->
  Forall (fun i => in_space sp i = true) idx.
Proof.
  intros P. apply Forall_forall. intros i Hi. apply (Permutation_in _ P) in Hi. apply In_seq0 in Hi.
  apply in_space_lt. auto.
Qed.

Lemma search_box_euclidean :
  (ru = midpoint_max_side -> mid_ok S ok) -> m_cat m = Euclidean ->
  exists ans, search_box tree mn mx = Ok ans
    /\ index_answer (length (sp_pts sp)) (fun i => inside mn mx (nth i (sp_pts sp) [])) ans.
Proof.
  intros MID CAT. destruct root_ok as (W & O & HO).
  apply kd_tree_make_inv in HT as (data & -> & HB).
  pose proof (build_holds ok OL sp WF OKS alg SL (m_cat m) it fuel stop bnds ru data
    (fun Hm => conj (MID Hm) HBC) HB) as [HP HN].
  apply build_inv in HB as (_ & _ & bx' & _ & ER).
  unfold search_box. cbn [kt_space kt_metric kt_data]. fold n. rewrite Lmn, Lmx, Nat.eqb_refl.
  cbn [andb guard bind]. rewrite ER.
  assert (OMN : ok_point ok n mn) by (apply ok_point_list; auto).
  assert (OMX : ok_point ok n mx) by (apply ok_point_list; auto).
  assert (K : forall i, i < length (sp_pts sp) ->
    box_contains (Box mn mx) (sp_at sp i) = true <-> inside mn mx (nth i (sp_pts sp) [])).
  { intros i Hi. rewrite box_contains_iff; auto.
    - unfold inside, in_box. rewrite Lmn. reflexivity.
    - apply (ok_point_at ok sp WF OKS). apply in_space_lt. auto. }
  destruct m as [cat md ma ms]. cbn [m_cat] in *. subst cat.
  erewrite (box_node_euclidean _ (kd_indices data) mn mx Lmn Lmx OMN OMX _ _ _ HN [] []).
  - cbn [bind snd app]. eexists. split; [reflexivity|]. apply perm_filter_answer; auto.
  - rewrite app_nil_r. reflexivity.
  - reflexivity.
  - apply perm_in_space; auto.
  - auto.
  - auto.
  - apply HO. apply perm_in_space; auto.
Qed.

Lemma search_box_topological :
  ok_finite S ok -> (ru = midpoint_max_side -> mid_ok S ok /\ mid_between S ok) ->
  m_cat m = Topological ->
  (forall d, d < n -> m_dim_space m d = R1 -> le (get mn d) (get mx d)) ->
  exists ans, search_box tree mn mx = Ok ans
    /\ index_answer (length (sp_pts sp))
         (fun i => inside_topological (m_dim_space m) mn mx (nth i (sp_pts sp) [])) ans.
Proof.
  intros FIN MID CAT QOK. destruct root_ok as (W & O & HO).
  apply kd_tree_make_inv in HT as (data & -> & HB).
  pose proof (build_holds ok OL sp WF OKS alg SL (m_cat m) it fuel stop bnds ru data
    (fun Hm => conj (proj1 (MID Hm)) HBC) HB) as [HP HN].
  apply build_inv in HB as (_ & (NE & _) & bx' & HC & ER).
  assert (FS : Forall (fun i => in_space sp i = true) (seq 0 (length (sp_pts sp)))) by (apply perm_in_space; auto).
  assert (NE' : seq 0 (length (sp_pts sp)) <> []) by (destruct (length (sp_pts sp)); [lia|discriminate]).
  apply (create_node_boxed alg SL _ ru it stop FIN MID) in HC; auto;
    [|intros _; split; auto; apply (holds_oproper _ (seq 0 (length (sp_pts sp)))); auto].
  destruct HC as [HC HS].
  specialize (HS _ W O (HO _ FS)). 
  unfold search_box. cbn [kt_space kt_metric kt_data]. fold n. rewrite Lmn, Lmx, Nat.eqb_refl.
  cbn [andb guard bind]. rewrite ER.
  assert (OMN : ok_point ok n mn) by (apply ok_point_list; auto).
  assert (OMX : ok_point ok n mx) by (apply ok_point_list; auto).
  destruct m as [cat md ma ms]. cbn [m_cat] in *. subst cat.
  erewrite (box_node_topological (Metric Topological md ma ms) (kd_indices data) mn mx Lmn Lmx OMN OMX QOK _ _ _ _ HC [] []).
  - cbn [bind snd app]. eexists. split; [reflexivity|]. apply perm_filter_answer; auto.
    intros i Hi. apply thit_inside; auto. apply (ok_point_at ok sp WF OKS). apply in_space_lt. auto.
  - rewrite app_nil_r. reflexivity.
  - reflexivity.
  - apply perm_in_space; auto.
  - auto.
  - auto.
  - apply HS. intros _ d Hd. destruct (O d Hd). split; apply (leb_refl ok OL); auto.
Qed.
End Top.
End Box.
