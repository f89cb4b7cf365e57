(** Nearest searches on constructed trees, for arbitrary visitors. *)
From Coq Require Import List ZArith QArith Qabs Qminmax Bool Arith Permutation Lia Lqa.
From Verif Require Import Base ModelBox ModelBuild ModelSearch Spec Lemmas Instances
  BuildProofs BuildOrder BuildShape BuildThms SearchProofs.
Import ListNotations.
Local Open Scope nat_scope.

Section Root.
Context {T : Type} {S : Scalar T} (val : T -> Q) (EL : exact_laws S val).
Variables (sp : space T) (WF : wf_space sp).
Let n := sp_sdim sp.

Lemma fold_pts_max pts : forall b d v, box_wf n b -> d < n ->
  (cmax val (fold_left box_fit pts b) d <= v
   <-> cmax val b d <= v /\ forall p, In p pts -> val (get p d) <= v)%Q.
Proof.
  induction pts as [|p pts IH]; simpl; intros b d v W Hd.
  - split; [|tauto]. intros; split; auto; intros ? [].
  - rewrite IH by (auto; apply box_fit_wf; auto). rewrite (cmax_fit val EL n) by auto.
    split; [intros [[A B] C]; split; auto; intros j [<-|Hj]; auto|].
    intros [A B]. split; [split; auto; apply (B p); auto|auto].
Qed.
Lemma fold_pts_min pts : forall b d v, box_wf n b -> d < n ->
  (v <= cmin val (fold_left box_fit pts b) d
   <-> v <= cmin val b d /\ forall p, In p pts -> v <= val (get p d))%Q.
Proof.
  induction pts as [|p pts IH]; simpl; intros b d v W Hd.
  - split; [|tauto]. intros; split; auto; intros ? [].
  - rewrite IH by (auto; apply box_fit_wf; auto). rewrite (cmin_fit val EL n) by auto.
    split; [intros [[A B] C]; split; auto; intros j [<-|Hj]; auto|].
    intros [A B]. split; [split; auto; apply (B p); auto|auto].
Qed.

Definition bound_points (bnds : start_bounds T) : list (list T) :=
  match bnds with bounds_from_space => sp_pts sp | bounds_user mn mx => [mn; mx] end.

Lemma box_from_bounds_fold bnds :
  box_from_bounds sp bnds = fold_left box_fit (bound_points bnds) (box_inverse_max n).
Proof. destruct bnds; reflexivity. Qed.

Lemma root_proper bnds : sp_pts sp <> [] -> proper val n (box_from_bounds sp bnds).
Proof.
  intros NE d Hd. rewrite box_from_bounds_fold.
  assert (NB : exists p, In p (bound_points bnds)).
  { destruct bnds; simpl; [|eauto]. destruct (sp_pts sp) as [|p ?]; [congruence|]. exists p; simpl; auto. }
  destruct NB as [p Hp].
  assert (W := inverse_max_wf (T := T) n).
  pose proof (proj1 (fold_pts_max (bound_points bnds) (box_inverse_max n) d _ W Hd) (Qle_refl _)) as [_ A].
  pose proof (proj1 (fold_pts_min (bound_points bnds) (box_inverse_max n) d _ W Hd) (Qle_refl _)) as [_ B].
  specialize (A p Hp). specialize (B p Hp). lra.
Qed.

Variables (m : metric T).

(** Ranges used for boxes: [0,1] in circular dimensions. *)
Definition circ (d : nat) : bool :=
  match m_cat m, m_dim_space m d with Topological, S1 => true | _, _ => false end.
Definition lo_of (bnds : start_bounds T) (d : nat) : Q :=
  if circ d then 0%Q else Qmin (cmin val (box_from_bounds sp bnds) d) (val s_lowest).
Definition hi_of (bnds : start_bounds T) (d : nat) : Q :=
  if circ d then 1%Q else Qmax (cmax val (box_from_bounds sp bnds) d) (val s_max).

Lemma circ_true d : circ d = true -> m_cat m = Topological /\ m_dim_space m d = S1.
Proof. unfold circ. destruct (m_cat m), (m_dim_space m d); intuition congruence. Qed.

Lemma root_within bnds : sp_pts sp <> [] ->
  Forall (point_ok val m n) (sp_pts sp) -> bounds_ok val m n bnds ->
  all_coords (representable val) sp -> (1 <= val s_max)%Q \/ (forall d, d < n -> circ d = false) ->
  within val n (lo_of bnds) (hi_of bnds) (box_from_bounds sp bnds).
Proof.
  intros NE HP HB REP HM d Hd. unfold lo_of, hi_of. destruct (circ d) eqn:E.
  - destruct HM as [HM|HM]; [|rewrite HM in E by auto; discriminate].
    destruct (circ_true _ E) as [E1 E2].
    assert (K : forall p, In p (bound_points bnds) -> (0 <= val (get p d) <= 1)%Q).
    { intros p Hp. destruct bnds; simpl in *.
      - rewrite Forall_forall in HP. apply HP; auto.
      - destruct HB as [B1 B2]. destruct Hp as [<-|[<-|[]]]; [apply B1|apply B2]; auto. }
    rewrite box_from_bounds_fold. assert (W := inverse_max_wf (T := T) n).
    split.
    + apply fold_pts_min; auto. rewrite cmin_inverse by auto.
      split; [lra|]. intros p Hp. apply K; auto.
    + apply fold_pts_max; auto. rewrite cmax_inverse by auto.
      split; [pose proof (el_lowest _ _ EL); lra|]. intros p Hp. apply K; auto.
  - split; [apply Q.le_min_l|apply Q.le_max_l].
Qed.

Lemma pts_within bnds : Forall (point_ok val m n) (sp_pts sp) ->
  all_coords (representable val) sp ->
  forall i d, in_space sp i = true -> d < n ->
  (lo_of bnds d <= val (coord sp d i) <= hi_of bnds d)%Q.
Proof.
  intros HP REP i d Hi Hd.
  pose proof (rep_coord val sp WF REP i d Hi Hd) as [A B].
  assert (IP : In (sp_at sp i) (sp_pts sp)) by (apply nth_In; apply (in_space_lt sp i); auto).
  unfold lo_of, hi_of. destruct (circ d) eqn:E.
  - destruct (circ_true _ E) as [E1 E2]. rewrite Forall_forall in HP. apply (HP _ IP); auto.
  - split.
    + eapply Qle_trans; [apply Q.le_min_r|exact A].
    + eapply Qle_trans; [exact B|apply Q.le_max_r].
Qed.

End Root.

Section Main.
Context {T : Type} {S : Scalar T} (val : T -> Q) (EL : exact_laws S val).
Variables (sp : space T) (WF : wf_space sp) (REP : all_coords (representable val) sp).
Let n := sp_sdim sp.
Let N := length (sp_pts sp).
Variables (m : metric T) (alg : std_algos) (SL : std_laws alg).

Lemma build_order c it fuel stop bnds ru t :
  m_cat m = c ->
  Forall (point_ok val m n) (sp_pts sp) -> bounds_ok val m n bnds ->
  build c alg it fuel sp stop bnds ru = Ok t ->
  Permutation (kd_indices t) (seq 0 N)
  /\ node_spans (R_order val sp c ru (lo_of val sp m bnds) (hi_of val sp m bnds)) (kd_root t) 0 (kd_indices t).
Proof.
  intros Hc HP HB H.
  pose proof H as H0.
  apply (build_holds (fun _ => True) (exact_ord val EL) sp WF (all_coords_true sp) alg SL) in H0 as [P _].
  2:{ intros _. split; [unfold mid_ok; auto|]. apply build_inv in H as (_ & [_ HD] & _).
      destruct bnds as [|mn mx]; simpl in *; auto. apply andb_prop in HD as [D1 D2].
      apply Nat.eqb_eq in D1, D2. repeat split; auto; apply Forall_forall; auto. }
  split; auto.
  apply build_inv in H as (_ & [Hn HD] & bx' & H & _).
  assert (NE : sp_pts sp <> []) by (apply length_nonnil; lia).
  apply (create_node_order val EL sp WF REP alg SL c ru it stop
           (lo_of val sp m bnds) (hi_of val sp m bnds)) in H.
  - tauto.
  - apply (pts_within val sp WF m bnds HP REP).
  - apply box_from_bounds_wf.
  - intros _. split; [apply (root_proper val EL); auto|].
    apply (root_within val EL); auto. left. apply (el_max _ _ EL).
  - left. apply length_nonnil. rewrite seq_length. lia.
Qed.

Lemma R_order_search c ru bnds br l r : m_cat m = c ->
  R_order val sp c ru (lo_of val sp m bnds) (hi_of val sp m bnds) br l r ->
  R_search val m sp c br l r.
Proof.
  intros Hc (lb & rb & d & F). destruct F as [E Hd Wl Wr Hl Hr Pl Pr Il Ir Ho _].
  assert (Kl : forall i, In i l -> (cmin val lb d <= val (coord sp d i) <= cmax val lb d)%Q).
  { intros i Hi. destruct (Hl i Hi d Hd) as [A B]. apply (leb_val val EL) in A, B. split; auto. }
  assert (Kr : forall i, In i r -> (cmin val rb d <= val (coord sp d i) <= cmax val rb d)%Q).
  { intros i Hi. destruct (Hr i Hi d Hd) as [A B]. apply (leb_val val EL) in A, B. split; auto. }
  destruct c; simpl in *; subst br.
  - unfold R_euclidean; simpl. split; auto. split; [intros; apply Kl; auto|].
    split; [intros; apply Kr; auto|exact Ho].
  - unfold R_topological; simpl. split; [exact Hd|]. split; [exact Kl|]. split; [exact Kr|].
    split; [apply Pl; auto|]. split; [apply Pr; auto|].
    intros HS. destruct (Il d Hd) as [A B], (Ir d Hd) as [C D].
    assert (E : circ m d = true) by (unfold circ; rewrite Hc, HS; reflexivity).
    unfold lo_of, hi_of in *. rewrite E in *. repeat split; auto.
Qed.

Section Visitor.
Context {V : Type} (vis : visitor T V) (q : list T) (t : nat -> Q -> Q -> Q).
Variables (Inv : V -> Prop).
Definition D_of (i : nat) : T := m_dist m q (sp_at sp i).
Hypotheses
  (V_inv : forall st i, Inv st -> i < N -> Inv (v_visit vis i (D_of i) st))
  (V_mono : forall st i, Inv st -> i < N -> (val (v_max vis (v_visit vis i (D_of i) st)) <= val (v_max vis st))%Q).

Lemma search_nearest_contract it fuel stop bnds ru tree v0 :
  kd_tree_make alg it m fuel sp stop bnds ru = Ok tree ->
  terms_for val m t ->
  Forall (point_ok val m n) (sp_pts sp) -> bounds_ok val m n bnds ->
  length q = n -> point_ok val m n q -> Inv v0 ->
  exists tr rest, Permutation (tr ++ rest) (seq 0 N)
    /\ search_nearest tree vis q v0 = Ok (visits m vis sp q tr v0)
    /\ Inv (visits m vis sp q tr v0)
    /\ forall j, In j rest -> (val (v_max vis (visits m vis sp q tr v0)) < D_low val t sp q j)%Q.
Proof.
  intros HM HT HP HB LQ HQ HI.
  apply kd_tree_make_inv in HM as (data & -> & HBd).
  apply build_order in HBd as [P N0]; auto.
  assert (NS : node_spans (R_search val m sp (m_cat m)) (kd_root data) 0 (kd_indices data)).
  { eapply node_spans_impl; [exact N0|]. intros. eapply R_order_search; eauto. }
  assert (Hin : forall i, In i (kd_indices data) <-> i < N).
  { intros i. rewrite <- In_seq0. split; apply Permutation_in; auto; symmetry; auto. }
  destruct (search_gen_spec m vis sp (kd_indices data) q (R_search val m sp (m_cat m)) (decide m q (m_cat m))
              Inv (fun st j => (val (v_max vis st) < D_low val t sp q j)%Q)
              (LB_sum val t sp q) (kd_indices data)) with
    (nd := kd_root data) (b := 0) (l := kd_indices data) (pre := @nil nat) (post := @nil nat)
    (o := offsets0 sp) (d := s_zero (Scalar := S)) (st := v0)
    as (tr & rest & Pt & E & HF).
  - intros st i HIs Hi. apply V_inv; auto. apply Hin; auto.
  - intros st i j HIs Hi HFj. apply Hin in Hi. specialize (V_mono st i HIs Hi).
    unfold D_of in V_mono. lra.
  - intros. eapply LB_sum_incl; eauto.
  - intros o d l st HL HIs EL' j Hj. apply (leb_val_false val EL) in EL'.
    pose proof (LB_sum_low val t sp q o d l j HL Hj). lra.
  - intros br l r o d HR Hi HL. eapply step_search; eauto.
  - exact NS.
  - rewrite app_nil_r. reflexivity.
  - reflexivity.
  - apply Forall_forall. intros i Hi. apply in_space_lt. apply Hin; auto.
  - apply incl_refl.
  - apply LB_sum_start; auto. destruct HT as [HT|HT]; [apply (et_nonneg _ _ _ HT)|apply (tt_nonneg _ _ _ HT)].
  - exact HI.
  - exists tr, rest. split; [rewrite Pt; auto|]. split.
    + unfold search_nearest. simpl. fold n. rewrite LQ, Nat.eqb_refl. simpl.
      rewrite search_nearest_root_gen, E. reflexivity.
    + split; auto. apply (visits_inv m vis sp q Inv (kd_indices data)); auto.
      * intros st i HIs Hi. apply V_inv; auto. apply Hin; auto.
      * intros x Hx. eapply Permutation_in; [exact Pt|]. apply in_or_app; auto.
Qed.
End Visitor.
End Main.

(** * Without any law on scalars *)
Section Lawless.
Context {T : Type} {S : Scalar T}.
Variables (sp : space T) (m : metric T).

(** A tree whose nodes refer to the points once and whose branches have an
    existing dimension: all that memory safety needs. *)
Record sound_tree (c : category) (t : kd_tree_data c T) : Prop := {
  st_perm : Permutation (kd_indices t) (seq 0 (length (sp_pts sp)));
  st_spans : node_spans (fun br _ _ => br_split_dim c br < sp_sdim sp) (kd_root t) 0 (kd_indices t)
}.

Lemma search_nearest_lawless {V} (vis : visitor T V) c (data : kd_tree_data c T) q v0 r :
  sound_tree c data ->
  search_nearest_root m c vis sp (kd_indices data) q (kd_root data) v0 = Ok r ->
  exists tr rest, Permutation (tr ++ rest) (seq 0 (length (sp_pts sp))) /\ r = visits m vis sp q tr v0.
Proof.
  intros [P NS] H. rewrite search_nearest_root_gen in H.
  assert (K : forall nd b l, node_spans (fun br _ _ => br_split_dim c br < sp_sdim sp) nd b l ->
    forall pre post o d st o' st', kd_indices data = pre ++ l ++ post -> b = length pre ->
    Forall (fun i => in_space sp i = true) l ->
    search_gen m vis sp (kd_indices data) q (decide m q c) nd d (o, st) = Ok (o', st') ->
    exists tr rest, Permutation (tr ++ rest) l /\ o' = o /\ st' = visits m vis sp q tr st).
  { induction 1 as [b l|br nl nr b l rr H1 IH1 H2 IH2 HR]; intros pre post o d st o' st' Hi Hb F E.
    - exists l, []. rewrite app_nil_r. split; auto.
      simpl in E. subst b. rewrite Hi, slice_app in E. cbn [bind] in E.
      rewrite visit_range_visits in E by auto. cbn [bind] in E. injection E as <- <-. auto.
    - apply Forall_app in F as [Fl Fr].
      cbn [search_gen] in E. okbind E. destruct a as [[sd gl] no]. okbind E. destruct a as [o1 st1].
      assert (IHn : exists tr rest, Permutation (tr ++ rest) (if gl then l else rr)
          /\ o1 = o /\ st1 = visits m vis sp q tr st).
      { destruct gl.
        - eapply (IH1 pre (rr ++ post)); eauto. rewrite Hi, <- app_assoc. auto.
        - eapply (IH2 (pre ++ l) post); eauto. { rewrite Hi, <- !app_assoc. auto. } rewrite app_length. lia. }
      destruct IHn as (tr & rest & Pn & -> & ->). cbn [fst snd] in E.
      okbind E. rename a into old.
      destruct (s_leb _ _).
      + okbind E. destruct a as [o2 st2]. cbn [fst snd] in E. injection E as <- <-.
        assert (IHf : exists tr' rest', Permutation (tr' ++ rest') (if gl then rr else l)
            /\ o2 = set_nth o sd no /\ st2 = visits m vis sp q tr' (visits m vis sp q tr st)).
        { destruct gl.
          - eapply (IH2 (pre ++ l) post); eauto. { rewrite Hi, <- !app_assoc. auto. } rewrite app_length. lia.
          - eapply (IH1 pre (rr ++ post)); eauto. rewrite Hi, <- app_assoc. auto. }
        destruct IHf as (tr' & rest' & P' & -> & ->).
        exists (tr ++ tr'), (rest ++ rest'). split; [|split].
        * transitivity ((tr ++ rest) ++ (tr' ++ rest')).
          { rewrite <- !app_assoc. apply Permutation_app_head. rewrite !app_assoc.
            apply Permutation_app_tail. apply Permutation_app_comm. }
          rewrite Pn, P'. destruct gl; auto. apply Permutation_app_comm.
        * apply set_nth_restore. apply at_ok; auto.
        * rewrite visits_app. reflexivity.
      + injection E as <- <-. exists tr, (rest ++ if gl then rr else l). split; auto.
        rewrite app_assoc, Pn. destruct gl; auto. apply Permutation_app_comm. }
  okbind H. destruct a as [o' st']. injection H as <-.
  destruct (K _ _ _ NS [] [] _ _ _ _ _ ltac:(rewrite app_nil_r; reflexivity) eq_refl
    ltac:(apply Forall_forall; intros i Hi; apply in_space_lt, In_seq0; eapply Permutation_in; eauto) E)
    as (tr & rest & Pt & _ & ->).
  exists tr, rest. rewrite Pt. auto.
Qed.
End Lawless.
