(** Searches with a tree whose points were modified after it was made. *)
From Coq Require Import List ZArith QArith Qabs Qminmax Bool Arith Permutation Sorted Lia Lqa.
From Verif Require Import Base ModelBox ModelBuild ModelSearch ModelSerial Spec SpecSerial SpecStale Lemmas Instances
  BuildProofs BuildOrder BuildShape BuildThms SearchProofs SearchThms Metrics Visitors QueryThms BoxThms SafeThms TopThms SerialThms.
Import ListNotations.
Local Open Scope nat_scope.

Lemma offsets0_dim {T} {S : Scalar T} (sp sp' : space T) : sp_sdim sp' = sp_sdim sp -> offsets0 sp' = offsets0 sp.
Proof. unfold offsets0. intros ->. reflexivity. Qed.

Section Stale.
Context {T : Type} {S : Scalar T} (ok : T -> Prop) (OL : ord_laws S ok).
Variables (sp : space T) (WF : wf_space sp) (OKS : all_coords ok sp).
Variables (alg : std_algos) (SL : std_laws alg) (m : metric T) (it : index_type) (fuel : nat)
  (stop : stop_condition) (bnds : start_bounds T) (ru : rule) (tree : kd_tree T).
Hypotheses (HT : kd_tree_make alg it m fuel sp stop bnds ru = Ok tree)
  (MID : ru = midpoint_max_side -> mid_ok S ok /\ bounds_coords ok sp bnds)
  (TOPO : m_cat m = Topological -> ok_finite S ok /\ (ru = midpoint_max_side -> mid_between S ok)).
Variables (sp' : space T) (MO : modified sp sp').
Let n := sp_sdim sp.
Let N := length (sp_pts sp).

Section Search.
Context {V : Type} (vis : visitor T V) (q : list T).
Hypothesis LQ : length q = n.

Lemma safe_spans data : build (m_cat m) alg it fuel sp stop bnds ru = Ok data ->
  Permutation (kd_indices data) (seq 0 N)
  /\ node_spans (R_safe sp m q (m_cat m)) (kd_root data) 0 (kd_indices data).
Proof.
  intros HB.
  pose proof (build_holds ok OL sp WF OKS alg SL (m_cat m) it fuel stop bnds ru data MID HB) as [HP HN].
  assert (FS : Forall (fun i => in_space sp i = true) (kd_indices data)) by (apply perm_in_space; auto).
  split; auto. destruct (m_cat m).
  - eapply node_spans_impl; [exact HN|]. intros br l1 r1 _ _ (lb & rb & d & -> & Hd & _).
    unfold R_safe. cbn [decide set_branch]. unfold decide_euclidean. cbn [bs_split_dim].
    rewrite (at_lt q d s_zero) by (rewrite LQ; auto). cbn [bind]. eauto.
  - destruct (TOPO eq_refl) as [FIN MB].
    pose proof HB as HB'. apply build_inv in HB' as (_ & (NE & _) & bx' & HC & _).
    apply (create_node_boxed ok OL sp WF OKS alg SL) in HC; auto.
    + destruct HC as [HC _]. revert HC FS. generalize (kd_root data), (kd_indices data), bx', 0. clear - LQ OL WF OKS.
      intros nd l b off. induction 1 as [|nl nr off l r lb rb d H1 IH1 H2 IH2 Hd]; intros F; [constructor|].
      apply Forall_app in F as [Fl Fr]. constructor; auto.
      destruct (boxed_facts ok OL sp WF OKS _ _ _ _ _ H1 Fl) as (_ & _ & P1 & _).
      destruct (boxed_facts ok OL sp WF OKS _ _ _ _ _ H2 Fr) as (_ & _ & P2 & _).
      unfold R_safe. cbn [decide set_branch]. unfold decide_topological.
      cbn [bd_split_dim bd_left_min bd_left_max bd_right_min bd_right_max].
      rewrite (at_lt q d s_zero) by (rewrite LQ; auto). cbn [bind]. unfold box_distance.
      destruct (m_dim_space m d).
      * rewrite !guard_true by (unfold segment_r1_ok; auto). cbn [bind]. eauto.
      * cbn [bind]. eauto.
    + intros Hm. split; auto. apply MID; auto.
    + apply box_from_bounds_wf.
    + intros Hm. split; [apply (box_from_bounds_ok ok OL sp WF OKS); apply MID; auto|].
      apply (root_oproper ok OL sp WF OKS alg m it fuel stop bnds ru tree); auto.
    + left. destruct (length (sp_pts sp)); [lia|discriminate].
Qed.

Lemma stale_total v0 : exists tr rest, Permutation (tr ++ rest) (seq 0 N)
  /\ search_nearest (with_points tree sp') vis q v0
     = Ok (fold_left (fun st i => v_visit vis i (m_dist m q (nth i (sp_pts sp') [])) st) tr v0).
Proof.
  destruct (kd_tree_make_inv _ _ _ _ _ _ _ _ _ HT) as (data & Et & HB).
  destruct (safe_spans data HB) as [HP NS]. destruct MO as [MD MW MS].
  assert (FS : Forall (fun i => in_space sp' i = true) (kd_indices data)).
  { apply Forall_forall. intros i Hi. apply (Permutation_in _ HP) in Hi. apply In_seq0 in Hi. apply in_space_lt. unfold N in Hi. lia. }
  destruct (search_gen_spec m vis sp' (kd_indices data) q (R_safe sp m q (m_cat m)) (decide m q (m_cat m))
              (fun _ => True) (fun _ _ => True) (fun o _ _ => length o = n) (kd_indices data)) with
    (nd := kd_root data) (b := 0) (l := kd_indices data) (pre := @nil nat) (post := @nil nat)
    (o := offsets0 sp') (d := s_zero (Scalar := S)) (st := v0)
    as (tr & rest & Pt & E & _); auto.
  - intros br l r o d (sd & gl & no & Ed & Hsd) _ Lo.
    exists sd, gl, no, (nth sd o s_zero). split; auto. split; [apply at_lt; unfold n in *; lia|].
    rewrite length_set_nth. auto.
  - rewrite app_nil_r. reflexivity.
  - apply incl_refl.
  - rewrite (offsets0_dim sp sp' MD). apply length_tab.
  - exists tr, rest. split; [rewrite Pt; auto|].
    unfold search_nearest, with_points. rewrite Et. cbn [kt_space kt_metric kt_data].
    rewrite MD. fold n. rewrite LQ, Nat.eqb_refl. cbn [guard bind].
    rewrite search_nearest_root_gen, E. reflexivity.
Qed.
End Search.

(** * Box search *)
Section Box.
Variables (mn mx : list T).
Hypotheses (Lmn : length mn = n) (Lmx : length mx = n) (Fmn : Forall ok mn) (Fmx : Forall ok mx).
Hypothesis (OKS' : all_coords ok sp').
Let query := Box mn mx.
Let hit (i : nat) : bool := box_contains query (sp_at sp i).
Let hit' (i : nat) : bool := box_contains query (sp_at sp' i).

(** Something between the old and the new answer. *)
Definition mixed (l l' : list nat) : Prop := exists p, l' = filter p l
  /\ forall i, In i l -> (p i = true -> hit i = true \/ hit' i = true) /\ (hit i = true -> hit' i = true -> p i = true).

Lemma mixed_app l r l' r' : NoDup (l ++ r) -> mixed l l' -> mixed r r' -> mixed (l ++ r) (l' ++ r').
Proof.
  intros ND (p & -> & HP) (p' & -> & HP').
  exists (fun i => if in_dec Nat.eq_dec i l then p i else p' i). split.
  - rewrite filter_app. f_equal; apply filter_ext_in; intros i Hi; destruct (in_dec Nat.eq_dec i l); auto; try contradiction.
    exfalso. eapply NoDup_app_disj; eauto.
  - intros i Hi. destruct (in_dec Nat.eq_dec i l); auto. apply in_app_or in Hi as [Hi|Hi]; auto; contradiction.
Qed.

Lemma mixed_all l : (forall i, In i l -> hit i = true) -> mixed l l.
Proof. intros H. exists (fun _ => true). split; [symmetry; apply filter_all; auto|]. auto. Qed.
Lemma mixed_none l : (forall i, In i l -> hit i = false) -> mixed l [].
Proof.
  intros H. exists (fun _ => false). split; [symmetry; apply filter_none; auto|]. intros i Hi. rewrite H by auto. split; congruence.
Qed.
Lemma mixed_new l : mixed l (filter hit' l).
Proof. exists hit'. split; auto. Qed.

Lemma collect_new (m0 : metric T) l : Forall (fun i => in_space sp' i = true) l -> forall idxs,
  collect_range m0 sp' query Euclidean l idxs = Ok (idxs ++ filter hit' l).
Proof. intros F idxs. apply (collect_euclidean sp' m0 mn mx l F idxs). Qed.

Lemma box_node_stale (m0 : metric T) indices nd b0 l : node_spans (R_holds ok sp Euclidean) nd b0 l ->
  forall pre post b idxs, indices = pre ++ l ++ post -> b0 = length pre -> NoDup l ->
  Forall (fun i => in_space sp i = true) l ->
  Forall (fun i => in_space sp' i = true) l ->
  box_wf n b -> ok_box ok n b -> holds sp b l ->
  exists l', search_box_node m0 sp' indices query Euclidean nd (b, idxs) = Ok (b, idxs ++ l') /\ mixed l l'.
Proof.
  assert (OMN : ok_point ok n mn) by (apply ok_point_list; auto).
  assert (OMX : ok_point ok n mx) by (apply ok_point_list; auto).
  induction 1 as [b0 l|br nl nr b0 l r H1 IH1 H2 IH2 HR]; intros pre post b idxs Hi Hb ND F F' W O HO.
  - exists (filter hit' l). split; [|apply mixed_new].
    cbn [search_box_node]. subst b0. rewrite Hi, slice_app. cbn [bind fst snd].
    rewrite collect_new by auto. reflexivity.
  - destruct HR as (lb & rb & d & -> & Hd & Wl & Wr & Ol & Or & Hl & Hr).
    apply Forall_app in F as [Fl Fr]. apply Forall_app in F' as [Fl' Fr']. rewrite Forall_forall in Fl, Fr.
    assert (OKP : forall i, In i (l ++ r) -> ok_point ok n (sp_at sp i)).
    { intros i Hx. apply (ok_point_at ok sp WF OKS). apply in_app_or in Hx as [Hx|Hx]; auto. }
    destruct b as [bmn bmx]. destruct W as [W1 W2]. cbn [box_min box_max] in W1, W2.
    cbn [search_box_node br_split_dim br_left_max br_right_min set_branch bs_split_dim bs_left_max bs_right_min fst snd box_max box_min].
    fold n in Hd.
    rewrite (at_lt bmx d s_zero) by lia. cbn [bind query_contains_box].
    set (box1 := box_set_max (Box bmn bmx) d (get (box_max lb) d)).
    assert (O1 : ok_box ok n box1).
    { apply box_set_max_ok; auto. - split; auto. - apply Ol; auto. }
    assert (HO1 : holds sp box1 l).
    { intros i Hx k Hk. destruct (HO i ltac:(apply in_or_app; auto) k Hk) as [A B].
      unfold box1. cbn [box_set_max box_min box_max] in *. split; auto.
      destruct (Nat.eq_dec d k) as [<-|Ne].
      - rewrite get_set_same by lia. apply (Hl i Hx d Hd).
      - rewrite get_set_other by auto. auto. }
    assert (EL : exists l', (if box_contains_box query box1
                  then do idxs0 <- report_node indices nl idxs; Ok (box1, idxs0)
                  else if intersects_left query Euclidean (BranchSingle d (get (box_max lb) d) (get (box_min rb) d))
                       then search_box_node m0 sp' indices query Euclidean nl (box1, idxs)
                       else Ok (box1, idxs)) = Ok (box1, idxs ++ l') /\ mixed l l').
    { destruct (box_contains_box query box1) eqn:EC.
      - rewrite Hi, <- app_assoc. rewrite (report_node_spans (R_holds ok sp Euclidean) nl b0 l) by auto.
        exists l. split; [reflexivity|]. apply mixed_all. intros i Hx. unfold hit.
        apply (contains_box_all ok OL sp mn mx Lmn OMN OMX box1); auto. apply OKP, in_or_app; auto.
      - destruct (intersects_left _ _ _) eqn:EI.
        + apply (IH1 pre (r ++ post)); auto.
          * rewrite Hi, <- app_assoc. reflexivity.
          * eapply NoDup_app_l; eauto.
          * apply Forall_forall; auto.
          * apply box_set_max_wf. split; auto.
        + exists []. rewrite app_nil_r. split; auto. apply mixed_none. intros i Hx. unfold hit.
          destruct (box_contains query (sp_at sp i)) eqn:E; auto. exfalso.
          apply (box_contains_iff ok OL sp mn mx Lmn OMN OMX) in E; [|apply OKP, in_or_app; auto].
          destruct (E d Hd) as [A _]. destruct (Hl i Hx d Hd) as [_ B]. cbn [query box_min] in A.
          assert (X : s_leb (get mn d) (get (box_max lb) d) = true).
          { eapply (leb_trans ok OL); [| | |exact A|exact B]; auto. - apply OKP; auto. apply in_or_app; auto. - apply Ol; auto. }
          cbn [intersects_left bs_split_dim bs_left_max query box_min] in EI. congruence. }
    destruct EL as (l' & EL & Ml).
    rewrite EL. cbn [bind fst snd].
    assert (EB : box_set_max box1 d (nth d bmx s_zero) = Box bmn bmx).
    { unfold box1, box_set_max. cbn [box_min box_max]. rewrite set_restore by (apply at_lt; lia). reflexivity. }
    rewrite EB. cbn [box_min]. rewrite (at_lt bmn d s_zero) by lia. cbn [bind].
    set (box3 := box_set_min (Box bmn bmx) d (get (box_min rb) d)).
    assert (O3 : ok_box ok n box3).
    { apply box_set_min_ok; auto. - split; auto. - apply Or; auto. }
    assert (HO3 : holds sp box3 r).
    { intros i Hx k Hk. destruct (HO i ltac:(apply in_or_app; auto) k Hk) as [A B].
      unfold box3. cbn [box_set_min box_min box_max] in *. split; auto.
      destruct (Nat.eq_dec d k) as [<-|Ne].
      - rewrite get_set_same by lia. apply (Hr i Hx d Hd).
      - rewrite get_set_other by auto. auto. }
    assert (ER : forall id0, exists r', (if box_contains_box query box3
                  then do idxs0 <- report_node indices nr id0; Ok (box3, idxs0)
                  else if intersects_right query Euclidean (BranchSingle d (get (box_max lb) d) (get (box_min rb) d))
                       then search_box_node m0 sp' indices query Euclidean nr (box3, id0)
                       else Ok (box3, id0)) = Ok (box3, id0 ++ r') /\ mixed r r').
    { intros id0. destruct (box_contains_box query box3) eqn:EC.
      - rewrite Hi, <- app_assoc. rewrite (app_assoc pre).
        rewrite (report_node_spans (R_holds ok sp Euclidean) nr (b0 + length l) r) by (auto; rewrite app_length; lia).
        exists r. split; [reflexivity|]. apply mixed_all.
        intros i Hx. unfold hit. apply (contains_box_all ok OL sp mn mx Lmn OMN OMX box3); auto. apply OKP, in_or_app; auto.
      - destruct (intersects_right _ _ _) eqn:EI.
        + apply (IH2 (pre ++ l) post); auto.
          * rewrite Hi, <- !app_assoc. reflexivity.
          * rewrite app_length. lia.
          * eapply NoDup_app_r; eauto.
          * apply Forall_forall; auto.
          * apply box_set_min_wf. split; auto.
        + exists []. rewrite app_nil_r. split; auto. apply mixed_none. intros i Hx. unfold hit.
          destruct (box_contains query (sp_at sp i)) eqn:E; auto. exfalso.
          apply (box_contains_iff ok OL sp mn mx Lmn OMN OMX) in E; [|apply OKP, in_or_app; auto].
          destruct (E d Hd) as [_ A]. destruct (Hr i Hx d Hd) as [B _]. cbn [query box_max] in A.
          assert (X : s_leb (get (box_min rb) d) (get mx d) = true).
          { eapply (leb_trans ok OL); [| | |exact B|exact A]; auto. - apply Or; auto. - apply OKP; auto. apply in_or_app; auto. }
          cbn [intersects_right bs_split_dim bs_right_min query box_max] in EI. congruence. }
    destruct (ER (idxs ++ l')) as (r' & ER' & Mr).
    rewrite ER'. cbn [bind fst snd]. unfold box3. cbn [box_set_min box_min box_max].
    unfold box_set_min. cbn [box_min box_max]. rewrite set_restore by (apply at_lt; lia).
    exists (l' ++ r'). rewrite app_assoc. split; auto. apply mixed_app; auto.
Qed.

Lemma stale_box : bounds_coords ok sp bnds -> bounds_enclose sp bnds -> m_cat m = Euclidean ->
  exists ans, search_box (with_points tree sp') mn mx = Ok ans /\ NoDup ans
    /\ (forall i, In i ans -> i < N /\ (inside mn mx (nth i (sp_pts sp) []) \/ inside mn mx (nth i (sp_pts sp') [])))
    /\ (forall i, i < N -> inside mn mx (nth i (sp_pts sp) []) -> inside mn mx (nth i (sp_pts sp') []) -> In i ans).
Proof.
  intros HBC HBE CAT.
  destruct (kd_tree_make_inv _ _ _ _ _ _ _ _ _ HT) as (data & Et & HB).
  pose proof (build_holds ok OL sp WF OKS alg SL (m_cat m) it fuel stop bnds ru data MID HB) as [HP HN].
  apply build_inv in HB as (_ & _ & bx' & _ & ER). destruct MO as [MD MW MS].
  assert (OMN : ok_point ok n mn) by (apply ok_point_list; auto).
  assert (OMX : ok_point ok n mx) by (apply ok_point_list; auto).
  assert (K : forall i, i < N -> hit i = true <-> inside mn mx (nth i (sp_pts sp) [])).
  { intros i Hi. unfold hit, query. rewrite (box_contains_iff ok OL sp mn mx Lmn OMN OMX).
    - unfold inside, in_box. rewrite Lmn. reflexivity.
    - apply (ok_point_at ok sp WF OKS). apply in_space_lt. auto. }
  assert (K' : forall i, i < N -> hit' i = true <-> inside mn mx (nth i (sp_pts sp') [])).
  { intros i Hi. unfold hit', query. rewrite (box_contains_iff ok OL sp mn mx Lmn OMN OMX).
    - unfold inside, in_box. rewrite Lmn. reflexivity.
    - rewrite <- MD. apply (ok_point_at ok sp' MW OKS'). apply in_space_lt. unfold N in Hi. lia. }
  assert (IN : forall i, In i (kd_indices data) <-> i < N).
  { intros i. rewrite <- In_seq0. split; apply Permutation_in; auto; symmetry; auto. }
  unfold search_box, with_points. rewrite Et. cbn [kt_space kt_metric kt_data]. rewrite MD. fold n. rewrite Lmn, Lmx, Nat.eqb_refl.
  cbn [andb guard bind]. rewrite ER.
  clear Et HT. destruct m as [cat md ma ms]. cbn [m_cat] in *. subst cat.
  destruct (box_node_stale (Metric Euclidean md ma ms) (kd_indices data) (kd_root data) 0 (kd_indices data) HN [] [] (box_from_bounds sp bnds) [])
    as (l' & E & (p & -> & HPx)).
  - rewrite app_nil_r. reflexivity.
  - reflexivity.
  - eapply Permutation_NoDup; [symmetry; exact HP|apply seq_NoDup].
  - apply perm_in_space; auto.
  - apply Forall_forall. intros i Hi. apply IN in Hi. apply in_space_lt. unfold N in Hi. lia.
  - apply box_from_bounds_wf.
  - apply (box_from_bounds_ok ok OL sp WF OKS); auto.
  - apply (box_from_bounds_holds ok OL sp WF OKS); auto. apply perm_in_space; auto.
  - cbn [m_cat]. unfold query in E. rewrite E. cbn [bind snd app]. eexists. split; [reflexivity|]. split.
    { apply NoDup_filter. eapply Permutation_NoDup; [symmetry; exact HP|apply seq_NoDup]. }
    split.
    + intros i Hi. apply filter_In in Hi as [A B]. pose proof A as A'. apply IN in A'. split; auto.
      rewrite <- K, <- K' by auto. apply HPx; auto.
    + intros i Hi A B. apply filter_In. split; [apply IN; auto|]. apply HPx; [apply IN; auto|apply K; auto|apply K'; auto].
Qed.
End Box.
End Stale.

(** * Exact metrics *)
Section StaleExact.
Context {T : Type} {S : Scalar T} (val : T -> Q) (EL : exact_laws S val).
Variables (em : exact_metric) (sp sp' : space T) (alg : std_algos) (SL : std_laws alg)
  (it : index_type) (fuel : nat) (stop : stop_condition) (bnds : start_bounds T) (ru : rule)
  (tree : kd_tree T) (q : list T).
Hypotheses (HM : kd_tree_make alg it (metric_of em) fuel sp stop bnds ru = Ok tree)
  (US : usable val em sp bnds q) (US' : usable val em sp' bounds_from_space q) (MO : modified sp sp').
Let n := sp_sdim sp.
Let N := npts sp.
Let m := metric_of em.
Let t := terms_of em.
Let D := dist_to val em sp q.
Let D' := dist_to val em sp' q.
Let f (i : nat) : T := m_dist m q (sp_at sp' i).
Let WF := us_space _ _ _ _ _ US.
Let REP := us_range _ _ _ _ _ US.
Let OL := exact_ord val EL.

Lemma new_dist i : i < N -> (val (f i) == D' i)%Q.
Proof. intros Hi. unfold f. apply (dist_eq val EL em sp' 0 bounds_from_space q US'). destruct MO. unfold npts in *. lia. Qed.

Lemma old_low i : i < N -> (D_low val t sp q i == D i)%Q.
Proof. intros Hi. unfold t, D. rewrite (low_eq val EL em sp 0 bnds q US), (dist_eq val EL em sp 0 bnds q US) by auto. reflexivity. Qed.

Section Visitor.
Context {V : Type} (vis : visitor T V).
Variables (Inv : V -> Prop).
Hypotheses
  (V_inv : forall st i, Inv st -> i < N -> Inv (v_visit vis i (f i) st))
  (V_mono : forall st i, Inv st -> i < N -> (val (v_max vis (v_visit vis i (f i) st)) <= val (v_max vis st))%Q).

Lemma stale_contract v0 : Inv v0 ->
  exists tr rest, Permutation (tr ++ rest) (seq 0 N)
    /\ search_nearest (with_points tree sp') vis q v0 = Ok (visits m vis sp' q tr v0)
    /\ Inv (visits m vis sp' q tr v0)
    /\ forall j, In j rest -> (val (v_max vis (visits m vis sp' q tr v0)) < D j)%Q.
Proof.
  intros HI. pose proof (us_query _ _ _ _ _ US) as LQ. destruct MO as [MD MW MS].
  pose proof (exact_terms val EL em) as HT. fold m t in HT.
  pose proof (points_ok val EL em sp bnds q US) as HP. pose proof (bnds_ok val EL em sp alg it fuel stop bnds ru tree q HM US) as HB.
  pose proof (query_ok val EL em sp bnds q US) as HQ.
  destruct (kd_tree_make_inv _ _ _ _ _ _ _ _ _ HM) as (data & Et & HBd).
  apply (build_order val EL sp WF REP m alg SL) in HBd as [P N0]; auto.
  assert (NS : node_spans (R_search val m sp (m_cat m)) (kd_root data) 0 (kd_indices data)).
  { eapply node_spans_impl; [exact N0|]. intros. eapply R_order_search; eauto. }
  assert (Hin : forall i, In i (kd_indices data) <-> i < N).
  { intros i. rewrite <- In_seq0. split; apply Permutation_in; auto; symmetry; auto. }
  destruct (search_gen_spec m vis sp' (kd_indices data) q (R_search val m sp (m_cat m)) (decide m q (m_cat m))
              Inv (fun st j => (val (v_max vis st) < D_low val t sp q j)%Q)
              (LB_sum val t sp q) (kd_indices data)) with
    (nd := kd_root data) (b := 0) (l := kd_indices data) (pre := @nil nat) (post := @nil nat)
    (o := offsets0 sp') (d := s_zero (Scalar := S)) (st := v0)
    as (tr & rest & Pt & E & HF).
  - intros st i HIs Hi. apply V_inv; auto. apply Hin; auto.
  - intros st i j HIs Hi HFj. apply Hin in Hi. specialize (V_mono st i HIs Hi). unfold f in V_mono. lra.
  - intros. eapply LB_sum_incl; eauto.
  - intros o d l st HL HIs EL' j Hj. apply (leb_val_false val EL) in EL'.
    pose proof (LB_sum_low val t sp q o d l j HL Hj). lra.
  - intros br l r o d HR Hi HL. eapply step_search; eauto.
  - exact NS.
  - rewrite app_nil_r. reflexivity.
  - reflexivity.
  - apply Forall_forall. intros i Hi. apply in_space_lt. apply Hin in Hi. unfold N, npts in Hi. lia.
  - apply incl_refl.
  - rewrite (offsets0_dim sp sp' MD). apply LB_sum_start; auto. destruct HT as [HT|HT]; [apply (et_nonneg _ _ _ HT)|apply (tt_nonneg _ _ _ HT)].
  - exact HI.
  - exists tr, rest. split; [rewrite Pt; auto|].
    assert (PP : Permutation (tr ++ rest) (seq 0 N)) by (rewrite Pt; auto). apply perm_in_seq in PP as (Ptr & Prest & _).
    split; [|split].
    + unfold search_nearest, with_points. rewrite Et. cbn [kt_space kt_metric kt_data].
      rewrite MD. rewrite LQ, Nat.eqb_refl. cbn [guard bind].
      rewrite search_nearest_root_gen. unfold m in E. rewrite E. reflexivity.
    + apply (visits_inv m vis sp' q Inv (kd_indices data)); auto.
      * intros st i HIs Hi. apply V_inv; auto. apply Hin; auto.
      * intros x Hx. eapply Permutation_in; [exact Pt|]. apply in_or_app; auto.
    + intros j Hj. rewrite <- old_low by auto. auto.
Qed.
End Visitor.

Lemma both_l j : (D j <= dist_both val em sp sp' q j)%Q.
Proof. unfold dist_both. fold D D'. destruct (Qle_bool (D j) (D' j)) eqn:E; [apply Qle_bool_iff; auto|lra]. Qed.
Lemma both_r j : (D' j <= dist_both val em sp sp' q j)%Q.
Proof.
  unfold dist_both. fold D D'. destruct (Qle_bool (D j) (D' j)) eqn:E; [lra|].
  assert (~ (D j <= D' j)%Q) by (intros K; apply Qle_bool_iff in K; congruence). lra.
Qed.

Lemma both_cases j : (dist_both val em sp sp' q j == D j)%Q \/ (dist_both val em sp sp' q j == D' j)%Q.
Proof. unfold dist_both. fold D D'. destruct (Qle_bool (D j) (D' j)); [right|left]; reflexivity. Qed.

Lemma radius_stale r : exists l, search_radius alg (with_points tree sp') q r false = Ok l
  /\ stale_radius N D' (dist_both val em sp sp' q) (val r) (answers val l).
Proof.
  destruct (stale_contract (visitor_radius r) (fun _ => True)) with (v0 := @nil (neighbor T))
    as (tr & rest & P & E & _ & F); auto.
  { intros st i _ _. cbn. lra. }
  assert (EV : forall l st, visits m (visitor_radius r) sp' q l st = fold_left (radius_step f r) l st).
  { intros; reflexivity. }
  rewrite EV, radius_result in E. unfold search_radius. rewrite E. cbn [bind app].
  eexists. split; [reflexivity|]. apply perm_in_seq in P as (Ptr & Prest & Pall & ND & _).
  unfold answers. rewrite map_map. cbn [as_neighbor n_index n_distance]. constructor.
  - rewrite map_map. cbn [fst]. rewrite map_id. apply NoDup_filter; auto.
  - intros i d Hx. apply in_map_iff in Hx as (j & Ej & Hi). injection Ej as <- <-.
    apply filter_In in Hi as [Hi L]. apply (ltb_val val EL) in L. split; auto. rewrite <- new_dist by auto. split; [reflexivity|auto].
  - intros i Hi HR. rewrite map_map. cbn [fst]. rewrite map_id. apply filter_In. pose proof (both_l i). pose proof (both_r i).
    destruct (Pall i Hi) as [H1|H1].
    + split; auto. apply (ltb_val val EL). rewrite new_dist by auto. lra.
    + specialize (F i H1). cbn [v_max visitor_radius] in F. lra.
Qed.

Lemma nn_stale nn0 : exists r, search_nn (with_points tree sp') q nn0 = Ok r
  /\ (forall j, j < N -> (val (n_distance r) <= dist_both val em sp sp' q j)%Q)
  /\ (r = Neighbor (n_index nn0) s_max \/ n_index r < N /\ (val (n_distance r) == D' (n_index r))%Q)
  /\ (distances_fit val em sp q -> distances_fit val em sp' q -> n_index r < N /\ (val (n_distance r) == D' (n_index r))%Q).
Proof.
  destruct (stale_contract visitor_nn (fun _ => True)) with (v0 := visitor_nn_init nn0)
    as (tr & rest & P & E & _ & F); auto.
  { intros st i _ _. cbn. destruct (s_ltb _ _) eqn:L; [|lra]. apply (ltb_val val EL) in L. cbn. lra. }
  assert (EV : forall l st, visits m visitor_nn sp' q l st = fold_left (nn_step f) l st).
  { intros; reflexivity. }
  rewrite EV in *. unfold search_nn. rewrite E. eexists. split; [reflexivity|].
  apply perm_in_seq in P as (Ptr & Prest & Pall & ND & _).
  set (r := fold_left (nn_step f) tr (visitor_nn_init nn0)) in *.
  assert (MIN : forall j, j < N -> (val (n_distance r) <= dist_both val em sp sp' q j)%Q).
  { intros j Hj. pose proof (both_l j). pose proof (both_r j). destruct (Pall j Hj) as [H1|H1].
    - pose proof (nn_minimal f OL (fun _ => I) tr (visitor_nn_init nn0) I) as K.
      destruct K as (_ & _ & K). specialize (K j H1). apply (leb_val val EL) in K. rewrite new_dist in K by auto. fold r in K. lra.
    - specialize (F j H1). cbn [v_max visitor_nn] in F. lra. }
  assert (GEN : r = Neighbor (n_index nn0) s_max \/ n_index r < N /\ (val (n_distance r) == D' (n_index r))%Q).
  { destruct (nn_genuine f tr (visitor_nn_init nn0)) as [H1|(i & Hi & H1)]; fold r in H1.
    - left. auto.
    - right. rewrite H1. cbn [as_neighbor n_index n_distance]. split; auto. apply new_dist; auto. }
  split; auto. split; auto. intros F1 F2. destruct GEN as [G|G]; auto. exfalso.
  assert (H0 : 0 < N) by (apply (size_pos em sp alg it fuel stop bnds ru tree HM)).
  specialize (MIN 0 H0). rewrite G in MIN. cbn [n_distance] in MIN.
  destruct (both_cases 0) as [K|K]; rewrite K in MIN.
  - specialize (F1 0 H0). unfold D in MIN. lra.
  - assert (X : 0 < npts sp') by (destruct MO; unfold N, npts in *; lia). specialize (F2 0 X). unfold D' in MIN. lra.
Qed.

Section Fit.
Hypotheses (FIT : distances_fit val em sp q) (FIT' : distances_fit val em sp' q).

Lemma fit_new j : j < N -> (val (f j) < val s_max)%Q.
Proof. intros Hj. rewrite new_dist by auto. apply FIT'. destruct MO. unfold N, npts in *. lia. Qed.

(** A range of [k] slots. *)
Lemma knn_stale_range l0 : 0 < length l0 -> knn_max (l0, 0) = s_max ->
  exists st, search_nearest (with_points tree sp') visitor_knn q (l0, 0) = Ok st
  /\ length (fst st) = length l0
  /\ stale_knn N (length l0) D' (dist_both val em sp sp' q) (answers val (firstn (Nat.min (length l0) N) (fst st))).
Proof.
  intros H0 HX.
  destruct (stale_contract visitor_knn
    (fun st => exists tr kept dropped, knn_holds f l0 tr st kept dropped /\ knn_sorted f st kept dropped)) with
    (v0 := (l0, 0)) as (tr & rest & P & E & _ & F).
  { intros st i (tr & kept & dropped & A & B) _.
    destruct (knn_order_step f OL (fun _ => I) l0 tr st kept dropped i H0 HX A B) as (k' & d' & A' & B' & _).
    exists (tr ++ [i]), k', d'. auto. }
  { intros st i (tr & kept & dropped & A & B) _.
    destruct (knn_order_step f OL (fun _ => I) l0 tr st kept dropped i H0 HX A B) as (k' & d' & _ & _ & C).
    apply (leb_val val EL); auto. }
  { exists [], [], []. split; [apply knn_start|]. constructor; simpl; try tauto. constructor. }
  change (visits m visitor_knn sp' q tr (l0, 0)) with (fold_left (knn_step f) tr (l0, 0)) in *.
  destruct (knn_order f OL (fun _ => I) l0 tr H0 HX) as (kept & dropped & A & B).
  set (st := fold_left (knn_step f) tr (l0, 0)) in *.
  exists st. split; auto. split; [apply (kh_len _ _ _ _ _ _ A)|].
  pose proof P as P0. apply perm_in_seq in P as (Ptr & Prest & Pall & ND & Pdis).
  assert (Hk : forall i, In i kept -> i < N).
  { intros i Hi. apply Ptr. eapply Permutation_in; [apply (kh_perm _ _ _ _ _ _ A)|]. apply in_or_app; auto. }
  assert (Hd : forall i, In i dropped -> i < N).
  { intros i Hi. apply Ptr. eapply Permutation_in; [apply (kh_perm _ _ _ _ _ _ A)|]. apply in_or_app; auto. }
  assert (NDk : NoDup kept).
  { eapply NoDup_app_l. eapply Permutation_NoDup; [symmetry; apply (kh_perm _ _ _ _ _ _ A)|auto]. }
  assert (LK : length kept = Nat.min (length l0) N).
  { pose proof (kh_le _ _ _ _ _ _ A) as L.
    assert (LN : length kept + length dropped + length rest = N).
    { apply Permutation_length in P0. rewrite app_length, seq_length in P0.
      pose proof (Permutation_length (kh_perm _ _ _ _ _ _ A)) as L2. rewrite app_length in L2. lia. }
    destruct (le_lt_dec (length l0) (length kept)) as [L1|L1]; [lia|].
    pose proof (knn_max_short f l0 tr st kept dropped A L1) as M. rewrite HX in M.
    assert (dropped = []) as ->.
    { destruct dropped as [|i dr]; auto. exfalso.
      pose proof (ks_dropped _ _ _ _ B i (or_introl eq_refl)) as K. rewrite M in K.
      apply (leb_val val EL) in K. pose proof (fit_new i (Hd i (or_introl eq_refl))). lra. }
    assert (rest = []) as ->.
    { destruct rest as [|i dr]; auto. exfalso.
      pose proof (F i (or_introl eq_refl)) as K. cbn [v_max visitor_knn] in K. rewrite M in K.
      pose proof (FIT i (Prest i (or_introl eq_refl))) as Hi. unfold D in K. lra. }
    simpl in LN. lia. }
  rewrite <- LK. pose proof (kh_first _ _ _ _ _ _ A) as F1.
  rewrite (kh_active _ _ _ _ _ _ A) in F1. rewrite F1.
  unfold answers. rewrite map_map. cbn.
  constructor.
  - rewrite map_length. auto.
  - rewrite map_map. cbn. rewrite map_id. auto.
  - intros i d Hi. apply in_map_iff in Hi as (j & Ej & Hj). injection Ej as <- <-. split; auto. apply new_dist; auto.
  - rewrite map_map. cbn. pose proof (ks_sorted _ _ _ _ B) as SS. clear - SS EL.
    induction SS as [|a l SS IH FA]; cbn; constructor; auto. rewrite Forall_forall in *.
    intros x Hx. apply in_map_iff in Hx as (j & <- & Hj). apply (leb_val val EL). apply (FA j Hj).
  - intros i d j Hi Hj Hn. apply in_map_iff in Hi as (i' & Ej & Hi'). injection Ej as <- <-.
    rewrite map_map in Hn. cbn in Hn. rewrite map_id in Hn.
    assert (KM : (val (f i') <= val (knn_max st))%Q /\ (val (knn_max st) <= dist_both val em sp sp' q j)%Q).
    { split.
      - destruct (le_lt_dec (length l0) (length kept)) as [L1|L1].
        + destruct (exists_last (l := kept)) as (X & o & EX'). { apply length_nonnil. lia. }
          subst kept. pose proof (kh_le _ _ _ _ _ _ A).
          rewrite (knn_max_full _ _ _ _ _ _ _ A) by lia.
          apply in_app_or in Hi' as [Hi'|[<-|[]]]; [|lra].
          pose proof (ks_sorted _ _ _ _ B) as SS. apply StronglySorted_app_inv in SS as (_ & _ & K).
          apply (leb_val val EL). apply (K i' o); simpl; auto.
        + rewrite (knn_max_short _ _ _ _ _ _ A) by auto. rewrite HX.
          pose proof (ks_max _ _ _ _ B i' Hi') as K. apply (ltb_val val EL) in K. lra.
      - pose proof (both_l j). pose proof (both_r j). destruct (Pall j Hj) as [HJ|HJ].
        + eapply Permutation_in in HJ; [|symmetry; apply (kh_perm _ _ _ _ _ _ A)].
          apply in_app_or in HJ as [HJ|HJ]; [tauto|].
          pose proof (ks_dropped _ _ _ _ B j HJ) as K. apply (leb_val val EL) in K. rewrite new_dist in K by auto. lra.
        + pose proof (F j HJ) as K. cbn [v_max visitor_knn] in K. lra. }
    eapply Qle_trans; apply KM.
Qed.

Lemma knn_stale k knn0 : 0 < k -> exists out, search_knn (with_points tree sp') q k knn0 = Ok out
  /\ length out = Nat.min k (npts sp')
  /\ stale_knn N k D' (dist_both val em sp sp' q) (answers val (firstn N out)).
Proof.
  intros Hk. assert (HN : 0 < N) by (apply (size_pos em sp alg it fuel stop bnds ru tree HM)).
  assert (HN' : N <= npts sp') by (destruct MO; auto).
  unfold search_knn. cbn [kt_space with_points]. change (sp_size sp') with (npts sp').
  set (range := vector_resize knn0 (Nat.min k (npts sp'))).
  assert (LR : length range = Nat.min k (npts sp')) by (apply length_resize).
  destruct (knn_init_ok range) as (l0 & EI & L0 & M0 & _); [lia|].
  destruct (knn_stale_range l0) as (st & E & L & A); [lia|auto|].
  unfold search_knn_range. rewrite EI. cbn [bind]. rewrite E. cbn [bind]. exists (fst st). split; auto. split; [lia|].
  assert (EQ : firstn N (fst st) = firstn (Nat.min (length l0) N) (fst st)).
  { destruct (le_lt_dec (length l0) N); [rewrite !firstn_all2 by lia; auto|f_equal; lia]. }
  rewrite EQ. destruct A as [A1 A2 A3 A4 A5]. constructor; auto. rewrite A1. lia.
Qed.
End Fit.
End StaleExact.

(** * As stated *)
Lemma stale_radius_perm n D DB r l l' : Permutation l l' -> stale_radius n D DB r l -> stale_radius n D DB r l'.
Proof.
  intros P [H1 H2 H3]. constructor.
  - eapply Permutation_NoDup; [apply Permutation_map; exact P|auto].
  - intros i d Hi. apply H2. eapply Permutation_in; [symmetry; exact P|auto].
  - intros i Hi HD. eapply Permutation_in; [apply Permutation_map; exact P|auto].
Qed.

Section Public.
Context {T : Type} {S : Scalar T}.

Lemma radius_stale_sort (val : T -> Q) : exact_laws S val ->
  forall (em : exact_metric) (sp sp' : space T) (alg : std_algos), std_laws alg ->
  forall (it : index_type) (fuel : nat) (stop : stop_condition) (bnds : start_bounds T) (ru : rule) (tree : kd_tree T)
    (q : list T),
  kd_tree_make alg it (metric_of em) fuel sp stop bnds ru = Ok tree ->
  usable val em sp bnds q -> usable val em sp' bounds_from_space q -> modified sp sp' ->
  forall (r : T) (sort : bool), exists l, search_radius alg (with_points tree sp') q r sort = Ok l
  /\ stale_radius (npts sp) (dist_to val em sp' q) (dist_both val em sp sp' q) (val r) (answers val l).
Proof.
  intros EL em sp sp' alg SL it fuel stop bnds ru tree q HM U U' MO r sort.
  destruct (radius_stale val EL em sp sp' alg SL it fuel stop bnds ru tree q HM U U' MO r) as (l & E & H).
  unfold search_radius in *. destruct (search_nearest _ _ _ _) as [l'| |]; cbn [bind] in *; try discriminate.
  injection E as ->. eexists. split; [reflexivity|]. destruct sort; auto.
  eapply stale_radius_perm; [|exact H]. unfold answers. apply Permutation_map. symmetry.
  apply (sl_sort_perm _ SL). apply (neighbor_strict_weak (fun _ => True) (exact_ord val EL)). auto.
Qed.

Lemma box_stale (ok : T -> Prop) : ord_laws S ok ->
  forall sp : space T, wf_space sp -> all_coords ok sp ->
  forall alg : std_algos, std_laws alg ->
  forall (m : metric T) (it : index_type) (fuel : nat) (stop : stop_condition) (bnds : start_bounds T) (ru : rule)
    (tree : kd_tree T),
  kd_tree_make alg it m fuel sp stop bnds ru = Ok tree -> m_cat m = Euclidean ->
  (ru = midpoint_max_side -> mid_ok S ok) -> bounds_coords ok sp bnds -> bounds_enclose sp bnds ->
  forall sp' : space T, modified sp sp' -> all_coords ok sp' ->
  forall mn mx : list T, length mn = sp_sdim sp -> length mx = sp_sdim sp -> Forall ok mn -> Forall ok mx ->
  exists ans, search_box (with_points tree sp') mn mx = Ok ans /\ NoDup ans
    /\ (forall i, In i ans -> i < npts sp
          /\ (inside mn mx (nth i (sp_pts sp) []) \/ inside mn mx (nth i (sp_pts sp') [])))
    /\ (forall i, i < npts sp -> inside mn mx (nth i (sp_pts sp) []) -> inside mn mx (nth i (sp_pts sp') []) -> In i ans).
Proof.
  intros OL sp WF OKS alg SL m it fuel stop bnds ru tree HM CAT MID HBC HBE sp' MO OKS' mn mx L1 L2 F1 F2.
  apply (stale_box ok OL sp WF OKS alg SL m it fuel stop bnds ru tree HM); auto. congruence.
Qed.

(** Loading a saved tree with other points. *)
Lemma load_stale (little : bool) (it : index_type) (tc : codec T) (fit : T -> Prop)
    (sp : space T) (alg : std_algos) (pads : nat -> nat -> Z) (m : metric T) (fuel : nat)
    (stop : stop_condition) (bnds : start_bounds T) (ru : rule) (tree : kd_tree T) (rest : list Z) (sp' : space T) :
  (0 < it_bits it <= 64)%Z -> (it_bits it mod 8 = 0)%Z -> codec_ok tc fit ->
  ord_laws S fit -> wf_space sp -> all_coords fit sp -> std_laws alg ->
  (ru = midpoint_max_side -> mid_ok S fit) -> bounds_coords fit sp bnds ->
  (Z.of_nat (sp_sdim sp) < 2 ^ 31)%Z -> (Z.of_nat (length (sp_pts sp)) <= it_max it)%Z ->
  kd_tree_make alg it m fuel sp stop bnds ru = Ok tree ->
  kd_tree_load little it tc m sp' (kd_tree_save little it tc pads tree ++ rest) = Ok (with_points tree sp', Some rest).
Proof.
  intros [H0 H64] H8 HT OL WF OKS SL HM HB HS HL H.
  apply kd_tree_make_inv in H as (data & -> & H).
  apply (built_fits it fit sp alg OL WF OKS SL) in H; auto.
  unfold kd_tree_load, kd_tree_save, with_points. cbn [kt_metric kt_data].
  rewrite (load_save little it tc fit H0 H8 HT) by auto. reflexivity.
Qed.
End Public.
