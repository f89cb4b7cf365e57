(** Queries without any law on the metric, the query or the arithmetic: they
    never run into undefined behaviour, restore their state and report genuine
    neighbours. *)
From Coq Require Import List ZArith QArith Bool Arith Permutation Sorted Lia.
From Verif Require Import Base ModelBox ModelBuild ModelSearch Spec Lemmas Instances
  BuildProofs BuildOrder BuildShape BuildThms SearchProofs SearchThms Visitors QueryThms BoxThms TopThms.
Import ListNotations.
Local Open Scope nat_scope.

(** * State restoration *)
Section Restore.
Context {T : Type} {S : Scalar T}.

Lemma search_gen_restore {V B} (m : metric T) (vis : visitor T V) sp indices q (decide : B -> res (nat * bool * T)) nd :
  forall d o st o' st', search_gen m vis sp indices q decide nd d (o, st) = Ok (o', st') -> o' = o.
Proof.
  induction nd as [b e|br nl IHl nr IHr]; intros d o st o' st' H; cbn [search_gen] in H.
  - okbind H. okbind H. injection H as <- <-. reflexivity.
  - okbind H. destruct a as [[sd gl] no]. okbind H. destruct a as [o1 st1].
    assert (o1 = o) as -> by (destruct gl; [eapply IHl|eapply IHr]; eauto).
    cbn [fst snd] in H. okbind H. destruct (s_leb _ _).
    + okbind H. destruct a0 as [o2 st2]. injection H as <- <-.
      assert (o2 = set_nth o sd no) as -> by (destruct gl; [eapply IHr|eapply IHl]; eauto).
      apply set_nth_restore. apply at_ok. auto.
    + injection H as <- <-. reflexivity.
Qed.

Lemma euclidean_restore {V} (m : metric T) (vis : visitor T V) sp indices q nd d o st o' st' :
  search_nearest_euclidean m vis sp indices q nd d (o, st) = Ok (o', st') -> o' = o.
Proof. rewrite euclidean_gen. apply search_gen_restore. Qed.

Lemma topological_restore {V} (m : metric T) (vis : visitor T V) sp indices q nd d o st o' st' :
  search_nearest_topological m vis sp indices q nd d (o, st) = Ok (o', st') -> o' = o.
Proof. rewrite topological_gen. apply search_gen_restore. Qed.

Lemma box_restore (m : metric T) sp indices query c nd :
  forall b st b' st', search_box_node m sp indices query c nd (b, st) = Ok (b', st') -> b' = b.
Proof.
  induction nd as [bi e|br nl IHl nr IHr]; intros b st b' st' H; cbn [search_box_node] in H.
  - okbind H. okbind H. injection H as <- <-. reflexivity.
  - cbn [fst snd] in H. okbind H. rename a into om. okbind H. rename a into il.
    okbind H. destruct a as [b1 st1].
    assert (b1 = box_set_max b (br_split_dim c br) (br_left_max c br)) as ->.
    { destruct il; [|destruct (intersects_left _ _ _)].
      - match goal with X : (do _ <- _; _) = _ |- _ => okbind X; injection X as <- <-; reflexivity end.
      - eapply IHl; eauto.
      - match goal with X : Ok _ = Ok _ |- _ => injection X as <- <-; reflexivity end. }
    assert (EB : box_set_max (box_set_max b (br_split_dim c br) (br_left_max c br)) (br_split_dim c br) om = b).
    { destruct b as [bmn bmx]. unfold box_set_max. cbn [box_min box_max].
      rewrite set_restore by auto. reflexivity. }
    cbn [fst snd] in H. rewrite EB in H.
    okbind H. rename a into omin. okbind H. rename a into ir. okbind H. destruct a as [b2 st2].
    cbn [fst snd] in H. injection H as <- <-.
    assert (b2 = box_set_min b (br_split_dim c br) (br_right_min c br)) as ->.
    { destruct ir; [|destruct (intersects_right _ _ _)].
      - match goal with X : (do _ <- _; _) = _ |- _ => okbind X; injection X as <- <-; reflexivity end.
      - eapply IHr; eauto.
      - match goal with X : Ok _ = Ok _ |- _ => injection X as <- <-; reflexivity end. }
    destruct b as [bmn bmx]. unfold box_set_min. cbn [box_min box_max] in *.
    rewrite set_restore by auto. reflexivity.
Qed.
End Restore.

(** * Totality and genuineness *)
Section Total.
Context {T : Type} {S : Scalar T} (ok : T -> Prop) (OL : ord_laws S ok).
Variables (sp : space T) (WF : wf_space sp) (OKS : all_coords ok sp).
Variables (alg : std_algos) (SL : std_laws alg) (m : metric T) (it : index_type) (fuel : nat)
  (stop : stop_condition) (bnds : start_bounds T) (ru : rule) (tree : kd_tree T).
Hypotheses (HT : kd_tree_make alg it m fuel sp stop bnds ru = Ok tree)
  (MID : ru = midpoint_max_side -> mid_ok S ok /\ bounds_coords ok sp bnds)
  (TOPO : m_cat m = Topological -> ok_finite S ok /\ (ru = midpoint_max_side -> mid_between S ok)).
Let n := sp_sdim sp.
Let N := length (sp_pts sp).
Local Notation le x y := (s_leb x y = true).

Lemma root_oproper : ru = midpoint_max_side -> 0 < N -> oproper sp (box_from_bounds sp bnds).
Proof.
  intros Hm HN. destruct (MID Hm) as [_ HBC].
  pose proof (box_from_bounds_ok ok OL sp WF OKS bnds HBC) as OB.
  destruct bnds as [|mn mx].
  - apply (holds_oproper ok OL sp WF OKS _ (seq 0 N)); auto.
    + apply (perm_in_space sp); auto.
    + destruct N; [lia|discriminate].
    + apply (box_from_bounds_holds ok OL sp WF OKS); auto. simpl; auto. apply (perm_in_space sp); auto.
  - cbn [box_from_bounds] in *. destruct HBC as (L1 & L2 & F1 & F2).
    assert (O1 : ok_point ok n mn) by (apply ok_point_list; auto).
    assert (O2 : ok_point ok n mx) by (apply ok_point_list; auto).
    assert (IB : in_box n (box_fit (box_fit (box_inverse_max (sp_sdim sp)) mn) mx) mx).
    { apply (box_fit_in ok OL); auto.
      - apply box_fit_wf, inverse_max_wf.
      - apply (box_fit_ok ok); auto. apply inverse_max_wf. apply (inverse_max_ok ok OL). }
    intros d Hd. destruct (IB d Hd), (OB d Hd).
    eapply (leb_trans ok OL); [| | |eassumption|eassumption]; auto.
Qed.

Section Search.
Context {V : Type} (vis : visitor T V) (q : list T).
Hypothesis LQ : length q = n.

Definition R_safe (c : category) (br : branch_data c T) (l r : list nat) : Prop :=
  exists sd gl no, decide m q c br = Ok (sd, gl, no) /\ sd < n.

Lemma search_nearest_total v0 : exists tr rest, Permutation (tr ++ rest) (seq 0 N)
  /\ search_nearest tree vis q v0
     = Ok (fold_left (fun st i => v_visit vis i (m_dist m q (nth i (sp_pts sp) [])) st) tr v0).
Proof.
  destruct (kd_tree_make_inv _ _ _ _ _ _ _ _ _ HT) as (data & Et & HB).
  pose proof (build_holds ok OL sp WF OKS alg SL (m_cat m) it fuel stop bnds ru data MID HB) as [HP HN].
  assert (FS : Forall (fun i => in_space sp i = true) (kd_indices data)) by (apply perm_in_space; auto).
  assert (NS : node_spans (R_safe (m_cat m)) (kd_root data) 0 (kd_indices data)).
  { clear Et. destruct (m_cat m).
    - eapply node_spans_impl; [exact HN|]. intros br l1 r1 _ _ (lb & rb & d & -> & Hd & _).
      unfold R_safe. cbn [decide set_branch]. unfold decide_euclidean. cbn [bs_split_dim].
      rewrite (at_lt q d s_zero) by (rewrite LQ; auto). cbn [bind]. eauto.
    - destruct (TOPO eq_refl) as [FIN MB].
      pose proof HB as HB'. apply build_inv in HB' as (_ & (NE & _) & bx' & HC & _).
      apply (create_node_boxed ok OL sp WF OKS alg SL) in HC; auto.
      + destruct HC as [HC _]. revert HC FS. generalize (kd_root data), (kd_indices data), bx', 0. clear - LQ OL WF OKS.
        intros nd l b off. induction 1 as [|nl nr off l r lb rb d H1 IH1 H2 IH2 Hd]; intros F; [constructor|].
        apply Forall_app in F as [Fl Fr]. constructor; auto.
        destruct (boxed_facts ok OL sp WF OKS _ _ _ _ _ H1 Fl) as (_ & _ & P1 & _).
        destruct (boxed_facts ok OL sp WF OKS _ _ _ _ _ H2 Fr) as (_ & _ & P2 & _).
        unfold R_safe. cbn [decide set_branch]. unfold decide_topological.
        cbn [bd_split_dim bd_left_min bd_left_max bd_right_min bd_right_max].
        rewrite (at_lt q d s_zero) by (rewrite LQ; auto). cbn [bind]. unfold box_distance.
        destruct (m_dim_space m d).
        * rewrite !guard_true by (unfold segment_r1_ok; auto). cbn [bind]. eauto.
        * cbn [bind]. eauto.
      + intros Hm. split; auto. apply MID; auto.
      + apply box_from_bounds_wf.
      + intros Hm. split; [apply (box_from_bounds_ok ok OL sp WF OKS); apply MID; auto|apply root_oproper; auto].
      + left. destruct (length (sp_pts sp)); [lia|discriminate]. }
  destruct (search_gen_spec m vis sp (kd_indices data) q (R_safe (m_cat m)) (decide m q (m_cat m))
              (fun _ => True) (fun _ _ => True) (fun o _ _ => length o = n) (kd_indices data)) with
    (nd := kd_root data) (b := 0) (l := kd_indices data) (pre := @nil nat) (post := @nil nat)
    (o := offsets0 sp) (d := s_zero (Scalar := S)) (st := v0)
    as (tr & rest & Pt & E & _); auto.
  - intros br l r o d (sd & gl & no & Ed & Hsd) _ Lo.
    exists sd, gl, no, (nth sd o s_zero). split; auto. split; [apply at_lt; lia|].
    rewrite length_set_nth. auto.
  - rewrite app_nil_r. reflexivity.
  - apply incl_refl.
  - apply length_tab.
  - exists tr, rest. split; [rewrite Pt; auto|].
    unfold search_nearest. rewrite Et. cbn [kt_space kt_metric kt_data]. fold n. rewrite LQ, Nat.eqb_refl. cbn [guard bind].
    rewrite search_nearest_root_gen, E. reflexivity.
Qed.
End Search.

Lemma total_space : kt_space tree = sp /\ kt_metric tree = m.
Proof. apply kd_tree_make_inv in HT as (data & -> & _). auto. Qed.

Variable (q : list T).
Hypothesis LQ : length q = n.
Let dist (i : nat) : T := m_dist m q (nth i (sp_pts sp) []).

(** search_nn: the sentinel or a point with its distance. *)
Lemma genuine_nn nn0 : exists r, search_nn tree q nn0 = Ok r
  /\ (r = Neighbor (n_index nn0) s_max
      \/ n_index r < N /\ n_distance r = dist (n_index r)).
Proof.
  destruct (search_nearest_total visitor_nn q LQ (visitor_nn_init nn0)) as (tr & rest & P & E).
  unfold search_nn. rewrite E. eexists. split; [reflexivity|].
  destruct (nn_genuine dist tr (visitor_nn_init nn0)) as [H|(i & Hi & H)].
  - left. exact H.
  - right. replace (fold_left _ tr _) with (as_neighbor dist i). cbn [as_neighbor n_index n_distance].
    split; auto. apply In_seq0. eapply Permutation_in; [exact P|]. apply in_or_app; auto.
Qed.

(** Results of a knn search: distinct points with their distances, then the
    untouched rest of the range. *)
Lemma genuine_knn range : 0 < length range -> exists out kept, search_knn_range tree q range = Ok out
  /\ NoDup kept /\ (forall i, In i kept -> i < N) /\ length kept <= length range /\ length out = length range
  /\ firstn (length kept) out = map (fun i => Neighbor i (dist i)) kept
  /\ (forall p, length kept <= p -> p < length range - 1 -> nth_error out p = nth_error range p)
  /\ (length kept < length range -> forall old, nth_error range (length range - 1) = Some old ->
        nth_error out (length range - 1) = Some (Neighbor (n_index old) s_max)).
Proof.
  intros HL. destruct (knn_init_ok range HL) as (l0 & EI & L0 & M0 & K1 & K2).
  destruct (search_nearest_total visitor_knn q LQ (l0, 0)) as (tr & rest & P & E).
  unfold search_knn_range. rewrite EI. cbn [bind]. rewrite E. cbn [bind].
  destruct (knn_genuine dist l0 tr ltac:(lia)) as (kept & dropped & [H1 H2 H3 H4 H5 H6]).
  set (st := fold_left (knn_step dist) tr (l0, 0)) in *.
  change (fold_left _ tr (l0, 0)) with st.
  exists (fst st), kept. split; auto.
  assert (P' : Permutation (kept ++ (dropped ++ rest)) (seq 0 N)) by (rewrite app_assoc, H6; auto).
  apply perm_in_seq in P' as (A & _ & _ & B & _).
  split; auto. split; auto. split; [lia|]. split; [lia|]. split; [rewrite <- H2; auto|].
  assert (NE : forall p, length kept <= p -> length kept < length l0 -> nth_error (fst st) p = nth_error l0 p).
  { intros p Hp Hlt. rewrite <- (firstn_skipn (length kept) (fst st)), <- (firstn_skipn (length kept) l0).
    rewrite !nth_error_app2 by (rewrite firstn_length; lia).
    rewrite !firstn_length. rewrite H2 in H5. rewrite H5, !Nat.min_l by lia. reflexivity. }
  split.
  - intros p Hp Hlt. rewrite NE by lia. apply K1; auto.
  - intros Hlt old Ho. rewrite NE by lia. apply K2; auto.
Qed.

Lemma genuine_radius r : exists l kept, search_radius alg tree q r false = Ok l
  /\ NoDup kept /\ (forall i, In i kept -> i < N /\ s_ltb (dist i) r = true)
  /\ l = map (fun i => Neighbor i (dist i)) kept.
Proof.
  destruct (search_nearest_total (visitor_radius r) q LQ []) as (tr & rest & P & E).
  unfold search_radius. rewrite E. cbn [bind].
  pose proof (radius_result dist r tr []) as RR. cbn [app] in RR.
  exists (map (as_neighbor dist) (filter (fun i => s_ltb (dist i) r) tr)), (filter (fun i => s_ltb (dist i) r) tr).
  split; [rewrite <- RR; reflexivity|].
  apply perm_in_seq in P as (A & _ & _ & B & _).
  split; [apply NoDup_filter; auto|]. split; auto.
  intros i Hi. apply filter_In in Hi as [Hi1 Hi2]. auto.
Qed.
End Total.
