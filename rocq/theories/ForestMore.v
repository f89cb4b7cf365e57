(** More about the kd_forest: a single tree, several trees and the radius visitor,
    more trees, more leaves. *)
From Coq Require Import List ZArith QArith Qabs Bool Arith Permutation Sorted Lia Lqa.
From Verif Require Import Base ModelBox ModelBuild ModelSearch Spec ModelCover ModelForest SpecForest Lemmas Instances
  BuildProofs BuildOrder BuildThms SearchProofs SearchThms Metrics Visitors QueryThms TopThms OrdQuery ExactQuery
  Examples Reflect PriorityExact ForestThms ForestTop.
Import ListNotations.
Local Open Scope nat_scope.

(** * A single tree *)
Section One.
Context {T : Type} {S : Scalar T} (val : T -> Q) (EL : exact_laws S val) (FL : field_laws S val).
Variables (pq : pqueue T) (QL : queue_laws S pq) (alg : std_algos) (SL : std_laws alg).
Variables (it : index_type) (cm : cmath T) (fuel : nat) (gauss : nat -> nat -> T) (sp : space T)
  (leaf_size : Z) (f : kd_forest T) (b : Q) (q : list T) (budget : nat).
Hypotheses (WF : wf_space sp)
  (HM : kd_forest_make alg it cm metric_l2_squared fuel gauss sp leaf_size 1 = Ok f)
  (UN : Forall (fun t => unit_vector (map val (rk_rotation t))) (kf_data f))
  (NB : norms_le val b sp) (B1 : (b <= val s_max)%Q) (B2 : (b <= - val s_lowest)%Q)
  (LQ : length q = sp_sdim sp) (HB : npts sp <= budget).
Let D := dist_to val L2Squared sp q.

Lemma one_tree_contract : exists t p,
  (forall V (vis : visitor T V) v0, forest_search_nearest pq f vis q budget v0
     = priority_search pq metric_l2_squared vis (rk_space t) (kd_indices (rk_tree t)) p budget (kd_root (rk_tree t)) v0)
  /\ length (sp_pts (rk_space t)) = npts sp /\ 0 < npts sp
  /\ (forall i, i < npts sp -> (val (m_dist metric_l2_squared p (sp_at (rk_space t) i)) == D i)%Q)
  /\ contract (ok := fun _ => True) metric_l2_squared (rk_space t) p
       (fun V vis v0 => priority_search pq metric_l2_squared vis (rk_space t) (kd_indices (rk_tree t)) p budget
          (kd_root (rk_tree t)) v0).
Proof.
  pose proof HM as H. apply forest_make_inv in H as (_ & Em & _ & L & F).
  destruct (kf_data f) as [|t [|? ?]] eqn:Ed; cbn in L; try lia. clear L.
  inversion F as [|? ? (k & _ & R1 & R2 & R3) _]; subst. inversion UN as [|? ? U _]; subst.
  assert (LR : length (rk_rotation t) = sp_sdim sp) by (rewrite R1; apply random_normal_length).
  destruct (rotate_point_ok (rk_rotation t) q) as (p & Ep & Lp); [lia|].
  pose proof (rotate_space_wf _ _ _ WF LR R2) as [WFs Ns].
  pose proof (rotate_space_inv _ _ _ R2) as [Es _].
  assert (RB : all_coords (representable val) (rk_space t)).
  { pose proof (rotated_bound val EL FL sp WF b NB _ _ U LR R2) as RB0. eapply all_coords_impl; [|exact RB0].
    intros c Hc. cbn beta in Hc. unfold representable. lra. }
  assert (DD : forall i, i < npts sp -> (val (m_dist metric_l2_squared p (sp_at (rk_space t) i)) == D i)%Q).
  { intros i Hi. eapply rotated_dist; eauto. }
  exists t, p. split; [|split; [|split; [|split]]].
  - intros V vis v0. unfold forest_search_nearest. rewrite Em, Ed. cbn [forest_loop]. rewrite Ep. cbn [bind].
    destruct (priority_search _ _ _ _ _ _ _ _ _); reflexivity.
  - exact Ns.
  - apply build_inv in R3 as (_ & [Hn _] & _). unfold npts. rewrite <- Ns. exact Hn.
  - exact DD.
  - intros V vis Inv v0 H0 _ VIS.
    destruct (priority_spec val EL metric_l2_squared (fun _ => sq_diff) (rk_space t) WFs RB p ltac:(lia)
      (l2_terms val EL) (fun k v => ltac:(unfold sq_diff; ring)) alg SL it fuel _ _ _ sliding_ne (rk_tree t) R3
      vis pq QL Inv) with (budget := budget) (v0 := v0) as (shown & rest & P & E & _ & FF & _); auto.
    { intros st i Hi Hst. destruct (VIS st i Hi Hst) as [A B]. split; auto. apply (leb_val val EL); exact B. }
    exists shown, rest. split; [exact P|]. split; [exact E|].
    intros j Hj. apply (leb_val val EL). eapply Qle_trans; [apply FF; [rewrite Ns; exact HB|exact Hj]|].
    assert (Hj' : j < length (sp_pts (rk_space t))).
    { apply In_seq0. eapply Permutation_in; [exact P|]. apply in_or_app; auto. }
    unfold D_low. rewrite (term_sum_dist val EL L2Squared); cbn [valid_for]; auto; try lia.
    + rewrite (dist_of_val val EL L2Squared) by discriminate. apply Qle_refl.
    + destruct WFs as [_ W']. rewrite Forall_forall in W'. unfold sp_at. apply W', nth_In. exact Hj'.
Qed.

Lemma one_tree_radius r : exists l, forest_search_nearest pq f (visitor_radius r) q budget [] = Ok l
  /\ filter_answer (npts sp) (fun i => (D i < val r)%Q) D (answers val l).
Proof.
  destruct one_tree_contract as (t & p & ER & Ns & N0 & DD & C).
  destruct (eq_radius val EL metric_l2_squared (rk_space t) p _ C r) as (l & E & A). rewrite ER. exists l.
  split; [exact E|]. rewrite Ns in A. eapply filter_answer_ext; [exact DD| |exact A].
  intros j Hj. cbn beta. rewrite (DD j Hj). reflexivity.
Qed.

Lemma one_tree_knn range : distances_fit val L2Squared sp q -> 0 < length range ->
  exists st0 st, visitor_knn_init range = Ok st0 /\ forest_search_nearest pq f visitor_knn q budget st0 = Ok st
  /\ length (fst st) = length range
  /\ knn_answer (npts sp) (length range) D (answers val (firstn (npts sp) (fst st))).
Proof.
  intros FIT HL. destruct one_tree_contract as (t & p & ER & Ns & N0 & DD & C).
  destruct (eq_knn_range val EL metric_l2_squared (rk_space t) p _ C) with (range := range)
    as (out & E & L & A & _); auto.
  - rewrite Ns. exact N0.
  - rewrite Ns. intros j Hj. rewrite (DD j Hj). apply FIT; auto.
  - destruct (visitor_knn_init range) as [st0| |] eqn:EI; cbn [bind] in E; try discriminate.
    destruct (priority_search _ _ _ _ _ _ _ _ st0) as [st| |] eqn:ES; cbn [bind] in E; try discriminate.
    injection E as <-. exists st0, st. split; auto. rewrite ER. split; [exact ES|]. split; auto. rewrite Ns in A.
    eapply knn_answer_ext; [exact DD|exact A].
Qed.
End One.

(** * Several trees and the radius visitor: each point once per tree *)
Section Times.
Context {T : Type} {S : Scalar T} (val : T -> Q) (EL : exact_laws S val) (FL : field_laws S val).
Variables (pq : pqueue T) (QL : queue_laws S pq) (alg : std_algos) (SL : std_laws alg).
Variables (it : index_type) (cm : cmath T) (fuel : nat) (gauss : nat -> nat -> T) (sp : space T)
  (leaf_size : Z) (n : nat) (f : kd_forest T) (b : Q) (q : list T) (budget : nat).
Hypotheses (WF : wf_space sp) (HI : index_type_ok it) (HLS : (0 < leaf_size <= it_max it)%Z)
  (HM : kd_forest_make alg it cm metric_l2_squared fuel gauss sp leaf_size n = Ok f)
  (UN : Forall (fun t => unit_vector (map val (rk_rotation t))) (kf_data f))
  (NB : norms_le val b sp) (B1 : (b <= val s_max)%Q) (B2 : (b <= - val s_lowest)%Q)
  (LQ : length q = sp_sdim sp) (HB : npts sp <= budget).
Let D := dist_to val L2Squared sp q.

Lemma radius_shown r (s : list (nat * T)) : forall l,
  shown_to (visitor_radius r) s l
  = l ++ map (fun x => Neighbor (fst x) (snd x)) (filter (fun x => s_ltb (snd x) r) s).
Proof.
  induction s as [|[i d] s IH]; intros l; cbn [shown_to fold_left filter map].
  - cbn. rewrite app_nil_r. reflexivity.
  - cbn [fst snd visitor_radius v_visit]. change (fold_left _ s ?v) with (shown_to (visitor_radius r) s v).
    rewrite IH. destruct (s_ltb d r); cbn [map fst snd]; [rewrite <- app_assoc; reflexivity|reflexivity].
Qed.

Lemma filter_once r (s : list (nat * T)) j : NoDup (map fst s) ->
  Forall (fun x => fst x < npts sp /\ (val (snd x) == D (fst x))%Q) s -> j < npts sp ->
  (In j (map fst s) \/ (val r <= D j)%Q) ->
  count_occ Nat.eq_dec (map n_index (map (fun x => Neighbor (fst x) (snd x)) (filter (fun x => s_ltb (snd x) r) s))) j
  = if Qlt_le_dec (D j) (val r) then 1 else 0.
Proof.
  rewrite map_map. cbn [n_index]. intros ND F Hj HA.
  assert (ND' : NoDup (map fst (filter (fun x => s_ltb (snd x) r) s))).
  { clear - ND. induction s as [|x s IH]; cbn [filter map] in *; auto. inversion ND as [|? ? A B]; subst.
    destruct (s_ltb (snd x) r); cbn [map]; auto. constructor; auto. intros H. apply A.
    apply in_map_iff in H as (y & E & Hy). apply filter_In in Hy as [Hy _]. rewrite <- E. apply in_map; auto. }
  rewrite Forall_forall in F. destruct (Qlt_le_dec (D j) (val r)) as [Hl|Hl].
  - destruct HA as [HA|HA]; [|lra]. apply NoDup_count_occ'; auto.
    apply in_map_iff in HA as (x & E & Hx). apply in_map_iff. exists x. split; auto. apply filter_In. split; auto.
    apply (ltb_val val EL). destruct (F x Hx) as [_ G]. rewrite G, E. exact Hl.
  - apply count_occ_not_In. intros H. apply in_map_iff in H as (x & E & Hx). apply filter_In in Hx as [Hx Hx'].
    apply (ltb_val val EL) in Hx'. destruct (F x Hx) as [_ G]. rewrite G, E in Hx'. lra.
Qed.

Lemma radius_times r : exists l, forest_search_nearest pq f (visitor_radius r) q budget [] = Ok l
  /\ (forall x, In x l -> n_index x < npts sp /\ (val (n_distance x) == D (n_index x))%Q)
  /\ forall j, j < npts sp ->
     count_occ Nat.eq_dec (map n_index l) j = if Qlt_le_dec (D j) (val r) then n else 0.
Proof.
  destruct (forest_exact val EL FL pq QL alg SL it cm fuel gauss sp leaf_size n WF HI HLS b NB f q budget HM UN B1 B2 LQ
    (visitor_radius r) (fun _ => True)) with (v0 := @nil (neighbor T)) as (ss & E & L & TS & _ & ALL); auto.
  { intros st i d _ _ _. split; auto. cbn. apply Qle_refl. }
  specialize (ALL HB). cbn [v_max visitor_radius] in ALL.
  eexists. split; [exact E|]. rewrite radius_shown. cbn [app]. split.
  - intros x Hx. apply in_map_iff in Hx as (y & <- & Hy). apply filter_In in Hy as [Hy _].
    apply in_concat in Hy as (s & Hs & Hy). rewrite Forall_forall in TS. destruct (TS s Hs) as (_ & _ & G).
    rewrite Forall_forall in G. exact (G y Hy).
  - intros j Hj. rewrite <- L. clear E L. induction ss as [|s ss IH].
    + cbn. destruct (Qlt_le_dec _ _); reflexivity.
    + inversion TS as [|? ? (T1 & _ & T3) TS']; inversion ALL as [|? ? A ALL']; subst. specialize (IH TS' ALL').
      cbn [concat]. rewrite filter_app, !map_app, count_occ_app, IH.
      rewrite (filter_once r s j T1 T3 Hj (A j Hj)). cbn [length]. destruct (Qlt_le_dec _ _); lia.
Qed.
End Times.

(** * More trees *)
Section Trees.
Context {T : Type} {S : Scalar T} (val : T -> Q) (EL : exact_laws S val) (FL : field_laws S val).
Variables (pq : pqueue T) (QL : queue_laws S pq) (alg : std_algos) (SL : std_laws alg).
Variables (it : index_type) (cm : cmath T) (fuel : nat) (gauss : nat -> nat -> T) (sp : space T)
  (leaf_size : Z) (n k : nat) (f f' : kd_forest T) (b : Q) (q : list T) (budget : nat).

Lemma build_loop_app stop bnds ru a : forall i c ts us,
  build_rkd_loop alg it cm fuel sp stop bnds ru gauss i a = Ok ts ->
  build_rkd_loop alg it cm fuel sp stop bnds ru gauss i (a + c) = Ok us ->
  exists vs, us = ts ++ vs.
Proof.
  induction a as [|a IH]; intros i c ts us H1 H2; cbn [build_rkd_loop Nat.add] in *.
  - injection H1 as <-. exists us. reflexivity.
  - destruct (build_rkd_one _ _ _ _ _ _ _ _ _) as [t| |]; cbn [bind] in *; try discriminate.
    destruct (build_rkd_loop _ _ _ _ _ _ _ _ _ (i + 1) a) as [ts1| |] eqn:E1; cbn [bind] in *; try discriminate.
    destruct (build_rkd_loop _ _ _ _ _ _ _ _ _ (i + 1) (a + c)) as [us1| |] eqn:E2; cbn [bind] in *; try discriminate.
    injection H1 as <-. injection H2 as <-. destruct (IH _ _ _ _ E1 E2) as (vs & ->). exists vs. reflexivity.
Qed.

Hypotheses (WF : wf_space sp) (HI : index_type_ok it) (HLS : (0 < leaf_size <= it_max it)%Z)
  (HM : kd_forest_make alg it cm metric_l2_squared fuel gauss sp leaf_size n = Ok f)
  (HM' : kd_forest_make alg it cm metric_l2_squared fuel gauss sp leaf_size (n + k) = Ok f')
  (UN : Forall (fun t => unit_vector (map val (rk_rotation t))) (kf_data f'))
  (NB : norms_le val b sp) (B1 : (b <= val s_max)%Q) (B2 : (b <= - val s_lowest)%Q)
  (LQ : length q = sp_sdim sp).

Lemma more_data : exists us, kf_data f' = kf_data f ++ us.
Proof.
  pose proof HM as H. pose proof HM' as H'. unfold kd_forest_make, build_rkd_tree in H, H'.
  destruct (guard (0 <? n) UbAssert); cbn [bind] in H; try discriminate.
  destruct (guard (0 <? n + k) UbAssert); cbn [bind] in H'; try discriminate.
  destruct (build_rkd_loop _ _ _ _ _ _ _ _ _ 0 n) as [ts| |] eqn:E1; cbn [bind] in H; try discriminate.
  destruct (build_rkd_loop _ _ _ _ _ _ _ _ _ 0 (n + k)) as [us| |] eqn:E2; cbn [bind] in H'; try discriminate.
  injection H as <-. injection H' as <-. cbn [kf_data]. eapply build_loop_app; eauto.
Qed.

Lemma forest_loop_app {V} (vis : visitor T V) m ts us : forall st,
  forest_loop pq m vis budget q (ts ++ us) st
  = do st' <- forest_loop pq m vis budget q ts st; forest_loop pq m vis budget q us st'.
Proof.
  induction ts as [|t ts IH]; intros st; cbn [forest_loop app]; [reflexivity|].
  destruct (rotate_point _ _) as [p| |]; cbn [bind]; auto.
  destruct (priority_search _ _ _ _ _ _ _ _ _) as [v| |]; cbn [bind]; auto.
Qed.

Lemma more_trees nn0 : exists r r', forest_search_nn pq f q budget nn0 = Ok r
  /\ forest_search_nn pq f' q budget nn0 = Ok r' /\ (val (n_distance r') <= val (n_distance r))%Q.
Proof.
  destruct more_data as (us & Ed). pose proof HM as H. apply forest_make_inv in H as (_ & Em & _ & L & F).
  pose proof HM' as H'. apply forest_make_inv in H' as (_ & Em' & _ & L' & F').
  rewrite Ed in UN, F'. apply Forall_app in UN as [U1 U2]. apply Forall_app in F' as [_ F2].
  unfold forest_search_nn, forest_search_nearest. rewrite Em, Em', Ed, forest_loop_app.
  assert (VIS : forall (st : neighbor T) i d, i < npts sp -> (val d == dist_to val L2Squared sp q i)%Q -> True ->
    True /\ (val (v_max visitor_nn (v_visit visitor_nn i d st)) <= val (v_max visitor_nn st))%Q).
  { intros st i d _ _ _. split; auto. cbn. destruct (s_ltb d (n_distance st)) eqn:E; cbn; [|lra].
    apply (ltb_val val EL) in E. lra. }
  destruct (exact_trees val EL FL pq QL alg SL it cm fuel gauss sp leaf_size n WF HI HLS b NB q budget B1 B2 LQ
    visitor_nn (fun _ => True) VIS (kf_data f) U1 F (visitor_nn_init nn0) I) as (ss & E & _).
  destruct (exact_trees val EL FL pq QL alg SL it cm fuel gauss sp leaf_size (n + k) WF HI HLS b NB q budget B1 B2 LQ
    visitor_nn (fun _ => True) VIS us U2 F2 (shown_to visitor_nn (concat ss) (visitor_nn_init nn0)) I)
    as (ss' & E' & _).
  exists (shown_to visitor_nn (concat ss) (visitor_nn_init nn0)). eexists. split; [exact E|].
  split; [rewrite E; cbn [bind]; exact E'|].
  apply (nn_shown val EL).
Qed.
End Trees.

(** * More leaves *)
Section Leaves.
Context {T : Type} {S : Scalar T} (val : T -> Q) (EL : exact_laws S val).
Variables (pq : pqueue T) (m : metric T) (sp : space T) (indices : list nat) (q : list T).

Lemma visit_nn_mono is_ : forall v v', visit_range m visitor_nn sp q is_ v = Ok v' ->
  (val (n_distance v') <= val (n_distance v))%Q.
Proof.
  induction is_ as [|i is_ IH]; intros v v' H; cbn [visit_range] in H.
  - injection H as <-. apply Qle_refl.
  - destruct (guard (in_space sp i) UbIndex); cbn [bind] in H; try discriminate. apply IH in H.
    eapply Qle_trans; [exact H|]. cbn. destruct (s_ltb _ _) eqn:E; cbn; [|apply Qle_refl].
    apply (ltb_val val EL) in E. lra.
Qed.

Lemma descend_nn_mono nd : forall d st st', priority_descend m visitor_nn sp indices q nd d st = Ok st' ->
  (val (n_distance (snd st')) <= val (n_distance (snd st)))%Q.
Proof.
  induction nd as [b e|br nl IHl nr IHr]; intros d st st' H; cbn [priority_descend] in H.
  - destruct (slice indices b e) as [is_| |]; cbn [bind] in H; try discriminate.
    destruct (visit_range _ _ _ _ _ _) as [v'| |] eqn:E; cbn [bind] in H; try discriminate.
    injection H as <-. eapply visit_nn_mono; exact E.
  - destruct (at_ q (bd_split_dim br)) as [v| |]; cbn [bind] in H; try discriminate.
    destruct (s_ltb s_zero (bd_left_max br + bd_right_min br - v - v)%S) eqn:G;
      destruct (priority_descend _ _ _ _ _ _ _ _) as [st1| |] eqn:E; cbn [bind] in H; try discriminate;
      (apply IHl in E || apply IHr in E); destruct (s_ltb _ (v_max visitor_nn (snd st1))); injection H as <-; exact E.
Qed.

Lemma loop_nn_mono c : forall st v, priority_loop pq m visitor_nn sp indices q c st = Ok v ->
  (val (n_distance v) <= val (n_distance (snd st)))%Q.
Proof.
  induction c as [|c IH]; intros st v H; cbn [priority_loop] in H;
    destruct (pq_pop pq (fst st)) as [[[d nd] qu]|]; try (injection H as <-; apply Qle_refl).
  destruct (s_ltb _ _); [injection H as <-; apply Qle_refl|].
  destruct (priority_descend _ _ _ _ _ _ _ _) as [st'| |] eqn:E; cbn [bind] in H; try discriminate.
  apply IH in H. apply descend_nn_mono in E. cbn [snd] in E. lra.
Qed.

Lemma loop_more c : forall c' st v v', c <= c' -> priority_loop pq m visitor_nn sp indices q c st = Ok v ->
  priority_loop pq m visitor_nn sp indices q c' st = Ok v' -> (val (n_distance v') <= val (n_distance v))%Q.
Proof.
  induction c as [|c IH]; intros c' st v v' Hc H H'.
  - assert (v = snd st) as -> by (cbn in H; destruct (pq_pop pq (fst st)) as [[[? ?] ?]|]; congruence).
    eapply loop_nn_mono; exact H'.
  - destruct c' as [|c']; [lia|]. cbn [priority_loop] in H, H'.
    destruct (pq_pop pq (fst st)) as [[[d nd] qu]|].
    + destruct (s_ltb _ _); [injection H as <-; injection H' as <-; apply Qle_refl|].
      destruct (priority_descend _ _ _ _ _ _ _ _) as [st'| |]; cbn [bind] in *; try discriminate.
      eapply IH; [|exact H|exact H']. lia.
    + injection H as <-; injection H' as <-; apply Qle_refl.
Qed.
End Leaves.

Lemma more_leaves {T} {S : Scalar T} (val : T -> Q) (EL : exact_laws S val) (pq : pqueue T) (alg : std_algos)
  it (cm : cmath T) m fuel gauss (sp : space T) leaf_size f q b b' nn0 r r' :
  kd_forest_make alg it cm m fuel gauss sp leaf_size 1 = Ok f -> b <= b' ->
  forest_search_nn pq f q b nn0 = Ok r -> forest_search_nn pq f q b' nn0 = Ok r' ->
  (val (n_distance r') <= val (n_distance r))%Q.
Proof.
  intros HM Hb H H'. apply forest_make_inv in HM as (_ & _ & _ & L & _).
  unfold forest_search_nn, forest_search_nearest in H, H'.
  destruct (kf_data f) as [|t [|? ?]]; cbn in L; try lia. cbn [forest_loop] in H, H'.
  destruct (rotate_point _ _) as [p| |]; cbn [bind] in *; try discriminate. unfold priority_search in *.
  destruct (priority_loop _ _ _ _ _ _ b _) as [v| |] eqn:E; cbn [bind] in *; try discriminate.
  destruct (priority_loop _ _ _ _ _ _ b' _) as [v'| |] eqn:E'; cbn [bind] in *; try discriminate.
  injection H as <-. injection H' as <-. eapply loop_more; eauto.
Qed.
