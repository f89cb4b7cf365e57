(** Corollaries in the terms of the circle, poses and the custom visitors. *)
From Coq Require Import List ZArith QArith Qabs Qminmax Bool Arith Permutation Sorted Lia Lqa.
From Verif Require Import Base ModelBox ModelBuild ModelSearch Spec Lemmas Instances
  BuildProofs BuildOrder BuildShape BuildThms SearchProofs SearchThms Metrics Visitors QueryThms BoxThms
  TopThms MetricThms UserThms UniqThms.
Import ListNotations.
Local Open Scope nat_scope.

Section More.
Context {T : Type} {S : Scalar T} (val : T -> Q) (EL : exact_laws S val).

Section Builtin.
Variables (em : exact_metric) (sp : space T) (alg : std_algos) (SL : std_laws alg)
  (it : index_type) (fuel : nat) (stop : stop_condition) (bnds : start_bounds T) (ru : rule)
  (tree : kd_tree T) (q : list T).
Hypotheses (HM : kd_tree_make alg it (metric_of em) fuel sp stop bnds ru = Ok tree)
  (US : usable val em sp bnds q).

Lemma builtin_fits : metric_fits val (metric_of em) (terms_of em) sp bnds q.
Proof.
  constructor.
  - apply US.
  - apply US.
  - apply (exact_terms val EL em).
  - apply (points_ok val EL em sp bnds q US).
  - apply (bnds_ok val EL em sp alg it fuel stop bnds ru tree q HM US).
  - apply US.
  - apply (query_ok val EL em sp bnds q US).
  - intros p Hp. destruct (In_nth _ _ [] Hp) as (i & Hi & <-).
    symmetry. apply (low_eq val EL em sp 0 bnds q US i Hi).
Qed.

Lemma top_visitor {V} (vis : visitor T V) (Inv : V -> Prop) v0 :
  (forall st i, Inv st -> i < npts sp -> Inv (v_visit vis i (m_dist (metric_of em) q (nth i (sp_pts sp) [])) st)) ->
  (forall st i, Inv st -> i < npts sp ->
    (val (v_max vis (v_visit vis i (m_dist (metric_of em) q (nth i (sp_pts sp) [])) st)) <= val (v_max vis st))%Q) ->
  Inv v0 ->
  exists seen rest final,
    Permutation (seen ++ rest) (seq 0 (npts sp))
    /\ search_nearest tree vis q v0 = Ok final
    /\ final = fold_left (fun st i => v_visit vis i (m_dist (metric_of em) q (nth i (sp_pts sp) [])) st) seen v0
    /\ (forall i, i < npts sp -> (val (m_dist (metric_of em) q (nth i (sp_pts sp) [])) == dist_to val em sp q i)%Q)
    /\ forall j, In j rest -> (val (v_max vis final) < dist_to val em sp q j)%Q.
Proof.
  intros HI HMn H0.
  destruct (user_visitor val EL _ _ sp alg SL it fuel stop bnds ru tree q HM builtin_fits vis Inv v0 HI HMn H0)
    as (seen & rest & final & P & E & F & R).
  pose proof (dist_eq val EL em sp 0 bnds q US) as DE.
  exists seen, rest, final. split; auto. split; auto. split; auto. split; [exact DE|].
  intros j Hj. rewrite <- DE; [apply R; auto|].
  apply In_seq0. eapply Permutation_in; [exact P|]. apply in_or_app; auto.
Qed.
End Builtin.

(** * The circle *)
Lemma max_ge_one : (1 <= val s_max)%Q.
Proof. apply EL. Qed.

Lemma unit_representable x : (0 <= val x <= 1)%Q -> representable val x.
Proof. intros H. pose proof (el_max _ _ EL). pose proof (el_lowest _ _ EL). unfold representable. lra. Qed.

Section Circle.
Variables (sp : space T) (alg : std_algos) (SL : std_laws alg)
  (it : index_type) (fuel : nat) (stop : stop_condition) (bnds : start_bounds T) (ru : rule)
  (tree : kd_tree T) (x : T).
Hypotheses (HM : kd_tree_make alg it metric_so2 fuel sp stop bnds ru = Ok tree)
  (CP : circle_points val sp) (CB : bounds_coords (fun c => (0 <= val c <= 1)%Q) sp bnds)
  (CX : (0 <= val x <= 1)%Q).
Let D (i : nat) : Q := arc (val x) (coord_val val sp i 0).

Lemma so2_usable : usable val SO2 sp bnds [x].
Proof.
  destruct CP as [E F]. rewrite Forall_forall in F. constructor.
  - split; [lia|]. rewrite Forall_forall. intros p Hp. rewrite E. apply F; auto.
  - unfold all_coords. rewrite Forall_forall. intros p Hp. rewrite Forall_forall. intros c Hc.
    apply unit_representable. destruct (F p Hp) as [_ G]. rewrite Forall_forall in G. auto.
  - rewrite Forall_forall. intros p Hp. destruct (F p Hp) as [L G]. destruct p as [|a [|]]; try discriminate.
    inversion G; subst. split; [reflexivity|]. auto.
  - destruct bnds as [|mn mx]; cbn [valid_bounds]; auto. destruct CB as (L1 & L2 & G1 & G2).
    rewrite E in L1, L2. destruct mn as [|a [|]]; try discriminate. destruct mx as [|b [|]]; try discriminate.
    inversion G1; inversion G2; subst. split; (split; [reflexivity|auto]).
  - rewrite E. reflexivity.
  - split; [reflexivity|exact CX].
Qed.

Lemma so2_D i : i < npts sp -> dist_to val SO2 sp [x] i = D i.
Proof.
  intros Hi. unfold dist_to, D, coord_val. cbn [dist_of map nth].
  destruct CP as [E F]. rewrite Forall_forall in F. destruct (F (nth i (sp_pts sp) [])) as [L _]; [apply nth_In; auto|].
  destruct (nth i (sp_pts sp) []) as [|a [|]]; try discriminate. reflexivity.
Qed.

Lemma arc_lt_one a b : (arc a b < 1)%Q.
Proof. unfold arc. destruct (Qlt_le_dec (1 - Qabs (a - b)) (Qabs (a - b))); lra. Qed.

Lemma so2_fit : distances_fit val SO2 sp [x].
Proof.
  intros i Hi. rewrite so2_D by auto. pose proof max_ge_one. eapply Qlt_le_trans; [apply arc_lt_one|auto].
Qed.

Lemma so2_nn nn0 : exists i d, search_nn tree [x] nn0 = Ok (Neighbor i d)
  /\ (val d == D i)%Q /\ is_nearest (npts sp) D i.
Proof.
  destruct (top_nn val EL SO2 sp alg SL it fuel stop bnds ru tree [x] HM so2_usable so2_fit nn0) as (i & d & E & V & I).
  exists i, d. split; auto. split; [rewrite V, so2_D; [reflexivity|apply I]|].
  eapply is_nearest_ext; [|exact I]. intros j Hj. rewrite so2_D; [reflexivity|auto].
Qed.

Lemma so2_knn k knn0 : 0 < k -> exists out, search_knn tree [x] k knn0 = Ok out
  /\ knn_answer (npts sp) k D (answers val out).
Proof.
  intros Hk. destruct (top_knn val EL SO2 sp alg SL it fuel stop bnds ru tree [x] HM so2_usable so2_fit k knn0 Hk) as (out & E & A).
  exists out. split; auto. eapply knn_answer_ext; [|exact A]. intros j Hj. rewrite so2_D; [reflexivity|auto].
Qed.

Lemma so2_radius r sort : exists l, search_radius alg tree [x] r sort = Ok l
  /\ filter_answer (npts sp) (fun i => (D i < val r)%Q) D (answers val l)
  /\ (sort = true -> StronglySorted Qle (map (fun y => val (n_distance y)) l)).
Proof.
  destruct (top_radius val EL SO2 sp alg SL it fuel stop bnds ru tree [x] HM so2_usable r sort) as (l & E & A & St).
  exists l. split; auto. split; auto. eapply filter_answer_ext; [| |exact A].
  - intros j Hj. rewrite so2_D; [reflexivity|auto].
  - intros j Hj. cbv beta. rewrite so2_D; [reflexivity|auto].
Qed.
End Circle.

(** * Poses *)
Section Poses.
Variables (sp : space T) (alg : std_algos) (SL : std_laws alg)
  (it : index_type) (fuel : nat) (stop : stop_condition) (bnds : start_bounds T) (ru : rule)
  (tree : kd_tree T) (x y a : T).
Hypotheses (HM : kd_tree_make alg it metric_se2_squared fuel sp stop bnds ru = Ok tree)
  (PD : sp_sdim sp = 3) (PP : Forall (pose val) (sp_pts sp))
  (PB : match bnds with bounds_from_space => True | bounds_user mn mx => pose val mn /\ pose val mx end)
  (PA : (0 <= val a <= 1)%Q).
Let D (i : nat) : Q :=
  pose_dist (val x) (val y) (val a) (coord_val val sp i 0) (coord_val val sp i 1) (coord_val val sp i 2).

Lemma se2_usable : usable val SE2Squared sp bnds [x; y; a].
Proof.
  rewrite Forall_forall in PP. constructor.
  - split; [lia|]. rewrite Forall_forall. intros p Hp. rewrite PD.
    destruct (PP p Hp) as (? & ? & ? & -> & _). reflexivity.
  - unfold all_coords. rewrite Forall_forall. intros p Hp.
    destruct (PP p Hp) as (? & ? & ? & -> & ? & ? & ?).
    repeat (apply Forall_cons || apply Forall_nil); auto. apply unit_representable; auto.
  - rewrite Forall_forall. intros p Hp. destruct (PP p Hp) as (? & ? & ? & -> & ? & ? & ?).
    split; [reflexivity|]. auto.
  - destruct bnds as [|mn mx]; cbn [valid_bounds]; auto.
    destruct PB as [(? & ? & ? & -> & ? & ? & ?) (? & ? & ? & -> & ? & ? & ?)].
    split; (split; [reflexivity|auto]).
  - rewrite PD. reflexivity.
  - split; [reflexivity|exact PA].
Qed.

Lemma se2_D i : i < npts sp -> dist_to val SE2Squared sp [x; y; a] i = D i.
Proof.
  intros Hi. unfold dist_to, D, coord_val, pose_dist. cbn [dist_of map nth].
  rewrite Forall_forall in PP. destruct (PP (nth i (sp_pts sp) [])) as (? & ? & ? & E & _); [apply nth_In; auto|].
  rewrite E. reflexivity.
Qed.

Lemma se2_radius r sort : exists l, search_radius alg tree [x; y; a] r sort = Ok l
  /\ filter_answer (npts sp) (fun i => (D i < val r)%Q) D (answers val l)
  /\ (sort = true -> StronglySorted Qle (map (fun y => val (n_distance y)) l)).
Proof.
  destruct (top_radius val EL SE2Squared sp alg SL it fuel stop bnds ru tree _ HM se2_usable r sort) as (l & E & A & St).
  exists l. split; auto. split; auto. eapply filter_answer_ext; [| |exact A].
  - intros j Hj. rewrite se2_D; [reflexivity|auto].
  - intros j Hj. cbv beta. rewrite se2_D; [reflexivity|auto].
Qed.

Section Fit.
Hypothesis FIT : forall i, i < npts sp -> (D i < val s_max)%Q.
Lemma se2_fit : distances_fit val SE2Squared sp [x; y; a].
Proof. intros i Hi. rewrite se2_D by auto. apply FIT. auto. Qed.

Lemma se2_nn nn0 : exists i d, search_nn tree [x; y; a] nn0 = Ok (Neighbor i d)
  /\ (val d == D i)%Q /\ is_nearest (npts sp) D i.
Proof.
  destruct (top_nn val EL SE2Squared sp alg SL it fuel stop bnds ru tree _ HM se2_usable se2_fit nn0) as (i & d & E & V & I).
  exists i, d. split; auto. split; [rewrite V, se2_D; [reflexivity|apply I]|].
  eapply is_nearest_ext; [|exact I]. intros j Hj. rewrite se2_D; [reflexivity|auto].
Qed.

Lemma se2_knn k knn0 : 0 < k -> exists out, search_knn tree [x; y; a] k knn0 = Ok out
  /\ knn_answer (npts sp) k D (answers val out).
Proof.
  intros Hk. destruct (top_knn val EL SE2Squared sp alg SL it fuel stop bnds ru tree _ HM se2_usable se2_fit k knn0 Hk) as (out & E & A).
  exists out. split; auto. eapply knn_answer_ext; [|exact A]. intros j Hj. rewrite se2_D; [reflexivity|auto].
Qed.
End Fit.
End Poses.
End More.
