(** Answers are unique, so they do not depend on how a tree was built. *)
From Coq Require Import List ZArith QArith Qabs Qminmax Bool Arith Permutation Sorted Lia Lqa.
From Verif Require Import Base ModelBox ModelBuild ModelSearch Spec Lemmas Instances
  BuildProofs BuildOrder BuildShape BuildThms SearchProofs SearchThms Metrics Visitors QueryThms BoxThms
  TopThms MetricThms.
Import ListNotations.
Local Open Scope nat_scope.

Lemma index_answer_unique n P a b : index_answer n P a -> index_answer n P b -> Permutation a b.
Proof.
  intros [A1 A2] [B1 B2]. apply NoDup_Permutation; auto. intros x. rewrite A2, B2. reflexivity.
Qed.

Lemma filter_answer_index n P D a : filter_answer n P D a -> index_answer n P (map fst a).
Proof.
  intros [A B C]. split; auto. intros i. split; [|intros [H1 H2]; auto].
  intros H. apply in_map_iff in H as ([j d] & <- & H). apply B in H. tauto.
Qed.

(** Same indices, each with the same distance. *)
Lemma filter_answer_unique n P D a b : filter_answer n P D a -> filter_answer n P D b ->
  Permutation (map fst a) (map fst b)
  /\ forall i d d', In (i, d) a -> In (i, d') b -> (d == d')%Q.
Proof.
  intros A B. split.
  - eapply index_answer_unique; eapply filter_answer_index; eauto.
  - intros i d d' Ha Hb. apply (fa_genuine _ _ _ _ A) in Ha. apply (fa_genuine _ _ _ _ B) in Hb.
    destruct Ha as (_ & _ & ->), Hb as (_ & _ & ->). reflexivity.
Qed.

Lemma nearest_unique n D i j : is_nearest n D i -> is_nearest n D j -> (D i == D j)%Q.
Proof. intros [A1 A2] [B1 B2]. pose proof (A2 j B1). pose proof (B2 i A1). lra. Qed.

Lemma sorted_nth_le (l : list Q) : StronglySorted Qle l -> forall p r, p <= r -> r < length l ->
  (nth p l 0 <= nth r l 0)%Q.
Proof.
  induction 1 as [|x l St IH F]; intros p r Hp Hr; simpl in *; [lia|].
  destruct p, r; try lia; [lra| |apply IH; lia].
  rewrite Forall_forall in F. apply F. apply nth_In. lia.
Qed.

Lemma knn_not_less n k D a b p : knn_answer n k D a -> knn_answer n k D b -> p < length a ->
  ~ (nth p (map snd a) 0 < nth p (map snd b) 0)%Q.
Proof.
  intros A B Hp Hlt.
  assert (Lb : length b = length a) by (rewrite (ka_length _ _ _ _ A), (ka_length _ _ _ _ B); reflexivity).
  set (x0 := (0, 0%Q)).
  assert (Bp : In (nth p b x0) b) by (apply nth_In; lia).
  assert (I : incl (firstn (p + 1) (map fst a)) (firstn p (map fst b))).
  { intros i Hi. apply In_nth with (d := 0) in Hi as (r & Hr & Ei).
    rewrite firstn_length, map_length in Hr.
    assert (Ei' : nth r (map fst a) 0 = i).
    { rewrite <- Ei. rewrite <- (firstn_skipn (p + 1) (map fst a)) at 1.
      rewrite app_nth1; [reflexivity|]. rewrite firstn_length, map_length. lia. }
    change 0 with (fst x0) in Ei'. rewrite map_nth in Ei'.
    assert (Ar : In (nth r a x0) a) by (apply nth_In; lia).
    assert (Dr : (D i <= nth p (map snd a) 0)%Q).
    { pose proof (sorted_nth_le _ (ka_sorted _ _ _ _ A) r p) as Hs. rewrite map_length in Hs.
      assert (nth r (map snd a) 0 <= nth p (map snd a) 0)%Q as Hs' by (apply Hs; lia).
      change 0%Q with (snd x0) in Hs' at 1. rewrite map_nth in Hs'.
      destruct (nth r a x0) as [i' d'] eqn:Er. simpl in Ei', Hs'. subst i'.
      destruct (ka_genuine _ _ _ _ A i d' Ar) as [_ <-]. auto. }
    assert (Hi' : i < n).
    { destruct (nth r a x0) as [i' d'] eqn:Er. simpl in Ei'. subst i'. apply (ka_genuine _ _ _ _ A i d' Ar). }
    destruct (in_dec Nat.eq_dec i (map fst b)) as [Hb|Hb].
    - apply In_nth with (d := 0) in Hb as (s & Hs & Es). rewrite map_length in Hs.
      destruct (Nat.lt_ge_cases s p) as [Hc|Hc].
      + rewrite <- Es. rewrite <- (firstn_skipn p (map fst b)) at 1.
        rewrite app_nth1 by (rewrite firstn_length, map_length; lia).
        apply nth_In. rewrite firstn_length, map_length. lia.
      + exfalso. change 0 with (fst x0) in Es. rewrite map_nth in Es.
        assert (As : In (nth s b x0) b) by (apply nth_In; lia).
        pose proof (sorted_nth_le _ (ka_sorted _ _ _ _ B) p s Hc) as Hq. rewrite map_length in Hq. specialize (Hq Hs).
        change 0%Q with (snd x0) in Hq at 2. rewrite (map_nth snd) in Hq.
        destruct (nth s b x0) as [i' d'] eqn:Er. simpl in Es, Hq. subst i'.
        destruct (ka_genuine _ _ _ _ B i d' As) as [_ E]. lra.
    - exfalso. destruct (nth p b x0) as [j e] eqn:Ep.
      pose proof (ka_nearest _ _ _ _ B j e i Bp Hi' Hb) as Hn.
      assert (Ee : nth p (map snd b) 0%Q = e).
      { change 0%Q with (snd x0). rewrite map_nth, Ep. reflexivity. }
      rewrite Ee in Hlt. lra. }
  apply NoDup_incl_length in I.
  - rewrite !firstn_length, !map_length in I. lia.
  - rewrite <- (firstn_skipn (p + 1) (map fst a)) in *. pose proof (ka_nodup _ _ _ _ A) as ND.
    rewrite <- (firstn_skipn (p + 1) (map fst a)) in ND. apply NoDup_app_l in ND.
    rewrite firstn_skipn. auto.
Qed.

Lemma Forall2_nth_Q (a b : list Q) : length a = length b ->
  (forall p, p < length a -> (nth p a 0 == nth p b 0)%Q) -> Forall2 Qeq a b.
Proof.
  revert b. induction a as [|x a IH]; intros [|y b] L H; try discriminate; constructor.
  - apply (H 0). simpl. lia.
  - apply IH; [simpl in L; lia|]. intros p Hp. apply (H (Datatypes.S p)). simpl. lia.
Qed.

Lemma knn_answer_unique n k D a b : knn_answer n k D a -> knn_answer n k D b ->
  Forall2 Qeq (map snd a) (map snd b).
Proof.
  intros A B.
  assert (Lb : length b = length a) by (rewrite (ka_length _ _ _ _ A), (ka_length _ _ _ _ B); reflexivity).
  apply Forall2_nth_Q; [rewrite !map_length; lia|].
  intros p Hp. rewrite map_length in Hp.
  pose proof (knn_not_less n k D a b p A B). pose proof (knn_not_less n k D b a p B A).
  assert (~ (nth p (map snd a) 0 < nth p (map snd b) 0)%Q) by auto.
  assert (~ (nth p (map snd b) 0 < nth p (map snd a) 0)%Q) by (apply H0; lia). lra.
Qed.

(** * Two trees *)
Section Two.
Context {T : Type} {S : Scalar T} (val : T -> Q) (EL : exact_laws S val).
Variables (em : exact_metric) (sp : space T) (q : list T).
Variables (alg1 alg2 : std_algos) (SL1 : std_laws alg1) (SL2 : std_laws alg2)
  (it1 it2 : index_type) (fuel1 fuel2 : nat) (stop1 stop2 : stop_condition)
  (bnds1 bnds2 : start_bounds T) (ru1 ru2 : rule) (tree1 tree2 : kd_tree T).
Hypotheses
  (HM1 : kd_tree_make alg1 it1 (metric_of em) fuel1 sp stop1 bnds1 ru1 = Ok tree1)
  (HM2 : kd_tree_make alg2 it2 (metric_of em) fuel2 sp stop2 bnds2 ru2 = Ok tree2)
  (US1 : usable val em sp bnds1 q) (US2 : usable val em sp bnds2 q).

Lemma same_radius r sort1 sort2 : exists l1 l2,
  search_radius alg1 tree1 q r sort1 = Ok l1 /\ search_radius alg2 tree2 q r sort2 = Ok l2
  /\ Permutation (map n_index l1) (map n_index l2)
  /\ forall x y, In x l1 -> In y l2 -> n_index x = n_index y ->
       (val (n_distance x) == val (n_distance y))%Q.
Proof.
  destruct (top_radius val EL em sp alg1 SL1 it1 fuel1 stop1 bnds1 ru1 tree1 q HM1 US1 r sort1) as (l1 & E1 & A1 & _).
  destruct (top_radius val EL em sp alg2 SL2 it2 fuel2 stop2 bnds2 ru2 tree2 q HM2 US2 r sort2) as (l2 & E2 & A2 & _).
  exists l1, l2. split; auto. split; auto.
  destruct (filter_answer_unique _ _ _ _ _ A1 A2) as [P V].
  unfold answers in P. rewrite !map_map in P. cbn [fst] in P. split; auto.
  intros x y Hx Hy E. apply (V (n_index x)).
  - apply in_map_iff. exists x. auto.
  - apply in_map_iff. exists y. rewrite E. auto.
Qed.

Hypothesis FIT : distances_fit val em sp q.

Lemma same_nn nn1 nn2 : exists i1 d1 i2 d2,
  search_nn tree1 q nn1 = Ok (Neighbor i1 d1) /\ search_nn tree2 q nn2 = Ok (Neighbor i2 d2)
  /\ (val d1 == val d2)%Q.
Proof.
  destruct (top_nn val EL em sp alg1 SL1 it1 fuel1 stop1 bnds1 ru1 tree1 q HM1 US1 FIT nn1) as (i1 & d1 & E1 & V1 & A1).
  destruct (top_nn val EL em sp alg2 SL2 it2 fuel2 stop2 bnds2 ru2 tree2 q HM2 US2 FIT nn2) as (i2 & d2 & E2 & V2 & A2).
  exists i1, d1, i2, d2. split; auto. split; auto. rewrite V1, V2. eapply nearest_unique; eauto.
Qed.

Lemma same_knn k knn1 knn2 : 0 < k -> exists l1 l2,
  search_knn tree1 q k knn1 = Ok l1 /\ search_knn tree2 q k knn2 = Ok l2
  /\ Forall2 Qeq (map (fun x => val (n_distance x)) l1) (map (fun x => val (n_distance x)) l2).
Proof.
  intros Hk.
  destruct (top_knn val EL em sp alg1 SL1 it1 fuel1 stop1 bnds1 ru1 tree1 q HM1 US1 FIT k knn1 Hk) as (l1 & E1 & A1).
  destruct (top_knn val EL em sp alg2 SL2 it2 fuel2 stop2 bnds2 ru2 tree2 q HM2 US2 FIT k knn2 Hk) as (l2 & E2 & A2).
  exists l1, l2. split; auto. split; auto.
  pose proof (knn_answer_unique _ _ _ _ _ A1 A2) as F. unfold answers in F. rewrite !map_map in F. exact F.
Qed.
End Two.

(** * The ends of the circle *)
Section Circle.
Context {T : Type} {S : Scalar T} (val : T -> Q) (EL : exact_laws S val).
Variables (sp : space T) (alg : std_algos) (SL : std_laws alg)
  (it : index_type) (fuel : nat) (stop : stop_condition) (bnds : start_bounds T) (ru : rule)
  (tree : kd_tree T).
Hypotheses (HM : kd_tree_make alg it metric_so2 fuel sp stop bnds ru = Ok tree)
  (US : usable val SO2 sp bnds [s_zero]).

Lemma arc_zero_one x : (0 <= x <= 1)%Q -> (arc 0 x == arc 1 x)%Q.
Proof.
  intros H. destruct (arc_cases 0 x) as [[A B]|[A B]], (arc_cases 1 x) as [[C D]|[C D]];
    rewrite B, D; clear B D; qabs; lra.
Qed.

Lemma circle_dist i : i < npts sp -> (dist_to val SO2 sp [s_zero] i == dist_to val SO2 sp [s_one] i)%Q.
Proof.
  intros Hi. unfold dist_to. cbn [dist_of map nth].
  assert (V : valid_for SO2 (map val (nth i (sp_pts sp) []))).
  { pose proof (us_valid _ _ _ _ _ US) as V. rewrite Forall_forall in V. apply V. apply nth_In. auto. }
  destruct V as [_ V].
  rewrite (arc_wd _ 0 _ _ (el_zero _ _ EL) (Qeq_refl _)), (arc_wd _ 1 _ _ (el_one _ _ EL) (Qeq_refl _)).
  apply arc_zero_one. exact V.
Qed.

Lemma circle_usable : usable val SO2 sp bnds [s_one].
Proof.
  destruct US as [A B C D E F]. constructor; auto. cbn [valid_for map nth length].
  split; auto. rewrite (el_one _ _ EL). lra.
Qed.

Lemma circle_radius r sort : exists l0 l1,
  search_radius alg tree [s_zero] r sort = Ok l0 /\ search_radius alg tree [s_one] r sort = Ok l1
  /\ Permutation (map n_index l0) (map n_index l1)
  /\ forall x y, In x l0 -> In y l1 -> n_index x = n_index y ->
       (val (n_distance x) == val (n_distance y))%Q.
Proof.
  destruct (top_radius val EL SO2 sp alg SL it fuel stop bnds ru tree [s_zero] HM US r sort) as (l1 & E1 & A1 & _).
  destruct (top_radius val EL SO2 sp alg SL it fuel stop bnds ru tree [s_one] HM circle_usable r sort) as (l2 & E2 & A2 & _).
  exists l1, l2. split; auto. split; auto.
  assert (A1' : filter_answer (npts sp) (fun i => (dist_to val SO2 sp [s_one] i < val r)%Q)
    (dist_to val SO2 sp [s_one]) (answers val l1)).
  { eapply filter_answer_ext; [| |exact A1].
    - intros; apply circle_dist; auto.
    - intros j Hj. cbn beta. rewrite circle_dist by auto. reflexivity. }
  destruct (filter_answer_unique _ _ _ _ _ A1' A2) as [P V].
  unfold answers in P. rewrite !map_map in P. cbn [fst] in P. split; auto.
  intros x y Hx Hy E. apply (V (n_index x)).
  - apply in_map_iff. exists x. auto.
  - apply in_map_iff. exists y. rewrite E. auto.
Qed.
End Circle.
