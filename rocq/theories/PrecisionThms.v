(** The precision of the kd_forest as measured by its example. *)
From Coq Require Import List ZArith QArith Bool Arith Permutation Sorted Lia Lqa.
From Verif Require Import Base ModelBox ModelBuild ModelSearch ModelSerial ModelCover ModelForest ModelFormat ModelPrecision
  Spec SpecSerial SpecFormat SpecForest TopThms FormatThms ForestThms ForestTop.
Import ListNotations.
Local Open Scope nat_scope.

Section Precision.
Context {T : Type} {S : Scalar T} (val : T -> Q) (EL : exact_laws S val).
Context (alg : std_algos) (SL : std_laws alg) (it : index_type) (c : codec (neighbor T)) (neighbor0 : neighbor T).

Definition truth (sp : space T) (q : list T) (nn : neighbor T) : Prop :=
  (val (n_distance nn) == dist_to val L2Squared sp q (n_index nn))%Q
  /\ is_nearest (npts sp) (dist_to val L2Squared sp q) (n_index nn).

Lemma nn_all_truth sp fuel stop ru tree :
  kd_tree_make alg it metric_l2_squared fuel sp stop bounds_from_space ru = Ok tree ->
  forall test nns, length nns = length test ->
  Forall (fun q => usable val L2Squared sp bounds_from_space q /\ distances_fit val L2Squared sp q) test ->
  exists out, nn_all tree test nns = Ok out /\ Forall2 (truth sp) test out.
Proof.
  intros HM. induction test as [|q test IH]; intros [|nn nns] L F; try discriminate.
  - exists []. split; auto.
  - inversion F as [|? ? [US FIT] F']; subst. cbn [nn_all].
    destruct (top_nn val EL L2Squared sp alg SL it fuel stop bounds_from_space ru tree q HM US FIT nn)
      as (i & d & -> & V & I).
    destruct (IH nns) as (out & -> & A); auto. cbn [bind]. eexists. split; [reflexivity|].
    constructor; auto. split; auto.
Qed.

Lemma resize_length {A} (d : A) n l : length (resize_to d n l) = n.
Proof. unfold resize_to. rewrite app_length, firstn_length, repeat_length. lia. Qed.

Lemma run_kd_tree_first sp fuel leaf tree test name nns0 fs :
  kd_tree_make alg it metric_l2_squared fuel sp (max_leaf_size leaf) bounds_from_space sliding_midpoint_max_side
    = Ok tree ->
  Forall (fun q => usable val L2Squared sp bounds_from_space q /\ distances_fit val L2Squared sp q) test ->
  test <> [] -> fs_bytes fs name = None -> fs_writable fs name = true ->
  exists nns fs', run_kd_tree alg it c neighbor0 fuel sp test name leaf nns0 fs = Ok (inr (nns, fs'))
    /\ Forall2 (truth sp) test nns
    /\ (forall other, other <> name -> fs_bytes fs' other = fs_bytes fs other)
    /\ (forall P, codec_ok c P -> 0 < c_size c -> Forall P nns ->
        forall fuel' sp' test' leaf' nns0',
        run_kd_tree alg it c neighbor0 fuel' sp' test' name leaf' nns0' fs' = Ok (inr (nns, fs'))).
Proof.
  intros HM F NE NB WR. unfold run_kd_tree at 1. rewrite NB, HM. cbn [io_lift bind io_bind].
  destruct (nn_all_truth _ _ _ _ _ HM test (resize_to neighbor0 (length test) nns0) (resize_length _ _ _) F)
    as (out & -> & A). cbn [io_lift bind io_bind].
  assert (NO : exists x l, out = x :: l).
  { destruct out as [|x l]; eauto. inversion A; subst. congruence. }
  destruct NO as (x & l & EO).
  assert (W : write_bin c name out fs = write_file fs name (write_array c out)) by (rewrite EO; reflexivity).
  rewrite W. unfold write_file. rewrite WR. cbn [io_ret io_bind bind].
  eexists. eexists. split; [reflexivity|]. split; auto. split.
  - intros other Ho. cbn. unfold chars_eqb. destruct (list_eq_dec Z.eq_dec other name); congruence.
  - intros P CK SZ FP fuel' sp' test' leaf' nns0'. unfold run_kd_tree.
    set (fs' := Fsys _ _).
    assert (B : fs_bytes fs' name <> None).
    { unfold fs'. cbn. unfold chars_eqb. destruct (list_eq_dec Z.eq_dec name name); congruence. }
    destruct (fs_bytes fs' name) as [b|] eqn:EB; [|congruence].
    destruct (@write_read_bin _ c P CK neighbor0 name (resize_to neighbor0 (length test') nns0') fs out SZ)
      as (fs2 & W2 & _ & _ & R2); auto; [congruence|].
    rewrite W in W2. unfold write_file in W2. rewrite WR in W2. injection W2 as E2. fold fs' in E2.
    rewrite E2, R2. reflexivity.
Qed.
End Precision.

Section Forest.
Context {T : Type} {S : Scalar T} (val : T -> Q) (EL : exact_laws S val) (FL : field_laws S val).
Context (pq : pqueue T) (QL : queue_laws S pq) (alg : std_algos) (SL : std_laws alg) (it : index_type) (cm : cmath T)
  (fuel : nat) (gauss : nat -> nat -> T) (sp : space T) (leaf : Z) (n : nat) (f : kd_forest T) (b : Q).
Hypotheses (WF : wf_space sp) (IT : index_type_ok it) (LF : (0 < leaf <= it_max it)%Z)
  (HM : kd_forest_make alg it cm metric_l2_squared fuel gauss sp leaf n = Ok f)
  (UV : Forall (fun t => unit_vector (map val (rk_rotation t))) (kf_data f))
  (NL : norms_le val b sp) (B1 : (b <= val s_max)%Q) (B2 : (b <= - val s_lowest)%Q).
Variables (budget : nat) (nn0 : neighbor T).

Lemma count_any test : 0 < budget ->
  Forall (fun q => length q = sp_sdim sp /\ distances_fit val L2Squared sp q) test ->
  forall nns nn k,
  (length nns <= length test -> exists e, count_equal pq f budget test nns nn k = Ok e /\ k <= e <= k + length nns)
  /\ (length test < length nns -> count_equal pq f budget test nns nn k = Ub UbIndex).
Proof.
  intros HB. induction 1 as [|q test [Lq FIT] F IH]; intros [|g nns] nn k; cbn [length count_equal].
  - split; [|lia]. intros _. exists k. split; auto. lia.
  - split; [lia|auto].
  - split; [|lia]. intros _. exists k. split; auto. lia.
  - destruct (top_any_budget val EL FL pq QL alg SL it cm fuel gauss sp leaf n f b q budget
      WF IT LF HM UV NL B1 B2 Lq FIT nn HB) as (i & d & -> & _). cbn [bind n_index].
    destruct (IH nns (Neighbor i d) (if n_index g =? i then k + 1 else k)) as [I1 I2]. split; intros L.
    + destruct I1 as (e & E & R); [lia|]. exists e. split; auto. destruct (n_index g =? i); lia.
    + apply I2. lia.
Qed.

Lemma forest_any test nns : 0 < budget ->
  Forall (fun q => length q = sp_sdim sp /\ distances_fit val L2Squared sp q) test ->
  (length nns <= length test ->
     exists e, run_kd_forest alg it pq cm fuel gauss sp test nns n leaf budget nn0 = Ok e /\ e <= length nns)
  /\ (length test < length nns -> run_kd_forest alg it pq cm fuel gauss sp test nns n leaf budget nn0 = Ub UbIndex).
Proof.
  intros HB F. unfold run_kd_forest. rewrite HM. cbn [bind].
  destruct (count_any test HB F nns nn0 0) as [I1 I2]. split; auto.
  intros L. destruct (I1 L) as (e & E & R). exists e. split; auto. lia.
Qed.

Lemma count_all test nns : npts sp <= budget -> 0 < npts sp ->
  Forall (fun q => length q = sp_sdim sp /\ distances_fit val L2Squared sp q
    /\ forall i j, is_nearest (npts sp) (dist_to val L2Squared sp q) i ->
         is_nearest (npts sp) (dist_to val L2Squared sp q) j -> i = j) test ->
  Forall2 (fun q nn => is_nearest (npts sp) (dist_to val L2Squared sp q) (n_index nn)) test nns ->
  forall nn k, count_equal pq f budget test nns nn k = Ok (k + length nns).
Proof.
  intros HB HN F A. revert F. induction A as [|q g test nns Hg A IH]; intros F nn k; cbn [length count_equal].
  - f_equal. lia.
  - inversion F as [|? ? (Lq & FIT & U) F']; subst.
    destruct (top_exhaustive val EL FL pq QL alg SL it cm fuel gauss sp leaf n f b q budget
      WF IT LF HM UV NL B1 B2 Lq FIT nn HB HN) as (i & d & -> & _ & I). cbn [bind n_index].
    rewrite (U _ _ Hg I), Nat.eqb_refl, IH by auto. f_equal. lia.
Qed.

Lemma forest_all test nns : npts sp <= budget -> 0 < npts sp ->
  Forall (fun q => length q = sp_sdim sp /\ distances_fit val L2Squared sp q
    /\ forall i j, is_nearest (npts sp) (dist_to val L2Squared sp q) i ->
         is_nearest (npts sp) (dist_to val L2Squared sp q) j -> i = j) test ->
  Forall2 (fun q nn => is_nearest (npts sp) (dist_to val L2Squared sp q) (n_index nn)) test nns ->
  run_kd_forest alg it pq cm fuel gauss sp test nns n leaf budget nn0 = Ok (length nns).
Proof.
  intros HB HN F A. unfold run_kd_forest. rewrite HM. cbn [bind]. apply count_all; auto.
Qed.
End Forest.

Section Dataset.
Context {T : Type} {S : Scalar T} (val : T -> Q) (EL : exact_laws S val) (FL : field_laws S val).
Context (pq : pqueue T) (QL : queue_laws S pq) (alg : std_algos) (SL : std_laws alg) (it : index_type) (cm : cmath T)
  (c : codec (neighbor T)) (neighbor0 : neighbor T).

Lemma dataset_one fuel gauss sp test name tree_leaf tree n leaf f b budget nn0 fs :
  wf_space sp -> index_type_ok it -> (0 < leaf <= it_max it)%Z ->
  kd_tree_make alg it metric_l2_squared fuel sp (max_leaf_size tree_leaf) bounds_from_space sliding_midpoint_max_side
    = Ok tree ->
  kd_forest_make alg it cm metric_l2_squared fuel gauss sp leaf n = Ok f ->
  Forall (fun t => unit_vector (map val (rk_rotation t))) (kf_data f) ->
  norms_le val b sp -> (b <= val s_max)%Q -> (b <= - val s_lowest)%Q ->
  Forall (fun q => usable val L2Squared sp bounds_from_space q /\ distances_fit val L2Squared sp q
    /\ forall i j, is_nearest (npts sp) (dist_to val L2Squared sp q) i ->
         is_nearest (npts sp) (dist_to val L2Squared sp q) j -> i = j) test ->
  npts sp <= budget -> test <> [] -> fs_bytes fs name = None -> fs_writable fs name = true ->
  exists fs', run_dataset alg it pq cm c neighbor0 fuel gauss sp test name tree_leaf n leaf budget nn0 fs
    = Ok (inr (length test, length test, fs')).
Proof.
  intros WF IT LF HT HM UV NL B1 B2 F HB NE NB WR.
  assert (F1 : Forall (fun q => usable val L2Squared sp bounds_from_space q /\ distances_fit val L2Squared sp q) test)
    by (eapply Forall_impl; [|exact F]; cbn; tauto).
  assert (F2 : Forall (fun q => length q = sp_sdim sp /\ distances_fit val L2Squared sp q
    /\ forall i j, is_nearest (npts sp) (dist_to val L2Squared sp q) i ->
         is_nearest (npts sp) (dist_to val L2Squared sp q) j -> i = j) test).
  { eapply Forall_impl; [|exact F]. cbn. intros q (US & A & B). split; [apply (us_query _ _ _ _ _ US)|auto]. }
  destruct (run_kd_tree_first val EL alg SL it c neighbor0 sp fuel tree_leaf tree test name [] fs HT F1 NE NB WR)
    as (nns & fs' & E & A & _ & _).
  exists fs'. unfold run_dataset. rewrite E. cbn [io_bind bind].
  assert (HN : 0 < npts sp) by exact (size_pos L2Squared sp alg it fuel _ _ _ tree HT).
  assert (L : length nns = length test) by (clear - A; induction A; cbn; auto).
  assert (A2 : Forall2 (fun q nn => is_nearest (npts sp) (dist_to val L2Squared sp q) (n_index nn)) test nns).
  { clear - A. induction A as [|? ? ? ? [_ H]]; constructor; auto. }
  rewrite (forest_all val EL FL pq QL alg SL it cm fuel gauss sp leaf n f b WF IT LF HM UV NL B1 B2 budget nn0
    test nns HB HN F2 A2).
  cbn [io_lift bind io_bind io_ret]. rewrite L. reflexivity.
Qed.
End Dataset.

Section Counts.
Context {T : Type} {S : Scalar T}.
Variable pq : pqueue T.

Lemma count_exact (f : kd_forest T) budget : forall nns test nn k e,
  count_equal pq f budget test nns nn k = Ok e ->
  exists answers, length answers = length nns
    /\ (forall i q a, nth_error test i = Some q -> nth_error answers i = Some a ->
          exists nn', forest_search_nn pq f q budget nn' = Ok a)
    /\ e = k + length (filter (fun p => n_index (fst p) =? n_index (snd p)) (combine nns answers)).
Proof.
  induction nns as [|g nns IH]; intros test nn k e.
  - destruct test; intros [= <-]; exists []; (split; [reflexivity|]; split; [|cbn; lia]);
      intros [|i] q a _ H; discriminate.
  - destruct test as [|q test]; cbn [count_equal]; [discriminate|].
    destruct (forest_search_nn pq f q budget nn) as [a| |] eqn:E; cbn [bind]; try discriminate.
    intros H. apply IH in H. destruct H as (ans & L & A & ->). exists (a :: ans). split; [cbn; lia|]. split.
    + intros [|i] q' a'; cbn.
      * intros [= <-] [= <-]. eauto.
      * apply A.
    + cbn [combine filter fst snd]. destruct (n_index g =? n_index a); cbn [length]; lia.
Qed.

Lemma forest_counts alg it cm fuel gauss (sp : space T) leaf n f test nns budget nn0 e :
  kd_forest_make alg it cm metric_l2_squared fuel gauss sp leaf n = Ok f ->
  run_kd_forest alg it pq cm fuel gauss sp test nns n leaf budget nn0 = Ok e ->
  exists answers, length answers = length nns
    /\ (forall i q a, nth_error test i = Some q -> nth_error answers i = Some a ->
          exists nn', forest_search_nn pq f q budget nn' = Ok a)
    /\ e = length (filter (fun p => n_index (fst p) =? n_index (snd p)) (combine nns answers)).
Proof. unfold run_kd_forest. intros -> H. cbn [bind] in H. apply count_exact in H. exact H. Qed.
End Counts.
