(** The checks of the test suite, with exact arithmetic. *)
From Coq Require Import List ZArith QArith Qabs Qminmax Bool Arith Permutation Sorted Lia Lqa.
From Verif Require Import Base ModelBox ModelBuild ModelSearch ModelOracle Spec Lemmas
  BuildProofs BuildOrder BuildThms Metrics QueryThms BoxThms ExactQuery TopThms UniqThms.
Import ListNotations.
Local Open Scope nat_scope.

Lemma in_firstn_ {A} n (l : list A) x : In x (firstn n l) -> In x l.
Proof. intros H. rewrite <- (firstn_skipn n l). apply in_app_iff. auto. Qed.

Lemma in_skipn_ {A} n (l : list A) x : In x (skipn n l) -> In x l.
Proof. intros H. rewrite <- (firstn_skipn n l). apply in_app_iff. auto. Qed.

Lemma sorted_app_inv {A} (R : A -> A -> Prop) a b : StronglySorted R (a ++ b) ->
  StronglySorted R a /\ (forall x y, In x a -> In y b -> R x y).
Proof.
  induction a as [|x a IH]; cbn; intros H; [split; [constructor|tauto]|].
  inversion H as [|? ? H1 H2]; subst. destruct (IH H1) as [I1 I2]. rewrite Forall_forall in H2. split.
  - constructor; auto. apply Forall_forall. intros y Hy. apply H2, in_app_iff. auto.
  - intros u v [->|Hu] Hv; auto. apply H2, in_app_iff. auto.
Qed.

Lemma nodup_full (l : list nat) n : NoDup l -> (forall x, In x l -> x < n) -> length l = n ->
  forall j, j < n -> In j l.
Proof.
  intros ND B L j Hj.
  apply (NoDup_length_incl ND (l' := seq 0 n)); [rewrite seq_length; lia| |apply In_seq0; auto].
  intros x Hx. apply In_seq0. auto.
Qed.

(** The first entries of an answer with all points. *)
Lemma full_prefix N k D F : knn_answer N N D F -> knn_answer N k D (firstn k F).
Proof.
  intros A. pose proof (ka_length _ _ _ _ A) as L. rewrite Nat.min_id in L.
  pose proof (ka_nodup _ _ _ _ A) as ND. pose proof (ka_sorted _ _ _ _ A) as St.
  rewrite <- (firstn_skipn k F), map_app in ND, St. apply sorted_app_inv in St as [S1 S2].
  constructor; auto.
  - rewrite firstn_length. lia.
  - clear - ND. induction (map fst (firstn k F)) as [|x l IH]; constructor; inversion ND; subst; auto.
    intros H. apply H1, in_app_iff. auto.
  - intros i d H. apply (ka_genuine _ _ _ _ A). eapply in_firstn_; eauto.
  - intros i d j Hi Hj Hn.
    assert (Hf : In j (map fst F)).
    { apply (nodup_full _ N (ka_nodup _ _ _ _ A)); auto; [|rewrite map_length; auto].
      intros x Hx. apply in_map_iff in Hx as ([x' d'] & <- & Hx). apply (ka_genuine _ _ _ _ A _ _ Hx). }
    rewrite <- (firstn_skipn k F), map_app in Hf. apply in_app_iff in Hf as [Hf|Hf]; [tauto|].
    apply in_map_iff in Hf as ([j' d'] & E & Hf). cbn in E. subst j'.
    destruct (ka_genuine _ _ _ _ A j d' (in_skipn_ _ _ _ Hf)) as [_ <-].
    apply S2; [apply (in_map snd) in Hi|apply (in_map snd) in Hf]; auto.
Qed.

Lemma full_distances N D F : knn_answer N N D F -> sorted_distances N D (map (fun x => D (fst x)) F).
Proof.
  intros A. pose proof (ka_length _ _ _ _ A) as L. rewrite Nat.min_id in L. split.
  - rewrite <- (map_map fst D). apply Permutation_map.
    apply NoDup_Permutation_bis; [apply (ka_nodup _ _ _ _ A)|rewrite seq_length, map_length; lia|].
    intros x Hx. apply in_map_iff in Hx as ([x' d'] & <- & Hx). apply In_seq0.
    apply (ka_genuine _ _ _ _ A _ _ Hx).
  - eapply sorted_map_ext; [|exact (ka_sorted _ _ _ _ A)].
    intros [i d] Hx. apply (ka_genuine _ _ _ _ A _ _ Hx).
Qed.

Section Oracle.
Context {T : Type} {S : Scalar T} (val : T -> Q) (EL : exact_laws S val).
Context (em : exact_metric) (sp : space T) (alg : std_algos) (SL : std_laws alg).
Notation N := (npts sp).

Lemma ltb_strict_weak (f : nat -> T) l : strict_weak (fun i j => s_ltb (f i) (f j)) l.
Proof.
  assert (B : forall x y, s_ltb x y = false <-> (val y <= val x)%Q).
  { intros x y. destruct (s_ltb x y) eqn:E.
    - apply (el_lt _ _ EL) in E. split; [discriminate|intros; lra].
    - split; auto. intros _. destruct (Qlt_le_dec (val x) (val y)) as [H|H]; auto.
      apply (el_lt _ _ EL) in H. congruence. }
  repeat split; intros; rewrite ?B in *; rewrite ?(el_lt _ _ EL) in *; lra.
Qed.

(** Brute force. *)
Lemma brute_answer bnds q k : usable val em sp bnds q -> 0 < k -> 0 < N ->
  exists out, brute_knn alg q sp k (metric_of em) = Ok out
  /\ knn_answer N k (dist_to val em sp q) (answers val out).
Proof.
  intros US Hk HN. unfold brute_knn.
  change (sp_size sp) with N. set (mk := Nat.min k N).
  assert (Hm : 0 < mk <= N) by (unfold mk; lia).
  replace (0 <? mk) with true by (symmetry; apply Nat.ltb_lt; lia). cbn [guard bind].
  set (dist := fun i => m_dist (metric_of em) q (sp_at sp i)).
  change (std_nth_element alg (fun i j => s_ltb (m_dist (metric_of em) q (sp_at sp i)) (m_dist (metric_of em) q (sp_at sp j))))
    with (std_nth_element alg (fun i j => s_ltb (dist i) (dist j))).
  set (l := std_nth_element alg (fun i j => s_ltb (dist i) (dist j)) (mk - 1) (seq 0 N)).
  pose proof (ltb_strict_weak dist (seq 0 N)) as SW.
  assert (P : Permutation l (seq 0 N)) by (apply (sl_nth_perm _ SL); auto; rewrite seq_length; lia).
  assert (Ll : length l = N) by (rewrite (Permutation_length P), seq_length; auto).
  assert (NDl : NoDup l) by (eapply Permutation_NoDup; [symmetry; exact P|apply seq_NoDup]).
  assert (BV : forall x y, s_ltb x y = false -> (val y <= val x)%Q).
  { intros x y E. destruct (Qlt_le_dec (val x) (val y)) as [H|H]; auto.
    apply (el_lt _ _ EL) in H. congruence. }
  assert (E : exists x0, nth_error l (mk - 1) = Some x0).
  { destruct (nth_error l (mk - 1)) eqn:E; eauto. apply nth_error_None in E. lia. }
  destruct E as (x0 & E0).
  assert (Sk : skipn (mk - 1) l = x0 :: skipn mk l).
  { assert (G : forall (l : list nat) n x, nth_error l n = Some x -> skipn n l = x :: skipn (Datatypes.S n) l).
    { clear. induction l as [|a l IH]; intros [|n] x H; cbn in *; try discriminate; [congruence|]. apply IH; auto. }
    rewrite (G _ _ _ E0). do 2 f_equal. lia. }
  assert (Fk : firstn mk l = firstn (mk - 1) l ++ [x0]).
  { pose proof (eq_trans (firstn_skipn mk l) (eq_sym (firstn_skipn (mk - 1) l))) as H. rewrite Sk in H.
    change (x0 :: skipn mk l) with ([x0] ++ skipn mk l) in H. rewrite app_assoc in H.
    apply app_inv_tail in H. auto. }
  assert (Near : forall x y, In x (firstn mk l) -> In y (skipn mk l) -> (val (dist x) <= val (dist y))%Q).
  { intros x y Hx Hy. apply BV. rewrite Fk in Hx. apply in_app_iff in Hx as [Hx|[<-|[]]].
    - apply (sl_nth_before _ SL (fun i j => s_ltb (dist i) (dist j)) (mk - 1) _ x y SW); auto; [rewrite seq_length; lia|].
      fold l. rewrite Sk. right. auto.
    - apply (sl_nth_after _ SL (fun i j => s_ltb (dist i) (dist j)) (mk - 1) _ x0 y SW); auto; [rewrite seq_length; lia|].
      fold l. rewrite Sk. right. auto. }
  destruct (sort_result (fun _ => True) (exact_ord val EL) alg SL (map (fun i => Neighbor i (dist i)) (firstn mk l)))
    as [PS St]; auto.
  set (out := std_sort alg _ neighbor_lt (map (fun i => Neighbor i (dist i)) (firstn mk l))) in *.
  exists out. split; [reflexivity|].
  assert (DE : forall i, i < N -> (val (dist i) == dist_to val em sp q i)%Q)
    by (intros i Hi; apply (dist_eq val EL em sp 0 bnds q US); auto).
  assert (LN : forall i, In i l -> i < N).
  { intros i Hi. apply In_seq0. eapply Permutation_in; eauto. }
  assert (In_out : forall i d, In (i, d) (answers val out) -> In i (firstn mk l) /\ d = val (dist i)).
  { intros i d H. unfold answers in H. apply in_map_iff in H as (x & E & Hx).
    apply (Permutation_in _ PS) in Hx. apply in_map_iff in Hx as (j & <- & Hj). cbn in E. inversion E; subst. auto. }
  assert (PI : Permutation (map fst (answers val out)) (firstn mk l)).
  { unfold answers. rewrite map_map. cbn. rewrite PS, map_map. cbn. rewrite map_id. reflexivity. }
  constructor.
  - unfold answers. rewrite map_length, (Permutation_length PS), map_length, firstn_length. unfold mk. lia.
  - eapply Permutation_NoDup; [symmetry; exact PI|]. clear - NDl. rewrite <- (firstn_skipn mk l) in NDl.
    induction (firstn mk l) as [|x a IH]; constructor; inversion NDl; subst; auto.
    intros H. apply H1, in_app_iff. auto.
  - intros i d H. destruct (In_out i d H) as [Hi ->]. apply in_firstn_, LN in Hi. split; auto.
  - unfold answers. rewrite map_map. cbn. apply (sorted_val val EL). exact St.
  - intros i d j H Hj Hn. destruct (In_out i d H) as [Hi ->]. rewrite <- DE by auto. apply Near; auto.
    assert (Hl : In j l) by (eapply Permutation_in; [symmetry; exact P|apply In_seq0; auto]).
    rewrite <- (firstn_skipn mk l) in Hl. apply in_app_iff in Hl as [Hl|Hl]; auto.
    exfalso. apply Hn. eapply Permutation_in; [symmetry; exact PI|auto].
Qed.

Lemma brute_undefined q k (m : metric T) : k = 0 \/ N = 0 -> brute_knn alg q sp k m = Ub UbIndex.
Proof.
  intros H. unfold brute_knn. change (sp_size sp) with N. replace (Nat.min k N) with 0 by lia. reflexivity.
Qed.

Variables (feq fle : T -> T -> bool) (c15 : T).
Hypothesis HFE : forall x y, (val x == val y)%Q -> feq x y = true.
Hypothesis HFL : forall x y, (val x <= val y)%Q -> fle x y = true.
Hypothesis HC : (val c15 == 3 # 2)%Q.
Variables (it : index_type) (fuel : nat) (stop : stop_condition) (bnds : start_bounds T) (ru : rule)
  (tree : kd_tree T).
Hypothesis HM : kd_tree_make alg it (metric_of em) fuel sp stop bnds ru = Ok tree.
Hypothesis FL : field_laws S val.

Lemma scale_one : (1 <= val (m_app (metric_of em) c15))%Q.
Proof.
  destruct em; cbn; unfold squared; rewrite ?(el_abs _ _ EL), ?(el_mul _ _ EL), ?HC; cbn; lra.
Qed.

Lemma tree_metric : kt_metric tree = metric_of em.
Proof.
  pose proof HM as H. apply kd_tree_make_inv in H as (data & -> & _). reflexivity.
Qed.

Lemma oracle_knn q k : usable val em sp bnds q -> distances_fit val em sp q -> 0 < k ->
  test_knn feq fle c15 alg tree k q = Ok true.
Proof.
  intros US FIT Hk. unfold test_knn, knn_expectations.
  pose proof (size_pos em sp alg it fuel stop bnds ru tree HM) as HN.
  rewrite tree_metric, (tree_space em sp alg it fuel stop bnds ru tree HM).
  destruct (top_knn val EL em sp alg SL it fuel stop bnds ru tree q HM US FIT k [] Hk) as (ex & -> & A1).
  destruct (top_approx_knn val EL em sp alg SL it fuel stop bnds ru tree q HM US FIT _ k [] FL scale_one Hk)
    as (ap & -> & La & _ & _ & G & B).
  destruct (brute_answer bnds q k US Hk HN) as (cm & -> & A2).
  destruct (brute_answer bnds q N US HN HN) as (F & _ & AF).
  cbn [bind].
  assert (L1 : length ex = Nat.min k N) by (pose proof (ka_length _ _ _ _ A1) as H; unfold answers in H; rewrite map_length in H; auto).
  assert (L2 : length cm = Nat.min k N) by (pose proof (ka_length _ _ _ _ A2) as H; unfold answers in H; rewrite map_length in H; auto).
  rewrite L1, L2, La, Nat.eqb_refl, Nat.leb_refl. cbn [guard bind]. f_equal. apply andb_true_iff. split.
  - pose proof (knn_answer_unique _ _ _ _ _ A1 A2) as H. unfold answers in H. rewrite !map_map in H. cbn in H.
    clear - H HFE. revert cm H. induction ex as [|x ex IH]; intros [|y cm] H; auto.
    cbn in *. inversion H; subst. rewrite HFE; auto. cbn. apply IH; auto.
  - pose proof (knn_answer_unique _ _ _ _ _ A1 (full_prefix _ k _ _ AF)) as H.
    pose proof (full_distances _ _ _ AF) as SD.
    apply forallb_forall. intros [a e] Hae. apply HFL.
    apply In_nth_error in Hae as (p & Hp).
    assert (Hc : nth_error ap p = Some a /\ nth_error ex p = Some e).
    { clear - Hp. revert ex p Hp. induction ap as [|x ap IH]; intros [|y ex] [|p] Hp; cbn in *; try discriminate; auto.
      inversion Hp; auto. }
    destruct Hc as [Ha He]. specialize (B _ p a SD Ha).
    destruct (G a (nth_error_In _ _ Ha)) as [_ Ga]. rewrite Ga.
    assert (Ee : (val (n_distance e) == nth p (map (fun x => dist_to val em sp q (fst x)) (answers val F)) 0)%Q).
    { assert (Lp : p < Nat.min k N) by (rewrite <- L1; apply nth_error_Some; congruence).
      assert (Ex : nth_error (map snd (answers val ex)) p = Some (val (n_distance e))).
      { unfold answers. rewrite map_map. cbn. rewrite nth_error_map, He. reflexivity. }
      assert (LF : length (answers val F) = N) by (rewrite (ka_length _ _ _ _ AF); lia).
      destruct (nth_error (answers val F) p) as [[i d]|] eqn:EF; [|apply nth_error_None in EF; lia].
      assert (Ef : nth_error (map snd (firstn k (answers val F))) p = Some d).
      { rewrite nth_error_map. replace (nth_error (firstn k (answers val F)) p) with (Some (i, d)); [reflexivity|].
        rewrite <- EF. clear - Lp. assert (p < k) by lia. clear Lp. revert k p H.
        induction (answers val F) as [|x l IH]; intros [|k] [|p] H; cbn; try lia; auto. apply IH. lia. }
      rewrite (nth_error_nth _ _ _ (map_nth_error (fun x => dist_to val em sp q (fst x)) _ _ EF)).
      cbn. destruct (ka_genuine _ _ _ _ AF i d (nth_error_In _ _ EF)) as [_ <-].
      clear - H Ex Ef. revert p Ex Ef. induction H as [|x y l l' Hxy _ IH]; intros [|p] Ex Ef; cbn in *; try discriminate.
      - congruence.
      - eauto. }
    rewrite Ee. pose proof scale_one as S1. apply Qle_shift_div_r; [lra|]. rewrite Qmult_comm. exact B.
Qed.

(** What passing says about any results. *)
Lemma knn_passes q k ex ap cm : (forall x y, feq x y = true -> (val x == val y)%Q) ->
  usable val em sp bnds q -> 0 < k -> brute_knn alg q sp k (metric_of em) = Ok cm ->
  knn_expectations feq fle ex ap cm = Ok true ->
  forall ans, knn_answer N k (dist_to val em sp q) ans ->
  Forall2 Qeq (map (fun x => val (n_distance x)) ex) (map snd ans).
Proof.
  intros FE US Hk EB HK ans A.
  assert (HN : 0 < N).
  { destruct (Nat.eq_0_gt_0_cases N) as [Z|]; auto. unfold brute_knn in EB. change (sp_size sp) with N in EB.
    rewrite Z, Nat.min_0_r in EB. discriminate. }
  destruct (brute_answer bnds q k US Hk HN) as (cm' & EB' & A2).
  rewrite EB in EB'. injection EB' as <-.
  pose proof (knn_answer_unique _ _ _ _ _ A2 A) as U. unfold answers in U. rewrite map_map in U. cbn in U.
  unfold knn_expectations in HK. destruct (length cm =? length ex) eqn:L; [|discriminate].
  apply Nat.eqb_eq in L. destruct (length cm <=? length ap); [|discriminate]. cbn [guard bind] in HK.
  assert (HK' : forallb (fun '(e, c) => feq (n_distance e) (n_distance c)) (combine ex cm) = true).
  { injection HK as HK. apply andb_true_iff in HK. apply HK. }
  clear - FE U L HK'. revert cm L HK' U. generalize (map snd ans). clear ans.
  induction ex as [|x ex IH]; intros l [|y cm] L HK U; cbn in *; try discriminate; inversion U; subst; constructor.
  - apply andb_true_iff in HK as [HK _]. rewrite (FE _ _ HK). auto.
  - apply andb_true_iff in HK as [_ HK]. apply (IH l' cm); auto.
Qed.

Lemma filter_length_lt {A} (f g : A -> bool) l : (forall x, In x l -> f x = true -> g x = true) ->
  length (filter f l) <= length (filter g l)
  /\ (length (filter g l) = length (filter f l) <-> forall x, In x l -> g x = true -> f x = true).
Proof.
  induction l as [|x l IH]; intros H; [cbn; split; [lia|split; [tauto|reflexivity]]|].
  destruct IH as [I1 I2]; [intros y Hy; apply H; right; auto|].
  cbn. specialize (H x (or_introl eq_refl)). destruct (f x) eqn:Ef.
  - rewrite (H eq_refl). cbn. split; [lia|]. split.
    + intros E y [<-|Hy] Hg; auto. apply I2; auto.
    + intros K. f_equal. apply I2. auto.
  - destruct (g x) eqn:Eg; cbn; split; try lia.
    + split; [lia|]. intros K. rewrite (K x) in Ef; [discriminate|auto|auto].
    + split.
      * intros E y [<-|Hy] Hg; [congruence|]. apply I2; auto.
      * intros K. apply I2. auto.
Qed.

Lemma oracle_radius r : let q := sp_at sp (Nat.div N 2) in usable val em sp bnds q ->
  exists b, test_radius feq c15 alg tree r = Ok b
  /\ (b = true <-> forall i, i < N -> ~ (dist_to val em sp q i == val (m_app (metric_of em) r))%Q).
Proof.
  intros q US. unfold test_radius, radius_expectations.
  pose proof (size_pos em sp alg it fuel stop bnds ru tree HM) as HN.
  rewrite tree_metric, (tree_space em sp alg it fuel stop bnds ru tree HM).
  change (sp_size sp) with N. fold q. set (R := m_app (metric_of em) r).
  assert (H2 : N / 2 < N) by (apply Nat.div_lt; lia).
  replace (in_space sp (N / 2)) with true by (symmetry; unfold in_space; apply Nat.ltb_lt; exact H2). cbn [guard bind].
  destruct (top_radius val EL em sp alg SL it fuel stop bnds ru tree q HM US R false) as (ex & -> & A1 & _).
  destruct (top_approx_radius val EL em sp alg SL it fuel stop bnds ru tree q HM US _ R false FL scale_one)
    as (ap & -> & ND & G & _ & _).
  cbn [bind].
  assert (Gx : forall x, In x ex -> n_index x < N /\ (dist_to val em sp q (n_index x) < val R)%Q
      /\ (val (n_distance x) == dist_to val em sp q (n_index x))%Q).
  { intros x Hx. apply (fa_genuine _ _ _ _ A1). unfold answers.
    apply (in_map (fun x => (n_index x, val (n_distance x)))) in Hx. auto. }
  assert (DE : forall i, i < N -> (val (m_dist (metric_of em) q (sp_at sp i)) == dist_to val em sp q i)%Q)
    by (intros i Hi; apply (dist_eq val EL em sp 0 bnds q US); auto).
  replace (forallb (fun r0 => in_space sp (n_index r0)) (ex ++ ap)) with true.
  2:{ symmetry. apply forallb_forall. intros x Hx. unfold in_space. apply Nat.ltb_lt.
      apply in_app_iff in Hx as [Hx|Hx]; [apply (Gx x Hx)|apply (G x Hx)]. }
  cbn [guard bind]. eexists. split; [reflexivity|].
  set (g := fun j => s_leb (m_dist (metric_of em) q (sp_at sp j)) R).
  set (f := fun j => s_ltb (m_dist (metric_of em) q (sp_at sp j)) R).
  match goal with |- (?a && ?b && ?c && ?d = true <-> _) =>
    assert (Ea : a = true); [|assert (Eb : b = true); [|rewrite Ea, Eb; cbn [andb]]] end.
  { apply forallb_forall. intros x Hx. destruct (Gx x Hx) as (I & Lt & E). pose proof (DE _ I).
    unfold expect_eq. rewrite !andb_true_iff, !(el_le _ _ EL). repeat split; lra. }
  { apply forallb_forall. intros x Hx. destruct (G x Hx) as (I & Lt & E). pose proof (DE _ I).
    rewrite andb_true_iff, (el_le _ _ EL). split; [lra|]. apply HFE. rewrite (el_mul _ _ EL), E, H.
    pose proof scale_one. field. lra. }
  assert (Lf : length ex = length (filter f (seq 0 N))).
  { assert (P : Permutation (map fst (answers val ex)) (filter f (seq 0 N))).
    { apply NoDup_Permutation; [apply (fa_nodup _ _ _ _ A1)|apply NoDup_filter, seq_NoDup|].
      intros i. rewrite filter_In, In_seq0. unfold f. rewrite (el_lt _ _ EL). split.
      - intros Hi. apply in_map_iff in Hi as ([i' d] & <- & Hi).
        destruct (fa_genuine _ _ _ _ A1 _ _ Hi) as (I & Lt & _). split; auto. rewrite DE; auto.
      - intros [I Lt]. rewrite DE in Lt by auto. apply (fa_complete _ _ _ _ A1); auto. }
    apply Permutation_length in P. unfold answers in P. rewrite !map_length in P. auto. }
  assert (La : length ap <= length (filter f (seq 0 N))).
  { rewrite <- (map_length n_index). apply NoDup_incl_length; auto. intros i Hi.
    apply in_map_iff in Hi as (x & <- & Hx). destruct (G x Hx) as (I & Lt & _).
    rewrite filter_In, In_seq0. split; auto. unfold f. rewrite (el_lt _ _ EL), DE; auto. }
  destruct (filter_length_lt f g (seq 0 N)) as [F1 F2].
  { intros i _. unfold f, g. rewrite (el_lt _ _ EL), (el_le _ _ EL). intros; lra. }
  rewrite Lf, andb_true_iff, Nat.eqb_eq, Nat.leb_le, F2. split.
  - intros [K _] i Hi Ei. specialize (K i). rewrite In_seq0 in K. specialize (K Hi).
    unfold f, g in K. rewrite (el_lt _ _ EL), (el_le _ _ EL), DE in K by auto. lra.
  - intros K. split; [|lia]. intros i Hi. rewrite In_seq0 in Hi. unfold f, g.
    rewrite (el_lt _ _ EL), (el_le _ _ EL), DE by auto. specialize (K i Hi). intros Hle.
    apply Qle_lteq in Hle as [|]; auto. tauto.
Qed.

Lemma radius_passes q R ex ap e : usable val em sp bnds q -> NoDup (map n_index ex) ->
  radius_expectations feq sp (metric_of em) q R e ex ap = Ok true ->
  filter_answer N (fun i => (dist_to val em sp q i <= val R)%Q) (dist_to val em sp q) (answers val ex).
Proof.
  intros US ND H. unfold radius_expectations in H. change (sp_size sp) with N in H.
  assert (DE : forall i, i < N -> (val (m_dist (metric_of em) q (sp_at sp i)) == dist_to val em sp q i)%Q)
    by (intros i Hi; apply (dist_eq val EL em sp 0 bnds q US); auto).
  destruct (forallb (fun r => in_space sp (n_index r)) (ex ++ ap)) eqn:G; [|discriminate]. cbn [guard bind] in H.
  injection H as H. rewrite !andb_true_iff in H. destruct H as [[[H1 _] H2] _].
  apply Nat.eqb_eq in H2. rewrite forallb_forall in H1, G.
  assert (X : forall x, In x ex -> n_index x < N /\ (dist_to val em sp q (n_index x) <= val R)%Q
      /\ (val (n_distance x) == dist_to val em sp q (n_index x))%Q).
  { intros x Hx. assert (I : n_index x < N) by (apply Nat.ltb_lt, (G x), in_app_iff; auto).
    specialize (H1 x Hx). unfold expect_eq in H1. rewrite !andb_true_iff, !(el_le _ _ EL), !DE in H1 by auto.
    split; auto. split; [tauto|]. lra. }
  assert (MF : map fst (answers val ex) = map n_index ex) by (unfold answers; rewrite map_map; reflexivity).
  constructor.
  - rewrite MF. auto.
  - intros i d Hi. apply in_map_iff in Hi as (x & E & Hx). injection E as <- <-. apply X; auto.
  - intros i Hi Hd. rewrite MF.
    apply (NoDup_length_incl ND (l' := filter (fun j => s_leb (m_dist (metric_of em) q (sp_at sp j)) R) (seq 0 N))).
    + rewrite map_length. lia.
    + intros j Hj. apply in_map_iff in Hj as (x & <- & Hx). destruct (X x Hx) as (I & Le & _).
      apply filter_In. split; [apply In_seq0; auto|]. rewrite (el_le _ _ EL), DE; auto.
    + apply filter_In. split; [apply In_seq0; auto|]. rewrite (el_le _ _ EL), DE; auto.
Qed.
End Oracle.

(** Boxes need an order only. *)
Section BoxOracle.
Context {T : Type} {S : Scalar T} (ok : T -> Prop) (OL : ord_laws S ok).
Context (sp : space T) (WF : wf_space sp) (OKS : all_coords ok sp) (alg : std_algos) (SL : std_laws alg).

Lemma forall_ok_point (l : list T) : Forall ok l -> ok_point ok (length l) l.
Proof. intros F d Hd. rewrite Forall_forall in F. apply F. apply nth_In. auto. Qed.

Lemma contains_inside a b i : length a = sp_sdim sp -> length b = sp_sdim sp -> Forall ok a -> Forall ok b ->
  i < npts sp -> (box_contains (Box a b) (sp_at sp i) = true <-> inside a b (nth i (sp_pts sp) [])).
Proof.
  intros La Lb Fa Fb Hi.
  assert (Oa : ok_point ok (sp_sdim sp) a) by (rewrite <- La; apply forall_ok_point; auto).
  assert (Ob : ok_point ok (sp_sdim sp) b) by (rewrite <- Lb; apply forall_ok_point; auto).
  assert (Ox : ok_point ok (sp_sdim sp) (sp_at sp i))
    by (apply (ok_point_at ok sp WF OKS); apply in_space_lt; auto).
  rewrite (box_contains_iff ok OL sp a b La Oa Ob _ Ox). unfold inside, in_box. rewrite La. reflexivity.
Qed.

Lemma contains_each_val m b (f : nat -> bool) l :
  (forall i, In i l -> query_contains m b (m_cat m) (sp_at sp i) = Ok (f i)) ->
  contains_each m sp b l = Ok (map f l).
Proof.
  induction l as [|j l IH]; intros H; auto. cbn. rewrite (H j) by (left; auto). cbn.
  rewrite IH by (intros; apply H; right; auto). reflexivity.
Qed.

Lemma filter_map_length (f : nat -> bool) l : length (filter (fun c => c) (map f l)) = length (filter f l).
Proof. induction l as [|x l IH]; auto. cbn. destruct (f x); cbn; auto. Qed.
Lemma forallb_map_id (f : nat -> bool) l : forallb (fun c => c) (map f l) = forallb f l.
Proof. induction l as [|x l IH]; auto. cbn. rewrite IH. auto. Qed.

(** What passing says about any indices. *)
Lemma box_passes_gen m a b idxs (f : nat -> bool) (P : nat -> Prop) : NoDup idxs ->
  (forall i, i < npts sp -> query_contains m (Box a b) (m_cat m) (sp_at sp i) = Ok (f i)) ->
  (forall i, i < npts sp -> (f i = true <-> P i)) ->
  (box_expectations m sp a b idxs = Ok true <-> index_answer (npts sp) P idxs).
Proof.
  intros ND HQ C. unfold box_expectations.
  change (sp_size sp) with (npts sp).
  assert (EA : contains_each m sp (Box a b) (seq 0 (npts sp)) = Ok (map f (seq 0 (npts sp)))).
  { apply contains_each_val. intros i Hi. apply HQ, In_seq0. auto. }
  split.
  - destruct (forallb (in_space sp) idxs) eqn:G; [|discriminate]. cbn [guard bind].
    rewrite forallb_forall in G.
    assert (B : forall i, In i idxs -> i < npts sp) by (intros i Hi; apply Nat.ltb_lt, G; auto).
    rewrite (contains_each_val m (Box a b) f idxs) by auto. rewrite EA. cbn [bind].
    rewrite forallb_map_id, filter_map_length. intros H.
    assert (H' : forallb f idxs && (length (filter f (seq 0 (npts sp))) =? length idxs) = true) by congruence.
    apply andb_true_iff in H' as [H1 H2]. rewrite forallb_forall in H1. apply Nat.eqb_eq in H2.
    split; auto. intros i. split.
    + intros Hi. split; auto. apply C; auto.
    + intros [Hi HI]. apply C in HI; auto.
      apply (NoDup_length_incl ND (l' := filter f (seq 0 (npts sp)))); [lia| |].
      * intros j Hj. apply filter_In. split; auto. apply In_seq0. auto.
      * apply filter_In. split; auto. apply In_seq0. auto.
  - intros [_ A].
    assert (B : forall i, In i idxs -> i < npts sp) by (intros i Hi; apply A; auto).
    replace (forallb (in_space sp) idxs) with true.
    2:{ symmetry. apply forallb_forall. intros i Hi. apply Nat.ltb_lt. exact (B i Hi). }
    cbn [guard bind]. rewrite (contains_each_val m (Box a b) f idxs) by auto. rewrite EA. cbn [bind].
    rewrite forallb_map_id, filter_map_length. f_equal. apply andb_true_iff. split.
    + apply forallb_forall. intros i Hi. apply A in Hi as [Hi HI]. apply C; auto.
    + apply Nat.eqb_eq. apply Permutation_length. apply NoDup_Permutation; auto; [apply NoDup_filter, seq_NoDup|].
      intros i. rewrite filter_In, In_seq0, A. split; intros [Hi HI]; split; auto; apply C; auto.
Qed.

Lemma box_passes m a b idxs : m_cat m = Euclidean ->
  length a = sp_sdim sp -> length b = sp_sdim sp -> Forall ok a -> Forall ok b -> NoDup idxs ->
  (box_expectations m sp a b idxs = Ok true
   <-> index_answer (npts sp) (fun i => inside a b (nth i (sp_pts sp) [])) idxs).
Proof.
  intros HE La Lb Fa Fb ND.
  apply (box_passes_gen m a b idxs (fun j => box_contains (Box a b) (sp_at sp j))); auto.
  - intros i _. rewrite HE. reflexivity.
  - intros i Hi. apply contains_inside; auto.
Qed.

Lemma box_passes_topological m a b idxs : m_cat m = Topological ->
  length a = sp_sdim sp -> length b = sp_sdim sp -> Forall ok a -> Forall ok b ->
  (forall d, d < sp_sdim sp -> m_dim_space m d = R1 -> s_leb (get a d) (get b d) = true) -> NoDup idxs ->
  (box_expectations m sp a b idxs = Ok true
   <-> index_answer (npts sp) (fun i => inside_topological (m_dim_space m) a b (nth i (sp_pts sp) [])) idxs).
Proof.
  intros HE La Lb Fa Fb HR ND.
  apply (box_passes_gen m a b idxs (fun j => thit sp m a b (sp_at sp j))); auto.
  - intros i _. rewrite HE. apply (mbox_contains_val sp m a b); auto.
  - intros i Hi.
    assert (Ox : ok_point ok (sp_sdim sp) (sp_at sp i))
      by (apply (ok_point_at ok sp WF OKS); apply in_space_lt; auto).
    rewrite (thit_inside ok sp m a b); auto. reflexivity.
Qed.

Section Trees.
Context (m : metric T) (it : index_type) (fuel : nat) (stop : stop_condition) (bnds : start_bounds T) (ru : rule)
  (tree : kd_tree T) (mn mx : T).
Hypothesis HM : kd_tree_make alg it m fuel sp stop bnds ru = Ok tree.
Hypotheses (BC : bounds_coords ok sp bnds) (BE : bounds_enclose sp bnds) (Omn : ok mn) (Omx : ok mx).

Lemma fill_length (x : T) : length (tab (sp_sdim sp) (fun _ => x)) = sp_sdim sp.
Proof. unfold tab. rewrite map_length, seq_length. auto. Qed.
Lemma fill_ok x : ok x -> Forall ok (tab (sp_sdim sp) (fun _ => x)).
Proof. intros. apply Forall_map, Forall_forall. auto. Qed.
Lemma fill_get x d : d < sp_sdim sp -> get (tab (sp_sdim sp) (fun _ => x)) d = x.
Proof.
  intros Hd. unfold get, tab. rewrite (nth_indep _ _ x) by (rewrite map_length, seq_length; auto).
  exact (map_nth (fun _ => x) (seq 0 (sp_sdim sp)) 0 d).
Qed.

Lemma oracle_box : (ru = midpoint_max_side -> mid_ok S ok) -> m_cat m = Euclidean ->
  test_box tree mn mx = Ok true.
Proof.
  intros HR HE. unfold test_box.
  pose proof HM as H. apply kd_tree_make_inv in H as (data & -> & _). cbn [kt_space kt_metric].
  destruct (search_box_euclidean ok OL sp WF OKS alg SL m it fuel stop bnds ru _ _ _ HM BC BE
    (fill_length mn) (fill_length mx) (fill_ok mn Omn) (fill_ok mx Omx) HR HE) as (ans & -> & A).
  cbn [bind]. apply box_passes; auto using fill_length, fill_ok. apply A.
Qed.

Lemma oracle_box_topological : ok_finite S ok ->
  (ru = midpoint_max_side -> mid_ok S ok /\ mid_between S ok) -> m_cat m = Topological ->
  ((exists d, d < sp_sdim sp /\ m_dim_space m d = R1) -> s_leb mn mx = true) ->
  test_box tree mn mx = Ok true.
Proof.
  intros FIN HR HE HL. unfold test_box.
  pose proof HM as H. apply kd_tree_make_inv in H as (data & -> & _). cbn [kt_space kt_metric].
  assert (HL' : forall d, d < sp_sdim sp -> m_dim_space m d = R1 ->
    s_leb (get (tab (sp_sdim sp) (fun _ => mn)) d) (get (tab (sp_sdim sp) (fun _ => mx)) d) = true).
  { intros d Hd E. rewrite !fill_get by auto. eauto. }
  destruct (search_box_topological ok OL sp WF OKS alg SL m it fuel stop bnds ru _ _ _ HM BC BE
    (fill_length mn) (fill_length mx) (fill_ok mn Omn) (fill_ok mx Omx) FIN HR HE HL') as (ans & -> & A).
  cbn [bind]. apply box_passes_topological; auto using fill_length, fill_ok. apply A.
Qed.
End Trees.
End BoxOracle.
