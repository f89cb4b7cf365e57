(** User-defined metrics and visitors; the max norm. *)
From Coq Require Import List ZArith QArith Qabs Qminmax Bool Arith Permutation Sorted Lia Lqa.
From Verif Require Import Base ModelBox ModelBuild ModelSearch Spec Lemmas Instances
  BuildProofs BuildOrder BuildShape BuildThms SearchProofs SearchThms Metrics Visitors QueryThms BoxThms
  TopThms MetricThms.
Import ListNotations.
Local Open Scope nat_scope.

Section User.
Context {T : Type} {S : Scalar T} (val : T -> Q) (EL : exact_laws S val).
Variables (m : metric T) (t : nat -> Q -> Q -> Q) (sp : space T) (alg : std_algos) (SL : std_laws alg)
  (it : index_type) (fuel : nat) (stop : stop_condition) (bnds : start_bounds T) (ru : rule)
  (tree : kd_tree T) (q : list T).
Hypotheses (HM : kd_tree_make alg it m fuel sp stop bnds ru = Ok tree)
  (MF : metric_fits val m t sp bnds q).
Let n := sp_sdim sp.
Let N := npts sp.
Let D := metric_to val m sp q.

Lemma user_low i : i < N -> (D_low val t sp q i == D i)%Q.
Proof.
  intros Hi. unfold D, metric_to. rewrite (mf_sum _ _ _ _ _ _ MF) by (apply nth_In; auto).
  reflexivity.
Qed.

Lemma user_visitor {V} (vis : visitor T V) (Inv : V -> Prop) v0 :
  (forall st i, Inv st -> i < N -> Inv (v_visit vis i (m_dist m q (nth i (sp_pts sp) [])) st)) ->
  (forall st i, Inv st -> i < N ->
    (val (v_max vis (v_visit vis i (m_dist m q (nth i (sp_pts sp) [])) st)) <= val (v_max vis st))%Q) ->
  Inv v0 ->
  exists seen rest final,
    Permutation (seen ++ rest) (seq 0 N)
    /\ search_nearest tree vis q v0 = Ok final
    /\ final = fold_left (fun st i => v_visit vis i (m_dist m q (nth i (sp_pts sp) [])) st) seen v0
    /\ forall j, In j rest -> (val (v_max vis final) < D j)%Q.
Proof.
  intros HI HMn H0.
  destruct (search_nearest_contract val EL sp (mf_space _ _ _ _ _ _ MF) (mf_range _ _ _ _ _ _ MF) m alg SL
    vis q t Inv HI HMn it fuel stop bnds ru tree v0 HM (mf_terms _ _ _ _ _ _ MF) (mf_points _ _ _ _ _ _ MF)
    (mf_bounds _ _ _ _ _ _ MF) (mf_query _ _ _ _ _ _ MF) (mf_query_ok _ _ _ _ _ _ MF) H0)
    as (tr & rest & P & E & _ & F).
  exists tr, rest, (visits m vis sp q tr v0). split; auto. split; auto. split; [reflexivity|].
  intros j Hj. rewrite <- user_low; auto.
  apply In_seq0. eapply Permutation_in; [exact P|]. apply in_or_app; auto.
Qed.

Lemma user_radius r sort : exists l,
  search_radius alg tree q r sort = Ok l
  /\ filter_answer N (fun i => (D i < val r)%Q) D (answers val l)
  /\ (sort = true -> StronglySorted Qle (map (fun x => val (n_distance x)) l)).
Proof.
  destruct (radius_exact val EL sp (mf_space _ _ _ _ _ _ MF) (mf_range _ _ _ _ _ _ MF) m alg SL
    t (mf_terms _ _ _ _ _ _ MF) it fuel stop bnds ru tree q HM (mf_points _ _ _ _ _ _ MF)
    (mf_bounds _ _ _ _ _ _ MF) (mf_query _ _ _ _ _ _ MF) (mf_query_ok _ _ _ _ _ _ MF) user_low r)
    as (l & E & A).
  unfold search_radius. rewrite E. cbn [bind]. eexists. split; [reflexivity|].
  destruct sort; [|split; [auto|discriminate]].
  destruct (sort_result (fun _ => True) (exact_ord val EL) alg SL l) as [P St]; auto.
  split; [eapply filter_answer_perm; eauto|]. intros _.
  clear P. induction St as [|a m' St IH F]; simpl; constructor; auto.
  rewrite Forall_map. rewrite Forall_forall in *. intros b Hb. apply (leb_val val EL). auto.
Qed.

Hypothesis FIT : forall i, i < N -> (D i < val s_max)%Q.

Lemma user_nn nn0 : exists i d, search_nn tree q nn0 = Ok (Neighbor i d)
  /\ (val d == D i)%Q /\ is_nearest N D i.
Proof.
  exact (nn_exact val EL sp (mf_space _ _ _ _ _ _ MF) (mf_range _ _ _ _ _ _ MF) m alg SL
    t (mf_terms _ _ _ _ _ _ MF) it fuel stop bnds ru tree q HM (mf_points _ _ _ _ _ _ MF)
    (mf_bounds _ _ _ _ _ _ MF) (mf_query _ _ _ _ _ _ MF) (mf_query_ok _ _ _ _ _ _ MF) user_low FIT nn0).
Qed.

Lemma user_knn k knn0 : 0 < k ->
  exists out, search_knn tree q k knn0 = Ok out /\ knn_answer N k D (answers val out).
Proof.
  intros Hk.
  assert (HN : 0 < N).
  { destruct (kd_tree_make_inv _ _ _ _ _ _ _ _ _ HM) as (data & _ & HB).
    apply build_inv in HB as (_ & (H & _) & _). exact H. }
  assert (TS : kt_space tree = sp).
  { destruct (kd_tree_make_inv _ _ _ _ _ _ _ _ _ HM) as (data & Et & HB). rewrite Et. reflexivity. }
  unfold search_knn, search_knn_range. rewrite TS. fold (npts sp). change (sp_size sp) with N.
  destruct (knn_init_ok (vector_resize knn0 (Nat.min k N))) as (l0 & EI & L0 & M0 & _).
  { rewrite length_resize. lia. }
  rewrite length_resize in L0.
  destruct (knn_exact val EL sp (mf_space _ _ _ _ _ _ MF) (mf_range _ _ _ _ _ _ MF) m alg SL
    t (mf_terms _ _ _ _ _ _ MF) it fuel stop bnds ru tree q HM (mf_points _ _ _ _ _ _ MF)
    (mf_bounds _ _ _ _ _ _ MF) (mf_query _ _ _ _ _ _ MF) (mf_query_ok _ _ _ _ _ _ MF) user_low FIT l0)
    as (st & E & L & A & B); [lia|auto|].
  rewrite EI. cbn [bind]. rewrite E. cbn [bind]. exists (fst st). split; auto.
  rewrite L0 in A. fold (npts sp) in A. fold N in A.
  rewrite firstn_all2 in A by lia.
  destruct A as [A1 A2 A3 A4 A5]. constructor; auto. rewrite A1. fold (npts sp). fold N. lia.
Qed.
End User.

(** * The example metrics *)
Section Examples.
Context {T : Type} {S : Scalar T} (val : T -> Q) (EL : exact_laws S val).
Local Open Scope Q_scope.

Lemma qpow_wd x y n : x == y -> qpow x n == qpow y n.
Proof. intros E. induction n; cbn [qpow]; [reflexivity|]. rewrite IHn, E. reflexivity. Qed.
Lemma qpow_nonneg x n : 0 <= x -> 0 <= qpow x n.
Proof. intros H. induction n; cbn [qpow]; [lra|nra]. Qed.
Lemma qpow_mono x y n : 0 <= x -> x <= y -> qpow x n <= qpow y n.
Proof.
  intros H0 H. induction n; cbn [qpow]; [lra|]. pose proof (qpow_nonneg x n H0). nra.
Qed.
Lemma s_pow_val x p : val (s_pow x p) == qpow (val x) p.
Proof.
  induction p; cbn [s_pow qpow]; [apply (el_one _ _ EL)|]. rewrite (el_mul _ _ EL), IHp. reflexivity.
Qed.

Lemma lp_terms p : euclidean_terms val (metric_lp_p p) (fun _ => lp_term p).
Proof.
  constructor; cbn [m_cat m_app metric_lp_p]; auto; unfold lp_term.
  - intros. apply qpow_nonneg, Qabs_nonneg.
  - intros _ a v. rewrite s_pow_val. apply qpow_wd. rewrite (el_abs _ _ EL), (el_sub _ _ EL). apply Qabs_sym.
  - intros _ v a x H. apply qpow_mono; [apply Qabs_nonneg|]. unfold abs_diff. qabs; lra.
Qed.

Lemma term_sum_sum_op f op n x y : (forall a b, val (op a b) == f (val a) (val b)) ->
  (forall a b c d, a == b -> c == d -> f a c == f b d) ->
  length x = n -> length y = n ->
  val (sum_op op x y) == term_sum val n (fun _ => f) x y.
Proof.
  intros H W Lx Ly. rewrite (sum_op_val val EL op f H). rewrite (sum_dist_sumN _ n) by (rewrite map_length; auto).
  unfold term_sum. apply sumN_ext. intros k Hk. apply W; apply (nth_map_val val EL).
Qed.

Lemma lp_sum p n x y : length x = n -> length y = n ->
  val (m_dist (metric_lp_p p) x y) == term_sum val n (fun _ => lp_term p) x y.
Proof.
  intros Lx Ly. cbn [m_dist metric_lp_p]. apply term_sum_sum_op; auto.
  - intros a b. rewrite s_pow_val. unfold lp_term. apply qpow_wd. rewrite (el_abs _ _ EL), (el_sub _ _ EL). reflexivity.
  - intros a b c d E1 E2. unfold lp_term. apply qpow_wd. apply abs_diff_wd; auto.
Qed.

(** Everything [metric_fits] asks for, for LP^P. *)
Lemma lp_fits p (sp : space T) bnds q : wf_space sp -> all_coords (representable val) sp ->
  length q = sp_sdim sp -> metric_fits val (metric_lp_p p) (fun _ => lp_term p) sp bnds q.
Proof.
  intros WF REP LQ. constructor; auto.
  - left. apply lp_terms.
  - apply Forall_forall. intros x _ H. discriminate H.
  - destruct bnds; cbn; auto. split; intros H; discriminate H.
  - intros H; discriminate H.
  - intros x Hx. apply lp_sum; auto. destruct WF as [_ W]. rewrite Forall_forall in W. auto.
Qed.

(** The flat torus. *)
Lemma t2_sum n x y : length x = n -> length y = n ->
  circular_ok val metric_t2_squared n x -> circular_ok val metric_t2_squared n y ->
  val (m_dist metric_t2_squared x y) == term_sum val n t2_term x y.
Proof.
  intros Lx Ly Cx Cy. cbn [m_dist metric_t2_squared].
  rewrite (sum_op_val val EL _ (fun a b => arc a b * arc a b) (squared_s1_distance_val val EL)).
  rewrite (sum_dist_sumN _ n) by (rewrite map_length; auto).
  unfold term_sum. apply sumN_ext. intros k Hk. unfold t2_term, sq_circ_term.
  rewrite circ_term_eq by (auto || (apply Cx; auto) || (apply Cy; auto)).
  rewrite (arc_wd _ _ _ _ (nth_map_val val EL x k) (nth_map_val val EL y k)). reflexivity.
Qed.

Lemma t2_fits (sp : space T) bnds q : wf_space sp -> all_coords (representable val) sp ->
  length q = sp_sdim sp ->
  Forall (fun p => Forall (fun c => 0 <= val c <= 1) p) (sp_pts sp) ->
  Forall (fun c => 0 <= val c <= 1) q -> bounds_coords (fun c => 0 <= val c <= 1) sp bnds ->
  metric_fits val metric_t2_squared t2_term sp bnds q.
Proof.
  intros WF REP LQ HP HQ HB.
  assert (K : forall x, length x = sp_sdim sp -> Forall (fun c => 0 <= val c <= 1) x ->
    circular_ok val metric_t2_squared (sp_sdim sp) x).
  { intros x L F k Hk _. rewrite Forall_forall in F. apply F. apply nth_In. lia. }
  destruct WF as [W1 W2]. pose proof W2 as W3. rewrite Forall_forall in W3, HP.
  constructor; auto.
  - split; auto.
  - right. apply (t2_terms val EL).
  - apply Forall_forall. intros x Hx _. apply K; auto.
  - destruct bnds; cbn in *; auto. destruct HB as (A & B & C & E). split; intros _; apply K; auto.
  - intros _. auto.
  - intros x Hx. apply t2_sum; auto.
Qed.
End Examples.

(** * The max norm: within a factor of the dimension *)
Section Linf.
Context {T : Type} {S : Scalar T} (val : T -> Q) (EL : exact_laws S val).
Variables (sp : space T) (alg : std_algos) (SL : std_laws alg)
  (it : index_type) (fuel : nat) (stop : stop_condition) (bnds : start_bounds T) (ru : rule)
  (tree : kd_tree T) (q : list T).
Hypotheses (HM : kd_tree_make alg it metric_lpinf fuel sp stop bnds ru = Ok tree)
  (WF : wf_space sp) (REP : all_coords (representable val) sp) (LQ : length q = sp_sdim sp).
Let n := sp_sdim sp.
Let N := npts sp.
Let D (i : nat) : Q := linf_dist (map val q) (map val (nth i (sp_pts sp) [])).
Let F : Q := inject_Z (Z.of_nat n).

Lemma linf_len i : i < N -> length (nth i (sp_pts sp) []) = n.
Proof. intros Hi. destruct WF as [_ W]. rewrite Forall_forall in W. apply W. apply nth_In. auto. Qed.

Lemma linf_eq i : i < N -> (val (m_dist metric_lpinf q (sp_at sp i)) == D i)%Q.
Proof. intros Hi. apply (lpinf_val val EL). unfold sp_at. rewrite linf_len by auto. auto. Qed.

Lemma linf_low i : i < N -> (D i <= D_low val (fun _ => abs_diff) sp q i <= F * D i)%Q.
Proof.
  intros Hi. pose proof (lpinf_sum val EL n q (sp_at sp i) LQ (linf_len i Hi)) as H.
  rewrite linf_eq in H by auto. exact H.
Qed.

Lemma linf_points : Forall (point_ok val metric_lpinf n) (sp_pts sp).
Proof. apply Forall_forall. intros x _ H. discriminate H. Qed.
Lemma linf_bounds : bounds_ok val metric_lpinf n bnds.
Proof. destruct bnds; cbn; auto. split; intros H; discriminate H. Qed.
Lemma linf_query : point_ok val metric_lpinf n q.
Proof. intros H; discriminate H. Qed.

Lemma linf_factor : (1 <= F)%Q.
Proof. unfold F. destruct WF as [W _]. unfold Qle. simpl. lia. Qed.

Lemma linf_radius_raw r : exists l,
  search_nearest tree (visitor_radius r) q [] = Ok l
  /\ NoDup (map n_index l)
  /\ (forall x, In x l -> n_index x < N /\ (val (n_distance x) == D (n_index x))%Q /\ (D (n_index x) < val r)%Q)
  /\ (forall i, i < N -> (D i < val r)%Q -> (F * D i <= val r)%Q -> In i (map n_index l)).
Proof.
  destruct (query_radius val EL sp WF REP metric_lpinf alg SL (fun _ => abs_diff)
    (or_introl (lpinf_terms val EL)) it fuel stop bnds ru tree q HM linf_points linf_bounds LQ linf_query
    (fun i => m_dist metric_lpinf q (sp_at sp i)) r (visitor_radius r)) as (tr & rest & P & E & B); auto.
  eexists. split; [exact E|]. apply perm_in_seq in P as (Ptr & Prest & Pall & ND & _).
  split; [|split].
  - rewrite map_map. cbn [as_neighbor n_index]. rewrite map_id. apply NoDup_filter. auto.
  - intros x Hx. apply in_map_iff in Hx as (j & <- & Hj). apply filter_In in Hj as [Hj L].
    apply (ltb_val val EL) in L. cbn [as_neighbor n_index n_distance]. pose proof (Ptr j Hj) as HjN. rewrite linf_eq in L by auto.
    split; auto. split; auto. apply linf_eq; auto.
  - intros i Hi HR HF. rewrite map_map. cbn [as_neighbor n_index]. rewrite map_id. apply filter_In.
    destruct (Pall i Hi) as [H|H].
    + split; auto. apply (ltb_val val EL). rewrite linf_eq by auto. auto.
    + specialize (B i H). pose proof (linf_low i Hi). lra.
Qed.

Hypothesis FIT : forall i, i < N -> (F * D i < val s_max)%Q.

Lemma linf_nn nn0 : exists i d, search_nn tree q nn0 = Ok (Neighbor i d)
  /\ i < N /\ (val d == D i)%Q /\ forall j, j < N -> (D i <= F * D j)%Q.
Proof.
  destruct (query_nn val EL sp WF REP metric_lpinf alg SL (fun _ => abs_diff)
    (or_introl (lpinf_terms val EL)) it fuel stop bnds ru tree q HM linf_points linf_bounds LQ linf_query
    (fun i => m_dist metric_lpinf q (sp_at sp i)) visitor_nn (visitor_nn_init nn0))
    as (tr & rest & r & P & E & G & A & B); auto.
  apply perm_in_seq in P as (Ptr & Prest & Pall & _).
  assert (H0 : 0 < N).
  { destruct (kd_tree_make_inv _ _ _ _ _ _ _ _ _ HM) as (data & _ & HB).
    apply build_inv in HB as (_ & (H & _) & _). exact H. }
  pose proof linf_factor as F1.
  assert (D0 : forall j, (0 <= D j)%Q) by (intros; apply linf_nonneg).
  assert (DF : forall j, (D j <= F * D j)%Q) by (intros j; specialize (D0 j); nra).
  unfold search_nn. rewrite E.
  assert (K : exists i, In i tr /\ r = as_neighbor (fun i => m_dist metric_lpinf q (sp_at sp i)) i).
  { destruct G as [->|G]; auto. cbn [visitor_nn_init n_distance] in A, B. specialize (FIT 0 H0).
    destruct (Pall 0 H0) as [H|H].
    - specialize (A _ H). rewrite linf_eq in A by auto. specialize (DF 0). lra.
    - specialize (B _ H). pose proof (linf_low 0 H0). lra. }
  destruct K as (i & Hi & ->). exists i, (m_dist metric_lpinf q (sp_at sp i)).
  split; [reflexivity|]. split; [auto|]. split; [apply linf_eq; auto|].
  pose proof (linf_eq i (Ptr i Hi)) as Qi. cbn [as_neighbor n_distance] in A, B.
  intros j Hj. destruct (Pall j Hj) as [H|H].
  - specialize (A j H). rewrite Qi, linf_eq in A by auto. specialize (DF j). lra.
  - specialize (B j H). rewrite Qi in B. pose proof (linf_low j Hj). lra.
Qed.
End Linf.
