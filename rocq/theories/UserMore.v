(** Searches with user-defined metrics and visitors. *)
From Coq Require Import List ZArith QArith Qabs Qminmax Bool Arith Permutation Sorted Lia Lqa.
From Verif Require Import Base ModelBox ModelBuild ModelSearch Spec Lemmas Instances
  BuildProofs BuildOrder BuildShape BuildThms SearchProofs SearchThms Metrics Visitors QueryThms BoxThms
  TopThms MetricThms UserThms.
Import ListNotations.
Local Open Scope nat_scope.

Section Approx.
Context {T : Type} {S : Scalar T} (val : T -> Q) (EL : exact_laws S val).
Variables (m : metric T) (t : nat -> Q -> Q -> Q) (sp : space T) (alg : std_algos) (SL : std_laws alg)
  (it : index_type) (fuel : nat) (stop : stop_condition) (bnds : start_bounds T) (ru : rule)
  (tree : kd_tree T) (q : list T).
Hypotheses (HM : kd_tree_make alg it m fuel sp stop bnds ru = Ok tree)
  (MF : metric_fits val m t sp bnds q).
Let N := npts sp.
Let D := metric_to val m sp q.
Let low : forall i, i < N -> (D_low val t sp q i == D i)%Q := user_low val m t sp bnds q MF.

Lemma user_approx_radius e r sort : field_laws S val -> (1 <= val e)%Q ->
  exists l, search_radius_approx alg tree q r e sort = Ok l
  /\ NoDup (map n_index l)
  /\ (forall x, In x l -> n_index x < N /\ (D (n_index x) < val r)%Q
         /\ (val (n_distance x) == D (n_index x) / val e)%Q)
  /\ (forall i, i < N -> (D i < val r)%Q -> (D i <= val r / val e)%Q -> In i (map n_index l))
  /\ (sort = true -> StronglySorted Qle (map (fun x => val (n_distance x)) l)).
Proof.
  intros FL E1.
  destruct (radius_approx val EL sp (mf_space _ _ _ _ _ _ MF) (mf_range _ _ _ _ _ _ MF) m alg SL
    t (mf_terms _ _ _ _ _ _ MF) it fuel stop bnds ru tree q HM (mf_points _ _ _ _ _ _ MF)
    (mf_bounds _ _ _ _ _ _ MF) (mf_query _ _ _ _ _ _ MF) (mf_query_ok _ _ _ _ _ _ MF) low FL e E1 r)
    as (l & E & A & B & C).
  unfold search_radius_approx. rewrite E. cbn [bind]. eexists. split; [reflexivity|].
  destruct sort; [|split; [auto|split; [auto|split; [auto|discriminate]]]].
  destruct (sort_result (fun _ => True) (exact_ord val EL) alg SL l) as [P St]; auto.
  assert (P2 := Permutation_map (fun x : neighbor T => n_index x) P).
  split; [eapply Permutation_NoDup; [symmetry; exact P2|auto]|].
  split; [intros x Hx; apply B; eapply Permutation_in; eauto|].
  split; [intros i Hi H1 H2; eapply Permutation_in; [symmetry; exact P2|]; apply C; auto|].
  intros _. clear P P2. induction St as [|a m' St IH F]; simpl; constructor; auto.
  rewrite Forall_map. rewrite Forall_forall in *. intros b Hb. apply (leb_val val EL). auto.
Qed.

Hypothesis FIT : forall i, i < N -> (D i < val s_max)%Q.

Lemma user_approx_nn e nn0 : field_laws S val -> (1 <= val e)%Q ->
  exists i d, search_nn_approx tree q e nn0 = Ok (Neighbor i d)
  /\ i < N /\ (val d == D i / val e)%Q /\ forall j, j < N -> (D i <= val e * D j)%Q.
Proof.
  intros FL E1.
  exact (nn_approx val EL sp (mf_space _ _ _ _ _ _ MF) (mf_range _ _ _ _ _ _ MF) m alg SL
    t (mf_terms _ _ _ _ _ _ MF) it fuel stop bnds ru tree q HM (mf_points _ _ _ _ _ _ MF)
    (mf_bounds _ _ _ _ _ _ MF) (mf_query _ _ _ _ _ _ MF) (mf_query_ok _ _ _ _ _ _ MF) low FIT FL e E1 nn0).
Qed.

Lemma user_size : 0 < N.
Proof.
  destruct (kd_tree_make_inv _ _ _ _ _ _ _ _ _ HM) as (data & _ & HB).
  apply build_inv in HB as (_ & (H & _) & _). exact H.
Qed.

Lemma user_approx_knn e k knn0 : field_laws S val -> (1 <= val e)%Q -> 0 < k ->
  exists l, search_knn_approx tree q k e knn0 = Ok l
  /\ length l = Nat.min k N
  /\ NoDup (map n_index l)
  /\ StronglySorted Qle (map (fun x => val (n_distance x)) l)
  /\ (forall x, In x l -> n_index x < N /\ (val (n_distance x) == D (n_index x) / val e)%Q)
  /\ (forall ds p x, sorted_distances N D ds -> nth_error l p = Some x ->
       (D (n_index x) <= val e * nth p ds 0)%Q).
Proof.
  intros FL E1 Hk. pose proof user_size as HN.
  assert (TS : kt_space tree = sp).
  { destruct (kd_tree_make_inv _ _ _ _ _ _ _ _ _ HM) as (data & Et & HB). rewrite Et. reflexivity. }
  unfold search_knn_approx, search_knn_range_approx. rewrite TS. change (sp_size sp) with N.
  destruct (knn_init_ok (vector_resize knn0 (Nat.min k N))) as (l0 & EI & L0 & M0 & _).
  { rewrite length_resize. lia. }
  rewrite length_resize in L0.
  destruct (knn_approx val EL sp (mf_space _ _ _ _ _ _ MF) (mf_range _ _ _ _ _ _ MF) m alg SL
    t (mf_terms _ _ _ _ _ _ MF) it fuel stop bnds ru tree q HM (mf_points _ _ _ _ _ _ MF)
    (mf_bounds _ _ _ _ _ _ MF) (mf_query _ _ _ _ _ _ MF) (mf_query_ok _ _ _ _ _ _ MF) low FIT FL e E1 l0)
    as (st & l & E & -> & L & L' & ND & St & G & B); [lia|auto|].
  rewrite EI. cbn [bind]. rewrite E. cbn [bind]. exists (fst st). split; auto.
  fold (npts sp) in L', ND, St, G, B. fold N in L', ND, St, G, B.
  assert (EF : firstn (Nat.min (length l0) N) (fst st) = fst st) by (apply firstn_all2; lia).
  rewrite EF in L', ND, St, G, B.
  split; [lia|]. split; auto.
Qed.

(** The counting visitor. *)
Lemma counter_fold (f : nat -> T) tr : forall nn c,
  fold_left (fun st i => v_visit visitor_nn_counter i (f i) st) tr (nn, c)
  = (fold_left (nn_step f) tr nn, c + length tr).
Proof.
  induction tr as [|i tr IH]; intros nn c; cbn [fold_left length]; [rewrite Nat.add_0_r; reflexivity|].
  cbn [v_visit visitor_nn_counter fst snd]. rewrite IH. f_equal. lia.
Qed.

Lemma user_counter nn0 : exists i d seen,
  search_nearest tree visitor_nn_counter q (visitor_nn_init nn0, 0) = Ok (Neighbor i d, length seen)
  /\ (val d == D i)%Q /\ is_nearest N D i
  /\ NoDup seen /\ incl seen (seq 0 N)
  /\ forall j, j < N -> ~ In j seen -> (D i < D j)%Q.
Proof.
  destruct (user_visitor val EL m t sp alg SL it fuel stop bnds ru tree q HM MF visitor_nn_counter (fun _ => True)
    (visitor_nn_init nn0, 0)) as (seen & rest & final & P & E & F & R); auto.
  { intros [nn c] i _ _. cbn [v_visit v_max visitor_nn_counter fst].
    destruct (s_ltb _ (n_distance nn)) eqn:L; cbn [n_distance]; [|apply Qle_refl].
    apply (el_lt _ _ EL) in L. apply Qlt_le_weak. exact L. }
  set (f := fun i => m_dist m q (nth i (sp_pts sp) [])) in *.
  rewrite (counter_fold f) in F. cbn [Nat.add] in F.
  apply perm_in_seq in P as (Ptr & Prest & Pall & ND & _).
  pose proof (nn_genuine f seen (visitor_nn_init nn0)) as G.
  pose proof (nn_minimal f (exact_ord val EL) (fun _ => I) seen (visitor_nn_init nn0) I) as (_ & _ & M).
  set (r := fold_left (nn_step f) seen (visitor_nn_init nn0)) in *. subst final. cbn [v_max visitor_nn_counter fst] in R.
  assert (M' : forall j, In j seen -> (val (n_distance r) <= D j)%Q).
  { intros j Hj. apply (leb_val val EL). apply M. exact Hj. }
  pose proof user_size as H0.
  assert (K : exists i, In i seen /\ r = as_neighbor f i).
  { destruct G as [G|G]; [|exact G]. exfalso. rewrite G in *. cbn [visitor_nn_init n_distance] in M', R.
    specialize (FIT 0 H0). destruct (Pall 0 H0) as [H|H]; [specialize (M' _ H); lra|].
    specialize (R _ H). fold D in R. lra. }
  destruct K as (i & Hi & Er). exists i, (f i), seen. rewrite E, Er. split; [reflexivity|].
  split; [reflexivity|]. rewrite Er in M', R. cbn [as_neighbor n_distance] in M', R. fold D in R.
  assert (DI : (val (f i) == D i)%Q) by reflexivity.
  assert (NEW : forall j, j < N -> ~ In j seen -> (D i < D j)%Q).
  { intros j Hj HN. destruct (Pall j Hj) as [H|H]; [contradiction|]. specialize (R j H). rewrite DI in R. exact R. }
  split; [|split; [exact ND|split; [|exact NEW]]].
  - split; [apply Ptr; exact Hi|]. intros j Hj. destruct (Pall j Hj) as [H|H].
    + specialize (M' j H). rewrite DI in M'. exact M'.
    + specialize (R j H). rewrite DI in R. apply Qlt_le_weak. exact R.
  - intros j Hj. apply in_seq. specialize (Ptr j Hj). fold N in Ptr. lia.
Qed.
End Approx.

(** * The metrics of the examples *)
Section Custom.
Context {T : Type} {S : Scalar T} (val : T -> Q) (EL : exact_laws S val).
Variables (sp : space T) (alg : std_algos) (SL : std_laws alg)
  (it : index_type) (fuel : nat) (stop : stop_condition) (bnds : start_bounds T) (ru : rule)
  (tree : kd_tree T) (q : list T).
Hypotheses (WF : wf_space sp) (REP : all_coords (representable val) sp) (LQ : length q = sp_sdim sp).
Let N := npts sp.

Section Lp.
Variable p : nat.
Hypothesis HM : kd_tree_make alg it (metric_lp_p p) fuel sp stop bnds ru = Ok tree.
Let D (i : nat) : Q := sum_dist (lp_term p) (map val q) (map val (nth i (sp_pts sp) [])).

Lemma lp_D i : i < N -> (metric_to val (metric_lp_p p) sp q i == D i)%Q.
Proof.
  intros Hi. unfold metric_to, D. cbn [m_dist metric_lp_p]. rewrite (sum_op_val val EL _ (lp_term p)); [reflexivity|].
  intros a b. rewrite (s_pow_val val EL). unfold lp_term. apply qpow_wd.
  rewrite (el_abs _ _ EL), (el_sub _ _ EL). reflexivity.
Qed.

Let MF := lp_fits val EL p sp bnds q WF REP LQ.

Lemma lp_radius r sort : exists l,
  search_radius alg tree q r sort = Ok l
  /\ filter_answer N (fun i => (D i < val r)%Q) D (answers val l)
  /\ (sort = true -> StronglySorted Qle (map (fun x => val (n_distance x)) l)).
Proof.
  destruct (user_radius val EL _ _ sp alg SL it fuel stop bnds ru tree q HM MF r sort) as (l & E & A & B).
  exists l. split; [exact E|]. split; [|exact B].
  eapply filter_answer_ext; [|intros i Hi|exact A]; [exact lp_D|]. cbn beta. rewrite lp_D by exact Hi. reflexivity.
Qed.

Hypothesis FIT : forall i, i < N -> (D i < val s_max)%Q.
Let FIT' i (Hi : i < N) : (metric_to val (metric_lp_p p) sp q i < val s_max)%Q.
Proof. rewrite lp_D by exact Hi. apply FIT. exact Hi. Qed.

Lemma lp_nn nn0 : exists i d, search_nn tree q nn0 = Ok (Neighbor i d)
  /\ (val d == D i)%Q /\ is_nearest N D i.
Proof.
  destruct (user_nn val EL _ _ sp alg SL it fuel stop bnds ru tree q HM MF FIT' nn0) as (i & d & E & V & A).
  exists i, d. split; [exact E|]. split; [rewrite V; apply lp_D, A|].
  eapply is_nearest_ext; [exact lp_D|exact A].
Qed.

Lemma lp_knn k knn0 : 0 < k ->
  exists out, search_knn tree q k knn0 = Ok out /\ knn_answer N k D (answers val out).
Proof.
  intros Hk. destruct (user_knn val EL _ _ sp alg SL it fuel stop bnds ru tree q HM MF FIT' k knn0 Hk) as (l & E & A).
  exists l. split; [exact E|]. eapply knn_answer_ext; [exact lp_D|exact A].
Qed.
End Lp.

Section Torus.
Hypothesis HM : kd_tree_make alg it metric_t2_squared fuel sp stop bnds ru = Ok tree.
Hypotheses (HP : Forall (fun x => Forall (fun c => 0 <= val c <= 1)%Q x) (sp_pts sp))
  (HQ : Forall (fun c => 0 <= val c <= 1)%Q q) (HB : bounds_coords (fun c => 0 <= val c <= 1)%Q sp bnds).
Let D (i : nat) : Q := sum_dist (fun a b => arc a b * arc a b)%Q (map val q) (map val (nth i (sp_pts sp) [])).

Lemma torus_D i : i < N -> (metric_to val metric_t2_squared sp q i == D i)%Q.
Proof.
  intros Hi. unfold metric_to, D. cbn [m_dist metric_t2_squared].
  rewrite (sum_op_val val EL _ (fun a b => arc a b * arc a b)%Q (squared_s1_distance_val val EL)). reflexivity.
Qed.

Let MF := t2_fits val EL sp bnds q WF REP LQ HP HQ HB.

Lemma torus_radius r sort : exists l,
  search_radius alg tree q r sort = Ok l
  /\ filter_answer N (fun i => (D i < val r)%Q) D (answers val l)
  /\ (sort = true -> StronglySorted Qle (map (fun x => val (n_distance x)) l)).
Proof.
  destruct (user_radius val EL _ _ sp alg SL it fuel stop bnds ru tree q HM MF r sort) as (l & E & A & B).
  exists l. split; [exact E|]. split; [|exact B].
  eapply filter_answer_ext; [|intros i Hi|exact A]; [exact torus_D|]. cbn beta. rewrite torus_D by exact Hi. reflexivity.
Qed.

Hypothesis FIT : forall i, i < N -> (D i < val s_max)%Q.
Let FIT' i (Hi : i < N) : (metric_to val metric_t2_squared sp q i < val s_max)%Q.
Proof. rewrite torus_D by exact Hi. apply FIT. exact Hi. Qed.

Lemma torus_nn nn0 : exists i d, search_nn tree q nn0 = Ok (Neighbor i d)
  /\ (val d == D i)%Q /\ is_nearest N D i.
Proof.
  destruct (user_nn val EL _ _ sp alg SL it fuel stop bnds ru tree q HM MF FIT' nn0) as (i & d & E & V & A).
  exists i, d. split; [exact E|]. split; [rewrite V; apply torus_D, A|].
  eapply is_nearest_ext; [exact torus_D|exact A].
Qed.

Lemma torus_knn k knn0 : 0 < k ->
  exists out, search_knn tree q k knn0 = Ok out /\ knn_answer N k D (answers val out).
Proof.
  intros Hk. destruct (user_knn val EL _ _ sp alg SL it fuel stop bnds ru tree q HM MF FIT' k knn0 Hk) as (l & E & A).
  exists l. split; [exact E|]. eapply knn_answer_ext; [exact torus_D|exact A].
Qed.
End Torus.
End Custom.
