(** The Python interface, from arrays to arrays. *)
From Coq Require Import List ZArith QArith Bool Arith Sorted Lia.
From Verif Require Import Base ModelBox ModelBuild ModelSearch ModelSerial ModelPython Spec SpecSerial SpecPython
  Lemmas BuildOrder BuildThms TopThms SafeThms ExtraThms BoxThms SerialThms ParThms ParSearch PythonThms PyArrayThms.
Import ListNotations.
Local Open Scope nat_scope.

Lemma pbind_ret {A B} (r : py A) (f : A -> py B) b : pbind r f = ret b -> exists a, r = ret a /\ f a = ret b.
Proof. unfold ret. destruct r as [[e|a]|w|]; cbn; intros H; solve [discriminate H|eauto]. Qed.
Lemma lift_ret {A} (r : res A) a : lift r = ret a -> r = Ok a.
Proof. destruct r; cbn; try discriminate. intros H. injection H as ->. reflexivity. Qed.
Lemma throw_if_ret b e u : throw_if b e = ret u -> b = false.
Proof. destruct b; [discriminate|reflexivity]. Qed.
Lemma dtype_eqb_eq a b : dtype_eqb a b = true <-> a = b.
Proof. destruct a, b; cbn; split; intros; congruence. Qed.

Section Py.
Context {T : Type} {SC : Scalar T}.
Variable alg : std_algos.

Lemma bindings_euclidean (t : py_tree T) : bindings_tree t -> m_cat (kt_metric (pt_tree t)) = Euclidean.
Proof. unfold bindings_tree. intros ->. destruct (pt_metric t); reflexivity. Qed.

Lemma denotes_inner (a : ndarray T) sp : denotes a sp ->
  inner_stride a = Ok (sp_sdim sp) /\ nth (if is_row_major a then 1 else 0) (nd_shape a) 0 = sp_sdim sp
  /\ length (nd_shape a) = 2.
Proof.
  intros (r & c & Es & _ & H). unfold inner_stride. rewrite Es.
  destruct (is_row_major a); destruct H as (_ & -> & _); auto.
Qed.

Lemma make_map_ok dim (a : ndarray T) sp : points_array a sp -> (dim = None \/ dim = Some (sp_sdim sp)) ->
  make_map dim a = ret (PyArrayMap sp (is_row_major a)).
Proof.
  intros [OK CO DE] Hd. pose proof (make_map_spec dim a OK) as M. destruct (denotes_inner a sp DE) as (_ & En & E2).
  rewrite E2, CO, En in M. cbn [Nat.eqb andb] in M.
  replace (match dim with Some d => d =? sp_sdim sp | None => true end) with true in M
    by (destruct Hd as [->| ->]; [reflexivity|symmetry; apply Nat.eqb_refl]).
  destruct M as (sp' & M & D). rewrite (denotes_unique a sp sp') by auto. exact M.
Qed.

Lemma make_map_ret dim (a : ndarray T) map sp : nd_ok a -> denotes a sp -> make_map dim a = ret map ->
  map = PyArrayMap sp (is_row_major a) /\ points_array a sp.
Proof.
  intros OK DE H. pose proof (make_map_spec dim a OK) as M. rewrite H in M.
  destruct (_ && _) eqn:E; [|discriminate M]. destruct M as (sp' & M & D).
  injection M as ->. rewrite (denotes_unique a sp' sp) by auto. split; [auto|]. constructor; auto.
  apply andb_prop in E as [E _]. apply andb_prop in E as [_ E]. auto.
Qed.

Lemma skipn_repeat {A} a b (x : A) : skipn a (repeat x b) = repeat x (b - a).
Proof. revert b. induction a; intros [|b]; cbn; auto. Qed.
Lemma firstn_repeat {A} a b (x : A) : a <= b -> firstn a (repeat x b) = repeat x a.
Proof. revert b. induction a; intros [|b] H; cbn; auto; try lia. f_equal. apply IHa. lia. Qed.
Lemma cells_repeat {A} base k n (x : A) : base + k <= n -> cells base k (repeat x n) = repeat x k.
Proof. intros H. unfold cells. rewrite skipn_repeat. apply firstn_repeat. lia. Qed.

Lemma fair_rounds n N : fair n N (concat (repeat (seq 0 n) N)).
Proof.
  intros i Hi. induction N as [|N IH]; cbn [repeat concat]; [lia|]. rewrite count_occ_app.
  assert (0 < count_occ Nat.eq_dec (seq 0 n) i). { apply count_occ_In. apply in_seq. lia. } lia.
Qed.

(** * search_knn *)
Section Knn.
Variables (t : py_tree T) (Ht : bindings_tree t).
Variables (pts : ndarray T) (qs : space T) (k : nat) (e : option T) (nns : ndarray (neighbor T)).
Hypothesis OK : nd_ok pts.
Hypothesis DE : denotes pts qs.

Lemma ensure_size_spec rm nns' : ensure_size (PyArrayMap qs rm) k nns = ret nns' ->
  (nd_size nns = length (sp_pts qs) * k /\ nns' = nns)
  \/ (nd_size nns <> length (sp_pts qs) * k
      /\ nd_off nns' = 0 /\ length (nd_buf nns') = length (sp_pts qs) * k
      /\ nd_shape nns' = (if k =? 1 then [length (sp_pts qs)]
                          else if rm then [length (sp_pts qs); k] else [k; length (sp_pts qs)])
      /\ nd_strides nns' = (if is_row_major nns then c_strides (nd_shape nns') else f_strides 1 (nd_shape nns'))
      /\ nd_buf nns' = firstn (length (sp_pts qs) * k) (skipn (nd_off nns) (nd_buf nns))
           ++ repeat (Neighbor 0 s_zero) (length (sp_pts qs) * k - (length (nd_buf nns) - nd_off nns))).
Proof.
  unfold ensure_size. cbn [pm_space pm_row_major]. unfold sp_size.
  set (n := length (sp_pts qs)). destruct (Nat.eqb_spec (nd_size nns) (n * k)) as [E|E].
  { intros H. injection H as <-. auto. }
  intros H. right. split; [auto|].
  assert (G : forall shape, fold_right Nat.mul 1 shape = n * k -> nd_resize (Neighbor 0 s_zero) nns shape = ret nns' ->
    nd_off nns' = 0 /\ length (nd_buf nns') = n * k /\ nd_shape nns' = shape
    /\ nd_strides nns' = (if is_row_major nns then c_strides (nd_shape nns') else f_strides 1 (nd_shape nns'))
    /\ nd_buf nns' = firstn (n * k) (skipn (nd_off nns) (nd_buf nns))
           ++ repeat (Neighbor 0 s_zero) (n * k - (length (nd_buf nns) - nd_off nns))).
  { intros shape Ef R. unfold nd_resize in R. rewrite Ef in R.
    apply pbind_ret in R as (? & _ & R). cbv zeta in R.
    destruct (Nat.eqb_spec (n * k) (nd_size nns)); [congruence|].
    apply pbind_ret in R as (? & _ & R). injection R as <-. cbn [nd_off nd_buf nd_shape nd_strides].
    split; [auto|]. split; [rewrite app_length, firstn_length, repeat_length, skipn_length; lia|].
    split; [auto|]. split; [auto|]. f_equal. f_equal. rewrite firstn_length, skipn_length. lia. }
  destruct (Nat.eqb_spec k 1) as [->|Nk].
  - apply G in H; [|cbn; lia]. tauto.
  - apply G in H; [|destruct rm; cbn; lia]. tauto.
Qed.

Lemma ensure_size_some rm : (nd_size nns = length (sp_pts qs) * k \/ (is_contiguous nns = true /\ nd_owns nns = true)) ->
  exists nns', ensure_size (PyArrayMap qs rm) k nns = ret nns'.
Proof.
  unfold ensure_size. cbn [pm_space pm_row_major]. unfold sp_size.
  destruct (Nat.eqb_spec (nd_size nns) (length (sp_pts qs) * k)) as [E|E]; [eauto|].
  intros [|[C O]]; [contradiction|]. unfold nd_resize. rewrite C, O.
  destruct (k =? 1); [|destruct rm]; cbn [negb throw_if ret pbind bind]; destruct (_ =? nd_size nns); cbn; eauto.
Qed.

Lemma knn_into_inv sched out : py_search_knn_into sched t pts k e nns = ret out ->
  exists nns' buf, ensure_size (PyArrayMap qs (is_row_major pts)) k nns = ret nns'
    /\ par_for sched (knn_programs (pt_tree t) e (nd_off nns') k (sp_pts qs)) (nd_buf nns') = Ok buf
    /\ out = NdArray buf (nd_off nns') (nd_shape nns') (nd_strides nns') (nd_owns nns') (nd_dtype nns')
    /\ forall s, py_search_knn_into s t pts k e nns
         = (do b <- par_for s (knn_programs (pt_tree t) e (nd_off nns') k (sp_pts qs)) (nd_buf nns');
            ret (NdArray b (nd_off nns') (nd_shape nns') (nd_strides nns') (nd_owns nns') (nd_dtype nns'))).
Proof.
  intros H. unfold py_search_knn_into in *.
  apply pbind_ret in H as (u1 & E1 & H). apply pbind_ret in H as (u2 & E2 & H).
  apply pbind_ret in H as (map & E3 & H). apply pbind_ret in H as (nns' & E4 & H).
  apply pbind_ret in H as (buf & E5 & H). injection H as <-. apply lift_ret in E5.
  destruct (make_map_ret _ _ _ _ OK DE E3) as [-> _]. cbn [pm_space] in *.
  exists nns', buf. split; [auto|]. split; [auto|]. split; [auto|].
  intros s. rewrite E1, E2, E3. cbn [ret pbind bind pm_space]. rewrite E4. cbn [ret pbind bind].
  destruct (par_for s _ _); reflexivity.
Qed.

Lemma nns_fits rm nns' : (nd_size nns = length (sp_pts qs) * k -> nd_off nns + nd_size nns <= length (nd_buf nns)) ->
  ensure_size (PyArrayMap qs rm) k nns = ret nns' -> nd_off nns' + length (sp_pts qs) * k <= length (nd_buf nns').
Proof.
  intros B H. apply ensure_size_spec in H as [[E ->]|(E & -> & -> & _)]; [|lia]. specialize (B E). lia.
Qed.

(** The rows are what the searches give, whatever the schedule. *)
Lemma knn_into_spec sched out :
  (nd_size nns = length (sp_pts qs) * k -> nd_off nns + nd_size nns <= length (nd_buf nns)) ->
  py_search_knn_into sched t pts k e nns = ret out ->
  exists nns', ensure_size (PyArrayMap qs (is_row_major pts)) k nns = ret nns'
  /\ nd_off out = nd_off nns' /\ nd_shape out = nd_shape nns' /\ nd_strides out = nd_strides nns'
  /\ length (nd_buf out) = length (nd_buf nns')
  /\ (forall i q, nth_error (sp_pts qs) i = Some q ->
        range_search (pt_tree t) e q (cells (nd_off out + i * k) k (nd_buf nns'))
        = Ok (cells (nd_off out + i * k) k (nd_buf out)))
  /\ (forall a, ~ (nd_off out <= a < nd_off out + length (sp_pts qs) * k) ->
        nth_error (nd_buf out) a = nth_error (nd_buf nns') a)
  /\ (forall s, py_search_knn_into s t pts k e nns = OutOfFuel \/ py_search_knn_into s t pts k e nns = ret out)
  /\ exists N, forall s, fair (length (sp_pts qs)) N s -> py_search_knn_into s t pts k e nns = ret out.
Proof.
  intros B H. destruct (knn_into_inv sched out H) as (nns' & buf & E & F & -> & A).
  pose proof (nns_fits _ _ B E) as L. pose proof (bindings_euclidean t Ht) as C.
  exists nns'. split; [auto|]. cbn [nd_off nd_shape nd_strides nd_buf].
  destruct (knn_for_spec (pt_tree t) C e (nd_off nns') k (sp_pts qs) (nd_buf nns') L sched buf F) as (Lb & R & O).
  destruct (knn_for_again (pt_tree t) e (nd_off nns') k (sp_pts qs) (nd_buf nns') L sched buf F) as (G1 & N & G2).
  repeat (split; [solve [auto]|]). split.
  - intros s. rewrite A. destruct (G1 s) as [-> | ->]; auto.
  - exists N. intros s Hs. rewrite A, G2 by auto. reflexivity.
Qed.
End Knn.

(** search_knn(pts, k): a new array. *)
Lemma knn_spec (t : py_tree T) pts qs k e sched out : bindings_tree t -> nd_ok pts -> denotes pts qs ->
  py_search_knn sched t pts k e = ret out ->
  length (nd_buf out) = length (sp_pts qs) * k /\ nd_off out = 0
  /\ (0 < length (sp_pts qs) * k ->
        nd_shape out = (if k =? 1 then [length (sp_pts qs)]
                        else if is_row_major pts then [length (sp_pts qs); k] else [k; length (sp_pts qs)])
        /\ nd_strides out = c_strides (nd_shape out))
  /\ (forall i q, nth_error (sp_pts qs) i = Some q ->
        range_search (pt_tree t) e q (repeat (Neighbor 0 s_zero) k) = Ok (cells (i * k) k (nd_buf out)))
  /\ (forall s, py_search_knn s t pts k e = OutOfFuel \/ py_search_knn s t pts k e = ret out)
  /\ exists N, forall s, fair (length (sp_pts qs)) N s -> py_search_knn s t pts k e = ret out.
Proof.
  intros Ht OK DE H. unfold py_search_knn in *.
  destruct (knn_into_spec t Ht pts qs k e (empty_nns (neighbor_dtype (pt_dtype t))) OK DE sched out)
    as (nns' & E & Eo & Es & Et & El & R & _ & A1 & A2); [unfold empty_nns, nd_size; cbn; lia|exact H|].
  apply ensure_size_spec in E as [[Sz ->]|(Sz & Eo' & Lb & Sh & St & Bu)].
  - cbn in Sz, El, Eo. rewrite El, Eo. repeat (split; [solve [auto|lia]|]). split; [|auto].
    intros i q Hq. specialize (R i q Hq). rewrite Eo in R. cbn [Nat.add] in R.
    assert (k = 0). { assert (i < length (sp_pts qs)) by (apply nth_error_Some; congruence). destruct k; [auto|]. nia. }
    subst k. exact R.
  - rewrite El, Lb, Eo, Eo'. split; [auto|]. split; [auto|]. split.
    { intros _. rewrite Es, Et, Sh, St. rewrite Sh. cbn. auto. }
    split; [|auto]. intros i q Hq. specialize (R i q Hq). rewrite Eo, Eo' in R. cbn [Nat.add] in R. rewrite <- R. f_equal.
    cbn [empty_nns nd_off nd_buf skipn] in Bu. rewrite firstn_nil in Bu. cbn [length app] in Bu. rewrite Nat.sub_0_r in Bu.
    rewrite Bu. assert (i < length (sp_pts qs)) by (apply nth_error_Some; congruence).
    symmetry. apply cells_repeat. nia.
Qed.

(** * Making trees *)
Lemma py_make_inv fuel pts m leaf t sp : nd_ok pts -> denotes pts sp -> py_kd_tree alg fuel pts m leaf = ret t ->
  kd_tree_make alg it_int (metric_impl m) fuel sp (max_leaf_size leaf) bounds_from_space sliding_midpoint_max_side
    = Ok (pt_tree t)
  /\ pt_metric t = m /\ pt_dim t = dim_of (sp_sdim sp) /\ pt_dtype t = nd_dtype pts /\ pt_row_major t = is_row_major pts
  /\ points_array pts sp.
Proof.
  intros OK DE H. unfold py_kd_tree in H. apply pbind_ret in H as (u & E1 & H).
  destruct (denotes_inner pts sp DE) as (Ei & _ & _). rewrite Ei in H. cbn [lift bind pbind] in H.
  apply pbind_ret in H as (map & E2 & H). apply pbind_ret in H as (t' & E3 & H). injection H as <-.
  destruct (make_map_ret _ _ _ _ OK DE E2) as [-> PA]. cbn [pm_space pm_row_major] in *. apply lift_ret in E3. auto 10.
Qed.

Lemma bindings_made fuel pts m leaf t sp : nd_ok pts -> denotes pts sp -> py_kd_tree alg fuel pts m leaf = ret t ->
  bindings_tree t /\ kt_space (pt_tree t) = sp.
Proof.
  intros OK DE H. destruct (py_make_inv fuel pts m leaf t sp OK DE H) as (E & Em & _). unfold bindings_tree.
  apply kd_tree_make_inv in E as (data & -> & _). rewrite Em. auto.
Qed.

Lemma dim_of_compat n : dim_of n = None \/ dim_of n = Some n.
Proof. destruct n as [|[|[|[|n]]]]; auto. Qed.

Lemma py_make_total (ok good : T -> Prop) pts m leaf sp : ord_laws SC ok -> std_laws alg -> range_laws SC good ->
  tree_args pts sp leaf -> all_coords ok sp -> all_coords good sp ->
  exists t, forall fuel, length (sp_pts sp) <= fuel -> py_kd_tree alg fuel pts m leaf = ret t.
Proof.
  intros OL SL RL [PA DT NE DM CT LF] AO AG.
  assert (WF : wf_space sp).
  { split; [auto|]. destruct PA as [_ _ (r & c & _ & F & _)]. auto. }
  destruct (build_total_any ok OL sp WF AO alg SL good (m_cat (metric_impl m)) it_int (max_leaf_size leaf) bounds_from_space
    sliding_midpoint_max_side) as (data & HB); auto; try discriminate; try (cbn; lia); try exact I.
  { change (it_max it_int) with (2 ^ 31 - 1)%Z. unfold npts. lia. }
  exists (PyTree (KdTree sp (metric_impl m) data) m (dim_of (sp_sdim sp)) (is_row_major pts) (nd_dtype pts)).
  intros fuel Hf. unfold py_kd_tree.
  replace (is_scalar_dtype (nd_dtype pts)) with true by (destruct DT as [-> | ->]; reflexivity).
  cbn [negb throw_if ret pbind bind].
  destruct (denotes_inner pts sp (pa_denotes _ _ PA)) as (Ei & _ & _). rewrite Ei. cbn [lift bind pbind].
  rewrite (make_map_ok _ _ sp PA (dim_of_compat _)). cbn [ret pbind bind pm_space pm_row_major].
  unfold kd_tree_make. rewrite HB by auto. reflexivity.
Qed.

(** * search_radius, search_box *)
Lemma radius_into_spec (t : py_tree T) pts qs r e nns sort sched out : bindings_tree t -> nd_ok pts -> denotes pts qs ->
  py_search_radius_into alg sched t pts r e nns sort = ret out ->
  length out = length (sp_pts qs)
  /\ (forall i q, nth_error (sp_pts qs) i = Some q ->
        exists l, nth_error out i = Some l /\ radius_search alg (pt_tree t) r e sort q = Ok l)
  /\ (forall s, py_search_radius_into alg s t pts r e nns sort = OutOfFuel
        \/ py_search_radius_into alg s t pts r e nns sort = ret out)
  /\ exists N, forall s, fair (length (sp_pts qs)) N s -> py_search_radius_into alg s t pts r e nns sort = ret out.
Proof.
  intros Ht OK DE H. unfold py_search_radius_into in *. pose proof (bindings_euclidean t Ht) as C.
  apply pbind_ret in H as (u1 & E1 & H). apply pbind_ret in H as (map & E2 & H). apply lift_ret in H.
  destruct (make_map_ret _ _ _ _ OK DE E2) as [-> _]. cbn [pm_space] in *. rewrite E1, E2. cbn [ret pbind bind pm_space].
  assert (L : length (resize_vectors nns (sp_size qs)) = length (sp_pts qs)) by apply length_resize_vectors.
  destruct (radius_for_spec alg (pt_tree t) C r e sort (sp_pts qs) _ L sched out H) as (Lo & R).
  destruct (radius_for_again alg (pt_tree t) C r e sort (sp_pts qs) _ L sched out H) as (A1 & N & A2).
  split; [auto|]. split.
  { intros i q Hq. assert (Hi : i < length (sp_pts qs)) by (apply nth_error_Some; congruence).
    exists (nth i out []). split; [apply nth_error_nth'; lia|]. rewrite <- R by auto. rewrite (nth_error_nth _ _ _ Hq). auto. }
  split.
  - intros s. destruct (A1 s) as [E|E]; rewrite E; auto.
  - exists N. intros s Hs. rewrite (A2 s Hs). reflexivity.
Qed.

Lemma box_into_spec (t : py_tree T) boxes qs idx sched out : bindings_tree t -> nd_ok boxes -> denotes boxes qs ->
  py_search_box_into sched t boxes idx = ret out ->
  length (sp_pts qs) = 2 * length out
  /\ (forall i mn mx, nth_error (sp_pts qs) (2 * i) = Some mn -> nth_error (sp_pts qs) (2 * i + 1) = Some mx ->
        exists l, nth_error out i = Some l /\ search_box (pt_tree t) mn mx = Ok l)
  /\ (forall s, py_search_box_into s t boxes idx = OutOfFuel \/ py_search_box_into s t boxes idx = ret out)
  /\ exists N, forall s, fair (length out) N s -> py_search_box_into s t boxes idx = ret out.
Proof.
  intros Ht OK DE H. unfold py_search_box_into in *. pose proof (bindings_euclidean t Ht) as C.
  apply pbind_ret in H as (u1 & E1 & H). apply pbind_ret in H as (map & E2 & H).
  destruct (make_map_ret _ _ _ _ OK DE E2) as [-> _]. cbn [pm_space] in *. rewrite E1, E2. cbn [ret pbind bind pm_space].
  apply pbind_ret in H as (u2 & E3 & H). rewrite E3. apply lift_ret in H. apply throw_if_ret in E3. cbn [ret pbind bind].
  unfold sp_size in *. set (n := length (sp_pts qs) / 2) in *.
  assert (Hn : length (sp_pts qs) = n * 2).
  { destruct (Nat.eqb_spec (length (sp_pts qs) mod 2) 0) as [E|]; [|discriminate E3].
    pose proof (Nat.div_mod (length (sp_pts qs)) 2 ltac:(lia)). unfold n. lia. }
  assert (L : length (resize_vectors idx n) = n) by apply length_resize_vectors.
  destruct (box_for_spec (pt_tree t) (sp_pts qs) n _ L ltac:(lia) sched out H) as (Lo & R).
  destruct (box_for_again (pt_tree t) (sp_pts qs) n _ L ltac:(lia) sched out H) as (A1 & N & A2).
  split; [lia|]. split.
  { intros i mn mx H1 H2.
    assert (Hi : 2 * i < length (sp_pts qs)) by (apply nth_error_Some; congruence).
    exists (nth i out []). split; [apply nth_error_nth'; lia|]. rewrite <- R by lia.
    rewrite (Nat.mul_comm i 2), (nth_error_nth _ _ _ H1), (nth_error_nth _ _ _ H2). auto. }
  split.
  - intros s. destruct (A1 s) as [E|E]; rewrite E; auto.
  - exists N. intros s Hs. rewrite Lo in Hs. rewrite (A2 s Hs). reflexivity.
Qed.

(** * From arrays to arrays *)
Section Session.
Variable (val : T -> Q).
Hypothesis EL : exact_laws SC val.
Hypothesis SL : std_laws alg.
Variables (pts : ndarray T) (sp : space T) (m : metric_t) (em : exact_metric) (leaf : Z).
Hypothesis TA : tree_args pts sp leaf.
Hypothesis NO : all_coords (no_overflow val) sp.
Hypothesis EM : exact_for m em.

Lemma exact_impl : metric_impl m = metric_of em.
Proof. destruct m; cbn in EM; try contradiction; subst em; reflexivity. Qed.

Lemma tree_args_wf : wf_space sp.
Proof. destruct TA as [[_ _ (r & c & _ & F & _)] _ _ DM _ _]. split; auto. Qed.

Lemma session_tree : exists t, (forall fuel, length (sp_pts sp) <= fuel -> py_kd_tree alg fuel pts m leaf = ret t)
  /\ bindings_tree t
  /\ kd_tree_make alg it_int (metric_of em) (length (sp_pts sp)) sp (max_leaf_size leaf) bounds_from_space
       sliding_midpoint_max_side = Ok (pt_tree t)
  /\ pt_dim t = dim_of (sp_sdim sp) /\ pt_dtype t = nd_dtype pts.
Proof.
  destruct (py_make_total (fun _ => True) (no_overflow val) pts m leaf sp (exact_ord val EL) SL (exact_range val EL) TA
    (all_coords_true sp) NO) as (t & Ht).
  exists t. split; [auto|]. specialize (Ht _ (le_n _)). destruct TA as [[OK _ DE] _ _ _ _ _].
  destruct (py_make_inv _ _ _ _ _ _ OK DE Ht) as (E & _ & Ed & Et & _).
  destruct (bindings_made _ _ _ _ _ _ OK DE Ht) as [B _]. rewrite exact_impl in E. auto.
Qed.

Variables (queries : ndarray T) (qs : space T).
Hypothesis QA : query_args pts sp queries qs.

Lemma session_usable q : In q (sp_pts qs) -> usable val em sp bounds_from_space q.
Proof.
  intros Hq. constructor.
  - exact tree_args_wf.
  - eapply Forall_impl; [|exact NO]. intros p Hp. eapply Forall_impl; [|exact Hp]. intros a [H _]. exact H.
  - apply Forall_forall. intros p _. destruct m; cbn in EM; try contradiction; subst em; exact I.
  - exact I.
  - destruct QA as [[_ _ (r & c & _ & F & _)] _ Hd]. rewrite Forall_forall in F. rewrite (F q Hq). auto.
  - destruct m; cbn in EM; try contradiction; subst em; exact I.
Qed.

Lemma query_map (t : py_tree T) : pt_dim t = dim_of (sp_sdim sp) ->
  make_map (pt_dim t) queries = ret (PyArrayMap qs (is_row_major queries)).
Proof.
  intros ->. apply make_map_ok; [apply QA|]. rewrite <- (qa_dim _ _ _ _ QA). apply dim_of_compat.
Qed.

Lemma cells_row {A} (buf : list A) i k : cells (i * k) k buf = firstn k (skipn (i * k) buf).
Proof. reflexivity. Qed.

Lemma nth_error_firstn_lt {A} (l : list A) k j : j < k -> nth_error (firstn k l) j = nth_error l j.
Proof.
  revert k j. induction l as [|x l IH]; intros [|k] [|j] H; try lia; cbn; auto. apply IH. lia.
Qed.
Lemma nth_error_skipn_add {A} (l : list A) b j : nth_error (skipn b l) j = nth_error l (b + j).
Proof. revert l. induction b as [|b IH]; intros [|x l]; cbn; auto. destruct j; auto. Qed.

Lemma session_knn k : 0 < k -> (forall q, In q (sp_pts qs) -> distances_fit val em sp q) ->
  exists t, (forall fuel, length (sp_pts sp) <= fuel -> py_kd_tree alg fuel pts m leaf = ret t)
  /\ exists out N, (forall sched, fair (length (sp_pts qs)) N sched -> py_search_knn sched t queries k None = ret out)
  /\ (forall sched, py_search_knn sched t queries k None = OutOfFuel \/ py_search_knn sched t queries k None = ret out)
  /\ forall i q, nth_error (sp_pts qs) i = Some q -> exists row,
       length row = k
       /\ knn_answer (length (sp_pts sp)) k (dist_to val em sp q) (answers val (firstn (length (sp_pts sp)) row))
       /\ (k = 1 -> nd_shape out = [length (sp_pts qs)]
            /\ forall j, j < k -> nd_get out [i] = nth_error row j)
       /\ (k <> 1 -> is_row_major queries = true -> nd_shape out = [length (sp_pts qs); k]
            /\ forall j, j < k -> nd_get out [i; j] = nth_error row j)
       /\ (forall j, length (sp_pts sp) <= j -> j < k - 1 -> nth_error row j = Some (Neighbor 0 s_zero))
       /\ (length (sp_pts sp) < k -> nth_error row (k - 1) = Some (Neighbor 0 s_max)).
Proof.
  intros Hk DF. destruct session_tree as (t & Hm & B & Ht & Hd & Hy). exists t. split; [auto|].
  destruct QA as [PA Dt Dm]. pose proof PA as [OK _ DE].
  assert (HS : forall i q, nth_error (sp_pts qs) i = Some q ->
    exists row, range_search (pt_tree t) None q (repeat (Neighbor 0 s_zero) k) = Ok row /\ length row = k
    /\ knn_answer (length (sp_pts sp)) k (dist_to val em sp q) (answers val (firstn (length (sp_pts sp)) row))
    /\ (forall j, length (sp_pts sp) <= j -> j < k - 1 -> nth_error row j = Some (Neighbor 0 s_zero))
    /\ (length (sp_pts sp) < k -> nth_error row (k - 1) = Some (Neighbor 0 s_max))).
  { intros i q Hq. apply nth_error_In in Hq.
    destruct (top_knn_range val EL em sp alg SL _ _ _ _ _ _ q Ht (session_usable q Hq) (DF q Hq)
      (repeat (Neighbor 0 s_zero) k)) as (row & E & L & A & F1 & F2); [rewrite repeat_length; auto|].
    rewrite repeat_length in *. exists row. split; [auto|]. split; [auto|]. split; [auto|].
    assert (Rep : forall j, j < k -> nth_error (repeat (Neighbor 0 (s_zero (T := T))) k) j = Some (Neighbor 0 s_zero)).
    { intros j Hj. rewrite (nth_error_nth' _ (Neighbor 0 s_zero)) by (rewrite repeat_length; auto). rewrite nth_repeat. auto. }
    split.
    - intros j H1 H2. rewrite F1 by auto. apply Rep. lia.
    - intros Hn. apply (F2 Hn (Neighbor 0 s_zero)). apply Rep. lia. }
  assert (G : exists out N, forall sched, fair (length (sp_pts qs)) N sched -> py_search_knn sched t queries k None = ret out).
  { destruct (ensure_size_some qs k (empty_nns (neighbor_dtype (pt_dtype t))) (is_row_major queries)) as (nns' & En).
    { right. split; reflexivity. }
    pose proof (nns_fits qs k (empty_nns (neighbor_dtype (pt_dtype t))) (is_row_major queries) nns') as Fits.
    specialize (Fits ltac:(unfold empty_nns, nd_size; cbn; lia) En).
    assert (Cells : forall i q, nth_error (sp_pts qs) i = Some q ->
      cells (nd_off nns' + i * k) k (nd_buf nns') = repeat (Neighbor 0 s_zero) k).
    { intros i q Hq. assert (Hi : i < length (sp_pts qs)) by (apply nth_error_Some; congruence).
      apply ensure_size_spec in En as [[Sz ->]|(_ & -> & _ & _ & _ & Bu)]; [cbn in Sz; nia|].
      rewrite Bu. cbn [empty_nns nd_off nd_buf skipn length app Nat.add]. rewrite firstn_nil. cbn [app]. rewrite Nat.sub_0_r.
      apply cells_repeat. nia. }
    destruct (knn_for_defined (pt_tree t) (bindings_euclidean t B) None (nd_off nns') k (sp_pts qs) (nd_buf nns') Fits)
      as [_ (N & D)]; [|auto|].
    { intros i q Hq. rewrite (Cells i q Hq). destruct (HS i q Hq) as (row & E & _). eauto. }
    assert (Run : forall s, py_search_knn s t queries k None
      = lift (do b <- par_for s (knn_programs (pt_tree t) None (nd_off nns') k (sp_pts qs)) (nd_buf nns');
         Ok (NdArray b (nd_off nns') (nd_shape nns') (nd_strides nns') (nd_owns nns') (nd_dtype nns')))).
    { intros s. unfold py_search_knn, py_search_knn_into. rewrite Dt, <- Hy.
      change (nd_dtype (empty_nns (neighbor_dtype (pt_dtype t)))) with (neighbor_dtype (pt_dtype t)).
      rewrite !(proj2 (dtype_eqb_eq _ _) eq_refl). cbn [negb throw_if ret pbind bind].
      rewrite (query_map t Hd). cbn [ret pbind bind pm_space]. rewrite En.
      cbn [ret pbind bind]. destruct (par_for s _ _); reflexivity. }
    destruct (D (concat (repeat (seq 0 (length (sp_pts qs))) N))) as (b0 & Eb0); [apply fair_rounds|].
    exists (NdArray b0 (nd_off nns') (nd_shape nns') (nd_strides nns') (nd_owns nns') (nd_dtype nns')), N.
    intros s Hs. destruct (D s Hs) as (b & Eb). rewrite Run, Eb. cbn [bind lift]. 
    assert (b = b0) by (eapply (knn_for_unique (pt_tree t) None (nd_off nns') k); eauto). subst b. reflexivity. }
  destruct G as (out & N & Hs). exists out, N. split; [auto|].
  destruct (knn_spec t queries qs k None _ out B OK DE (Hs _ (fair_rounds _ _))) as (Lb & Eo & Sh & R & A1 & _).
  split; [auto|]. intros i q Hq. destruct (HS i q Hq) as (row & E & L & A & F1 & F2). exists row. split; [auto|]. split; [auto|].
  assert (Hi : i < length (sp_pts qs)) by (apply nth_error_Some; congruence).
  destruct (Sh ltac:(nia)) as [Es Est]. rewrite (R i q Hq) in E. injection E as E.
  assert (Row : forall j, j < k -> nth_error row j = nth_error (nd_buf out) (i * k + j)).
  { intros j Hj. rewrite <- E. unfold cells. rewrite nth_error_firstn_lt, nth_error_skipn_add by auto. auto. }
  split; [|split; [|auto]].
  - intros ->. rewrite Es. split; [auto|]. intros j Hj. rewrite Row by auto. unfold nd_get.
    assert (nd_addr out [i] = Z.of_nat (i * 1 + j)) as ->.
    { unfold nd_addr. rewrite Est, Es, Eo. cbn [Nat.eqb c_strides fold_right map combine fst snd]. lia. }
    destruct (Z.ltb_spec (Z.of_nat (i * 1 + j)) 0); [lia|]. rewrite Nat2Z.id. reflexivity.
  - intros Nk Rm. rewrite Rm in Es. destruct (Nat.eqb_spec k 1); [contradiction|]. split; [auto|]. intros j Hj.
    rewrite Row by auto. unfold nd_get. assert (nd_addr out [i; j] = Z.of_nat (i * k + j)) as ->.
    { unfold nd_addr. rewrite Est, Es, Eo. cbn [c_strides fold_right map combine fst snd]. lia. }
    destruct (Z.ltb_spec (Z.of_nat (i * k + j)) 0); [lia|]. rewrite Nat2Z.id. reflexivity.
Qed.

Lemma session_radius r sort : exists t, (forall fuel, length (sp_pts sp) <= fuel -> py_kd_tree alg fuel pts m leaf = ret t)
  /\ exists out N, (forall sched, fair (length (sp_pts qs)) N sched -> py_search_radius alg sched t queries r None sort = ret out)
  /\ (forall sched, py_search_radius alg sched t queries r None sort = OutOfFuel
        \/ py_search_radius alg sched t queries r None sort = ret out)
  /\ length out = length (sp_pts qs)
  /\ forall i q, nth_error (sp_pts qs) i = Some q -> exists l, nth_error out i = Some l
       /\ filter_answer (length (sp_pts sp)) (fun p => (dist_to val em sp q p < val r)%Q) (dist_to val em sp q) (answers val l)
       /\ (sort = true -> StronglySorted Qle (map (fun x => val (n_distance x)) l)).
Proof.
  destruct session_tree as (t & Hm & B & Ht & Hd & Hy). exists t. split; [auto|].
  destruct QA as [PA Dt Dm]. pose proof PA as [OK _ DE].
  assert (HS : forall q, In q (sp_pts qs) -> exists l, search_radius alg (pt_tree t) q r sort = Ok l
       /\ filter_answer (length (sp_pts sp)) (fun p => (dist_to val em sp q p < val r)%Q) (dist_to val em sp q) (answers val l)
       /\ (sort = true -> StronglySorted Qle (map (fun x => val (n_distance x)) l))).
  { intros q Hq. exact (top_radius val EL em sp alg SL _ _ _ _ _ _ q Ht (session_usable q Hq) r sort). }
  set (buf := resize_vectors (A := neighbor T) [] (sp_size qs)).
  assert (L : length buf = length (sp_pts qs)) by apply length_resize_vectors.
  assert (Run : forall s, py_search_radius alg s t queries r None sort
    = lift (par_for s (radius_programs alg (pt_tree t) r None sort (sp_pts qs)) buf)).
  { intros s. unfold py_search_radius, py_search_radius_into. rewrite Dt, <- Hy.
    rewrite !(proj2 (dtype_eqb_eq _ _) eq_refl). cbn [negb throw_if ret pbind bind].
    rewrite (query_map t Hd). cbn [ret pbind bind pm_space]. reflexivity. }
  destruct (radius_for_defined alg (pt_tree t) (bindings_euclidean t B) r None sort (sp_pts qs) buf L) as (N0 & D).
  { intros i Hi. destruct (HS (nth i (sp_pts qs) [])) as (l & E & _); [apply nth_In; auto|]. eauto. }
  destruct (D (concat (repeat (seq 0 (length (sp_pts qs))) N0))) as (out & Eo); [apply fair_rounds|].
  assert (Er : py_search_radius alg (concat (repeat (seq 0 (length (sp_pts qs))) N0)) t queries r None sort = ret out)
    by (rewrite Run, Eo; reflexivity).
  destruct (radius_into_spec t queries qs r None [] sort _ out B OK DE Er) as (Lo & R & A1 & N & A2).
  exists out, N. split; [auto|]. split; [auto|]. split; [auto|].
  intros i q Hq. destruct (R i q Hq) as (l & El & Es). exists l. split; [auto|].
  destruct (HS q (nth_error_In _ _ Hq)) as (l' & El' & F). cbn [radius_search] in Es. rewrite El' in Es. injection Es as <-. auto.
Qed.
End Session.

(** Box searches need only an order. *)
Lemma session_box (ok good : T -> Prop) pts sp m leaf boxes qs :
  ord_laws SC ok -> std_laws alg -> range_laws SC good ->
  tree_args pts sp leaf -> all_coords ok sp -> all_coords good sp ->
  query_args pts sp boxes qs -> all_coords ok qs -> Nat.even (length (sp_pts qs)) = true ->
  exists t, (forall fuel, length (sp_pts sp) <= fuel -> py_kd_tree alg fuel pts m leaf = ret t)
  /\ exists out N, (forall sched, fair (length out) N sched -> py_search_box sched t boxes = ret out)
  /\ (forall sched, py_search_box sched t boxes = OutOfFuel \/ py_search_box sched t boxes = ret out)
  /\ length (sp_pts qs) = 2 * length out
  /\ forall i mn mx, nth_error (sp_pts qs) (2 * i) = Some mn -> nth_error (sp_pts qs) (2 * i + 1) = Some mx ->
       exists l, nth_error out i = Some l
       /\ index_answer (length (sp_pts sp)) (fun p => inside mn mx (nth p (sp_pts sp) [])) l.
Proof.
  intros OL SL RL TA AO AG QA QO Ev.
  destruct (py_make_total ok good pts m leaf sp OL SL RL TA AO AG) as (t & Hm). exists t. split; [auto|].
  specialize (Hm _ (le_n _)). pose proof (tree_args_wf pts sp leaf TA) as WF. destruct TA as [[OKp _ DEp] _ _ _ _ _].
  destruct (py_make_inv _ _ _ _ _ _ OKp DEp Hm) as (Ht & _ & Hd & Hy & _).
  destruct (bindings_made _ _ _ _ _ _ OKp DEp Hm) as [B _]. pose proof (bindings_euclidean t B) as C.
  pose proof QA as [PA Dt Dm]. pose proof PA as [OK _ DE].
  assert (Dim : forall q, In q (sp_pts qs) -> length q = sp_sdim sp).
  { intros q Hq. destruct DE as (r & c & _ & F & _). rewrite Forall_forall in F. rewrite (F q Hq). auto. }
  assert (HS : forall mn mx, In mn (sp_pts qs) -> In mx (sp_pts qs) -> exists l, search_box (pt_tree t) mn mx = Ok l
       /\ index_answer (length (sp_pts sp)) (fun p => inside mn mx (nth p (sp_pts sp) [])) l).
  { intros mn mx H1 H2. unfold all_coords in QO. rewrite Forall_forall in QO.
    apply (search_box_euclidean ok OL sp WF AO alg SL _ _ _ _ _ _ _ mn mx Ht); auto; try exact I; try discriminate.
    destruct m; reflexivity. }
  apply Nat.even_spec in Ev as (n & En).
  set (buf := resize_vectors (A := nat) [] n).
  assert (L : length buf = n) by apply length_resize_vectors.
  assert (Run : forall s, py_search_box s t boxes = lift (par_for s (box_programs (pt_tree t) (sp_pts qs) n) buf)).
  { intros s. unfold py_search_box, py_search_box_into. rewrite Dt, <- Hy.
    rewrite !(proj2 (dtype_eqb_eq _ _) eq_refl). cbn [negb throw_if ret pbind bind].
    rewrite (query_map pts sp boxes qs QA t Hd). cbn [ret pbind bind pm_space]. unfold sp_size.
    replace (length (sp_pts qs) mod 2) with 0.
    2:{ rewrite En, Nat.mul_comm. symmetry. apply Nat.mod_mul. lia. }
    replace (length (sp_pts qs) / 2) with n. 2:{ rewrite En, Nat.mul_comm. symmetry. apply Nat.div_mul. lia. }
    reflexivity. }
  destruct (box_for_defined (pt_tree t) (sp_pts qs) n buf L ltac:(lia)) as (N0 & D).
  { intros i Hi. destruct (HS (nth (i * 2) (sp_pts qs) []) (nth (i * 2 + 1) (sp_pts qs) [])) as (l & E & _); eauto;
      apply nth_In; lia. }
  destruct (D (concat (repeat (seq 0 n) N0))) as (out & Eo); [apply fair_rounds|].
  assert (Er : py_search_box (concat (repeat (seq 0 n) N0)) t boxes = ret out) by (rewrite Run, Eo; reflexivity).
  destruct (box_into_spec t boxes qs [] _ out B OK DE Er) as (Lo & R & A1 & N & A2).
  exists out, N. split; [auto|]. split; [auto|]. split; [auto|].
  intros i mn mx H1 H2. destruct (R i mn mx H1 H2) as (l & El & Es). exists l. split; [auto|].
  destruct (HS mn mx (nth_error_In _ _ H1) (nth_error_In _ _ H2)) as (l' & El' & F). rewrite El' in Es. injection Es as <-. auto.
Qed.

(** * Files *)
Lemma header_read_write little mt rest : header_read little (Some (header_write little mt ++ rest)) = ret (mt, Some rest).
Proof. destruct little, mt; vm_compute; reflexivity. Qed.

Lemma py_load_saved (fit : T -> Prop) little (tc : codec T) pads fuel pts sp m leaf t rest :
  codec_ok tc fit -> ord_laws SC fit -> std_laws alg ->
  tree_args pts sp leaf -> all_coords fit sp -> (Z.of_nat (sp_sdim sp) < 2 ^ 31)%Z ->
  py_kd_tree alg fuel pts m leaf = ret t ->
  py_load little tc pts (py_save little tc pads t ++ rest) = ret t.
Proof.
  intros CO OL SL TA AF SD H. pose proof (tree_args_wf pts sp leaf TA) as WF. destruct TA as [PA DT NE DM CT LF].
  pose proof PA as [OK _ DE].
  destruct (py_make_inv _ _ _ _ _ _ OK DE H) as (E & Em & Ed & Ey & Er & _).
  pose proof (tree_load_save little it_int tc fit eq_refl eq_refl CO sp alg OL WF AF SL pads (metric_impl m) fuel
    (max_leaf_size leaf) bounds_from_space sliding_midpoint_max_side (pt_tree t) rest) as LS.
  specialize (LS ltac:(discriminate) I SD).
  change (it_max it_int) with (2 ^ 31 - 1)%Z in LS. specialize (LS ltac:(lia) ltac:(cbn; lia) E).
  unfold py_load, py_save. rewrite <- app_assoc, header_read_write. cbn [ret pbind bind].
  replace (is_scalar_dtype (nd_dtype pts)) with true by (destruct DT as [-> | ->]; reflexivity).
  cbn [negb throw_if ret pbind bind].
  destruct (denotes_inner pts sp DE) as (Ei & _ & _). rewrite Ei. cbn [lift bind pbind].
  rewrite (make_map_ok _ _ sp PA (dim_of_compat _)). cbn [ret pbind bind pm_space pm_row_major].
  unfold kd_tree_load in LS. rewrite Em. destruct (load_data little it_int tc (m_cat (metric_impl m)) _) as [[data s]|w|];
    cbn [bind] in LS; try discriminate LS. injection LS as LS _. cbn [lift bind pbind]. rewrite LS.
  destruct t as [t0 m0 d0 r0 y0]. cbn in *. subst. reflexivity.
Qed.

(** * Argument checks *)
Lemma tree_points fuel pts m leaf t : nd_ok pts -> py_kd_tree alg fuel pts m leaf = ret t ->
  points_array pts (kt_space (pt_tree t)) /\ pt_row_major t = is_row_major pts.
Proof.
  intros OK H. pose proof H as H0. unfold py_kd_tree in H. apply pbind_ret in H as (u & E1 & H).
  apply pbind_ret in H as (inner & E2 & H). apply pbind_ret in H as (map & E3 & H).
  pose proof (make_map_spec (dim_of inner) pts OK) as M. destruct (_ && _); [|rewrite E3 in M; discriminate M].
  destruct M as (sp & M & D). destruct (bindings_made _ _ _ _ _ _ OK D H0) as [_ ->].
  destruct (py_make_inv _ _ _ _ _ _ OK D H0) as (_ & _ & _ & _ & R & P). auto.
Qed.

Lemma tree_points_total pts m leaf fuel : nd_ok pts ->
  is_scalar_dtype (nd_dtype pts) = true -> length (nd_shape pts) = 2 -> is_contiguous pts = false ->
  py_kd_tree alg fuel pts m leaf = throw ExnInvalidArgument.
Proof.
  intros OK Dt L C. unfold py_kd_tree. rewrite Dt. cbn [negb throw_if ret pbind bind].
  unfold inner_stride, at_. destruct (nd_shape pts) as [|r [|c [|? ?]]] eqn:E; try discriminate L.
  assert (X : exists x, nth_error [r; c] (if is_row_major pts then 1 else 0) = Some x) by (destruct (is_row_major pts); cbn; eauto).
  destruct X as (x & ->). cbn [lift bind pbind]. unfold make_map. rewrite E, C. reflexivity.
Qed.

Lemma one_axis pts m leaf fuel n s :
  is_scalar_dtype (nd_dtype pts) = true -> nd_shape pts = [n] -> nd_strides pts = [s] -> is_contiguous pts = true ->
  py_kd_tree alg fuel pts m leaf = Ub UbIndex.
Proof.
  intros Dt E Es C. unfold py_kd_tree. rewrite Dt. cbn [negb throw_if ret pbind bind].
  assert (R : is_row_major pts = true).
  { unfold is_contiguous, is_row_major, is_col_major in *. rewrite E, Es in *. cbn [combine rev app] in *.
    destruct (nd_empty pts); [auto|]. destruct (contiguous_from 1 [(n, s)]); auto. }
  unfold inner_stride. rewrite R, E. reflexivity.
Qed.

Lemma many_axes pts m leaf fuel : is_scalar_dtype (nd_dtype pts) = true -> 2 < length (nd_shape pts) ->
  py_kd_tree alg fuel pts m leaf = throw ExnInvalidArgument.
Proof.
  intros Dt L. unfold py_kd_tree. rewrite Dt. cbn [negb throw_if ret pbind bind].
  unfold inner_stride, at_. destruct (nd_shape pts) as [|a [|b [|c r]]] eqn:E; cbn in L; try lia.
  assert (X : exists x, nth_error (a :: b :: c :: r) (if is_row_major pts then 1 else 0) = Some x)
    by (destruct (is_row_major pts); cbn; eauto).
  destruct X as (x & ->). cbn [lift bind pbind]. unfold make_map. rewrite E. reflexivity.
Qed.

Lemma dtype_checks (t : py_tree T) pts sched k e nns r sort vecs idx :
  (nd_dtype pts <> pt_dtype t ->
    py_search_knn_into sched t pts k e nns = throw ExnInvalidArgument
    /\ py_search_radius_into alg sched t pts r e vecs sort = throw ExnInvalidArgument
    /\ py_search_box_into sched t pts idx = throw ExnInvalidArgument)
  /\ (pt_dtype t = DtFloat32 -> nd_dtype nns <> DtNeighbor32 ->
        py_search_knn_into sched t pts k e nns = throw ExnInvalidArgument)
  /\ (pt_dtype t = DtFloat64 -> nd_dtype nns <> DtNeighbor64 ->
        py_search_knn_into sched t pts k e nns = throw ExnInvalidArgument).
Proof.
  assert (F : forall a b, a <> b -> dtype_eqb a b = false).
  { intros a b H. destruct (dtype_eqb a b) eqn:E; [|auto]. apply dtype_eqb_eq in E. contradiction. }
  split.
  - intros H. unfold py_search_knn_into, py_search_radius_into, py_search_box_into. rewrite (F _ _ H). auto.
  - split; intros E H; unfold py_search_knn_into; rewrite E; cbn [neighbor_dtype]; rewrite (F _ _ H);
      destruct (dtype_eqb (nd_dtype pts) _); reflexivity.
Qed.

(** Trees of two or three dimensions reject other arrays. *)
Lemma dim_checks (t : py_tree T) d pts sched k e nns r sort vecs idx : nd_ok pts ->
  pt_dim t = Some d ->
  ~ (length (nd_shape pts) = 2 /\ is_contiguous pts = true
     /\ nth (if is_row_major pts then 1 else 0) (nd_shape pts) 0 = d) ->
  py_search_knn_into sched t pts k e nns = throw ExnInvalidArgument
  /\ py_search_radius_into alg sched t pts r e vecs sort = throw ExnInvalidArgument
  /\ py_search_box_into sched t pts idx = throw ExnInvalidArgument.
Proof.
  intros OK Hd N. pose proof (make_map_spec (pt_dim t) pts OK) as M. rewrite Hd in M.
  destruct (_ && _) eqn:E.
  { exfalso. apply N. apply andb_prop in E as [E E3]. apply andb_prop in E as [E1 E2].
    apply Nat.eqb_eq in E1. apply Nat.eqb_eq in E3. auto. }
  unfold py_search_knn_into, py_search_radius_into, py_search_box_into. rewrite Hd, M.
  repeat split; repeat match goal with |- context [dtype_eqb ?a ?b] => destruct (dtype_eqb a b) end; reflexivity.
Qed.

Lemma odd_boxes (t : py_tree T) boxes qs sched idx : nd_ok boxes -> denotes boxes qs ->
  Nat.odd (length (sp_pts qs)) = true -> py_search_box_into sched t boxes idx = throw ExnInvalidArgument.
Proof.
  intros OK DE Od. unfold py_search_box_into.
  destruct (dtype_eqb _ _); [|reflexivity]. cbn [negb throw_if ret pbind bind].
  pose proof (make_map_spec (pt_dim t) boxes OK) as M. destruct (_ && _).
  - destruct M as (sp & -> & D). cbn [ret pbind bind pm_space]. rewrite (denotes_unique boxes sp qs) by auto. unfold sp_size.
    apply Nat.odd_spec in Od as (n & ->). replace ((2 * n + 1) mod 2) with 1; [reflexivity|].
    rewrite Nat.add_comm, Nat.mul_comm, Nat.mod_add by lia. reflexivity.
  - rewrite M. reflexivity.
Qed.

(** * The tree as a buffer *)
Lemma request_spec fuel pts m leaf t : nd_ok pts -> py_kd_tree alg fuel pts m leaf = ret t ->
  nd_shape (tree_view t pts) = nd_shape pts
  /\ forall idx, Forall2 lt idx (nd_shape pts) -> nd_get (tree_view t pts) idx = nd_get pts idx.
Proof.
  intros OK H. destruct (tree_points fuel pts m leaf t OK H) as [[_ CO DE] R].
  unfold tree_view, py_request, sp_size. destruct OK as (Ls & _). destruct DE as (r & c & Es & _ & DE).
  rewrite Es in Ls. cbn in Ls. rewrite R. destruct (is_row_major pts) eqn:Rm; destruct DE as (L & D & _);
    rewrite L, D; cbn [nd_shape fst snd]; rewrite Es.
  - split; [auto|]. intros idx F. inversion F as [|i ? ? ? Hi F1]; subst. inversion F1 as [|j ? ? ? Hj F2]; subst. inversion F2; subst.
    unfold nd_get. rewrite (row_addr pts _ _ i j Es Ls Rm Hi Hj).
    set (a := nd_addr _ [i; j]).
    assert (a = Z.of_nat (nd_off pts + i * sp_sdim (kt_space (pt_tree t)) + j)) as ->.
    { unfold a, nd_addr. cbn [nd_off nd_strides fold_right map combine fst snd]. lia. }
    reflexivity.
  - assert (Cm : is_col_major pts = true). { unfold is_contiguous in CO. rewrite Rm in CO. exact CO. }
    split; [auto|]. intros idx F. inversion F as [|i ? ? ? Hi F1]; subst. inversion F1 as [|j ? ? ? Hj F2]; subst. inversion F2; subst.
    unfold nd_get. rewrite (col_addr pts _ _ i j Es Ls Cm Hi Hj).
    set (a := nd_addr _ [i; j]).
    assert (a = Z.of_nat (nd_off pts + j * sp_sdim (kt_space (pt_tree t)) + i)) as ->.
    { unfold a, nd_addr. cbn [nd_off nd_strides fold_right map combine fst snd]. lia. }
    reflexivity.
Qed.
End Py.
