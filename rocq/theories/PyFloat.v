(** The Python searches on arrays of floating point numbers. *)
From Coq Require Import List ZArith QArith Reals Bool Arith Sorted Lia Lra.
From Flocq Require Import Core.Core IEEE754.BinarySingleNaN.
From Verif Require Import Base ModelBox ModelBuild ModelSearch ModelSerial ModelPython Spec SpecSerial SpecPython SpecRound
  SpecApprox SpecShape SpecPyFloat Lemmas BuildOrder BuildThms TopThms SafeThms ExtraThms BoxThms SerialThms ParThms
  ParSearch PythonThms PyArrayThms PyTopThms ShapeThms Floats FloatThms FloatQuery FloatTop FloatApprox SpecRound.
Import ListNotations.
Local Open Scope nat_scope.

(** * Any scalar: what is known of one search holds for a call *)
Section Generic.
Context {T : Type} {SC : Scalar T}.
Variable alg : std_algos.
Variables (pts : ndarray T) (sp : space T) (t : py_tree T).
Hypothesis B : bindings_tree t.
Hypothesis Hd : pt_dim t = dim_of (sp_sdim sp).
Hypothesis Hy : pt_dtype t = nd_dtype pts.
Variables (queries : ndarray T) (qs : space T).
Hypothesis QA : query_args pts sp queries qs.

Lemma generic_knn k e (P : list T -> list (neighbor T) -> Prop) : 0 < k ->
  (forall q, In q (sp_pts qs) -> exists row,
    range_search (pt_tree t) e q (repeat (Neighbor 0 s_zero) k) = Ok row /\ length row = k /\ P q row) ->
  exists out, returns (length (sp_pts qs)) (fun sched => py_search_knn sched t queries k e) out
  /\ forall i q, nth_error (sp_pts qs) i = Some q ->
       exists row, answer_row queries (length (sp_pts qs)) k i out row /\ P q row.
Proof.
  intros Hk HS. destruct QA as [PA Dt Dm]. pose proof PA as [OK _ DE].
  assert (G : exists out N, forall sched, fair (length (sp_pts qs)) N sched -> py_search_knn sched t queries k e = ret out).
  { destruct (ensure_size_some qs k (empty_nns (neighbor_dtype (pt_dtype t))) (is_row_major queries)) as (nns' & En).
    { right. split; reflexivity. }
    pose proof (nns_fits qs k (empty_nns (neighbor_dtype (pt_dtype t))) (is_row_major queries) nns') as Fits.
    specialize (Fits ltac:(unfold empty_nns, nd_size; cbn; lia) En).
    assert (Cells : forall i q, nth_error (sp_pts qs) i = Some q ->
      cells (nd_off nns' + i * k) k (nd_buf nns') = repeat (Neighbor 0 s_zero) k).
    { intros i q Hq. assert (Hi : i < length (sp_pts qs)) by (apply nth_error_Some; congruence).
      apply ensure_size_spec in En as [[Sz ->]|(_ & -> & _ & _ & _ & Bu)]; [cbn in Sz; nia|].
      rewrite Bu. cbn [empty_nns nd_off nd_buf skipn length app Nat.add]. rewrite firstn_nil. cbn [app]. rewrite Nat.sub_0_r.
      apply cells_repeat. nia. }
    destruct (knn_for_defined (pt_tree t) (bindings_euclidean t B) e (nd_off nns') k (sp_pts qs) (nd_buf nns') Fits)
      as [_ (N & D)]; [|auto|].
    { intros i q Hq. rewrite (Cells i q Hq). destruct (HS q (nth_error_In _ _ Hq)) as (row & E & _). eauto. }
    assert (Run : forall s, py_search_knn s t queries k e
      = lift (do b <- par_for s (knn_programs (pt_tree t) e (nd_off nns') k (sp_pts qs)) (nd_buf nns');
         Ok (NdArray b (nd_off nns') (nd_shape nns') (nd_strides nns') (nd_owns nns') (nd_dtype nns')))).
    { intros s. unfold py_search_knn, py_search_knn_into. rewrite Dt, <- Hy.
      change (nd_dtype (empty_nns (neighbor_dtype (pt_dtype t)))) with (neighbor_dtype (pt_dtype t)).
      rewrite !(proj2 (dtype_eqb_eq _ _) eq_refl). cbn [negb throw_if ret pbind bind].
      rewrite (query_map pts sp queries qs QA t Hd). cbn [ret pbind bind pm_space]. rewrite En.
      cbn [ret pbind bind]. destruct (par_for s _ _); reflexivity. }
    destruct (D (concat (repeat (seq 0 (length (sp_pts qs))) N))) as (b0 & Eb0); [apply fair_rounds|].
    exists (NdArray b0 (nd_off nns') (nd_shape nns') (nd_strides nns') (nd_owns nns') (nd_dtype nns')), N.
    intros s Hs. destruct (D s Hs) as (b & Eb). rewrite Run, Eb. cbn [bind lift].
    assert (b = b0) by (eapply (knn_for_unique (pt_tree t) e (nd_off nns') k); eauto). subst b. reflexivity. }
  destruct G as (out & N & Hs). exists out.
  destruct (knn_spec t queries qs k e _ out B OK DE (Hs _ (fair_rounds _ _))) as (Lb & Eo & Sh & R & A1 & _).
  split; [split; eauto|]. intros i q Hq. destruct (HS q (nth_error_In _ _ Hq)) as (row & E & L & A). exists row.
  split; [|auto].
  assert (Hi : i < length (sp_pts qs)) by (apply nth_error_Some; congruence).
  destruct (Sh ltac:(nia)) as [Es Est]. rewrite (R i q Hq) in E. injection E as E.
  assert (Row : forall j, j < k -> nth_error row j = nth_error (nd_buf out) (i * k + j)).
  { intros j Hj. rewrite <- E. unfold cells. rewrite nth_error_firstn_lt, nth_error_skipn_add by auto. auto. }
  split; [auto|]. split.
  - intros ->. rewrite Es. split; [auto|]. rewrite Row by auto. unfold nd_get.
    assert (nd_addr out [i] = Z.of_nat (i * 1 + 0)) as ->.
    { unfold nd_addr. rewrite Est, Es, Eo. cbn [Nat.eqb c_strides fold_right map combine fst snd]. lia. }
    destruct (Z.ltb_spec (Z.of_nat (i * 1 + 0)) 0); [lia|]. rewrite Nat2Z.id. reflexivity.
  - intros Nk Rm. rewrite Rm in Es. destruct (Nat.eqb_spec k 1); [contradiction|]. split; [auto|]. intros j Hj.
    rewrite Row by auto. unfold nd_get. assert (nd_addr out [i; j] = Z.of_nat (i * k + j)) as ->.
    { unfold nd_addr. rewrite Est, Es, Eo. cbn [c_strides fold_right map combine fst snd]. lia. }
    destruct (Z.ltb_spec (Z.of_nat (i * k + j)) 0); [lia|]. rewrite Nat2Z.id. reflexivity.
Qed.

Lemma generic_radius r e sort (P : list T -> list (neighbor T) -> Prop) :
  (forall q, In q (sp_pts qs) -> exists l, radius_search alg (pt_tree t) r e sort q = Ok l /\ P q l) ->
  exists out, returns (length (sp_pts qs)) (fun sched => py_search_radius alg sched t queries r e sort) out
  /\ length out = length (sp_pts qs)
  /\ forall i q, nth_error (sp_pts qs) i = Some q -> exists l, nth_error out i = Some l /\ P q l.
Proof.
  intros HS. destruct QA as [PA Dt Dm]. pose proof PA as [OK _ DE].
  set (buf := resize_vectors (A := neighbor T) [] (sp_size qs)).
  assert (L : length buf = length (sp_pts qs)) by apply length_resize_vectors.
  assert (Run : forall s, py_search_radius alg s t queries r e sort
    = lift (par_for s (radius_programs alg (pt_tree t) r e sort (sp_pts qs)) buf)).
  { intros s. unfold py_search_radius, py_search_radius_into. rewrite Dt, <- Hy.
    rewrite !(proj2 (dtype_eqb_eq _ _) eq_refl). cbn [negb throw_if ret pbind bind].
    rewrite (query_map pts sp queries qs QA t Hd). cbn [ret pbind bind pm_space]. reflexivity. }
  destruct (radius_for_defined alg (pt_tree t) (bindings_euclidean t B) r e sort (sp_pts qs) buf L) as (N0 & D).
  { intros i Hi. destruct (HS (nth i (sp_pts qs) [])) as (l & E & _); [apply nth_In; auto|]. eauto. }
  destruct (D (concat (repeat (seq 0 (length (sp_pts qs))) N0))) as (out & Eo); [apply fair_rounds|].
  assert (Er : py_search_radius alg (concat (repeat (seq 0 (length (sp_pts qs))) N0)) t queries r e sort = ret out)
    by (rewrite Run, Eo; reflexivity).
  destruct (radius_into_spec alg t queries qs r e [] sort _ out B OK DE Er) as (Lo & R & A1 & N & A2).
  exists out. split; [split; eauto|]. split; [auto|].
  intros i q Hq. destruct (R i q Hq) as (l & El & Es). exists l. split; [auto|].
  destruct (HS q (nth_error_In _ _ Hq)) as (l' & El' & F). rewrite El' in Es. injection Es as <-. auto.
Qed.
End Generic.

(** * Floating point *)
Section FloatSession.
Variables (prec emax : Z).
Context (Hprec : Prec_gt_0 prec) (Hmax : Prec_lt_emax prec emax).
Local Notation F := (binary_float prec emax).
Local Existing Instance Float_scalar.
Local Notation dist := (computed prec emax Hprec Hmax).
Hypothesis P2 : (2 <= prec)%Z.
Variable alg : std_algos.
Hypothesis SL : std_laws alg.
Variables (pts : ndarray F) (sp : space F) (m : metric_t) (em : exact_metric) (leaf : Z).
Hypothesis TA : tree_args pts sp leaf.
Hypothesis CO : all_coords (below prec emax (emax - 2)) sp.
Hypothesis EM : exact_for m em.
Local Notation N := (length (sp_pts sp)).
Local Notation H := (N - Z.to_nat leaf)%nat.
Hypothesis FEW : few_steps prec (sp_sdim sp) H.

Lemma coords_finite : all_coords (finite prec emax) sp.
Proof. eapply Forall_impl; [|exact CO]. intros p Hp. eapply Forall_impl; [|exact Hp]. intros x [A _]. exact A. Qed.

Lemma height_eq {B} (n : node B) : node_height n = height n.
Proof. induction n as [b e|b l IHl r IHr]; [reflexivity|]. cbn [node_height height]. rewrite IHl, IHr. reflexivity. Qed.

Lemma float_session_tree : exists t, (forall fuel, N <= fuel -> py_kd_tree alg fuel pts m leaf = ret t)
  /\ bindings_tree t
  /\ kd_tree_make alg it_int (metric_of em) N sp (max_leaf_size leaf) bounds_from_space sliding_midpoint_max_side
     = Ok (pt_tree t)
  /\ pt_dim t = dim_of (sp_sdim sp) /\ pt_dtype t = nd_dtype pts
  /\ node_height (kd_root (kt_data (pt_tree t))) <= H.
Proof.
  destruct (py_make_total alg (finite prec emax) (below prec emax (emax - 2)) pts m leaf sp
    (float_ord prec emax Hprec Hmax) SL (float_range prec emax Hprec Hmax P2) TA coords_finite CO) as (t & Ht).
  exists t. split; [auto|]. specialize (Ht _ (le_n _)). pose proof TA as [[OK _ DE] _ _ _ _ LF].
  destruct (py_make_inv _ _ _ _ _ _ _ OK DE Ht) as (E & _ & Ed & Et & _).
  destruct (bindings_made _ _ _ _ _ _ _ OK DE Ht) as [B _]. rewrite (exact_impl m em EM) in E.
  split; [auto|]. split; [auto|]. split; [auto|]. split; [auto|].
  destruct (kd_tree_make_inv _ _ _ _ _ _ _ _ _ E) as (data & Ek & Eb). rewrite Ek. cbn [kt_data].
  rewrite height_eq. eapply (shape_height (finite prec emax) (float_ord prec emax Hprec Hmax) sp); eauto.
  - eapply tree_args_wf; eauto.
  - exact coords_finite.
  - discriminate.
  - unfold index_type_ok. cbn. lia.
  - cbn. lia.
Qed.

Lemma NM : sliding_midpoint_max_side <> midpoint_max_side. Proof. discriminate. Qed.

Lemma slack_le h : h <= H -> (slack prec (sp_sdim sp) h <= slack prec (sp_sdim sp) H)%R.
Proof.
  intros Hh. unfold slack. apply Rplus_le_compat_l. apply Rmult_le_compat_r; [apply bpow_ge_0|].
  apply Rmult_le_compat_l; [lra|]. apply le_INR. lia.
Qed.
Lemma few_le h : h <= H -> few_steps prec (sp_sdim sp) h.
Proof.
  intros Hh. unfold few_steps in *. eapply Rle_trans; [|exact FEW]. apply Rmult_le_compat_r; [apply bpow_ge_0|].
  apply le_INR. lia.
Qed.

(** ** One query *)
Section One.
Variable t : py_tree F.
Hypothesis HM : kd_tree_make alg it_int (metric_of em) N sp (max_leaf_size leaf) bounds_from_space sliding_midpoint_max_side
  = Ok (pt_tree t).
Local Notation h := (node_height (kd_root (kt_data (pt_tree t)))).
Hypothesis Hh : h <= H.
Variables (e : Z) (q : list F).
Hypothesis FI : float_input prec emax em e sp bounds_from_space q.
Let FEWh : few_steps prec (sp_sdim sp) h := few_le h Hh.

Lemma dist_nonneg j : (0 <= dist em sp q j)%R.
Proof. exact (Dpos prec emax Hprec Hmax P2 s_one em e sp _ q FI alg _ _ _ _ (pt_tree t) HM FEWh j). Qed.

Lemma range_padding k (l0 out : list (neighbor F)) : 0 < k ->
  (forall p, p < k - 1 -> nth_error l0 p = Some (Neighbor 0 s_zero)) ->
  nth_error l0 (k - 1) = Some (Neighbor 0 s_max) ->
  skipn (Nat.min k N) out = skipn (Nat.min k N) l0 -> row_padding N k out.
Proof.
  intros Hk K1 K2 E. destruct (Nat.le_gt_cases k N) as [Hc|Hc].
  - split; intros; lia.
  - rewrite Nat.min_r in E by lia.
    assert (NE : forall p, N <= p -> nth_error out p = nth_error l0 p).
    { intros p Hp. replace p with (N + (p - N)) by lia. rewrite <- !nth_error_skipn_add, E. reflexivity. }
    split.
    + intros j H1 H2. rewrite NE by lia. apply K1. lia.
    + intros _. rewrite NE by lia. exact K2.
Qed.

Lemma firstn_min {A} (l : list A) k : length l = k -> firstn (Nat.min k N) l = firstn N l.
Proof.
  intros L. destruct (Nat.le_gt_cases k N).
  - rewrite Nat.min_l, !firstn_all2 by lia. reflexivity.
  - rewrite Nat.min_r by lia. reflexivity.
Qed.

Lemma init_row k : 0 < k -> exists l0, visitor_knn_init (repeat (Neighbor 0 (s_zero (T := F))) k) = Ok (l0, 0)
  /\ length l0 = k /\ knn_max (l0, 0) = s_max
  /\ (forall p, p < k - 1 -> nth_error l0 p = Some (Neighbor 0 s_zero)) /\ nth_error l0 (k - 1) = Some (Neighbor 0 s_max).
Proof.
  intros Hk. destruct (knn_init_ok (repeat (Neighbor 0 (s_zero (T := F))) k)) as (l0 & E & L & M & K1 & K2);
    rewrite ?repeat_length in *; [auto|].
  assert (Rep : forall j, j < k -> nth_error (repeat (Neighbor 0 (s_zero (T := F))) k) j = Some (Neighbor 0 s_zero)).
  { intros j Hj. rewrite (nth_error_nth' _ (Neighbor 0 s_zero)) by (rewrite repeat_length; auto). rewrite nth_repeat. auto. }
  exists l0. split; [auto|]. split; [auto|]. split; [auto|]. split.
  - intros p Hp. rewrite K1 by auto. apply Rep. lia.
  - apply (K2 (Neighbor 0 s_zero)). apply Rep. lia.
Qed.

Lemma one_knn g f k : (1 <= f <= 2)%R ->
  (forall x j, j < N -> finite prec emax x -> skip prec emax Hprec Hmax em e sp q (pt_tree t) g x j ->
    (B2R x <= f * dist em sp q j)%R) ->
  0 < k -> exists row, range_search (pt_tree t) None q (repeat (Neighbor 0 s_zero) k) = Ok row /\ length row = k
  /\ knn_within N k (dist em sp q) f (real_answers prec emax (firstn N row)) /\ row_padding N k row.
Proof.
  intros [F1 F2] SK Hk. destruct (init_row k Hk) as (l0 & EI & L0 & M0 & K1 & K2).
  destruct (knn_float_range prec emax Hprec Hmax P2 em e sp _ q FI alg SL _ _ _ _ (pt_tree t) NM HM FEWh g f F1 F2 SK l0)
    as (st & E & L & A & B); [lia|auto|].
  change (SF prec emax Hprec Hmax) with (Float_scalar prec emax Hprec Hmax) in E.
  exists (fst st). unfold range_search, search_knn_range. rewrite EI. cbn [bind]. rewrite E. cbn [bind].
  split; [auto|]. split; [lia|]. rewrite L0 in A, B. rewrite firstn_min in A by lia. split; [exact A|].
  apply (range_padding k l0); auto.
Qed.

Lemma one_knn_slack k : 0 < k -> exists row, range_search (pt_tree t) None q (repeat (Neighbor 0 s_zero) k) = Ok row
  /\ length row = k
  /\ knn_within N k (dist em sp q) (slack prec (sp_sdim sp) H) (real_answers prec emax (firstn N row)) /\ row_padding N k row.
Proof.
  intros Hk. destruct (one_knn 0%Z _ k (slack_bounds prec emax P2 sp (pt_tree t) FEWh)
    (skip_slack prec emax Hprec Hmax P2 em e sp _ q FI (pt_tree t) FEWh 0%Z) Hk) as (row & E & L & [K1 K2 K3 K4 K5] & Pd).
  exists row. split; [auto|]. split; [auto|]. split; [|auto]. constructor; auto.
  intros i d j Hi Hj Nj. eapply Rle_trans; [apply (K5 i d j); auto|].
  apply Rmult_le_compat_r; [apply dist_nonneg|apply slack_le; auto].
Qed.

Lemma one_knn_approx ea k : factor_ok prec emax ea -> 0 < k ->
  exists row, range_search (pt_tree t) (Some ea) q (repeat (Neighbor 0 s_zero) k) = Ok row /\ length row = k
  /\ knn_tolerated N k (dist em sp q) (scaled prec emax ea) (tolerated prec emax ea (slack prec (sp_sdim sp) H))
       (real_answers prec emax (firstn N row)).
Proof.
  intros EA Hk. destruct (init_row k Hk) as (l0 & EI & L0 & M0 & _).
  destruct (knn_range_approx prec emax Hprec Hmax P2 ea EA em e sp _ q FI alg SL _ _ _ _ (pt_tree t) NM HM FEWh l0)
    as (st & E & L & [K1 K2 K3 K4 K5]); [lia|auto|].
  change (SF prec emax Hprec Hmax) with (Float_scalar prec emax Hprec Hmax) in E.
  exists (fst st). unfold range_search, search_knn_range_approx. rewrite EI. cbn [bind]. rewrite E. cbn [bind].
  split; [auto|]. split; [lia|]. rewrite L0 in *. rewrite firstn_min in * by lia. constructor; auto.
  intros i d j Hi Hj Nj. specialize (K5 i d j Hi Hj Nj). unfold tolerated in *. eapply Rle_trans; [exact K5|].
  destruct EA as [_ [EA _]]. apply Rmult_le_compat_l; [lra|]. apply Rplus_le_compat_r.
  apply Rmult_le_compat_r; [apply dist_nonneg|apply slack_le; auto].
Qed.

Lemma one_radius r sort : finite prec emax r -> exists l, radius_search alg (pt_tree t) r None sort q = Ok l
  /\ radius_within N (dist em sp q) (slack prec (sp_sdim sp) H) (B2R r) (real_answers prec emax l)
  /\ (sort = true -> StronglySorted Rle (map snd (real_answers prec emax l))).
Proof.
  intros Fr. destruct (top_radius_within prec emax Hprec Hmax P2 em e sp _ q FI alg SL _ _ _ _ (pt_tree t) NM HM FEWh r sort Fr)
    as (l & E & [R1 R2 R3] & So).
  exists l. split; [exact E|]. split; [|auto]. constructor; auto.
  intros i Hi Hr. apply R3; [auto|]. eapply Rle_lt_trans; [|exact Hr].
  apply Rmult_le_compat_r; [apply dist_nonneg|apply slack_le; auto].
Qed.

Lemma one_radius_approx ea r sort : factor_ok prec emax ea -> finite prec emax r -> (0 <= B2R r)%R ->
  exists l, radius_search alg (pt_tree t) r (Some ea) sort q = Ok l
  /\ radius_tolerated N (dist em sp q) (scaled prec emax ea) (B2R r)
       (within_inner prec emax ea (slack prec (sp_sdim sp) H) (B2R r)) (real_answers prec emax l)
  /\ (sort = true -> StronglySorted Rle (map snd (real_answers prec emax l))).
Proof.
  intros EA Fr R0. destruct (radius_float_approx prec emax Hprec Hmax P2 ea EA em e sp _ q FI alg SL _ _ _ _ (pt_tree t) NM HM
    FEWh r sort Fr R0) as (l & E & [R1 R2 R3] & So).
  exists l. split; [exact E|]. split; [|auto]. constructor; auto.
  intros i Hi Hr. apply R3; [auto|]. unfold within_inner in *. eapply Rle_lt_trans; [|exact Hr].
  destruct EA as [_ [EA _]]. apply Rmult_le_compat_l; [lra|]. apply Rplus_le_compat_r.
  apply Rmult_le_compat_r; [apply dist_nonneg|apply slack_le; auto].
Qed.

(** On a grid. *)
Variable g : Z.
Hypothesis GI : grid_input prec emax em g e sp q.
Let gg : Z := match em with L1 => g | _ => 2 * g end.

Lemma one_knn_grid k : 0 < k -> exists row, range_search (pt_tree t) None q (repeat (Neighbor 0 s_zero) k) = Ok row
  /\ length row = k
  /\ knn_within N k (true_dist prec emax em sp q) 1 (real_answers prec emax (firstn N row)) /\ row_padding N k row.
Proof.
  intros Hk. pose proof (grid_case prec emax Hprec Hmax P2 em e sp _ q FI g GI) as EC.
  destruct (one_knn gg 1 k ltac:(lra)
    (fun x j => skip_exact prec emax Hprec Hmax em e sp q (pt_tree t) gg x j EC) Hk) as (row & E & L & [K1 K2 K3 K4 K5] & Pd).
  assert (GD : forall j, j < N -> dist em sp q j = true_dist prec emax em sp q j)
    by (exact (grid_dist prec emax Hprec Hmax P2 em e sp _ q FI (pt_tree t) FEWh g GI)).
  exists row. split; [auto|]. split; [auto|]. split; [|auto]. constructor; auto.
  - intros i d Hi. destruct (K3 i d Hi) as [X ->]. split; auto.
  - intros i d j Hi Hj. rewrite <- GD by auto. eauto.
Qed.

Lemma one_radius_grid r sort : finite prec emax r -> exists l, radius_search alg (pt_tree t) r None sort q = Ok l
  /\ radius_within N (true_dist prec emax em sp q) 1 (B2R r) (real_answers prec emax l)
  /\ (sort = true -> StronglySorted Rle (map snd (real_answers prec emax l))).
Proof. exact (top_radius_grid prec emax Hprec Hmax P2 em e sp _ q FI alg SL _ _ _ _ (pt_tree t) NM HM FEWh g GI r sort). Qed.
End One.

(** ** From arrays to arrays *)
Variables (queries : ndarray F) (qs : space F).
Hypothesis QA : query_args pts sp queries qs.

Lemma float_session_knn e k : (forall q, In q (sp_pts qs) -> float_input prec emax em e sp bounds_from_space q) -> 0 < k ->
  exists t, (forall fuel, N <= fuel -> py_kd_tree alg fuel pts m leaf = ret t)
  /\ exists out, returns (length (sp_pts qs)) (fun sched => py_search_knn sched t queries k None) out
  /\ forall i q, nth_error (sp_pts qs) i = Some q -> exists row, answer_row queries (length (sp_pts qs)) k i out row
     /\ knn_within N k (dist em sp q) (slack prec (sp_sdim sp) H) (real_answers prec emax (firstn N row))
     /\ row_padding N k row.
Proof.
  intros FI Hk. destruct float_session_tree as (t & Hm & B & HM & Hd & Hy & Hh). exists t. split; [exact Hm|].
  apply (generic_knn pts sp t B Hd Hy queries qs QA k None (fun q row =>
    knn_within N k (dist em sp q) (slack prec (sp_sdim sp) H) (real_answers prec emax (firstn N row))
     /\ row_padding N k row) Hk).
  intros q Hq. exact (one_knn_slack t HM Hh e q (FI q Hq) k Hk).
Qed.

Lemma float_session_knn_approx e k ea : (forall q, In q (sp_pts qs) -> float_input prec emax em e sp bounds_from_space q) ->
  0 < k -> factor_ok prec emax ea ->
  exists t, (forall fuel, N <= fuel -> py_kd_tree alg fuel pts m leaf = ret t)
  /\ exists out, returns (length (sp_pts qs)) (fun sched => py_search_knn sched t queries k (Some ea)) out
  /\ forall i q, nth_error (sp_pts qs) i = Some q -> exists row, answer_row queries (length (sp_pts qs)) k i out row
     /\ knn_tolerated N k (dist em sp q) (scaled prec emax ea) (tolerated prec emax ea (slack prec (sp_sdim sp) H))
          (real_answers prec emax (firstn N row)).
Proof.
  intros FI Hk EA. destruct float_session_tree as (t & Hm & B & HM & Hd & Hy & Hh). exists t. split; [exact Hm|].
  apply (generic_knn pts sp t B Hd Hy queries qs QA k (Some ea) (fun q row =>
    knn_tolerated N k (dist em sp q) (scaled prec emax ea) (tolerated prec emax ea (slack prec (sp_sdim sp) H))
          (real_answers prec emax (firstn N row))) Hk).
  intros q Hq. exact (one_knn_approx t HM Hh e q (FI q Hq) ea k EA Hk).
Qed.

Lemma float_session_knn_grid e g k : (forall q, In q (sp_pts qs) -> float_input prec emax em e sp bounds_from_space q
    /\ grid_input prec emax em g e sp q) -> 0 < k ->
  exists t, (forall fuel, N <= fuel -> py_kd_tree alg fuel pts m leaf = ret t)
  /\ exists out, returns (length (sp_pts qs)) (fun sched => py_search_knn sched t queries k None) out
  /\ forall i q, nth_error (sp_pts qs) i = Some q -> exists row, answer_row queries (length (sp_pts qs)) k i out row
     /\ knn_within N k (true_dist prec emax em sp q) 1 (real_answers prec emax (firstn N row))
     /\ row_padding N k row.
Proof.
  intros FI Hk. destruct float_session_tree as (t & Hm & B & HM & Hd & Hy & Hh). exists t. split; [exact Hm|].
  apply (generic_knn pts sp t B Hd Hy queries qs QA k None (fun q row =>
    knn_within N k (true_dist prec emax em sp q) 1 (real_answers prec emax (firstn N row))
     /\ row_padding N k row) Hk).
  intros q Hq. destruct (FI q Hq) as [A G]. exact (one_knn_grid t HM Hh e q A g G k Hk).
Qed.

Lemma float_session_radius e r sort : (forall q, In q (sp_pts qs) -> float_input prec emax em e sp bounds_from_space q) ->
  finite prec emax r ->
  exists t, (forall fuel, N <= fuel -> py_kd_tree alg fuel pts m leaf = ret t)
  /\ exists out, returns (length (sp_pts qs)) (fun sched => py_search_radius alg sched t queries r None sort) out
  /\ length out = length (sp_pts qs)
  /\ forall i q, nth_error (sp_pts qs) i = Some q -> exists l, nth_error out i = Some l
     /\ radius_within N (dist em sp q) (slack prec (sp_sdim sp) H) (B2R r) (real_answers prec emax l)
     /\ (sort = true -> StronglySorted Rle (map snd (real_answers prec emax l))).
Proof.
  intros FI Fr. destruct float_session_tree as (t & Hm & B & HM & Hd & Hy & Hh). exists t. split; [exact Hm|].
  apply (generic_radius alg pts sp t B Hd Hy queries qs QA r None sort (fun q l =>
    radius_within N (dist em sp q) (slack prec (sp_sdim sp) H) (B2R r) (real_answers prec emax l)
     /\ (sort = true -> StronglySorted Rle (map snd (real_answers prec emax l))))).
  intros q Hq. exact (one_radius t HM Hh e q (FI q Hq) r sort Fr).
Qed.

Lemma float_session_radius_approx e r sort ea :
  (forall q, In q (sp_pts qs) -> float_input prec emax em e sp bounds_from_space q) ->
  factor_ok prec emax ea -> finite prec emax r -> (0 <= B2R r)%R ->
  exists t, (forall fuel, N <= fuel -> py_kd_tree alg fuel pts m leaf = ret t)
  /\ exists out, returns (length (sp_pts qs)) (fun sched => py_search_radius alg sched t queries r (Some ea) sort) out
  /\ length out = length (sp_pts qs)
  /\ forall i q, nth_error (sp_pts qs) i = Some q -> exists l, nth_error out i = Some l
     /\ radius_tolerated N (dist em sp q) (scaled prec emax ea) (B2R r)
          (within_inner prec emax ea (slack prec (sp_sdim sp) H) (B2R r)) (real_answers prec emax l)
     /\ (sort = true -> StronglySorted Rle (map snd (real_answers prec emax l))).
Proof.
  intros FI EA Fr R0. destruct float_session_tree as (t & Hm & B & HM & Hd & Hy & Hh). exists t. split; [exact Hm|].
  apply (generic_radius alg pts sp t B Hd Hy queries qs QA r (Some ea) sort (fun q l =>
    radius_tolerated N (dist em sp q) (scaled prec emax ea) (B2R r)
          (within_inner prec emax ea (slack prec (sp_sdim sp) H) (B2R r)) (real_answers prec emax l)
     /\ (sort = true -> StronglySorted Rle (map snd (real_answers prec emax l))))).
  intros q Hq. exact (one_radius_approx t HM Hh e q (FI q Hq) ea r sort EA Fr R0).
Qed.

Lemma float_session_radius_grid e g r sort :
  (forall q, In q (sp_pts qs) -> float_input prec emax em e sp bounds_from_space q /\ grid_input prec emax em g e sp q) ->
  finite prec emax r ->
  exists t, (forall fuel, N <= fuel -> py_kd_tree alg fuel pts m leaf = ret t)
  /\ exists out, returns (length (sp_pts qs)) (fun sched => py_search_radius alg sched t queries r None sort) out
  /\ length out = length (sp_pts qs)
  /\ forall i q, nth_error (sp_pts qs) i = Some q -> exists l, nth_error out i = Some l
     /\ radius_within N (true_dist prec emax em sp q) 1 (B2R r) (real_answers prec emax l)
     /\ (sort = true -> StronglySorted Rle (map snd (real_answers prec emax l))).
Proof.
  intros FI Fr. destruct float_session_tree as (t & Hm & B & HM & Hd & Hy & Hh). exists t. split; [exact Hm|].
  apply (generic_radius alg pts sp t B Hd Hy queries qs QA r None sort (fun q l =>
    radius_within N (true_dist prec emax em sp q) 1 (B2R r) (real_answers prec emax l)
     /\ (sort = true -> StronglySorted Rle (map snd (real_answers prec emax l))))).
  intros q Hq. destruct (FI q Hq) as [A G]. exact (one_radius_grid t HM Hh e q A g G r sort Fr).
Qed.

Lemma float_session_box : all_coords (finite prec emax) qs -> Nat.even (length (sp_pts qs)) = true ->
  exists t, (forall fuel, N <= fuel -> py_kd_tree alg fuel pts m leaf = ret t)
  /\ exists out, returns (length out) (fun sched => py_search_box sched t queries) out
  /\ length (sp_pts qs) = 2 * length out
  /\ forall i mn mx, nth_error (sp_pts qs) (2 * i) = Some mn -> nth_error (sp_pts qs) (2 * i + 1) = Some mx ->
       exists l, nth_error out i = Some l
       /\ index_answer N (fun p => float_inside prec emax mn mx (nth p (sp_pts sp) [])) l.
Proof.
  intros FQ EV.
  destruct (session_box alg (finite prec emax) (below prec emax (emax - 2)) pts sp m leaf queries qs
    (float_ord prec emax Hprec Hmax) SL (float_range prec emax Hprec Hmax P2) TA coords_finite CO QA FQ EV)
    as (t & Ht & out & n & A & B & L & R).
  exists t. split; [exact Ht|]. exists out. split; [split; eauto|]. split; [exact L|].
  intros i mn mx H1 H2. destruct (R i mn mx H1 H2) as (l & El & [I1 I2]). exists l. split; [exact El|].
  split; [exact I1|]. intros j. rewrite I2.
  pose proof coords_finite as CF. unfold all_coords in CF, FQ. rewrite Forall_forall in CF, FQ.
  destruct QA as [[_ _ (r & c & _ & LQ & _)] _ Dm]. rewrite Forall_forall in LQ.
  destruct (tree_args_wf pts sp leaf TA) as [_ LP]. rewrite Forall_forall in LP.
  assert (G : forall l, In l (sp_pts qs) -> forall d, d < sp_sdim sp -> finite prec emax (nth d l (B754_zero false))).
  { intros l' Hl d Hd. specialize (FQ l' Hl). rewrite Forall_forall in FQ. apply FQ. apply nth_In. rewrite (LQ l' Hl). lia. }
  split; intros [Hj K]; split; auto; intros d Hd; specialize (K d Hd).
  all: rewrite (LQ mn (nth_error_In _ _ H1)), Dm in Hd.
  all: pose proof (G mn (nth_error_In _ _ H1) d Hd); pose proof (G mx (nth_error_In _ _ H2) d Hd).
  all: assert (finite prec emax (nth d (nth j (sp_pts sp) []) (B754_zero false)))
    by (specialize (CF _ (nth_In (sp_pts sp) [] Hj)); rewrite Forall_forall in CF; apply CF; apply nth_In;
        rewrite (LP _ (nth_In (sp_pts sp) [] Hj)); lia).
  all: split; apply (leb_R prec emax Hprec Hmax); auto; apply K.
Qed.
End FloatSession.
