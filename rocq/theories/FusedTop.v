(** Statements about the contracted query functions. *)
From Coq Require Import List ZArith Reals Bool Arith Permutation Sorted Lia Lra.
From Flocq Require Import Core.Core IEEE754.BinarySingleNaN Plus_error Relative.
From Verif Require Import Base ModelBox ModelBuild ModelSearch Spec SpecRound Lemmas BuildProofs
  SearchProofs Floats FloatThms FloatSearch FloatQuery ModelFused SpecFused FusedThms FusedQuery.
Import ListNotations.
Local Open Scope R_scope.

Section Top.
Variables (prec emax : Z).
Context (Hprec : Prec_gt_0 prec) (Hmax : Prec_lt_emax prec emax).
Local Notation F := (binary_float prec emax).
Local Notation FS := (Float_scalar prec emax Hprec Hmax).
Local Notation l2 := (@metric_l2_squared F FS).
Local Notation rnd := (round radix2 (SpecFloat.fexp prec emax) ZnearestE).
Local Notation u := (bpow radix2 (- prec)).

Section Within.
Hypothesis P2 : (2 <= prec)%Z.
Variables (ct : contraction) (e a : Z) (sp : space F) (bnds : start_bounds F) (q : list F).
Hypothesis FI : float_input prec emax L2Squared e sp bnds q.
Hypothesis AP : apart prec emax a sp q.
Local Notation dist := (fused_computed prec emax Hprec Hmax ct sp q).

Section Tree.
Variables (alg : std_algos) (SL : std_laws alg).
Variables (it : index_type) (fuel : nat) (stop : stop_condition) (ru : rule) (t : kd_tree_data Euclidean F).
Hypothesis (NM : ru <> midpoint_max_side).
Hypothesis HM : @kd_tree_make F FS alg it l2 fuel sp stop bnds ru = Ok (KdTree sp l2 t).
Local Notation h := (node_height (kd_root t)).
Hypothesis FEW : fused_few prec (sp_sdim sp) h.
Local Notation sl := (fused_slack prec (sp_sdim sp) h).

Lemma fused_nn_within nn0 : exists i d, search_nn_fused prec emax Hprec Hmax ct sp t q nn0 = Ok (Neighbor i d)
  /\ B2R d = dist i /\ nearest_within (npts sp) dist sl i.
Proof.
  pose proof (fslack_bounds prec emax sp t FEW) as [S1 S2].
  destruct (nn_fused prec emax Hprec Hmax P2 ct sp bnds q alg it fuel stop ru t HM _
    (D_facts prec emax Hprec Hmax P2 ct e sp bnds q FI t a AP FEW)
    (@fused_contract prec emax Hprec Hmax P2 ct e sp bnds q FI alg SL it fuel stop ru t NM HM a AP FEW)
    sl S1 S2 (fskip_slack prec emax Hprec Hmax P2 ct e sp bnds q FI t a AP FEW) nn0) as (i & d & A & -> & C).
  eexists i, _. split; [exact A|]. auto.
Qed.

Lemma fused_knn_within k knn0 : (0 < k)%nat ->
  exists out, search_knn_fused prec emax Hprec Hmax ct sp t q k knn0 = Ok out
  /\ knn_within (npts sp) k dist sl (real_answers prec emax out).
Proof.
  pose proof (fslack_bounds prec emax sp t FEW) as [S1 S2].
  apply (knn_fused prec emax Hprec Hmax P2 ct sp bnds q alg it fuel stop ru t HM _
    (D_facts prec emax Hprec Hmax P2 ct e sp bnds q FI t a AP FEW)
    (@fused_contract prec emax Hprec Hmax P2 ct e sp bnds q FI alg SL it fuel stop ru t NM HM a AP FEW)
    sl S1 S2 (fskip_slack prec emax Hprec Hmax P2 ct e sp bnds q FI t a AP FEW)).
Qed.

Lemma fused_radius_within r sort : finite prec emax r ->
  exists l, search_radius_fused prec emax Hprec Hmax ct alg sp t q r sort = Ok l
  /\ radius_within (npts sp) dist sl (B2R r) (real_answers prec emax l)
  /\ (sort = true -> StronglySorted Rle (map snd (real_answers prec emax l))).
Proof.
  pose proof (fslack_bounds prec emax sp t FEW) as [S1 S2]. intros Fr.
  destruct (radius_fused prec emax Hprec Hmax ct sp q alg SL t _
    (D_facts prec emax Hprec Hmax P2 ct e sp bnds q FI t a AP FEW)
    (@fused_contract prec emax Hprec Hmax P2 ct e sp bnds q FI alg SL it fuel stop ru t NM HM a AP FEW)
    sl S1 (fskip_slack prec emax Hprec Hmax P2 ct e sp bnds q FI t a AP FEW) r sort Fr) as (l & A & C & E).
  exists l. split; [exact A|]. split; auto. unfold real_answers. rewrite map_map. exact E.
Qed.
End Tree.

Local Existing Instance SF.
(** Contraction costs no accuracy: there is a relative error and nothing else. *)
Lemma fused_accurate i : (i < npts sp)%nat -> INR (sp_sdim sp + 3) * u <= / 2 ->
  Rabs (dist i - true_dist prec emax L2Squared sp q i)
    <= 2 * INR (sp_sdim sp + 3) * u * true_dist prec emax L2Squared sp q i.
Proof.
  intros Hi HA. pose proof (u_bounds prec P2) as [U0 U1].
  assert (NU1 : INR (sp_sdim sp + 1) * u <= / 2).
  { eapply Rle_trans; [|exact HA]. apply Rmult_le_compat_r; [lra|]. apply le_INR. lia. }
  destruct (Df_bounds prec emax Hprec Hmax P2 ct e a sp bnds q FI AP NU1 i Hi) as (_ & C & S0 & _).
  change (B2R (Df prec emax Hprec Hmax ct sp q i)) with (dist i) in C.
  set (n := sp_sdim sp) in *. set (S := sumR n _) in *.
  set (x := fun k => B2R (get q k) - B2R (coord sp k i)).
  change (true_dist prec emax L2Squared sp q i) with (sumR n (fun k => x k * x k)).
  set (T := sumR n (fun k => x k * x k)).
  assert (T0 : 0 <= T) by (apply sumR_nonneg; intros; apply Rle_0_sqr).
  assert (TT : (1 - u) ^ 2 * T <= S <= (1 + u) ^ 2 * T).
  { unfold S, T. rewrite <- !sumR_scale. split; apply sumR_le; intros k Hk; rewrite del_sq; fold (x k);
      destruct (rnd_minus prec emax Hprec (B2R (get q k)) (B2R (coord sp k i)) (fmt_B2R _ _ _) (fmt_B2R _ _ _))
        as (d & Hd & Ed); fold (x k) in Ed; rewrite Ed; apply Rabs_le_inv in Hd;
      replace (x k * (1 + d) * (x k * (1 + d))) with ((1 + d) ^ 2 * (x k * x k)) by ring;
      apply Rmult_le_compat_r; try apply Rle_0_sqr; apply pow_incr; lra. }
  assert (L : (1 - u) ^ (n + 3) * T <= dist i).
  { replace (n + 3)%nat with (n + 1 + 2)%nat by lia. rewrite pow_add, Rmult_assoc.
    eapply Rle_trans; [|apply C]. apply Rmult_le_compat_l; [apply pow_le; lra|apply TT]. }
  assert (U : dist i <= (1 + u) ^ (n + 3) * T).
  { replace (n + 3)%nat with (n + 1 + 2)%nat by lia. rewrite pow_add, Rmult_assoc.
    eapply Rle_trans; [apply C|]. apply Rmult_le_compat_l; [apply pow_le; lra|apply TT]. }
  pose proof (pow_lower u ltac:(lra) (n + 3)) as PL.
  pose proof (pow_up u (n + 3) ltac:(lra) HA) as PU.
  set (w := INR (n + 3) * u) in *. assert (0 <= w) by (apply Rmult_le_pos; [apply pos_INR|lra]).
  replace (2 * INR (n + 3) * u) with (2 * w) in * by (unfold w; ring).
  apply Rabs_le. split.
  - assert ((1 - w) * T <= (1 - u) ^ (n + 3) * T) by (apply Rmult_le_compat_r; auto). nra.
  - assert ((1 + u) ^ (n + 3) * T <= (1 + 2 * w) * T) by (apply Rmult_le_compat_r; auto). nra.
Qed.
End Within.

(** ** Without contraction *)
Section Plain.
Variables (sp : space F) (t : kd_tree_data Euclidean F).
Local Notation tree := (KdTree sp l2 t).

Lemma uncontracted_sum l : forall k d,
  fused_sum prec emax Hprec Hmax uncontracted k l d
  = fold_left (fun acc '(x, y) => @s_add F FS acc (@squared_r1_distance F FS x y)) l d.
Proof. induction l as [|[x y] l IH]; intros k d; [reflexivity|]. exact (IH (S k) _). Qed.
Lemma uncontracted_distance x y : fused_distance prec emax Hprec Hmax uncontracted x y = m_dist l2 x y.
Proof. unfold fused_distance. rewrite uncontracted_sum. cbn [m_dist metric_l2_squared]. unfold sum_op. reflexivity. Qed.

Lemma uncontracted_visits {V} (vis : visitor F V) (q : list F) l : forall v,
  visit_range (metric_fused prec emax Hprec Hmax uncontracted) vis sp q l v = visit_range l2 vis sp q l v.
Proof.
  induction l as [|i l IH]; intros v; [reflexivity|]. cbn [visit_range].
  destruct (guard _ _); auto. cbn [bind]. cbn [metric_fused m_dist]. rewrite uncontracted_distance. apply IH.
Qed.

Lemma uncontracted_nodes {V} (vis : visitor F V) q nd : forall dp d st,
  search_nearest_fused prec emax Hprec Hmax uncontracted vis sp (kd_indices t) q dp nd d st
  = @search_nearest_euclidean F FS V l2 vis sp (kd_indices t) q nd d st.
Proof.
  induction nd as [b e|br nl IHl nr IHr]; intros dp d st.
  - cbn [search_nearest_fused search_nearest_euclidean]. destruct (slice _ _ _); auto. cbn [bind].
    rewrite uncontracted_visits. reflexivity.
  - cbn [search_nearest_fused search_nearest_euclidean].
    change (SFu prec emax Hprec Hmax) with FS.
    destruct (at_ q (bs_split_dim br)) as [v| |]; auto. cbn [bind].
    destruct (s_ltb _ _); cbn [ModelFused.add_square ct_box uncontracted m_app metric_l2_squared].
    + rewrite IHl. destruct (search_nearest_euclidean _ _ _ _ _ nl _ _) as [st1| |]; auto. cbn [bind].
      destruct (at_ (fst st1) _) as [old| |]; auto. cbn [bind].
      change (SFu prec emax Hprec Hmax) with FS. destruct (s_leb _ _); auto. rewrite IHr. reflexivity.
    + rewrite IHr. destruct (search_nearest_euclidean _ _ _ _ _ nr _ _) as [st1| |]; auto. cbn [bind].
      destruct (at_ (fst st1) _) as [old| |]; auto. cbn [bind].
      change (SFu prec emax Hprec Hmax) with FS. destruct (s_leb _ _); auto. rewrite IHl. reflexivity.
Qed.

Lemma uncontracted_search {V} (vis : visitor F V) q v0 :
  search_fused prec emax Hprec Hmax uncontracted sp t vis q v0 = @search_nearest F FS V tree vis q v0.
Proof.
  unfold search_fused, search_nearest. cbn [kt_space kt_metric kt_data m_cat metric_l2_squared].
  destruct (guard _ _); auto. cbn [bind]. rewrite uncontracted_nodes. reflexivity.
Qed.

Lemma uncontracted_same alg q :
  (forall nn0, search_nn_fused prec emax Hprec Hmax uncontracted sp t q nn0 = @search_nn F FS tree q nn0)
  /\ (forall k knn0, search_knn_fused prec emax Hprec Hmax uncontracted sp t q k knn0 = @search_knn F FS tree q k knn0)
  /\ (forall r sort, search_radius_fused prec emax Hprec Hmax uncontracted alg sp t q r sort
        = @search_radius F FS alg tree q r sort).
Proof.
  split; [|split]; intros.
  - unfold search_nn_fused, search_nn. apply uncontracted_search.
  - unfold search_knn_fused, search_knn, search_knn_range. cbn [kt_space].
    change (SFu prec emax Hprec Hmax) with FS. destruct (visitor_knn_init _); auto. cbn [bind].
    rewrite uncontracted_search. reflexivity.
  - unfold search_radius_fused, search_radius. change (SFu prec emax Hprec Hmax) with FS.
    rewrite uncontracted_search. reflexivity.
Qed.
End Plain.
End Top.
