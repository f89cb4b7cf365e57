(** The built-in metrics: their values, and the terms that bound them. *)
From Coq Require Import List ZArith QArith Qabs Qminmax Bool Arith Permutation Lia Lqa.
From Verif Require Import Base ModelBox ModelBuild ModelSearch Spec Lemmas Instances
  BuildProofs BuildOrder SearchProofs.
Import ListNotations.
Local Open Scope Q_scope.

(** * Rational facts *)
Lemma Qabs_cases x : (0 <= x /\ Qabs x == x) \/ (x <= 0 /\ Qabs x == - x).
Proof. apply Qabs_case; intros; [left|right]; split; auto; reflexivity. Qed.

Ltac qabs := repeat match goal with
  | |- context [Qabs ?x] => let H := fresh "Ha" in let E := fresh "Ea" in
      destruct (Qabs_cases x) as [[H E]|[H E]]; rewrite !E in *; clear E
  | H0 : context [Qabs ?x] |- _ => let H := fresh "Ha" in let E := fresh "Ea" in
      destruct (Qabs_cases x) as [[H E]|[H E]]; rewrite !E in *; clear E
  end.

Lemma arc_cases x y :
  (Qabs (x - y) <= 1 - Qabs (x - y) /\ arc x y == Qabs (x - y))
  \/ (1 - Qabs (x - y) <= Qabs (x - y) /\ arc x y == 1 - Qabs (x - y)).
Proof.
  unfold arc. destruct (Qlt_le_dec _ _) as [H|H]; [right|left]; split; try reflexivity; lra.
Qed.

Lemma arc_le x y : arc x y <= Qabs (x - y) /\ arc x y <= 1 - Qabs (x - y).
Proof. destruct (arc_cases x y) as [[A B]|[A B]]; rewrite B; lra. Qed.

Lemma arc_glb x y z : z <= Qabs (x - y) -> z <= 1 - Qabs (x - y) -> z <= arc x y.
Proof. intros. destruct (arc_cases x y) as [[A B]|[A B]]; rewrite B; auto. Qed.

Lemma arc_nonneg x y : 0 <= x <= 1 -> 0 <= y <= 1 -> 0 <= arc x y.
Proof. intros. apply arc_glb; [apply Qabs_nonneg|]. qabs; lra. Qed.

Lemma arc_wd a b c d : a == b -> c == d -> arc a c == arc b d.
Proof.
  intros E1 E2. assert (E : Qabs (a - c) == Qabs (b - d)) by (apply Qabs_wd; rewrite E1, E2; reflexivity).
  unfold arc. destruct (Qlt_le_dec _ _), (Qlt_le_dec _ _); rewrite E in *; try reflexivity; lra.
Qed.

Lemma Qle_sq a b : 0 <= a -> a <= b -> a * a <= b * b.
Proof. intros. nra. Qed.

Lemma sq_nonneg x : 0 <= x * x.
Proof. destruct (Qlt_le_dec x 0); nra. Qed.

Lemma sumN_shift n f : sumN (S n) f == f O + sumN n (fun k => f (S k)).
Proof.
  induction n as [|n IH]; [simpl; ring|].
  change (sumN (S (S n)) f) with (sumN (S n) f + f (S n)). rewrite IH. simpl. ring.
Qed.

Lemma sum_dist_sumN f : forall n x y, length x = n -> length y = n ->
  sum_dist f x y == sumN n (fun k => f (nth k x 0) (nth k y 0)).
Proof.
  induction n as [|n IH]; intros [|a x] [|b y] Hx Hy; try discriminate.
  - reflexivity.
  - rewrite sumN_shift. cbn [sum_dist nth]. rewrite IH by (simpl in *; lia). reflexivity.
Qed.

Section Metrics.
Context {T : Type} {S : Scalar T} (val : T -> Q) (EL : exact_laws S val).

Lemma nth_map_val (x : list T) k : nth k (map val x) 0 == val (nth k x s_zero).
Proof.
  revert k. induction x; intros [|k]; simpl; auto; try reflexivity;
    symmetry; apply (el_zero _ _ EL).
Qed.

Lemma std_min_val a b : val (std_min a b) == Qmin (val a) (val b).
Proof.
  unfold std_min. destruct (s_ltb b a) eqn:E.
  - apply (ltb_val val EL) in E. rewrite Q.min_r by lra. reflexivity.
  - apply (ltb_val_false val EL) in E. rewrite Q.min_l by lra. reflexivity.
Qed.
Lemma std_max_val a b : val (std_max a b) == Qmax (val a) (val b).
Proof.
  unfold std_max. destruct (s_ltb a b) eqn:E.
  - apply (ltb_val val EL) in E. rewrite Q.max_r by lra. reflexivity.
  - apply (ltb_val_false val EL) in E. rewrite Q.max_l by lra. reflexivity.
Qed.

Lemma r1_distance_val a b : val (r1_distance a b) == abs_diff (val a) (val b).
Proof. unfold r1_distance, abs_diff. rewrite (el_abs _ _ EL), (el_sub _ _ EL). reflexivity. Qed.
Lemma squared_r1_distance_val a b : val (squared_r1_distance a b) == sq_diff (val a) (val b).
Proof.
  unfold squared_r1_distance, squared, sq_diff. rewrite (el_mul _ _ EL), (el_sub _ _ EL). reflexivity.
Qed.
Lemma s1_distance_val a b : val (s1_distance a b) == arc (val a) (val b).
Proof.
  unfold s1_distance. rewrite std_min_val, (el_sub _ _ EL), (el_one _ _ EL), (el_abs _ _ EL), (el_sub _ _ EL).
  destruct (arc_cases (val a) (val b)) as [[A B]|[A B]]; rewrite B.
  - apply Q.min_l; auto.
  - apply Q.min_r; auto.
Qed.
Lemma squared_s1_distance_val a b :
  val (squared_s1_distance a b) == arc (val a) (val b) * arc (val a) (val b).
Proof. unfold squared_s1_distance, squared. rewrite (el_mul _ _ EL), s1_distance_val. reflexivity. Qed.

Lemma sum_op_val op f : (forall a b, val (op a b) == f (val a) (val b)) ->
  forall x y, val (sum_op op x y) == sum_dist f (map val x) (map val y).
Proof.
  intros H x y. unfold sum_op.
  assert (K : forall x y d, val (fold_left (fun d '(a, b) => s_add d (op a b)) (combine x y) d)
              == val d + sum_dist f (map val x) (map val y)).
  { clear x y. induction x as [|a x IH]; intros [|b y] d; cbn; try ring.
    rewrite IH, (el_add _ _ EL), H. ring. }
  rewrite K, (el_zero _ _ EL). ring.
Qed.

Lemma dist_of_val em x y :
  (em = SE2Squared -> length x = 3%nat /\ length y = 3%nat) ->
  val (m_dist (metric_of em) x y) == dist_of em (map val x) (map val y).
Proof.
  destruct em; intros HL; cbn [metric_of dist_of m_dist metric_l1 metric_l2_squared metric_so2 metric_se2_squared].
  - apply sum_op_val, r1_distance_val.
  - apply sum_op_val, squared_r1_distance_val.
  - rewrite s1_distance_val. unfold get. apply arc_wd; symmetry; apply nth_map_val.
  - destruct (HL eq_refl) as [L1 L2].
    destruct x as [|x0 [|x1 [|x2 [|]]]]; try discriminate.
    destruct y as [|y0 [|y1 [|y2 [|]]]]; try discriminate.
    rewrite (el_add _ _ EL), squared_s1_distance_val, (sum_op_val _ _ squared_r1_distance_val).
    cbn. ring.
Qed.

(** * Terms *)
Definition circ_term (x y : Q) : Q := Qmax 0 (arc x y).

Lemma circ_term_eq x y : 0 <= x <= 1 -> 0 <= y <= 1 -> circ_term x y == arc x y.
Proof. intros. unfold circ_term. apply Q.max_r. apply arc_nonneg; auto. Qed.

Lemma Qabs_sym x y : Qabs (x - y) == Qabs (y - x).
Proof. rewrite <- Qabs_opp. apply Qabs_wd. ring. Qed.

Lemma l1_terms : euclidean_terms val metric_l1 (fun _ => abs_diff).
Proof.
  constructor; cbn [m_cat m_app m_dist m_dim_space metric_l1 metric_l2_squared metric_lpinf metric_so2 metric_se2_squared metric_t2_squared]; auto.
  - intros. apply Qabs_nonneg.
  - intros _ a v. rewrite (el_abs _ _ EL), (el_sub _ _ EL). apply Qabs_sym.
  - intros _ v a p H. unfold abs_diff. qabs; lra.
Qed.

Lemma l2_terms : euclidean_terms val metric_l2_squared (fun _ => sq_diff).
Proof.
  constructor; cbn [m_cat m_app m_dist m_dim_space metric_l1 metric_l2_squared metric_lpinf metric_so2 metric_se2_squared metric_t2_squared]; auto.
  - intros. apply sq_nonneg.
  - intros _ a v. unfold squared, sq_diff. rewrite (el_mul _ _ EL), (el_sub _ _ EL). ring.
  - intros _ v a p [H|H]; unfold sq_diff.
    + setoid_replace ((v - a) * (v - a)) with ((a - v) * (a - v)) by ring.
      setoid_replace ((v - p) * (v - p)) with ((p - v) * (p - v)) by ring.
      apply Qle_sq; lra.
    + apply Qle_sq; lra.
Qed.

Lemma lpinf_terms : euclidean_terms val metric_lpinf (fun _ => abs_diff).
Proof.
  constructor; cbn [m_cat m_app m_dist m_dim_space metric_l1 metric_l2_squared metric_lpinf metric_so2 metric_se2_squared metric_t2_squared]; auto.
  - intros. apply Qabs_nonneg.
  - intros _ a v. rewrite (el_abs _ _ EL), (el_sub _ _ EL). apply Qabs_sym.
  - intros _ v a p H. unfold abs_diff. qabs; lra.
Qed.

(** Distance to a segment of the line. *)
Lemma segment_r1_low mn mx v p : val mn <= p <= val mx ->
  0 <= val (segment_r1_distance mn mx v) <= Qabs (val v - p).
Proof.
  intros H. unfold segment_r1_distance.
  destruct (s_ltb v mn) eqn:E1; [apply (ltb_val val EL) in E1; rewrite (el_sub _ _ EL); qabs; lra|].
  destruct (s_ltb mx v) eqn:E2; [apply (ltb_val val EL) in E2; rewrite (el_sub _ _ EL); qabs; lra|].
  rewrite (el_zero _ _ EL). split; [lra|apply Qabs_nonneg].
Qed.

(** Distance to a segment of the circle that does not wrap around. *)
Lemma segment_s1_low mn mx v p : 0 <= val mn -> val mx <= 1 -> 0 <= val v <= 1 ->
  val mn <= p <= val mx ->
  0 <= val (segment_s1_distance mn mx v) <= arc (val v) p.
Proof.
  intros H0 H1 Hv Hp. unfold segment_s1_distance, segment_s1_linear.
  rewrite (proj2 (leb_val val EL _ _)) by lra.
  unfold segment_s1_distance_min_max. destruct (_ || _) eqn:E.
  - rewrite std_min_val, !s1_distance_val. split.
    + apply Q.min_glb; apply arc_nonneg; lra.
    + apply orb_true_iff in E.
      pose proof (Q.le_min_l (arc (val v) (val mn)) (arc (val v) (val mx))) as L1.
      pose proof (Q.le_min_r (arc (val v) (val mn)) (arc (val v) (val mx))) as L2.
      destruct (arc_le (val v) (val mn)) as [A1 A2], (arc_le (val v) (val mx)) as [B1 B2].
      destruct E as [E|E]; apply (ltb_val val EL) in E; apply arc_glb; qabs; lra.
  - rewrite (el_zero _ _ EL). split; [lra|]. apply arc_nonneg; lra.
Qed.

Definition so2_term (k : nat) : Q -> Q -> Q := circ_term.
Lemma so2_terms : topological_terms val metric_so2 so2_term.
Proof.
  constructor; cbn [m_cat m_app m_dist m_dim_space metric_l1 metric_l2_squared metric_lpinf metric_so2 metric_se2_squared metric_t2_squared]; auto; unfold so2_term.
  - intros. apply Q.le_max_l.
  - discriminate.
  - intros _ mn mx v p _ H0 H1 Hv Hp. rewrite (el_abs _ _ EL).
    destruct (segment_s1_low mn mx v p) as [A B]; auto.
    rewrite Qabs_pos by auto. unfold circ_term. rewrite Q.max_r; lra.
Qed.

Definition sq_circ_term (x y : Q) : Q := circ_term x y * circ_term x y.
Lemma sq_circ_nonneg x y : 0 <= sq_circ_term x y.
Proof. unfold sq_circ_term. assert (0 <= circ_term x y) by apply Q.le_max_l. nra. Qed.
Lemma sq_circ_low mn mx v p : 0 <= val mn -> val mx <= 1 -> 0 <= val v <= 1 ->
  val mn <= p <= val mx -> val (squared (segment_s1_distance mn mx v)) <= sq_circ_term (val v) p.
Proof.
  intros H0 H1 Hv Hp. unfold squared. rewrite (el_mul _ _ EL).
  destruct (segment_s1_low mn mx v p) as [A B]; auto.
  unfold sq_circ_term. apply Qle_sq; auto. unfold circ_term. rewrite Q.max_r; lra.
Qed.

Definition se2_term (k : nat) : Q -> Q -> Q := if (k <? 2)%nat then sq_diff else sq_circ_term.
Lemma se2_terms : topological_terms val metric_se2_squared se2_term.
Proof.
  constructor; cbn [m_cat m_app m_dist m_dim_space metric_l1 metric_l2_squared metric_lpinf metric_so2 metric_se2_squared metric_t2_squared]; auto; unfold se2_term.
  - intros k x y. destruct (k <? 2)%nat; [apply sq_nonneg|apply sq_circ_nonneg].
  - intros k mn mx v p E Hp. destruct (k <? 2)%nat; [|discriminate].
    unfold squared. rewrite (el_mul _ _ EL). destruct (segment_r1_low mn mx v p Hp) as [A B].
    unfold sq_diff. setoid_replace ((val v - p) * (val v - p)) with (Qabs (val v - p) * Qabs (val v - p))
      by (qabs; ring).
    apply Qle_sq; auto.
  - intros k mn mx v p E H0 H1 Hv Hp. destruct (k <? 2)%nat; [discriminate|].
    apply sq_circ_low; auto.
Qed.

Definition t2_term (k : nat) : Q -> Q -> Q := sq_circ_term.
Lemma t2_terms : topological_terms val metric_t2_squared t2_term.
Proof.
  constructor; cbn [m_cat m_app m_dist m_dim_space metric_l1 metric_l2_squared metric_lpinf metric_so2 metric_se2_squared metric_t2_squared]; auto; unfold t2_term.
  - intros. apply sq_circ_nonneg.
  - discriminate.
  - intros _ mn mx v p _ H0 H1 Hv Hp. apply sq_circ_low; auto.
Qed.

(** * The sum of the terms is the distance *)
Definition terms_of (em : exact_metric) : nat -> Q -> Q -> Q :=
  match em with
  | L1 => fun _ => abs_diff
  | L2Squared => fun _ => sq_diff
  | SO2 => so2_term
  | SE2Squared => se2_term
  end.

Lemma exact_terms em : terms_for val (metric_of em) (terms_of em).
Proof.
  destruct em; [left|left|right|right]; [apply l1_terms|apply l2_terms|apply so2_terms|apply se2_terms].
Qed.

Lemma sq_diff_wd a b c d : a == b -> c == d -> sq_diff a c == sq_diff b d.
Proof. unfold sq_diff. intros -> ->. reflexivity. Qed.
Lemma abs_diff_wd a b c d : a == b -> c == d -> abs_diff a c == abs_diff b d.
Proof. unfold abs_diff. intros -> ->. reflexivity. Qed.
Lemma term_sum_dist em n x y : length x = n -> length y = n ->
  valid_for em (map val x) -> valid_for em (map val y) ->
  term_sum val n (terms_of em) x y == dist_of em (map val x) (map val y).
Proof.
  intros Lx Ly Vx Vy. unfold term_sum. destruct em; cbn [terms_of dist_of valid_for] in *.
  - rewrite (sum_dist_sumN _ n) by (rewrite map_length; auto).
    apply sumN_ext. intros k Hk. apply abs_diff_wd; symmetry; apply nth_map_val.
  - rewrite (sum_dist_sumN _ n) by (rewrite map_length; auto).
    apply sumN_ext. intros k Hk. apply sq_diff_wd; symmetry; apply nth_map_val.
  - destruct Vx as [V1 V2], Vy as [V3 V4]. rewrite map_length in V1, V3.
    assert (n = 1%nat) as -> by congruence. cbn [sumN]. unfold so2_term.
    rewrite circ_term_eq by (rewrite <- nth_map_val; auto).
    rewrite Qplus_0_l. apply arc_wd; symmetry; apply nth_map_val.
  - destruct Vx as [V1 V2], Vy as [V3 V4]. rewrite map_length in V1, V3.
    assert (n = 3%nat) as -> by congruence. cbn [sumN]. unfold se2_term. cbn [Nat.ltb Nat.leb].
    unfold sq_circ_term. rewrite circ_term_eq by (rewrite <- nth_map_val; auto).
    rewrite (sq_diff_wd _ _ _ _ (nth_map_val x 0) (nth_map_val y 0)).
    rewrite (sq_diff_wd _ _ _ _ (nth_map_val x 1) (nth_map_val y 1)).
    rewrite (arc_wd _ _ _ _ (nth_map_val x 2) (nth_map_val y 2)). ring.
Qed.

Lemma valid_point em n x : length x = n -> valid_for em (map val x) ->
  point_ok val (metric_of em) n x.
Proof.
  intros L V. unfold point_ok, circular_ok. destruct em;
    cbn [m_cat m_dim_space metric_of metric_l1 metric_l2_squared metric_so2 metric_se2_squared valid_for] in *;
    try discriminate; intros _ k Hk.
  - destruct V as [V1 V2]. rewrite map_length in V1. assert (k = 0%nat) as -> by lia.
    intros _. rewrite <- nth_map_val. auto.
  - destruct V as [V1 V2]. rewrite map_length in V1.
    destruct (Nat.ltb_spec k 2); [intros; discriminate|]. assert (k = 2%nat) as -> by lia.
    intros _. rewrite <- nth_map_val. auto.
Qed.

(** * The max norm *)
Lemma lpinf_fold x y : forall d,
  let r := fold_left (fun d '(a, b) => std_max d (r1_distance a b)) (combine x y) d in
  val d <= val r /\ forall k, (k < length x)%nat -> (k < length y)%nat ->
    abs_diff (val (nth k x s_zero)) (val (nth k y s_zero)) <= val r.
Proof.
  revert y. induction x as [|a x IH]; intros [|b y] d; cbn [combine fold_left length nth]; try (split; [lra|intros; lia]).
  destruct (IH y (std_max d (r1_distance a b))) as [A B].
  assert (M : val d <= val (std_max d (r1_distance a b))
           /\ abs_diff (val a) (val b) <= val (std_max d (r1_distance a b))).
  { rewrite std_max_val, r1_distance_val. split; [apply Q.le_max_l|apply Q.le_max_r]. }
  split; [eapply Qle_trans; [apply M|apply A]|].
  intros [|k] H1 H2; [eapply Qle_trans; [apply M|apply A]|]. apply B; lia.
Qed.

Lemma sumN_const n c : sumN n (fun _ => c) == inject_Z (Z.of_nat n) * c.
Proof.
  induction n as [|n IH]; [cbn; ring|]. cbn [sumN]. rewrite IH.
  rewrite Nat2Z.inj_succ. unfold Z.succ. rewrite inject_Z_plus. ring.
Qed.

Lemma lpinf_sum n x y : length x = n -> length y = n ->
  val (m_dist metric_lpinf x y) <= term_sum val n (fun _ => abs_diff) x y
  <= inject_Z (Z.of_nat n) * val (m_dist metric_lpinf x y).
Proof.
  intros Lx Ly. split.
  - subst n. cbn. unfold term_sum.
    assert (K : forall x y d, length y = length x ->
      val (fold_left (fun d '(a, b) => std_max d (r1_distance a b)) (combine x y) d)
      <= Qmax (val d) (sumN (length x) (fun k => abs_diff (val (nth k x s_zero)) (val (nth k y s_zero))))).
    { clear x y Ly. induction x as [|a x IH]; intros [|b y] d L; try discriminate; cbn [combine fold_left].
      - apply Q.le_max_l.
      - eapply Qle_trans; [apply IH; simpl in L; lia|].
        rewrite std_max_val, r1_distance_val. cbn [length]. rewrite sumN_shift. cbn [nth].
        set (s := sumN _ _).
        assert (0 <= s) by (apply sumN_nonneg; intros; apply Qabs_nonneg).
        assert (0 <= abs_diff (val a) (val b)) by apply Qabs_nonneg.
        apply Q.max_lub.
        + apply Q.max_lub; [apply Q.le_max_l|].
          eapply Qle_trans; [|apply Q.le_max_r]. lra.
        + eapply Qle_trans; [|apply Q.le_max_r]. lra. }
    eapply Qle_trans; [apply K; auto|]. apply Q.max_lub; [|apply Qle_refl].
    rewrite (el_zero _ _ EL). apply sumN_nonneg. intros; apply Qabs_nonneg.
  - rewrite <- sumN_const. apply sumN_le. intros k Hk.
    apply (proj2 (lpinf_fold x y s_zero)); lia.
Qed.

End Metrics.
