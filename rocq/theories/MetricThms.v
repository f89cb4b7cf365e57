(** The built-in metrics satisfy the metric axioms; segment distances are
    attained minima. *)
From Coq Require Import List ZArith QArith Qabs Qminmax Bool Arith Permutation Lia Lqa.
From Verif Require Import Base ModelBox ModelBuild ModelSearch Spec Lemmas Instances
  BuildProofs BuildOrder SearchProofs Metrics.
Import ListNotations.
Local Open Scope Q_scope.

(** * One coordinate *)
Lemma abs_diff_sym x y : abs_diff x y == abs_diff y x.
Proof. apply Qabs_sym. Qed.
Lemma sq_diff_sym x y : sq_diff x y == sq_diff y x.
Proof. unfold sq_diff. ring. Qed.
Lemma arc_sym x y : arc x y == arc y x.
Proof.
  pose proof (Qabs_sym x y). destruct (arc_cases x y) as [[A B]|[A B]], (arc_cases y x) as [[C D]|[C D]];
    rewrite B, D; rewrite H in *; try reflexivity; lra.
Qed.

Lemma abs_diff_zero x y : abs_diff x y == 0 <-> x == y.
Proof. unfold abs_diff. split; [qabs; lra|]. intros ->. qabs; lra. Qed.
Lemma sq_zero x : x * x == 0 <-> x == 0.
Proof.
  split; [|intros ->; ring]. intros H. apply Qmult_integral in H. tauto.
Qed.
Lemma sq_diff_zero x y : sq_diff x y == 0 <-> x == y.
Proof. unfold sq_diff. rewrite sq_zero. split; intros; lra. Qed.
Lemma arc_zero x y : 0 <= x <= 1 -> 0 <= y <= 1 -> (arc x y == 0 <-> circle_eq x y).
Proof.
  intros Hx Hy. unfold circle_eq. split.
  - destruct (arc_cases x y) as [[A B]|[A B]]; rewrite B; intros E.
    + left. revert E. qabs; lra.
    + right. revert E. clear A B. qabs; intros; [right|left]; lra.
  - intros [E|[[E1 E2]|[E1 E2]]].
    + rewrite (arc_wd x x y x) by (auto; lra). destruct (arc_cases x x) as [[A B]|[A B]]; rewrite B; revert A; qabs; lra.
    + rewrite (arc_wd x 0 y 1) by auto. reflexivity.
    + rewrite (arc_wd x 1 y 0) by auto. reflexivity.
Qed.

Lemma abs_diff_triangle x y z : abs_diff x z <= abs_diff x y + abs_diff y z.
Proof. unfold abs_diff. qabs; lra. Qed.
Lemma arc_triangle x y z : 0 <= x <= 1 -> 0 <= y <= 1 -> 0 <= z <= 1 ->
  arc x z <= arc x y + arc y z.
Proof.
  intros Hx Hy Hz. destruct (arc_le x z) as [A1 A2].
  destruct (arc_cases x y) as [[B1 B2]|[B1 B2]], (arc_cases y z) as [[C1 C2]|[C1 C2]]; rewrite B2, C2;
    clear B2 C2; qabs; lra.
Qed.

(** * Sums *)
Lemma sum_dist_sym f : (forall x y, f x y == f y x) -> forall x y, sum_dist f x y == sum_dist f y x.
Proof.
  intros H. induction x as [|a x IH]; intros [|b y]; cbn; try reflexivity. rewrite H, IH. reflexivity.
Qed.
Lemma sum_dist_nonneg f : (forall x y, 0 <= f x y) -> forall x y, 0 <= sum_dist f x y.
Proof.
  intros H. induction x as [|a x IH]; intros [|b y]; cbn; try lra.
  specialize (H a b). specialize (IH y). lra.
Qed.
Lemma sum_dist_zero f : (forall x y, 0 <= f x y) -> (forall x y, f x y == 0 <-> x == y) ->
  forall x y, length x = length y -> (sum_dist f x y == 0 <-> Forall2 Qeq x y).
Proof.
  intros H0 H. induction x as [|a x IH]; intros [|b y] L; try discriminate; cbn.
  - split; [constructor|reflexivity].
  - injection L as L. specialize (IH y L). pose proof (H0 a b). pose proof (sum_dist_nonneg f H0 x y).
    split.
    + intros E. constructor; [apply H; lra|]. apply IH. lra.
    + intros F. inversion F as [|? ? ? ? Ha Hb]; subst. apply IH in Hb. apply H in Ha. lra.
Qed.
Lemma sum_dist_triangle f : (forall x y z, f x z <= f x y + f y z) ->
  forall x y z, length x = length y -> length y = length z ->
  sum_dist f x z <= sum_dist f x y + sum_dist f y z.
Proof.
  intros H. induction x as [|a x IH]; intros [|b y] [|c z] La Lb; try discriminate La; try discriminate Lb; [cbn; lra|cbn].
  specialize (H a b c). specialize (IH y z). simpl in *. assert (sum_dist f x z <= sum_dist f x y + sum_dist f y z) by (apply IH; lia). lra.
Qed.

(** Cauchy-Schwarz and Minkowski, without square roots. *)
Fixpoint dot (x y : list Q) : Q :=
  match x, y with a :: x', b :: y' => a * b + dot x' y' | _, _ => 0 end.
Lemma dot_nonneg x : 0 <= dot x x.
Proof. induction x; cbn; [lra|]. pose proof (sq_nonneg a). lra. Qed.
Lemma dot_scale x : forall y (t : Q), length x = length y ->
  0 <= dot x x - 2 * t * dot x y + t * t * dot y y.
Proof.
  induction x as [|a x IH]; intros [|b y] t L; try discriminate L; [cbn; lra|].
  change (0 <= (a * a + dot x x) - 2 * t * (a * b + dot x y) + t * t * (b * b + dot y y)).
  injection L as L. specialize (IH y t L). pose proof (sq_nonneg (a - t * b)). lra.
Qed.
Lemma cauchy x y : length x = length y -> dot x y * dot x y <= dot x x * dot y y.
Proof.
  intros L. pose proof (dot_nonneg x) as X. pose proof (dot_nonneg y) as Y.
  destruct (Qlt_le_dec 0 (dot y y)) as [P|P].
  - pose proof (dot_scale x y (dot x y / dot y y) L) as D.
    set (t := dot x y / dot y y) in *.
    assert (E : t * dot y y == dot x y) by (unfold t; field; lra).
    assert (K : 0 <= (dot x x - 2 * t * dot x y + t * t * dot y y) * dot y y) by nra.
    setoid_replace ((dot x x - 2 * t * dot x y + t * t * dot y y) * dot y y)
      with (dot x x * dot y y - 2 * (t * dot y y) * dot x y + (t * dot y y) * (t * dot y y)) in K by ring.
    rewrite E in K. lra.
  - assert (Z : dot y y == 0) by lra.
    assert (W : dot x y == 0).
    { destruct (Qlt_le_dec (dot x y) 0) as [N|N].
      - pose proof (dot_scale x y ((dot x x + 1) / dot x y) L) as D. rewrite Z in D.
        assert (E : (dot x x + 1) / dot x y * dot x y == dot x x + 1) by (field; lra).
        set (t := (dot x x + 1) / dot x y) in *. nra.
      - destruct (Qlt_le_dec 0 (dot x y)) as [N'|N']; [|lra].
        pose proof (dot_scale x y ((dot x x + 1) / dot x y) L) as D. rewrite Z in D.
        assert (E : (dot x x + 1) / dot x y * dot x y == dot x x + 1) by (field; lra).
        set (t := (dot x x + 1) / dot x y) in *. nra. }
    rewrite W, Z. lra.
Qed.

Lemma sq_le_inv a b : 0 <= b -> a * a <= b * b -> a <= b.
Proof. intros Hb H. destruct (Qlt_le_dec b a); auto. nra. Qed.

Lemma minkowski : forall x y z a b, length x = length y -> length y = length z ->
  0 <= a -> 0 <= b -> sum_dist sq_diff x y <= a * a -> sum_dist sq_diff y z <= b * b ->
  sum_dist sq_diff x z <= (a + b) * (a + b).
Proof.
  intros x y z a b L1 L2 Ha Hb H1 H2.
  set (diff := fun x y => map (fun '(u, v) => u - v) (combine x y)).
  assert (D1 : forall x y, length x = length y -> sum_dist sq_diff x y == dot (diff x y) (diff x y)).
  { clear. unfold diff. induction x as [|u x IH]; intros [|v y] L; try discriminate; cbn; [reflexivity|].
    rewrite IH by auto. unfold sq_diff. reflexivity. }
  assert (D2 : forall x y z, length x = length y -> length y = length z ->
    dot (diff x z) (diff x z) == dot (diff x y) (diff x y) + 2 * dot (diff x y) (diff y z) + dot (diff y z) (diff y z)).
  { clear. unfold diff. induction x as [|u x IH]; intros [|v y] [|w z] La Lb; try discriminate; cbn; [ring|].
    rewrite (IH y z) by (simpl in *; lia). ring. }
  rewrite D1 in * by congruence. rewrite (D2 x y z) by auto.
  assert (DL : length (diff x y) = length (diff y z)).
  { unfold diff. rewrite !map_length, !combine_length. lia. }
  pose proof (cauchy _ _ DL) as C. pose proof (dot_nonneg (diff x y)). pose proof (dot_nonneg (diff y z)).
  assert (K : dot (diff x y) (diff y z) <= a * b).
  { apply sq_le_inv; [nra|]. eapply Qle_trans; [apply C|].
    setoid_replace (a * b * (a * b)) with ((a * a) * (b * b)) by ring.
    eapply Qle_trans; [apply Qmult_le_compat_r; eassumption|].
    rewrite (Qmult_comm (a * a)), (Qmult_comm (a * a)). apply Qmult_le_compat_r; [auto|nra]. }
  lra.
Qed.

(** * The built-in metrics, on rationals *)
Lemma dist_of_sym em x y : dist_of em x y == dist_of em y x.
Proof.
  destruct em; cbn [dist_of].
  - apply sum_dist_sym, abs_diff_sym.
  - apply sum_dist_sym, sq_diff_sym.
  - apply arc_sym.
  - rewrite (sq_diff_sym (nth 0 x 0)), (sq_diff_sym (nth 1 x 0)), (arc_sym (nth 2 x 0)). reflexivity.
Qed.
Lemma dist_of_nonneg em x y : valid_for em x -> valid_for em y -> 0 <= dist_of em x y.
Proof.
  destruct em; cbn [dist_of valid_for]; intros Vx Vy.
  - apply sum_dist_nonneg. intros; apply Qabs_nonneg.
  - apply sum_dist_nonneg. intros; apply sq_nonneg.
  - apply arc_nonneg; tauto.
  - pose proof (sq_nonneg (nth 0 x 0 - nth 0 y 0)). pose proof (sq_nonneg (nth 1 x 0 - nth 1 y 0)).
    pose proof (sq_nonneg (arc (nth 2 x 0) (nth 2 y 0))). unfold sq_diff. lra.
Qed.
Lemma dist_of_zero em x y : length x = length y -> valid_for em x -> valid_for em y ->
  (dist_of em x y == 0 <-> same_point em x y).
Proof.
  intros L. destruct em; cbn [dist_of valid_for same_point]; intros Vx Vy.
  - apply sum_dist_zero; auto. intros; apply Qabs_nonneg. apply abs_diff_zero.
  - apply sum_dist_zero; auto. intros; apply sq_nonneg. apply sq_diff_zero.
  - apply arc_zero; tauto.
  - pose proof (sq_nonneg (nth 0 x 0 - nth 0 y 0)) as A. pose proof (sq_nonneg (nth 1 x 0 - nth 1 y 0)) as B.
    pose proof (sq_nonneg (arc (nth 2 x 0) (nth 2 y 0))) as C.
    pose proof (sq_diff_zero (nth 0 x 0) (nth 0 y 0)) as Z0.
    pose proof (sq_diff_zero (nth 1 x 0) (nth 1 y 0)) as Z1.
    pose proof (arc_zero (nth 2 x 0) (nth 2 y 0) (proj2 Vx) (proj2 Vy)) as Z2.
    pose proof (sq_zero (arc (nth 2 x 0) (nth 2 y 0))) as Z3.
    change (0 <= sq_diff (nth 0 x 0) (nth 0 y 0)) in A. change (0 <= sq_diff (nth 1 x 0) (nth 1 y 0)) in B.
    split.
    + intros E. split; [apply Z0; lra|]. split; [apply Z1; lra|]. apply Z2, Z3. lra.
    + intros (E1 & E2 & E3). apply Z0 in E1. apply Z1 in E2. apply Z2, Z3 in E3. lra.
Qed.

Lemma linf_glb a x b y : abs_diff a b <= linf_dist (a :: x) (b :: y)
  /\ linf_dist x y <= linf_dist (a :: x) (b :: y).
Proof. cbn [linf_dist]. destruct (Qlt_le_dec _ _); lra. Qed.
Lemma linf_lub a x b y z : abs_diff a b <= z -> linf_dist x y <= z -> linf_dist (a :: x) (b :: y) <= z.
Proof. cbn [linf_dist]. destruct (Qlt_le_dec _ _); lra. Qed.
Lemma linf_nonneg x : forall y, 0 <= linf_dist x y.
Proof.
  destruct x as [|a x]; intros [|b y]; try (cbn; lra).
  pose proof (linf_glb a x b y) as [A _]. assert (0 <= abs_diff a b) by apply Qabs_nonneg. lra.
Qed.
Lemma linf_sym x : forall y, linf_dist x y == linf_dist y x.
Proof.
  induction x as [|a x IH]; intros [|b y]; cbn [linf_dist]; try reflexivity.
  specialize (IH y). pose proof (abs_diff_sym a b).
  destruct (Qlt_le_dec _ _), (Qlt_le_dec _ _); lra.
Qed.
Lemma linf_zero x : forall y, length x = length y -> (linf_dist x y == 0 <-> Forall2 Qeq x y).
Proof.
  induction x as [|a x IH]; intros [|b y] L; try discriminate L; cbn [linf_dist].
  - split; [constructor|reflexivity].
  - injection L as L. specialize (IH y L). pose proof (linf_nonneg x y).
    assert (0 <= abs_diff a b) by apply Qabs_nonneg.
    split.
    + intros E. assert (abs_diff a b == 0 /\ linf_dist x y == 0) as [E1 E2].
      { destruct (Qlt_le_dec _ _); lra. }
      constructor; [apply abs_diff_zero; auto|apply IH; auto].
    + intros F. inversion F as [|? ? ? ? Ha Hb]; subst. apply IH in Hb. apply abs_diff_zero in Ha.
      destruct (Qlt_le_dec _ _); lra.
Qed.
Lemma linf_triangle x : forall y z, length x = length y -> length y = length z ->
  linf_dist x z <= linf_dist x y + linf_dist y z.
Proof.
  induction x as [|a x IH]; intros [|b y] [|c z] La Lb; try discriminate La; try discriminate Lb; [cbn; lra|].
  pose proof (linf_glb a x b y). pose proof (linf_glb b y c z). pose proof (abs_diff_triangle a b c).
  assert (linf_dist x z <= linf_dist x y + linf_dist y z) by (apply IH; simpl in *; lia).
  apply linf_lub; lra.
Qed.
Lemma linf_spec x : forall y, length x = length y ->
  forall z, 0 <= z -> (linf_dist x y <= z <-> Forall2 (fun a b => abs_diff a b <= z) x y).
Proof.
  induction x as [|a x IH]; intros [|b y] L z Hz; try discriminate L.
  - cbn. split; auto.
  - injection L as L. split.
    + intros H. pose proof (linf_glb a x b y). constructor; [lra|]. apply IH; auto. lra.
    + intros F. inversion F; subst. apply linf_lub; auto. apply IH; auto.
Qed.

(** * Through the model *)
Section Thms.
Context {T : Type} {S : Scalar T} (val : T -> Q) (EL : exact_laws S val).

(** The metric axioms. *)
Definition se2_len (em : exact_metric) (x : list Q) : valid_for em x -> em = SE2Squared -> length x = 3%nat.
Proof. intros V E. subst. apply V. Qed.

Lemma metric_val em x y : valid_for em (map val x) -> valid_for em (map val y) ->
  val (m_dist (metric_of em) x y) == dist_of em (map val x) (map val y).
Proof.
  intros Vx Vy. apply (dist_of_val val EL). intros ->. split.
  - rewrite <- (map_length val x). apply Vx.
  - rewrite <- (map_length val y). apply Vy.
Qed.

Lemma metric_axioms em x y : length x = length y -> valid_for em (map val x) -> valid_for em (map val y) ->
  val (m_dist (metric_of em) x y) == val (m_dist (metric_of em) y x)
  /\ 0 <= val (m_dist (metric_of em) x y)
  /\ (val (m_dist (metric_of em) x y) == 0 <-> same_point em (map val x) (map val y)).
Proof.
  intros L Vx Vy. rewrite !metric_val by auto. split; [apply dist_of_sym|].
  split; [apply dist_of_nonneg; auto|]. apply dist_of_zero; auto. rewrite !map_length. auto.
Qed.

Lemma metric_triangle em x y z : em = L1 \/ em = SO2 -> length x = length y -> length y = length z ->
  valid_for em (map val x) -> valid_for em (map val y) -> valid_for em (map val z) ->
  val (m_dist (metric_of em) x z) <= val (m_dist (metric_of em) x y) + val (m_dist (metric_of em) y z).
Proof.
  intros E L1' L2' Vx Vy Vz. rewrite !metric_val by auto. destruct E as [-> | ->]; cbn [dist_of].
  - apply sum_dist_triangle; [apply abs_diff_triangle|rewrite !map_length; auto|rewrite !map_length; auto].
  - apply arc_triangle; [apply Vx|apply Vy|apply Vz].
Qed.

(** Square roots of the squared metrics satisfy the triangle inequality. *)
Lemma metric_sqrt_triangle em x y z a b : em = L2Squared \/ em = SE2Squared ->
  length x = length y -> length y = length z ->
  valid_for em (map val x) -> valid_for em (map val y) -> valid_for em (map val z) ->
  0 <= a -> 0 <= b ->
  val (m_dist (metric_of em) x y) <= a * a -> val (m_dist (metric_of em) y z) <= b * b ->
  val (m_dist (metric_of em) x z) <= (a + b) * (a + b).
Proof.
  intros E L1' L2' Vx Vy Vz Ha Hb H1 H2. rewrite metric_val in * by auto.
  destruct E as [-> | ->]; cbn [dist_of] in *.
  - eapply minkowski; try eassumption; rewrite !map_length; auto.
  - set (p := fun (u v w : Q) => [u; v; w]).
    set (x' := map val x) in *. set (y' := map val y) in *. set (z' := map val z) in *.
    set (A1 := arc (nth 2 x' 0) (nth 2 y' 0)) in *. set (A2 := arc (nth 2 y' 0) (nth 2 z' 0)) in *.
    assert (T3 : arc (nth 2 x' 0) (nth 2 z' 0) <= A1 + A2) by (apply arc_triangle; [apply Vx|apply Vy|apply Vz]).
    assert (N3 : 0 <= arc (nth 2 x' 0) (nth 2 z' 0)) by (apply arc_nonneg; [apply Vx|apply Vz]).
    pose proof (minkowski [nth 0 x' 0; nth 1 x' 0; A1 + A2] [nth 0 y' 0; nth 1 y' 0; A2]
      [nth 0 z' 0; nth 1 z' 0; 0] a b eq_refl eq_refl Ha Hb) as M.
    cbn [sum_dist] in M.
    assert (Q1 : sq_diff (A1 + A2) A2 == A1 * A1) by (unfold sq_diff; ring).
    assert (Q2 : sq_diff A2 0 == A2 * A2) by (unfold sq_diff; ring).
    assert (Q3 : sq_diff (A1 + A2) 0 == (A1 + A2) * (A1 + A2)) by (unfold sq_diff; ring).
    rewrite Q1, Q2, Q3 in M.
    assert (arc (nth 2 x' 0) (nth 2 z' 0) * arc (nth 2 x' 0) (nth 2 z' 0) <= (A1 + A2) * (A1 + A2)) by (apply Qle_sq; auto).
    lra.
Qed.

(** The max norm. *)
Lemma lpinf_val x y : length x = length y ->
  val (m_dist metric_lpinf x y) == linf_dist (map val x) (map val y).
Proof.
  intros L. cbn.
  assert (K : forall x y d, length x = length y -> 0 <= val d ->
    val (fold_left (fun d '(a, b) => std_max d (r1_distance a b)) (combine x y) d)
    == Qmax (val d) (linf_dist (map val x) (map val y))).
  { clear x y L. induction x as [|a x IH]; intros [|b y] d L Hd; try discriminate.
    - cbn. rewrite Q.max_l by auto. reflexivity.
    - cbn [combine fold_left map]. injection L as L. rewrite IH; auto.
      + rewrite (std_max_val val EL), (r1_distance_val val EL).
        rewrite <- Q.max_assoc. cbn [linf_dist].
        destruct (Qlt_le_dec _ _) as [H|H].
        * rewrite (Q.max_r (abs_diff _ _)) by lra. reflexivity.
        * rewrite (Q.max_l (abs_diff _ _)) by lra. reflexivity.
      + rewrite (std_max_val val EL). eapply Qle_trans; [apply Hd|apply Q.le_max_l]. }
  rewrite K; auto.
  - rewrite (el_zero _ _ EL). apply Q.max_r. apply linf_nonneg.
  - rewrite (el_zero _ _ EL). lra.
Qed.

Lemma lpinf_axioms (x y z : list T) : length x = length y -> length y = length z ->
  val (m_dist metric_lpinf x y) == val (m_dist metric_lpinf y x)
  /\ 0 <= val (m_dist metric_lpinf x y)
  /\ (val (m_dist metric_lpinf x y) == 0 <-> Forall2 Qeq (map val x) (map val y))
  /\ val (m_dist metric_lpinf x z) <= val (m_dist metric_lpinf x y) + val (m_dist metric_lpinf y z).
Proof.
  intros L1' L2'. rewrite !lpinf_val by congruence. split; [apply linf_sym|]. split; [apply linf_nonneg|].
  split; [apply linf_zero; rewrite !map_length; auto|].
  apply linf_triangle; rewrite !map_length; auto.
Qed.

(** metric(x) of a scalar is the distance of one coordinate. *)
Lemma metric_app_one (a v : T) :
  (val (m_app metric_l1 (s_sub a v)) == val (m_dist metric_l1 [v] [a]))
  /\ (val (m_app metric_l2_squared (s_sub a v)) == val (m_dist metric_l2_squared [v] [a]))
  /\ (val (m_app metric_lpinf (s_sub a v)) == val (m_dist metric_lpinf [v] [a]))
  /\ (0 <= val v <= 1 -> 0 <= val a <= 1 ->
      val (m_app metric_so2 (s1_distance a v)) == val (m_dist metric_so2 [v] [a])).
Proof.
  assert (K : val (s_abs (s_sub a v)) == abs_diff (val v) (val a)).
  { rewrite (el_abs _ _ EL), (el_sub _ _ EL). apply Qabs_sym. }
  split; [|split; [|split]].
  - rewrite (metric_val L1) by exact I. cbn [dist_of map sum_dist m_app metric_l1]. rewrite K. lra.
  - rewrite (metric_val L2Squared) by exact I. cbn [dist_of map sum_dist m_app metric_l2_squared]. unfold squared. rewrite (el_mul _ _ EL), (el_sub _ _ EL).
    unfold sq_diff. ring.
  - rewrite lpinf_val by auto. cbn [map m_app metric_lpinf linf_dist]. rewrite K.
    assert (0 <= abs_diff (val v) (val a)) by apply Qabs_nonneg.
    destruct (Qlt_le_dec _ _); lra.
  - intros Hv Ha. cbn [m_app m_dist metric_so2]. rewrite (el_abs _ _ EL). unfold get. cbn [nth].
    rewrite !(s1_distance_val val EL). rewrite (arc_sym (val v)). apply Qabs_pos. apply arc_nonneg; auto.
Qed.

Lemma Qmin_which a b : Qmin a b == a \/ Qmin a b == b.
Proof. destruct (Qlt_le_dec a b); [left; apply Q.min_l; lra|right; apply Q.min_r; auto]. Qed.

(** The min norm. *)
Lemma lninf_val x y :
  (forall a b, In (a, b) (combine x y) -> val (m_dist metric_lninf x y) <= abs_diff (val a) (val b))
  /\ val (m_dist metric_lninf x y) <= val s_max
  /\ ((exists a b, In (a, b) (combine x y) /\ val (m_dist metric_lninf x y) == abs_diff (val a) (val b))
      \/ (val (m_dist metric_lninf x y) == val s_max)).
Proof.
  cbn [m_dist metric_lninf]. generalize (combine x y) as l. clear x y.
  assert (K : forall l (d : T), let r := fold_left (fun d '(a, b) => std_min d (r1_distance a b)) l d in
    (forall a b, In (a, b) l -> val r <= abs_diff (val a) (val b)) /\ val r <= val d
    /\ ((exists a b, In (a, b) l /\ val r == abs_diff (val a) (val b)) \/ val r == val d)).
  { induction l as [|[a b] l IH]; intros d; cbn [fold_left].
    - split; [intros a b []|]. split; [apply Qle_refl|]. right. reflexivity.
    - destruct (IH (std_min d (r1_distance a b))) as (A & B & C). set (r := fold_left _ l _) in *. cbv zeta.
      assert (M : val (std_min d (r1_distance a b)) == Qmin (val d) (abs_diff (val a) (val b)))
        by (rewrite (std_min_val val EL), (r1_distance_val val EL); reflexivity).
      rewrite M in B, C.
      pose proof (Q.le_min_l (val d) (abs_diff (val a) (val b))). pose proof (Q.le_min_r (val d) (abs_diff (val a) (val b))).
      split; [|split].
      + intros a' b' [E|H']; [|auto]. injection E as <- <-. lra.
      + lra.
      + destruct C as [(a' & b' & H1 & H2)|C].
        * left. exists a', b'. split; [right; auto|auto].
        * destruct (Qmin_which (val d) (abs_diff (val a) (val b))) as [W|W]; rewrite W in C; [right; auto|].
          left. exists a, b. split; [left; reflexivity|auto]. }
  intros l. exact (K l s_max).
Qed.
Lemma lninf_app (a v : T) : abs_diff (val v) (val a) <= val s_max ->
  val (m_app metric_lninf (s_sub a v)) == val (m_dist metric_lninf [v] [a]).
Proof.
  intros H. cbn [m_app m_dist metric_lninf combine fold_left].
  rewrite (std_min_val val EL), (r1_distance_val val EL), (Q.min_r _ _ H), (el_abs _ _ EL), (el_sub _ _ EL). apply Qabs_sym.
Qed.

(** * Segments *)
Lemma segment_r1_min mn mx v : val mn <= val mx ->
  (forall p, val mn <= p <= val mx -> val (segment_r1_distance mn mx v) <= abs_diff (val v) p)
  /\ exists p, val mn <= p <= val mx /\ val (segment_r1_distance mn mx v) == abs_diff (val v) p.
Proof.
  intros H. split; [intros p Hp; apply (segment_r1_low val EL); auto|].
  unfold segment_r1_distance, abs_diff.
  destruct (s_ltb v mn) eqn:E1; [|destruct (s_ltb mx v) eqn:E2].
  - apply (ltb_val val EL) in E1. exists (val mn). rewrite (el_sub _ _ EL). split; [lra|]. qabs; lra.
  - apply (ltb_val val EL) in E2. exists (val mx). rewrite (el_sub _ _ EL). split; [lra|]. qabs; lra.
  - apply (ltb_val_false val EL) in E1, E2. exists (val v). rewrite (el_zero _ _ EL). split; [lra|]. qabs; lra.
Qed.

Lemma arc_self x : arc x x == 0.
Proof. destruct (arc_cases x x) as [[A B]|[A B]]; rewrite B; revert A; qabs; lra. Qed.

Lemma segment_s1_min mn mx v : 0 <= val mn <= 1 -> 0 <= val mx <= 1 -> 0 <= val v <= 1 ->
  (forall p, on_arc (val mn) (val mx) p -> val (segment_s1_distance mn mx v) <= arc (val v) p)
  /\ exists p, on_arc (val mn) (val mx) p /\ val (segment_s1_distance mn mx v) == arc (val v) p.
Proof.
  intros Hn Hx Hv. unfold on_arc.
  assert (K : exists p, (0 <= p <= 1) /\ (p == val mn \/ p == val mx) /\
    val (std_min (s1_distance v mn) (s1_distance v mx)) == arc (val v) p).
  { assert (M : val (std_min (s1_distance v mn) (s1_distance v mx)) == Qmin (arc (val v) (val mn)) (arc (val v) (val mx))).
    { rewrite (std_min_val val EL), !(s1_distance_val val EL). reflexivity. }
    destruct (Qmin_which (arc (val v) (val mn)) (arc (val v) (val mx))) as [E|E]; rewrite E in M;
      [exists (val mn)|exists (val mx)]; split; auto; split; auto; [left|right]; reflexivity. }
  destruct (s_leb mn mx) eqn:El.
  - pose proof El as El'. apply (leb_val val EL) in El'. split.
    + intros p [H01 [[_ Hp]|[Hlt _]]]; [|lra]. apply (segment_s1_low val EL); auto; lra.
    + unfold segment_s1_distance, segment_s1_linear. rewrite El. unfold segment_s1_distance_min_max.
      destruct (_ || _) eqn:E.
      * destruct K as (p & Hp & [Ep|Ep] & EK); exists p; split; auto; split; auto; left; split; auto; rewrite Ep; lra.
      * apply orb_false_iff in E as [E1 E2]. apply (ltb_val_false val EL) in E1, E2.
        exists (val v). rewrite arc_self, (el_zero _ _ EL). split; [|lra]. split; [auto|]. left; lra.
  - pose proof El as El'. apply (leb_val_false val EL) in El'.
    unfold segment_s1_distance, segment_s1_linear. rewrite El. unfold segment_s1_distance_max_min.
    destruct (_ || _) eqn:E.
    + split; [intros p [H01 _]; rewrite (el_zero _ _ EL); apply arc_nonneg; auto|].
      exists (val v). rewrite arc_self, (el_zero _ _ EL). split; [|lra]. split; auto. right. split; auto.
      apply orb_true_iff in E as [E|E]; apply (ltb_val val EL) in E; [right|left]; lra.
    + apply orb_false_iff in E as [E1 E2]. apply (ltb_val_false val EL) in E1, E2. split.
      * intros p [H01 [[Hle _]|[_ Hp]]]; [lra|].
        rewrite (std_min_val val EL), !(s1_distance_val val EL).
        pose proof (Q.le_min_l (arc (val v) (val mn)) (arc (val v) (val mx))) as L1'.
        pose proof (Q.le_min_r (arc (val v) (val mn)) (arc (val v) (val mx))) as L2'.
        destruct (arc_le (val v) (val mn)) as [A1 A2], (arc_le (val v) (val mx)) as [B1 B2].
        apply arc_glb; destruct Hp as [Hp|Hp]; qabs; lra.
      * destruct K as (p & Hp & [Ep|Ep] & EK); exists p; split; auto; split; auto; right; split; auto; rewrite Ep; [left|right]; lra.
Qed.

(** [contains] of a segment is membership. *)
Lemma segment_s1_contains_spec mn mx v : 0 <= val v <= 1 ->
  segment_s1_contains mn mx v = true <-> on_arc (val mn) (val mx) (val v).
Proof.
  intros Hv. unfold segment_s1_contains, segment_s1_linear, on_arc.
  destruct (s_leb mn mx) eqn:E.
  - apply (leb_val val EL) in E. rewrite andb_true_iff, !(leb_val val EL).
    split; [intros; split; auto; left; auto|]. intros [_ [[_ H]|[H _]]]; lra.
  - apply (leb_val_false val EL) in E. rewrite orb_true_iff, !(leb_val val EL).
    split; [intros; split; auto|]. intros [_ [[H _]|[_ H]]]; auto; lra.
Qed.
Lemma segment_r1_contains_spec mn mx v :
  segment_r1_contains mn mx v = true <-> val mn <= val v <= val mx.
Proof. unfold segment_r1_contains. rewrite andb_true_iff, !(leb_val val EL). reflexivity. Qed.

End Thms.
