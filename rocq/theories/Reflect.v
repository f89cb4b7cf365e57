(** Reflections preserve scalar products, and the code computes them. *)
From Coq Require Import List ZArith QArith Qabs Bool Arith Permutation Lia Lqa.
From Verif Require Import Base ModelBox ModelBuild ModelSearch Spec ModelCover ModelForest SpecForest Lemmas Instances
  BuildProofs BuildOrder SearchProofs Metrics.
Import ListNotations.
Local Open Scope Q_scope.

Lemma dot_sumN : forall n x y, length x = n -> length y = n ->
  dot x y == sumN n (fun k => nth k x 0 * nth k y 0).
Proof.
  induction n as [|n IH]; intros x y Hx Hy.
  - destruct x; [|discriminate]. reflexivity.
  - destruct x as [|a x], y as [|b y]; try discriminate. rewrite sumN_shift. cbn [dot nth].
    rewrite (IH x y); [reflexivity|simpl in *; lia|simpl in *; lia].
Qed.

Lemma dot_wd : forall x x' y y', Forall2 Qeq x x' -> Forall2 Qeq y y' -> dot x y == dot x' y'.
Proof.
  intros x x' y y' H. revert y y'. induction H as [|a b x x' E H IH]; intros y y' H'; [reflexivity|].
  destruct H' as [|c d y y' E' H']; [reflexivity|]. cbn. rewrite E, E', (IH y y' H'). reflexivity.
Qed.

Lemma sum_dist_sq_wd : forall x x' y y', Forall2 Qeq x x' -> Forall2 Qeq y y' ->
  sum_dist sq_diff x y == sum_dist sq_diff x' y'.
Proof.
  intros x x' y y' H. revert y y'. induction H as [|a b x x' E H IH]; intros y y' H'; [reflexivity|].
  destruct H' as [|c d y y' E' H']; [reflexivity|]. cbn. rewrite (IH y y' H'). unfold sq_diff.
  rewrite E, E'. reflexivity.
Qed.

Lemma reflect_length r x : length x = length r -> length (reflect r x) = length r.
Proof. intros H. unfold reflect. rewrite map_length, combine_length. lia. Qed.

Lemma shift_dot : forall r x s, length x = length r ->
  dot (map (fun '(a, b) => b - s * a) (combine r x)) (map (fun '(a, b) => b - s * a) (combine r x))
  == dot x x - 2 * s * dot r x + s * s * dot r r.
Proof.
  induction r as [|a r IH]; intros [|b x] s H; try discriminate.
  - cbn. ring.
  - cbn [combine map dot]. rewrite IH by (simpl in *; lia). ring.
Qed.

Lemma shift_dist : forall r x y s u, length x = length r -> length y = length r ->
  sum_dist sq_diff (map (fun '(a, b) => b - s * a) (combine r x)) (map (fun '(a, b) => b - u * a) (combine r y))
  == sum_dist sq_diff x y - 2 * (s - u) * (dot r x - dot r y) + (s - u) * (s - u) * dot r r.
Proof.
  induction r as [|a r IH]; intros [|b x] [|c y] s u H H'; try discriminate.
  - cbn. ring.
  - cbn [combine map sum_dist dot]. rewrite IH by (simpl in *; lia). unfold sq_diff. ring.
Qed.

Lemma reflect_norm r x : unit_vector r -> length x = length r -> dot (reflect r x) (reflect r x) == dot x x.
Proof. intros U H. unfold reflect. rewrite shift_dot by auto. unfold unit_vector in U. rewrite U. ring. Qed.

Lemma reflect_dist r x y : unit_vector r -> length x = length r -> length y = length r ->
  sum_dist sq_diff (reflect r x) (reflect r y) == sum_dist sq_diff x y.
Proof. intros U H H'. unfold reflect. rewrite shift_dist by auto. unfold unit_vector in U. rewrite U. ring. Qed.

Lemma dot_self_nonneg x : 0 <= dot x x.
Proof. induction x as [|a x IH]; cbn; [lra|]. nra. Qed.

Lemma dot_bound x b : 0 <= b -> dot x x <= b * b -> Forall (fun a => - b <= a <= b) x.
Proof.
  intros Hb H. induction x as [|a x IH]; constructor; cbn in H; pose proof (dot_self_nonneg x).
  - split; nra.
  - apply IH. nra.
Qed.

Section Code.
Context {T : Type} {S : Scalar T} (val : T -> Q) (EL : exact_laws S val) (FL : field_laws S val).

Lemma fold_dot (r x : list T) n : val (fold_left (fun d i => s_add d (s_mul (get r i) (get x i))) (seq 0 n) s_zero)
  == sumN n (fun k => val (get r k) * val (get x k)).
Proof.
  induction n as [|n IH]; [apply (el_zero _ _ EL)|].
  rewrite seq_S, fold_left_app. cbn [fold_left sumN plus]. rewrite (el_add _ _ EL), (el_mul _ _ EL), IH. reflexivity.
Qed.

Lemma map_get (x : list T) k : (nth k (map val x) 0 == val (get x k))%Q.
Proof. apply (nth_map_val val EL). Qed.

Lemma Forall2_nth_Q (x y : list Q) : length x = length y ->
  (forall k, (k < length x)%nat -> nth k x 0 == nth k y 0) -> Forall2 Qeq x y.
Proof.
  revert y. induction x as [|a x IH]; intros [|b y] H HN; try discriminate; constructor.
  - apply (HN O). simpl. lia.
  - apply IH; [simpl in *; lia|]. intros k Hk. apply (HN (Datatypes.S k)). simpl. lia.
Qed.

Lemma nth_reflect r x k : length x = length r -> (k < length r)%nat ->
  nth k (reflect r x) 0 = nth k x 0 - 2 * dot r x * nth k r 0.
Proof.
  intros H Hk. unfold reflect. set (f := fun '(a, b) => b - 2 * dot r x * a).
  rewrite (nth_indep _ 0 (f (0, 0))) by (rewrite map_length, combine_length; lia).
  rewrite map_nth, combine_nth by auto. reflexivity.
Qed.

Lemma rotate_point_ok r x : length x = length r -> exists y, rotate_point r x = Ok y /\ length y = length r.
Proof.
  intros H. unfold rotate_point. rewrite guard_true by (apply Nat.leb_le; lia). cbn [bind].
  eexists. split; [reflexivity|]. apply length_tab.
Qed.

Lemma rotate_point_reflect r x y : length x = length r -> rotate_point r x = Ok y ->
  length y = length r /\ Forall2 Qeq (map val y) (reflect (map val r) (map val x)).
Proof.
  intros H E. unfold rotate_point in E. rewrite guard_true in E by (apply Nat.leb_le; lia). cbn [bind] in E.
  injection E as <-. split; [apply length_tab|]. apply Forall2_nth_Q.
  - rewrite map_length, length_tab, reflect_length; rewrite !map_length; auto.
  - intros k Hk. rewrite map_length, length_tab in Hk. rewrite map_get.
    rewrite nth_reflect by (rewrite !map_length; auto). unfold get at 1. rewrite nth_tab by auto.
    rewrite (el_sub _ _ EL), !(el_mul _ _ EL), (fl_two _ _ FL), fold_dot, !map_get.
    rewrite (dot_sumN (length r)) by (rewrite map_length; auto).
    rewrite (sumN_ext (length r) (fun k0 => nth k0 (map val r) 0 * nth k0 (map val x) 0)
      (fun k0 => val (get r k0) * val (get x k0))) by (intros; rewrite !map_get; reflexivity).
    ring.
Qed.

Lemma rotate_points_ok r pts : Forall (fun p => length p = length r) pts ->
  exists ys, rotate_points r pts = Ok ys.
Proof.
  induction 1 as [|x pts Hx F [ys IH]]; cbn [rotate_points]; [eauto|].
  destruct (rotate_point_ok r x Hx) as (y & E & _). rewrite E. cbn [bind]. rewrite IH. cbn [bind]. eauto.
Qed.

Lemma rotate_points_inv r pts : forall ys, rotate_points r pts = Ok ys ->
  Forall2 (fun x y => rotate_point r x = Ok y) pts ys.
Proof.
  induction pts as [|x pts IH]; intros ys E; cbn [rotate_points] in E.
  - injection E as <-. constructor.
  - destruct (rotate_point r x) as [y| |] eqn:E1; cbn [bind] in E; try discriminate.
    destruct (rotate_points r pts) as [ys'| |] eqn:E2; cbn [bind] in E; try discriminate.
    injection E as <-. constructor; auto.
Qed.

(** Normalising *)
Lemma fold_norm (g : list T) : forall a, val (fold_left (fun l2 e => s_add l2 (s_mul e e)) g a)
  == val a + dot (map val g) (map val g).
Proof.
  induction g as [|e g IH]; intros a; cbn [fold_left map dot]; [ring|].
  rewrite IH, (el_add _ _ EL), (el_mul _ _ EL). ring.
Qed.

Lemma dot_scale (g : list T) (c : T) :
  dot (map val (map (fun e => s_mul e c) g)) (map val (map (fun e => s_mul e c) g))
  == val c * val c * dot (map val g) (map val g).
Proof.
  induction g as [|e g IH]; cbn [map dot]; [ring|]. rewrite IH, !(el_mul _ _ EL). ring.
Qed.

Lemma normalize_unit (cm : cmath T) g : draw_ok val (c_sqrt cm) g -> unit_vector (map val (normalize cm g)).
Proof.
  intros [NZ RT]. unfold unit_vector, normalize.
  set (l2 := fold_left (fun l2 e => s_add l2 (s_mul e e)) g s_zero).
  assert (E : val l2 == dot (map val g) (map val g)).
  { unfold l2. rewrite fold_norm, (el_zero _ _ EL). ring. }
  specialize (RT l2 E). rewrite dot_scale.
  assert (NS : ~ val (c_sqrt cm l2) == 0).
  { intros Z. rewrite Z in RT. apply NZ. rewrite <- E, <- RT. ring. }
  rewrite (fl_div _ _ FL), (el_one _ _ EL) by auto. rewrite <- E, <- RT. field. exact NS.
Qed.

Lemma normalize_length (cm : cmath T) g : length (normalize cm g) = length g.
Proof. unfold normalize. apply map_length. Qed.

End Code.
