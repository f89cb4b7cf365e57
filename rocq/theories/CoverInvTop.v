(** Statements about the structure of cover trees, and the mathematics behind levels. *)
From Coq Require Import List ZArith Reals Bool Arith Permutation Lia Lra.
From Verif Require Import Base ModelBox ModelBuild ModelSearch Spec ModelCover SpecCover SpecCoverInv SpecReal Lemmas Instances
  CoverThms CoverTerm CoverSearch CoverReal CoverInv.
Import ListNotations.
Local Open Scope nat_scope.

Section Top.
Context {T : Type} {S : Scalar T}.
Variables (cm : cmath T) (alg : std_algos) (shuffle : list nat -> list nat).
Hypothesis SL : std_laws alg.
Hypothesis SH : shuffles shuffle.
Variables (m : metric T) (fuel : nat) (sp : space T) (base : T) (t : cover_tree T).
Hypothesis HM : cover_tree_make cm alg shuffle m fuel sp base = Ok t.

Lemma make_build : exists f, npts sp <= f
  /\ build_cover_tree cm alg m sp base f (shuffle (seq 0 (sp_size sp))) = Ok (ct_root t).
Proof.
  unfold cover_tree_make in HM. destruct (build_cover_tree _ _ _ _ _ _ _) as [root| |] eqn:E; try discriminate.
  cbn [bind] in HM. injection HM as <-. exists (fuel + npts sp). split; [lia|].
  apply (refines_ok _ _ _ (build_cover_mono cm alg m sp base fuel (fuel + npts sp) _ (Nat.le_add_r _ _)) E).
Qed.

Section Ord.
Variable ok : T -> Prop.
Hypothesis OL : ord_laws S ok.
Hypothesis OKD : forall i j, i < npts sp -> j < npts sp -> ok (between m sp i j).
Hypothesis OKP : forall l, ok (c_pow cm base l).
Hypothesis SYM : forall i j, i < npts sp -> j < npts sp -> s_leb (between m sp i j) (between m sp j i) = true.

Lemma cover_local p : node_of p (ct_root t) ->
  (forall c, In c (cn_children p) ->
     cn_level c = s_sub (cn_level p) s_one \/ cn_level p = s_add (cn_level c) s_one)
  /\ (forall c c', In c (cn_children p) -> In c' (cn_children p) -> cn_index c <> cn_index c' ->
     s_ltb (c_pow cm base (s_sub (cn_level p) s_one)) (between m sp (cn_index c) (cn_index c')) = true).
Proof.
  intros HN. destruct make_build as (f & HF & E).
  assert (G : good cm m sp base False (fun _ => 0%R) (fun _ => 0%R) (ct_root t)).
  { apply (build_good cm alg m sp base SL ok OL OKD OKP SYM False (fun _ => 0%R) (fun _ => 0%R)
      (False_ind _) (False_ind _) (False_ind _) (False_ind _) f (shuffle (seq 0 (sp_size sp)))); auto. }
  apply (good_node_of cm m sp base _ _ _ p _ G) in HN. destruct HN as [l md i cs [_ LV SE _ _] _].
  split; auto.
Qed.
End Ord.

Section Strong.
Variables (val : T -> R) (P : R -> R).
Hypothesis RO : real_ops S val.
Hypothesis PW : powers val cm base P.
Hypothesis ME : is_metric val m sp.
Hypothesis B2 : (2 <= val base)%R.

Lemma real_ord : ord_laws S (fun _ => True).
Proof.
  constructor; auto.
  - intros x y _ _. destruct (s_ltb x y) eqn:A, (s_leb y x) eqn:B; auto; exfalso.
    + apply (ro_lt _ _ RO) in A. apply (ro_le _ _ RO) in B. lra.
    + assert (~ (val x < val y)%R) by (intros C; apply (ro_lt _ _ RO) in C; congruence).
      assert (~ (val y <= val x)%R) by (intros C; apply (ro_le _ _ RO) in C; congruence). lra.
  - intros x y _ _. rewrite !(ro_le _ _ RO). lra.
  - intros x y z _ _ _. rewrite !(ro_le _ _ RO). lra.
Qed.

Lemma strong_good : good cm m sp base True val P (ct_root t).
Proof.
  destruct make_build as (f & HF & E).
  apply (build_good cm alg m sp base SL (fun _ => True) real_ord (fun _ _ _ _ => I) (fun _ => I)) with (fuel := f)
    (indices := shuffle (seq 0 (sp_size sp))); auto.
  intros i j Hi Hj. apply (ro_le _ _ RO). rewrite (im_sym _ _ _ ME) by auto. apply Rle_refl.
Qed.

Lemma max_distance_le (b : R) x : forall n : cover_node T,
  (forall y, In y (stored n) -> (val (m_dist m x (sp_at sp y)) <= b)%R) -> (val (max_distance m sp n x) <= b)%R.
Proof.
  induction n as [l md i cs F] using cover_ind. intros H. cbn [max_distance].
  assert (K : forall cs a, Forall (fun n => (forall y, In y (stored n) -> (val (m_dist m x (sp_at sp y)) <= b)%R) ->
      (val (max_distance m sp n x) <= b)%R) cs ->
    (forall y, In y (flat_map stored cs) -> (val (m_dist m x (sp_at sp y)) <= b)%R) -> (val a <= b)%R ->
    (val (fold_left (fun mx c => std_max mx (max_distance m sp c x)) cs a) <= b)%R).
  { clear. induction cs as [|c cs IH]; intros a F H Ha; cbn [fold_left]; auto.
    inversion F; subst. apply IH; auto.
    - intros y Hy. apply H. cbn [flat_map]. apply in_or_app. auto.
    - unfold std_max. destruct (s_ltb _ _); auto. apply H2. intros y Hy. apply H. cbn [flat_map]. apply in_or_app. auto. }
  apply K; auto.
  - intros y Hy. apply H. right. auto.
  - apply H. left. auto.
Qed.

Lemma update_node_of : forall n p, node_of p (update_max_distance m sp n) ->
  exists p0, p = update_max_distance m sp p0.
Proof.
  induction n as [l md i cs F] using cover_ind. intros p H. inversion H as [|? ? ? ? c Hc H']; subst.
  - exists (CoverNode l md i cs). reflexivity.
  - apply in_map_iff in Hc as (c0 & <- & Hc). rewrite Forall_forall in F. apply (F c0 Hc p H').
Qed.

Lemma cover_strong p : node_of p (ct_root t) ->
  (forall c, In c (cn_children p) -> val (cn_level c) = (val (cn_level p) - 1)%R)
  /\ (forall c c', In c (cn_children p) -> In c' (cn_children p) -> cn_index c <> cn_index c' ->
       (P (val (cn_level p) - 1) < val (between m sp (cn_index c) (cn_index c')))%R)
  /\ (forall y, In y (stored p) -> (val (between m sp (cn_index p) y) <= P (val (cn_level p)))%R)
  /\ (val (cn_max_distance p) <= P (val (cn_level p)))%R
  /\ (forall c c' y, In c (cn_children p) -> In c' (cn_children p) -> In y (stored c) ->
       (val (between m sp (cn_index c) y) <= val (between m sp (cn_index c') y))%R).
Proof.
  intros HN.
  pose proof (good_node_of cm m sp base _ _ _ p _ strong_good HN) as G.
  destruct (cover_make_inv _ _ _ _ _ _ _ _ SL SH HM) as (_ & _ & _ & _ & r0 & ER).
  rewrite ER in HN. apply update_node_of in HN as (p0 & EP).
  assert (COV : forall y, In y (stored p) -> (val (between m sp (cn_index p) y) <= P (val (cn_level p)))%R).
  { destruct G as [l md i cs [R LV SE CO NE] _]. intros y [<-|Hy].
    - cbn [cn_index cn_level]. rewrite (im_self _ _ _ ME) by auto. apply Rlt_le, (pw_pos _ _ _ _ PW).
    - apply CO; auto. }
  split; [|split; [|split; [exact COV|split]]].
  - destruct G as [l md i cs [R LV SE CO NE] _]. cbn [cn_children cn_level]. intros c Hc.
    apply (steps_val True val (fun _ => RO) (cn_level c) l I). apply LV. auto.
  - destruct G as [l md i cs [R LV SE CO NE] _]. cbn [cn_children cn_level]. intros c c' Hc Hc' N.
    pose proof (SE c c' Hc Hc' N) as A. apply (ro_lt _ _ RO) in A.
    rewrite (pw_pow _ _ _ _ PW), (ro_sub _ _ RO), (ro_one _ _ RO) in A. exact A.
  - subst p. destruct p0 as [l md i cs]. cbn [update_max_distance cn_max_distance cn_level cn_index stored] in *.
    apply max_distance_le. intros y Hy. apply COV. cbn [stored] in *. destruct Hy as [<-|Hy]; [left; auto|right].
    rewrite flat_map_concat_map, map_map. erewrite map_ext; [|intros c; apply update_stored].
    rewrite <- flat_map_concat_map. exact Hy.
  - destruct G as [l md i cs [R LV SE CO NE] _]. cbn [cn_children]. intros c c' y Hc Hc' Hy. apply NE; auto.
Qed.
End Strong.
End Top.

(** * Real numbers *)
Section RealPowers.
Local Open Scope R_scope.
Variables (mx : R) (cm : cmath R) (base : R).
Hypothesis BA : 1 < base.
Hypothesis CP : forall x, c_pow cm base x = Rpower base x.
Hypothesis CL : forall x, 0 < x -> c_log cm x = ln x.
Hypothesis CF : forall x, c_floor cm x <= x < c_floor cm x + 1.
Hypothesis CC : forall x, x <= c_ceil cm x < x + 1.

Lemma R_real_ops : real_ops (R_scalar mx) (fun x => x).
Proof.
  constructor; intros; try reflexivity.
  - apply (R_ltb mx).
  - apply (R_leb mx).
Qed.

Lemma ln_base : 0 < ln base.
Proof. rewrite <- ln_1. apply ln_increasing; lra. Qed.
Lemma Rpower_le x y : x <= y -> Rpower base x <= Rpower base y.
Proof.
  intros [H|<-]; [|apply Rle_refl]. apply Rlt_le. apply Rpower_lt; auto.
Qed.
Lemma Rpower_log x : 0 < x -> Rpower base (ln x / ln base) = x.
Proof.
  intros H. unfold Rpower. replace (ln x / ln base * ln base) with (ln x); [apply exp_ln; auto|].
  field. pose proof ln_base. lra.
Qed.

Lemma R_powers : @powers R (R_scalar mx) (fun x => x) cm base (Rpower base).
Proof.
  constructor; intros.
  - apply CP.
  - apply exp_pos.
  - apply Rpower_le; auto.
  - rewrite Rpower_plus, Rpower_1 by lra. ring.
  - cbn [s_div R_scalar]. rewrite !CL by lra. rewrite <- (Rpower_log d) at 1 by auto. apply Rpower_lt; auto. apply CF.
  - cbn [s_div R_scalar]. rewrite !CL by lra. rewrite <- (Rpower_log d) at 1 by auto. apply Rpower_le; auto. apply CC.
Qed.
End RealPowers.

Lemma euclid_self x : euclid x x = 0%R.
Proof.
  unfold euclid. replace (sum_sq x x) with 0%R; [apply sqrt_0|]. induction x as [|a x IH]; cbn; auto. rewrite <- IH. ring.
Qed.
Lemma euclid_metric mx (cm : cmath R) (sp : space R) : (forall x, (0 <= x)%R -> c_sqrt cm x = sqrt x) -> wf_space sp ->
  is_metric (fun x => x) (@metric_l2 R (R_scalar mx) cm) sp.
Proof.
  intros SQ [_ WF]. rewrite Forall_forall in WF.
  assert (E : forall i j, between (@metric_l2 R (R_scalar mx) cm) sp i j = euclid (nth i (sp_pts sp) []) (nth j (sp_pts sp) [])).
  { intros i j. unfold between. apply (l2_dist mx cm SQ). }
  assert (L : forall i, i < npts sp -> length (nth i (sp_pts sp) []) = sp_sdim sp) by (intros i Hi; apply WF, nth_In; auto).
  constructor.
  - intros i Hi. rewrite E. apply euclid_self.
  - intros i j Hi Hj. rewrite !E. apply euclid_sym.
  - intros i j k Hi Hj Hk. rewrite !E. apply euclid_triangle; rewrite !L; auto.
Qed.
