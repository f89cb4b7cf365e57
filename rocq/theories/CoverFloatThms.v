(** Cover trees in floating point with the distances L1 and L2. *)
From Coq Require Import List ZArith Reals Bool Arith Permutation Sorted Lia Lra.
From Flocq Require Import Core.Core IEEE754.BinarySingleNaN Plus_error Relative.
From Verif Require Import Base ModelBox ModelBuild ModelSearch Spec SpecRound ModelCover SpecCover SpecReal
  SpecCoverFloat Lemmas BuildProofs BuildShape BuildThms SearchProofs Visitors QueryThms TopThms OrdThms
  Floats FloatThms FloatSearch FloatQuery CoverThms CoverSearch CoverReal CoverFloat.
Import ListNotations.
Local Open Scope R_scope.

(** * Weaker limits *)
Lemma upto_mono prec emax Hp Hm alg t n q D L L' : (forall j, (j < n)%nat -> L j <= L' j) ->
  cover_searches_upto prec emax Hp Hm alg t n q D L -> cover_searches_upto prec emax Hp Hm alg t n q D L'.
Proof.
  intros H (A & B & C). split; [|split].
  - intros nn0. destruct (A nn0) as (i & d & E & ED & Hi & K). exists i, d. split; auto. split; auto. split; auto.
    intros j Hj. specialize (K j Hj). specialize (H j Hj). lra.
  - intros k knn0 Hk. destruct (B k knn0 Hk) as (out & E & [K1 K2 K3 K4 K5]). exists out. split; auto.
    constructor; auto. intros i d j Hi Hj HN. specialize (K5 i d j Hi Hj HN). specialize (H j Hj). lra.
  - intros r sort Fr. destruct (C r sort Fr) as (l & E & [K1 K2 K3] & S). exists l. split; auto. split; auto.
    constructor; auto. intros i Hi HL. apply K3; auto. specialize (H i Hi). lra.
Qed.

(** * Accurate distances *)
Section Accurate.
Variables (prec emax : Z).
Context (Hprec : Prec_gt_0 prec) (Hmax : Prec_lt_emax prec emax) (P2 : (2 <= prec)%Z).
Local Notation F := (binary_float prec emax).
Local Notation fin := (finite prec emax).
Local Notation fexp := (SpecFloat.fexp prec emax).
Local Notation emin := (SpecFloat.emin prec emax).
Local Notation rnd := (round radix2 fexp ZnearestE).
Local Notation pow2 := (bpow radix2).
Local Notation u := (bpow radix2 (- prec)).
Local Existing Instance SF.
Variables (m : metric F) (sp : space F) (q : list F).
Let N := length (sp_pts sp).
Let Dh (j : nat) : F := m_dist m q (sp_at sp j).
Let Ph (i j : nat) : F := m_dist m (sp_at sp i) (sp_at sp j).
Let D (j : nat) : R := B2R (Dh j).
Let P (i j : nat) : R := B2R (Ph i j).
Variables (tq : nat -> R) (tp : nat -> nat -> R) (eps eta w : R).
Hypotheses (D_fin : forall j, fin (Dh j)) (P_fin : forall i j, fin (Ph i j)).
Hypothesis D_0 : forall j, (j < N)%nat -> 0 <= D j.
Hypothesis P_0 : forall i j, (i < N)%nat -> (j < N)%nat -> 0 <= P i j.
Hypothesis tq_0 : forall j, (j < N)%nat -> 0 <= tq j.
Hypothesis tp_0 : forall i j, (i < N)%nat -> (j < N)%nat -> 0 <= tp i j.
Hypothesis AQ : forall j, (j < N)%nat -> Rabs (D j - tq j) <= eps * tq j + eta.
Hypothesis AP : forall i j, (i < N)%nat -> (j < N)%nat -> Rabs (P i j - tp i j) <= eps * tp i j + eta.
Hypothesis TRI : forall c j, (c < N)%nat -> (j < N)%nat -> tq c <= tq j + tp c j.
Hypotheses (E1 : u <= eps) (E2 : eps <= / 8) (E3 : 0 <= eta).
Hypothesis W : forall i j, (i < N)%nat -> (j < N)%nat -> tp i j <= w.
Hypothesis FIT : forall j, (j < N)%nat -> limit eps eta w (tq j) < B2R (s_max : F).
Hypothesis LQ : length q = sp_sdim sp.

Lemma limit_prune c j : (c < N)%nat -> (j < N)%nat -> rnd (D c - P c j) <= limit eps eta w (tq j).
Proof.
  intros Hc Hj. pose proof (u_bounds prec P2) as [U0 U1].
  destruct (rnd_minus prec emax Hprec (D c) (P c j)) as (d & Hd & Ed). { apply fmt_B2R. } { apply fmt_B2R. }
  rewrite Ed. apply Rabs_le_inv in Hd.
  pose proof (AQ c Hc) as A1. pose proof (AP c j Hc Hj) as A2. apply Rabs_le_inv in A1, A2.
  pose proof (TRI c j Hc Hj) as T. pose proof (W c j Hc Hj) as W1. pose proof (tp_0 c j Hc Hj) as T0.
  pose proof (tq_0 j Hj) as T1. pose proof (tq_0 c Hc) as T2.
  set (x := D c - P c j) in *. unfold limit.
  assert (X : x <= (1 + eps) * tq j + 2 * eps * w + 2 * eta).
  { assert (eps * tq c <= eps * (tq j + tp c j)) by (apply Rmult_le_compat_l; lra).
    assert (eps * tp c j <= eps * w) by (apply Rmult_le_compat_l; lra). unfold x. nra. }
  assert (W0 : 0 <= w) by lra.
  assert (S0 : 0 <= eps * tq j) by (apply Rmult_le_pos; lra). assert (S1 : 0 <= eps * w) by (apply Rmult_le_pos; lra).
  destruct (Rle_or_lt x 0) as [XN|XP].
  - assert (x * (1 + d) <= 0) by nra. nra.
  - assert (K1 : x * (1 + d) <= x * (1 + u)) by (apply Rmult_le_compat_l; lra).
    assert (K2 : x * (1 + u) <= ((1 + eps) * tq j + 2 * eps * w + 2 * eta) * (1 + u)) by (apply Rmult_le_compat_r; lra).
    assert (K3 : tq j * u <= tq j * eps) by (apply Rmult_le_compat_l; lra).
    assert (K4 : (eps * tq j) * u <= (eps * tq j) * (/ 4)) by (apply Rmult_le_compat_l; lra).
    assert (K5 : (eps * w) * u <= (eps * w) * (/ 4)) by (apply Rmult_le_compat_l; lra).
    assert (K6 : eta * u <= eta * (/ 4)) by (apply Rmult_le_compat_l; lra). nra.
Qed.

Lemma limit_self j : (j < N)%nat -> D j <= limit eps eta w (tq j).
Proof.
  intros Hj. pose proof (AQ j Hj) as A. apply Rabs_le_inv in A. unfold limit.
  pose proof (tq_0 j Hj). pose proof (tp_0 j j Hj Hj). pose proof (W j j Hj Hj).
  pose proof (u_bounds prec P2) as [U0 U1].
  assert (0 <= eps * tq j) by (apply Rmult_le_pos; lra). assert (0 <= eps * w) by (apply Rmult_le_pos; lra). lra.
Qed.

Variables (cm : cmath F) (alg : std_algos) (SL : std_laws alg) (shuffle : list nat -> list nat) (SH : shuffles shuffle).
Variables (fuel : nat) (base : F) (t : cover_tree F).
Hypothesis HM : cover_tree_make cm alg shuffle m fuel sp base = Ok t.

Lemma accurate_searches :
  cover_searches_upto prec emax Hprec Hmax alg t N q D (fun j => limit eps eta w (tq j)).
Proof.
  exact (cover_float_searches prec emax Hprec Hmax m sp q (fun j => limit eps eta w (tq j)) D_fin P_fin D_0 P_0
    limit_self FIT limit_prune LQ cm alg SL shuffle SH fuel base t HM).
Qed.
End Accurate.

(** From the computed distance of the answer to its true distance. *)
Lemma true_limit eps eta w d ti tj : 0 <= eps <= / 8 -> 0 <= eta -> 0 <= w -> 0 <= ti -> 0 <= tj ->
  Rabs (d - ti) <= eps * ti + eta -> d <= limit eps eta w tj ->
  ti <= (1 + 5 * eps) * tj + 4 * eps * w + 5 * eta.
Proof.
  intros E0 E1 W0 T0 T1 A H. apply Rabs_le_inv in A. unfold limit in H.
  assert (K : (1 - eps) * ti <= (1 + 3 * eps) * tj + 3 * eps * w + 4 * eta) by lra.
  assert (S0 : 0 <= eps * tj) by (apply Rmult_le_pos; lra). assert (S1 : 0 <= eps * w) by (apply Rmult_le_pos; lra).
  assert (K2 : (1 - eps) * ((1 + 5 * eps) * tj + 4 * eps * w + 5 * eta) >= (1 + 3 * eps) * tj + 3 * eps * w + 4 * eta).
  { assert ((eps * tj) * eps <= (eps * tj) * / 8) by (apply Rmult_le_compat_l; lra).
    assert ((eps * w) * eps <= (eps * w) * / 8) by (apply Rmult_le_compat_l; lra).
    assert (eta * eps <= eta * / 8) by (apply Rmult_le_compat_l; lra). nra. }
  apply Rmult_le_reg_l with (1 - eps); lra.
Qed.

(** * The inputs *)
Section Input.
Variables (prec emax : Z).
Context (Hprec : Prec_gt_0 prec) (Hmax : Prec_lt_emax prec emax) (P2 : (2 <= prec)%Z).
Local Notation F := (binary_float prec emax).
Local Notation fin := (finite prec emax).
Local Notation fexp := (SpecFloat.fexp prec emax).
Local Notation emin := (SpecFloat.emin prec emax).
Local Notation rnd := (round radix2 fexp ZnearestE).
Local Notation pow2 := (bpow radix2).
Local Notation u := (bpow radix2 (- prec)).
Local Existing Instance SF.
Variables (em : exact_metric) (e : Z) (sp : space F).
Let n := sp_sdim sp.
Let N := length (sp_pts sp).
Local Notation FI := (float_input prec emax em e sp bounds_from_space).

(** A point of the space is an admissible query. *)
Lemma point_input q i : FI q -> (i < N)%nat -> FI (sp_at sp i).
Proof.
  intros [F1 F2 F3 F4 F5 F6 F7 F8 F9] Hi. constructor; auto.
  - apply sp_at_length; auto. apply in_space_lt; auto.
  - unfold all_coords in F6. rewrite Forall_forall in F6. apply F6. apply nth_In; auto.
Qed.

Section Query.
Variable q : list F.
Hypothesis HI : FI q.
Hypothesis NU : INR (n + 3) * u <= / 2.
Let dummy : kd_tree F :=
  KdTree sp (metric_of em) (KdTreeData [] (Box [] []) (Leaf 0 0)).
Lemma few_dummy : few_steps prec n 0.
Proof.
  unfold few_steps. eapply Rle_trans; [|exact NU]. apply Rmult_le_compat_r; [apply bpow_ge_0|]. apply le_INR. lia.
Qed.
Lemma input_facts j : (j < N)%nat -> fin (m_dist (metric_of em) q (sp_at sp j))
  /\ 0 <= computed prec emax Hprec Hmax em sp q j <= pow2 (emax - 2).
Proof. exact (D_facts prec emax Hprec Hmax P2 em e sp bounds_from_space q HI dummy few_dummy 0%Z j). Qed.

Lemma input_fin j : fin (m_dist (metric_of em) q (sp_at sp j)).
Proof.
  destruct (Nat.lt_ge_cases j N) as [H|H]; [apply input_facts; auto|].
  unfold sp_at. rewrite nth_overflow by auto.
  destruct (fi_metric _ _ _ _ _ _ _ HI) as [-> | ->]; cbn [metric_of m_dist metric_l1 metric_l2_squared];
    unfold sum_op; rewrite combine_nil; reflexivity.
Qed.

Let x (j k : nat) : R := B2R (nth k q (B754_zero false)) - B2R (nth k (sp_at sp j) (B754_zero false)).
Let term (j k : nat) : R := match em with L1 => Rabs (x j k) | _ => x j k * x j k end.
Lemma true_sum j : true_dist prec emax em sp q j = sumR n (term j).
Proof. reflexivity. Qed.
Lemma true_0 j : 0 <= true_dist prec emax em sp q j.
Proof.
  rewrite true_sum. apply sumR_nonneg. intros k _. unfold term. destruct em; try apply Rabs_pos; apply Rle_0_sqr.
Qed.
Lemma true_fits j : (j < N)%nat -> true_dist prec emax em sp q j <= distance_bound em e n.
Proof.
  intros Hj. rewrite true_sum. unfold distance_bound.
  apply sumR_bound. intros k Hk.
  assert (Bq : below prec emax e (nth k q (B754_zero false))).
  { pose proof (fi_query _ _ _ _ _ _ _ HI) as K. rewrite Forall_forall in K. apply K. apply nth_In.
    rewrite (fi_length _ _ _ _ _ _ _ HI). exact Hk. }
  assert (Bc : below prec emax e (nth k (sp_at sp j) (B754_zero false))).
  { pose proof (fi_coords _ _ _ _ _ _ _ HI) as K. unfold all_coords in K. rewrite Forall_forall in K.
    assert (IN : In (sp_at sp j) (sp_pts sp)) by (apply nth_In; exact Hj).
    specialize (K _ IN). rewrite Forall_forall in K. apply K. apply nth_In.
    rewrite (sp_at_length sp (fi_space _ _ _ _ _ _ _ HI)); auto. apply in_space_lt; auto. }
  assert (X : Rabs (x j k) <= pow2 (e + 1)).
  { unfold x. replace (e + 1)%Z with (1 + e)%Z by ring. rewrite bpow_plus. change (pow2 1) with 2.
    destruct Bq as [_ Bq], Bc as [_ Bc]. apply Rabs_le_inv in Bq, Bc. apply Rabs_le. lra. }
  assert (XX : x j k * x j k <= pow2 (2 * e + 2)).
  { replace (2 * e + 2)%Z with ((e + 1) + (e + 1))%Z by ring. rewrite bpow_plus.
    replace (x j k * x j k) with (Rabs (x j k) * Rabs (x j k)).
    - pose proof (Rabs_pos (x j k)). apply Rmult_le_compat; lra.
    - rewrite <- Rabs_mult. apply Rabs_pos_eq. apply Rle_0_sqr. }
  unfold term. destruct em; auto.
Qed.
Lemma true_bound j : (j < N)%nat -> true_dist prec emax em sp q j <= pow2 (emax - 3).
Proof. intros Hj. eapply Rle_trans; [apply true_fits; auto|exact (fi_fit _ _ _ _ _ _ _ HI)]. Qed.
End Query.

(** The triangle inequality. *)
Lemma true_l1_triangle q c j : em = L1 ->
  true_dist prec emax em sp q c <= true_dist prec emax em sp q j + true_dist prec emax em sp (sp_at sp c) j.
Proof.
  intros E. rewrite !true_sum, <- sumR_plus. apply sumR_le. intros k Hk. rewrite E.
  set (a := B2R (nth k q (B754_zero false))). set (b := B2R (nth k (sp_at sp c) (B754_zero false))).
  set (d := B2R (nth k (sp_at sp j) (B754_zero false))).
  replace (a - b) with ((a - d) - (b - d)) by ring. unfold Rminus at 1.
  eapply Rle_trans; [apply Rabs_triang|]. rewrite Rabs_Ropp. apply Rle_refl.
Qed.

Lemma sum_sq_seq : forall (xs ys : list F), length xs = length ys ->
  sum_sq (map (@B2R prec emax) xs) (map (@B2R prec emax) ys)
  = sumR (length xs) (fun k => (B2R (nth k xs (B754_zero false)) - B2R (nth k ys (B754_zero false)))
                              * (B2R (nth k xs (B754_zero false)) - B2R (nth k ys (B754_zero false)))).
Proof.
  induction xs as [|a xs IH]; intros [|b ys] L; try discriminate; [reflexivity|].
  cbn [map sum_sq length]. rewrite IH by (cbn in L; lia). unfold sumR.
  rewrite <- cons_seq, <- seq_shift, map_cons, map_map. cbn [fold_right nth]. reflexivity.
Qed.

Lemma true_l2_euclid q j : length q = n -> wf_space sp -> (j < N)%nat ->
  true_l2 prec emax sp q j = euclid (map (@B2R prec emax) q) (map (@B2R prec emax) (sp_at sp j)).
Proof.
  intros LQ WF Hj. unfold true_l2, euclid. f_equal. rewrite sum_sq_seq.
  - rewrite LQ. reflexivity.
  - rewrite (sp_at_length sp WF); auto. apply in_space_lt; auto.
Qed.

Lemma true_l2_triangle q c j : length q = n -> wf_space sp -> (c < N)%nat -> (j < N)%nat ->
  true_l2 prec emax sp q c <= true_l2 prec emax sp q j + true_l2 prec emax sp (sp_at sp c) j.
Proof.
  intros LQ WF Hc Hj.
  assert (LP : forall i, (i < N)%nat -> length (sp_at sp i) = n).
  { intros i Hi. apply sp_at_length; auto. apply in_space_lt; auto. }
  rewrite !true_l2_euclid; auto.
  rewrite (euclid_sym (map _ (sp_at sp c))).
  apply euclid_triangle; rewrite !map_length, ?LP, ?LQ; auto.
Qed.
End Input.
