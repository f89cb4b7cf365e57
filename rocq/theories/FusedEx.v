(** Concrete inputs for the properties of contracted searches. *)
From Coq Require Import List ZArith Reals Bool Arith Lia Lra.
From Flocq Require Import Core.Core IEEE754.BinarySingleNaN.
From Verif Require Import Base ModelBox ModelBuild ModelSearch Spec SpecRound Instances BuildProofs Lemmas Floats FloatThms
  FloatSearch FloatQuery FloatEx Examples ModelFused SpecFused FusedTop.
Import ListNotations.
Local Open Scope R_scope.

(** Every sum contracted; only those of distances; only those of boxes at even
    depths. *)
Definition contract_all : contraction := Contraction (fun _ => true) (fun _ => true).
Definition contract_terms : contraction := Contraction (fun _ => true) (fun _ => false).
Definition contract_even : contraction := Contraction (fun _ => false) Nat.even.

(** Coordinates at least 2^a from a query at the origin. *)
Lemma apart_origin a (sp : space double) : (-510 <= a <= 900)%Z -> (wf_space sp) ->
  forallb (forallb (fun x => is_finite x && Bleb (f64 1 a) (Babs x))) (sp_pts sp) = true ->
  apart 53 1024 a sp (repeat (f64 0 0) (sp_sdim sp)).
Proof.
  intros Ha WF H. constructor.
  { change (SpecFloat.emin 53 1024) with (-1074)%Z. lia. }
  intros i k Hi Hk x. right. unfold x.
  assert (Z0 : B2R (nth k (repeat (f64 0 0) (sp_sdim sp)) (B754_zero false)) = 0).
  { rewrite (nth_indep _ _ (f64 0 0)) by (rewrite repeat_length; auto). rewrite nth_repeat. reflexivity. }
  rewrite Z0. unfold Rminus. rewrite Rplus_0_l, Rabs_Ropp.
  assert (Hp : In (sp_at sp i) (sp_pts sp)) by (apply nth_In; auto).
  rewrite forallb_forall in H. specialize (H _ Hp).
  assert (L : length (sp_at sp i) = sp_sdim sp).
  { destruct WF as [_ W]. rewrite Forall_forall in W. auto. }
  set (y := nth k (sp_at sp i) (B754_zero false)).
  assert (Hy : In y (sp_at sp i)) by (apply nth_In; lia).
  rewrite forallb_forall in H. specialize (H _ Hy). apply andb_true_iff in H as [F B].
  destruct (f64_R 1 a) as [F1 E1]; [reflexivity|lia|lia|].
  rewrite Bleb_correct in B; auto; [|rewrite is_finite_Babs; auto].
  rewrite B2R_Babs, E1, Rmult_1_l in B. destruct (Rle_bool_spec (bpow radix2 a) (Rabs (B2R y))); auto; discriminate.
Qed.

Lemma fx_apart : apart 53 1024 (-10) fx_sp fx_q.
Proof.
  apply (apart_origin (-10) fx_sp); [lia|apply wf_space_check; reflexivity|].
  vm_compute. reflexivity.
Qed.

Lemma fused_few_small n h : (3 * h + (n + 1) <= 1000)%nat -> fused_few 53 n h.
Proof.
  intros H. unfold fused_few.
  apply Rle_trans with (bpow radix2 10 * bpow radix2 (- 53)).
  - apply Rmult_le_compat_r; [apply bpow_ge_0|]. change (bpow radix2 10) with (IZR 1024).
    rewrite INR_IZR_INZ. apply IZR_le. lia.
  - rewrite <- bpow_plus. change (/ 16) with (bpow radix2 (-4)). apply bpow_le. vm_compute; discriminate.
Qed.

(** Two points of which contraction changes the order. *)
Definition fy_sp : space double := Space 2 (firstn 2 fx_points).
Lemma contraction_matters :
  ~ (forall (ct : contraction) (sp : space double) (bnds : start_bounds double) (q : list double) (e : Z),
     float_input 53 1024 L2Squared e sp bnds q ->
     forall (alg : std_algos), std_laws alg ->
     forall (it : index_type) (fuel : nat) (stop : stop_condition) (ru : rule) (t : kd_tree_data Euclidean double),
     @kd_tree_make double F64 alg it (@metric_l2_squared double F64) fuel sp stop bnds ru
       = Ok (KdTree sp (@metric_l2_squared double F64) t) ->
     forall nn0 i d j d',
     search_nn_fused 53 1024 prec_gt_53 prec_lt_1024 ct sp t q nn0 = Ok (Neighbor i d) ->
     @search_nn double F64 (KdTree sp (@metric_l2_squared double F64) t) q nn0 = Ok (Neighbor j d') ->
     i = j).
Proof.
  intros H.
  destruct (make_exists (@metric_l2_squared double F64) std_example it_int 9 fy_sp (max_leaf_size 4) bounds_from_space
    sliding_midpoint_max_side (fun t =>
      nn_is (search_nn_fused 53 1024 prec_gt_53 prec_lt_1024 contract_all fy_sp t fx_q (Neighbor 9 (f64 0 0)))
           0 (f64 9007199254740991 (-53))
      && nn_is (@search_nn double F64 (KdTree fy_sp (@metric_l2_squared double F64) t) fx_q (Neighbor 9 (f64 0 0)))
           1 (f64 9007199254740990 (-53)))) as (t & EM & K); [vm_compute; reflexivity|].
  apply andb_true_iff in K as [K1 K2]. apply nn_is_eq in K1, K2.
  assert (FI : float_input 53 1024 L2Squared 0 fy_sp bounds_from_space fx_q).
  { destruct (fx_input L2Squared ltac:(auto)) as [A1 A2 A3 A4 A5 A6 A7 A8 A9]. constructor; auto.
    - apply wf_space_check. reflexivity.
    - apply below_all; [lia|]. vm_compute. reflexivity. }
  specialize (H contract_all fy_sp bounds_from_space fx_q 0%Z FI std_example std_example_laws it_int 9%nat
    (max_leaf_size 4) sliding_midpoint_max_side t EM _ _ _ _ _ K1 K2).
  discriminate H.
Qed.
