(** Cover trees of doubles: a search that misses a point, and examples. *)
From Coq Require Import List ZArith Reals Bool Arith Permutation Sorted Lia Lra.
From Flocq Require Import Core.Core IEEE754.BinarySingleNaN.
From Verif Require Import Base ModelBox ModelBuild ModelSearch Spec SpecRound Instances Examples ModelCover SpecCover
  SpecCoverFloat Floats FloatThms FloatEx CoverEx CoverInvEx CoverFloatThms CoverFloatTop.
Import ListNotations.
Local Open Scope R_scope.
Local Existing Instance F64.

Section Statement.
Local Notation dist := (computed 53 1024 prec_gt_53 prec_lt_1024 L1).
Definition c141_claim : Prop :=
  forall (e : Z) (sp : space double) (q : list double),
  float_input 53 1024 L1 e sp bounds_from_space q ->
  forall (cm : cmath double) (alg : std_algos) (shuffle : list nat -> list nat), std_laws alg -> shuffles shuffle ->
  forall (fuel : nat) (base : double) (t : cover_tree double),
  cover_tree_make cm alg shuffle metric_l1 fuel sp base = Ok t ->
  forall nn0, exists i d, cover_search_nn alg t q nn0 = Ok (Neighbor i d)
    /\ (i < npts sp)%nat /\ forall j, (j < npts sp)%nat -> dist sp q i <= dist sp q j.
End Statement.

(** A far point whose distance loses the digits that tell its child from the query. *)
Definition cf_sp : space double :=
  Space 1 [[f64 15 50]; [f64 5 51]; [f64 (-5) 0]; [f64 (-(3 * 2 ^ 51 - 1)) (-51)]]%Z.
Definition cf_q : list double := [f64 (-3) 0].
Definition built (cm : cmath double) (m : metric double) (sp : space double) (k : nat) : cover_node double :=
  match build_cover_tree cm std_example m sp (f64 2 0) k (seq 0 (npts sp)) with
  | Ok r => r | _ => CoverNode s_zero s_zero 0 [] end.
Lemma built_make cm m sp k :
  match build_cover_tree cm std_example m sp (f64 2 0) k (seq 0 (npts sp)) with Ok _ => true | _ => false end = true ->
  cover_tree_make cm std_example (fun l => l) m k sp (f64 2 0) = Ok (CoverTree sp m (built cm m sp k)).
Proof.
  intros H. apply make_cover_ok. unfold built. change (sp_size sp) with (npts sp). cbv beta.
  destruct (build_cover_tree cm std_example m sp (f64 2 0) k (seq 0 (npts sp))); auto; discriminate.
Qed.
Definition cf_root := built f_levels metric_l1 cf_sp 60.
Definition cf_tree : cover_tree double := CoverTree cf_sp metric_l1 cf_root.
Lemma cf_make : cover_tree_make f_levels std_example (fun l => l) metric_l1 60 cf_sp (f64 2 0) = Ok cf_tree.
Proof. apply built_make. vm_compute. reflexivity. Qed.
Lemma cf_input : float_input 53 1024 L1 55 cf_sp bounds_from_space cf_q.
Proof.
  constructor; [auto|..].
  - split; [vm_compute; discriminate|reflexivity].
  - cbn; lia.
  - apply fit_small; auto; cbn; lia.
  - apply wf_space_check. reflexivity.
  - apply below_all; [lia|]. vm_compute. reflexivity.
  - exact I.
  - reflexivity.
  - assert (A : Forall (Forall (below 53 1024 55)) [cf_q]) by (apply below_all; [lia|vm_compute; reflexivity]).
    inversion A; auto.
Qed.

Lemma cf_nn : exists d, cover_search_nn std_example cf_tree cf_q (Neighbor 0%nat s_zero) = Ok (Neighbor 2%nat d).
Proof.
  assert (E : match cover_search_nn std_example cf_tree cf_q (Neighbor 0%nat s_zero) with Ok (Neighbor k _) => (k =? 2)%nat | _ => false end = true)
    by (vm_compute; reflexivity).
  destruct (cover_search_nn std_example cf_tree cf_q (Neighbor 0%nat s_zero)) as [[k d]| |]; try discriminate.
  apply Nat.eqb_eq in E. subst. eauto.
Qed.
Lemma same_float (x y : double) : B2SF x = B2SF y -> x = y.
Proof. apply B2SF_inj. Qed.
Lemma cf_far : m_dist metric_l1 cf_q (sp_at cf_sp 2) = f64 2 0.
Proof. apply same_float. vm_compute. reflexivity. Qed.
Lemma cf_near : m_dist metric_l1 cf_q (sp_at cf_sp 3) = f64 1 (-51).
Proof. apply same_float. vm_compute. reflexivity. Qed.
Lemma cf_dists : computed 53 1024 prec_gt_53 prec_lt_1024 L1 cf_sp cf_q 2 = 2
  /\ computed 53 1024 prec_gt_53 prec_lt_1024 L1 cf_sp cf_q 3 = bpow radix2 (-51).
Proof.
  unfold computed. change (@metric_of double _ L1) with (@metric_l1 double F64).
  change (SF_ 53 1024 prec_gt_53 prec_lt_1024) with F64. rewrite cf_far, cf_near. split.
  - rewrite (proj2 (f64_R 2 0 ltac:(reflexivity) ltac:(lia) ltac:(lia))). cbn. ring.
  - rewrite (proj2 (f64_R 1 (-51) ltac:(reflexivity) ltac:(lia) ltac:(lia))). ring.
Qed.
(** A radius search finds nothing although a point is in its ball. *)
Lemma cf_radius : cover_search_radius std_example cf_tree cf_q (f64 1 0) false = Ok [].
Proof.
  assert (E : match cover_search_radius std_example cf_tree cf_q (f64 1 0) false with Ok [] => true | _ => false end = true)
    by (vm_compute; reflexivity).
  destruct (cover_search_radius std_example cf_tree cf_q (f64 1 0) false) as [[|]| |]; try discriminate. reflexivity.
Qed.

Lemma c141_refutation : ~ c141_claim.
Proof.
  intros H. destruct (H 55%Z cf_sp cf_q cf_input f_levels std_example (fun l => l) std_example_laws id_shuffles
    60%nat (f64 2 0) cf_tree cf_make (Neighbor 0%nat s_zero)) as (i & d & E & _ & K).
  destruct cf_nn as (d' & E'). rewrite E' in E. injection E as <- _.
  specialize (K 3%nat (le_n _)). destruct cf_dists as [A B]. rewrite A, B in K.
  assert (bpow radix2 (-51) < 2); [|lra]. change 2 with (bpow radix2 1). apply bpow_lt. reflexivity.
Qed.

Lemma c141_missed :
  float_input 53 1024 L1 55 cf_sp bounds_from_space cf_q
  /\ cover_tree_make f_levels std_example (fun l => l) metric_l1 60 cf_sp (f64 2 0) = Ok cf_tree
  /\ computed 53 1024 prec_gt_53 prec_lt_1024 L1 cf_sp cf_q 3 = bpow radix2 (-51)
  /\ cover_search_radius std_example cf_tree cf_q (f64 1 0) false = Ok [].
Proof. split; [exact cf_input|]. split; [exact cf_make|]. split; [apply cf_dists|exact cf_radius]. Qed.

(** Rounded square roots. *)
Definition f_math : cmath double := CMath (c_pow f_levels) (c_log f_levels) (c_ceil f_levels) (c_floor f_levels)
  (Bsqrt (prec_gt_0_ := prec_gt_53) (prec_lt_emax_ := prec_lt_1024) mode_NE).
Lemma f_math_sqrt : rounds_sqrt 53 1024 f_math.
Proof.
  intros x Fx X0. unfold finite in *. cbn [c_sqrt f_math].
  destruct (Bsqrt_correct 53 1024 prec_gt_53 prec_lt_1024 mode_NE x) as (A & B & _). split; [|exact A].
  rewrite B. destruct x as [|[]| |[] m e Hb]; auto. exfalso. cbn [B2R cond_Zopp] in X0.
  assert (F2R (Float radix2 (Z.neg m) e) < 0) by (apply F2R_lt_0; reflexivity). cbn [cond_Zopp Z.opp] in X0. lra.
Qed.

Lemma few_dims n a : (n + 3 <= 1000)%nat -> / 32 <= a -> INR (n + 3) * bpow radix2 (- 53) <= a.
Proof.
  intros H Ha. apply Rle_trans with (bpow radix2 10 * bpow radix2 (- 53)).
  - apply Rmult_le_compat_r; [apply bpow_ge_0|]. change (bpow radix2 10) with (IZR 1024).
    rewrite INR_IZR_INZ. apply IZR_le. lia.
  - rewrite <- bpow_plus. eapply Rle_trans; [|exact Ha]. change (/ 32) with (bpow radix2 (-5)). apply bpow_le. vm_compute; discriminate.
Qed.

Definition fx_l1 : cover_tree double := CoverTree fx_sp metric_l1 (built f_math metric_l1 fx_sp 60).
Definition fx_l2 : cover_tree double := CoverTree fx_sp (metric_l2 f_math) (built f_math (metric_l2 f_math) fx_sp 60).
Definition fg_l1 : cover_tree double := CoverTree fg_sp metric_l1 (built f_math metric_l1 fg_sp 60).
Lemma fx_l1_make : cover_tree_make f_math std_example (fun l => l) metric_l1 60 fx_sp (f64 2 0) = Ok fx_l1.
Proof. apply built_make. vm_compute. reflexivity. Qed.
Lemma fx_l2_make : cover_tree_make f_math std_example (fun l => l) (metric_l2 f_math) 60 fx_sp (f64 2 0) = Ok fx_l2.
Proof. apply built_make. vm_compute. reflexivity. Qed.
Lemma fg_l1_make : cover_tree_make f_math std_example (fun l => l) metric_l1 60 fg_sp (f64 2 0) = Ok fg_l1.
Proof. apply built_make. vm_compute. reflexivity. Qed.

Lemma fx_point em i : (em = L1 \/ em = L2Squared) -> (i < npts fx_sp)%nat ->
  float_input 53 1024 em 0 fx_sp bounds_from_space (nth i (sp_pts fx_sp) []).
Proof. intros Hem Hi. apply (point_input 53 1024 em 0 fx_sp fx_q i (fx_input em Hem) Hi). Qed.

Lemma fx_spread1 : spread 53 1024 (true_dist 53 1024 L1 fx_sp) fx_sp 4.
Proof.
  intros i j Hi Hj. eapply Rle_trans.
  - apply (true_fits 53 1024 prec_gt_53 prec_lt_1024 L1 0 fx_sp _ (fx_point L1 i (or_introl eq_refl) Hi) j Hj).
  - unfold distance_bound. cbn. lra.
Qed.
Lemma fx_spread2 : spread 53 1024 (true_l2 53 1024 fx_sp) fx_sp 4.
Proof.
  intros i j Hi Hj. unfold true_l2. rewrite <- (sqrt_square 4) by lra. apply sqrt_le_1_alt. eapply Rle_trans.
  - apply (true_fits 53 1024 prec_gt_53 prec_lt_1024 L2Squared 0 fx_sp _ (fx_point L2Squared i (or_intror eq_refl) Hi) j Hj).
  - unfold distance_bound. cbn. lra.
Qed.

Lemma c141_l1_example :
  float_input 53 1024 L1 0 fx_sp bounds_from_space fx_q
  /\ cover_tree_make f_math std_example (fun l => l) metric_l1 60 fx_sp (f64 2 0) = Ok fx_l1
  /\ INR (sp_sdim fx_sp + 3) * bpow radix2 (- 53) <= / 16
  /\ spread 53 1024 (true_dist 53 1024 L1 fx_sp) fx_sp 4.
Proof.
  split; [apply fx_input; auto|]. split; [exact fx_l1_make|]. split; [|exact fx_spread1].
  apply few_dims; [cbn; lia|lra].
Qed.
Lemma c141_l2_example :
  float_input 53 1024 L2Squared 0 fx_sp bounds_from_space fx_q
  /\ rounds_sqrt 53 1024 f_math
  /\ cover_tree_make f_math std_example (fun l => l) (metric_l2 f_math) 60 fx_sp (f64 2 0) = Ok fx_l2
  /\ INR (sp_sdim fx_sp + 3) * bpow radix2 (- 53) <= / 32
  /\ spread 53 1024 (true_l2 53 1024 fx_sp) fx_sp 4.
Proof.
  split; [apply fx_input; auto|]. split; [exact f_math_sqrt|]. split; [exact fx_l2_make|]. split; [|exact fx_spread2].
  apply few_dims; [cbn; lia|lra].
Qed.
Lemma c141_grid_example :
  float_input 53 1024 L1 4 fg_sp bounds_from_space fg_q /\ grid_input 53 1024 L1 0 4 fg_sp fg_q
  /\ cover_tree_make f_math std_example (fun l => l) metric_l1 60 fg_sp (f64 2 0) = Ok fg_l1
  /\ INR (sp_sdim fg_sp + 3) * bpow radix2 (- 53) <= / 2.
Proof.
  split; [apply fg_input; auto|]. split; [apply fg_grid; auto|]. split; [exact fg_l1_make|].
  apply few_dims; [cbn; lia|lra].
Qed.
