(** Concrete floating point inputs for the examples. *)
From Coq Require Import List ZArith Reals Bool Arith Lia Lra.
From Flocq Require Import Core.Core IEEE754.BinarySingleNaN.
From Verif Require Import Base ModelBox ModelBuild ModelSearch Spec SpecRound Instances Floats FloatThms Examples.
Import ListNotations.
Local Open Scope R_scope.

Notation double := (binary_float 53 1024).

(** An integer of at most 53 bits, times a power of two. *)
Lemma f64_R m e : (Z.abs m < 2 ^ 53)%Z -> (-1074 <= e)%Z -> (e <= 900)%Z ->
  finite 53 1024 (f64 m e) /\ B2R (f64 m e) = IZR m * bpow radix2 e.
Proof.
  intros Hm He He2. unfold f64, finite.
  pose proof (binary_normalize_correct 53 1024 prec_gt_53 prec_lt_1024 mode_NE m e false) as K.
  cbn [round_mode] in K.
  assert (E : round radix2 (SpecFloat.fexp 53 1024) ZnearestE (F2R (Float radix2 m e)) = F2R (Float radix2 m e)).
  { apply round_generic; [apply valid_rnd_N|].
    apply (generic_format_FLT radix2 (SpecFloat.emin 53 1024) 53). exists (Float radix2 m e); auto. }
  rewrite E in K.
  assert (B : Rabs (F2R (Float radix2 m e)) < bpow radix2 1024).
  { unfold F2R. cbn [Fnum Fexp]. rewrite Rabs_mult, (Rabs_pos_eq (bpow radix2 e)) by apply bpow_ge_0.
    apply Rlt_le_trans with (bpow radix2 53 * bpow radix2 e).
    - apply Rmult_lt_compat_r; [apply bpow_gt_0|]. rewrite <- abs_IZR.
      change (bpow radix2 53) with (IZR (2 ^ 53)). apply IZR_lt. auto.
    - rewrite <- bpow_plus. apply bpow_le. lia. }
  apply Rlt_bool_true in B. rewrite B in K. destruct K as (K1 & K2 & _). split; auto.
Qed.

(** Comparison with a power of two. *)
Lemma below_f64 e x : (-1074 <= e <= 900)%Z ->
  is_finite x && Bleb (Babs x) (f64 1 e) = true -> below 53 1024 e x.
Proof.
  intros He H. apply andb_true_iff in H as [F L].
  destruct (f64_R 1 e) as [F1 E1]; [reflexivity|lia|lia|].
  split; [exact F|]. rewrite Bleb_correct in L; auto; [|rewrite is_finite_Babs; auto].
  rewrite B2R_Babs, E1, Rmult_1_l in L. destruct (Rle_bool_spec (Rabs (B2R x)) (bpow radix2 e)); auto; discriminate.
Qed.

Lemma below_all e (ll : list (list double)) : (-1074 <= e <= 900)%Z ->
  forallb (forallb (fun x => is_finite x && Bleb (Babs x) (f64 1 e))) ll = true ->
  Forall (Forall (below 53 1024 e)) ll.
Proof.
  intros He H. apply Forall_forall. intros p Hp. apply Forall_forall. intros x Hx.
  rewrite forallb_forall in H. specialize (H p Hp). rewrite forallb_forall in H. specialize (H x Hx).
  apply below_f64; auto.
Qed.

(** Whole numbers. *)
Lemma on_grid_f64 m : (Z.abs m < 2 ^ 53)%Z -> on_grid 53 1024 0 (f64 m 0).
Proof. intros H. exists m. apply f64_R; auto; lia. Qed.

Lemma wf_space_check {T} (sp : space T) :
  (1 <=? sp_sdim sp)%nat && forallb (fun p => (length p =? sp_sdim sp)%nat) (sp_pts sp) = true -> wf_space sp.
Proof.
  intros H. apply andb_true_iff in H as [A B]. split; [apply Nat.leb_le; auto|].
  apply Forall_forall. intros p Hp. rewrite forallb_forall in B. apply Nat.eqb_eq. auto.
Qed.

(** Four points whose distances to the origin are almost equal. *)
Definition fx_points : list (list double) :=
 [[f64 0x1834a74e8d89b5 (-56); f64 0x1fdb4c50b04f24 (-53)];
  [f64 0x1925df35e40bd0 (-53); f64 0x13c9d5612dd791 (-53)];
  [f64 0x1b578cf22942a3 (-53); f64 0x10a030b717ba79 (-53)];
  [f64 0x1fff60f00fd40a (-53); f64 0x1939373c205f4a (-59)]]%Z.
Definition fx_sp : space double := Space 2 fx_points.
Definition fx_q : list double := [f64 0 0; f64 0 0].

Lemma fit_small em e n : (em = L1 \/ em = L2Squared) -> (e <= 100)%Z -> (n <= 100)%nat ->
  distance_bound em e n <= bpow radix2 (1024 - 3).
Proof.
  intros Hem He Hn. unfold distance_bound.
  assert (N : INR n <= bpow radix2 7).
  { change (bpow radix2 7) with (IZR 128). rewrite INR_IZR_INZ. apply IZR_le. lia. }
  destruct Hem as [-> | ->].
  - apply Rle_trans with (bpow radix2 7 * bpow radix2 (e + 1)).
    + apply Rmult_le_compat_r; auto. apply bpow_ge_0.
    + rewrite <- bpow_plus. apply bpow_le. lia.
  - apply Rle_trans with (bpow radix2 7 * bpow radix2 (2 * e + 2)).
    + apply Rmult_le_compat_r; auto. apply bpow_ge_0.
    + rewrite <- bpow_plus. apply bpow_le. lia.
Qed.

Lemma fx_input em : em = L1 \/ em = L2Squared -> float_input 53 1024 em 0 fx_sp bounds_from_space fx_q.
Proof.
  intros Hem. constructor; [auto|..].
  - split; [vm_compute; discriminate|reflexivity].
  - cbn; lia.
  - apply fit_small; auto; cbn; lia.
  - apply wf_space_check. reflexivity.
  - apply below_all; [lia|]. vm_compute. reflexivity.
  - exact I.
  - reflexivity.
  - assert (A : Forall (Forall (below 53 1024 0)) [fx_q]) by (apply below_all; [lia|vm_compute; reflexivity]).
    inversion A; auto.
Qed.

(** A grid of whole numbers. *)
Definition fg_sp : space double :=
  Space 2 [[f64 0 0; f64 0 0]; [f64 10 0; f64 3 0]; [f64 (-4) 0; f64 1 0]; [f64 2 0; f64 2 0]; [f64 7 0; f64 (-9) 0]].
Definition fg_q : list double := [f64 8 0; f64 (-3) 0].
Lemma fg_input em : em = L1 \/ em = L2Squared -> float_input 53 1024 em 4 fg_sp bounds_from_space fg_q.
Proof.
  intros Hem. constructor; [auto|..].
  - split; [vm_compute; discriminate|reflexivity].
  - cbn; lia.
  - apply fit_small; auto; cbn; lia.
  - apply wf_space_check. reflexivity.
  - apply below_all; [lia|]. vm_compute. reflexivity.
  - exact I.
  - reflexivity.
  - assert (A : Forall (Forall (below 53 1024 4)) [fg_q]) by (apply below_all; [lia|vm_compute; reflexivity]).
    inversion A; auto.
Qed.
Lemma fg_grid em : em = L1 \/ em = L2Squared -> grid_input 53 1024 em 0 4 fg_sp fg_q.
Proof.
  intros Hem. constructor.
  - repeat (constructor; [repeat (constructor; [apply on_grid_f64; reflexivity|]); constructor|]). constructor.
  - repeat (constructor; [apply on_grid_f64; reflexivity|]). constructor.
  - destruct Hem as [-> | ->]; vm_compute; discriminate.
  - unfold distance_bound. cbn [fg_sp sp_sdim].
    destruct Hem as [-> | ->]; replace (INR 2) with (bpow radix2 1) by reflexivity; rewrite <- bpow_plus;
      apply bpow_lt; reflexivity.
Qed.

(** One dimension. *)
Definition f1_sp : space double := Space 1 [[f64 1 (-1)]; [f64 0x1834a74e8d89b5 (-56)]; [f64 (-1) 0]; [f64 0x1925df35e40bd0 (-53)]].
Definition f1_q : list double := [f64 0x13c9d5612dd791 (-53)].
Lemma f1_input em : em = L1 \/ em = L2Squared -> float_input 53 1024 em 0 f1_sp bounds_from_space f1_q.
Proof.
  intros Hem. constructor; [auto|..].
  - split; [vm_compute; discriminate|reflexivity].
  - cbn; lia.
  - apply fit_small; auto; cbn; lia.
  - apply wf_space_check. reflexivity.
  - apply below_all; [lia|]. vm_compute. reflexivity.
  - exact I.
  - reflexivity.
  - assert (A : Forall (Forall (below 53 1024 0)) [f1_q]) by (apply below_all; [lia|vm_compute; reflexivity]).
    inversion A; auto.
Qed.

Lemma few_small n h : (2 * h + n <= 1000)%nat -> few_steps 53 n h.
Proof.
  intros H. unfold few_steps.
  apply Rle_trans with (bpow radix2 10 * bpow radix2 (- 53)).
  - apply Rmult_le_compat_r; [apply bpow_ge_0|]. change (bpow radix2 10) with (IZR 1024).
    rewrite INR_IZR_INZ. apply IZR_le. lia.
  - rewrite <- bpow_plus. change (/ 2) with (bpow radix2 (-1)). apply bpow_le. vm_compute; discriminate.
Qed.

(** A tree and a check of it, evaluated without writing out the numbers (which
    contain proofs). *)
Lemma make_exists (m : metric double) alg it fuel (sp : space double) stop bnds ru
    (check : kd_tree_data (m_cat m) double -> bool) :
  match @build double F64 (m_cat m) alg it fuel sp stop bnds ru with Ok d => check d | _ => false end = true ->
  exists data, @kd_tree_make double F64 alg it m fuel sp stop bnds ru = Ok (KdTree sp m data) /\ check data = true.
Proof.
  destruct (@build double F64 (m_cat m) alg it fuel sp stop bnds ru) as [d| |] eqn:E; try discriminate.
  intros H. exists d. split; auto. apply make_ok. exact E.
Qed.

Definition nn_is (r : res (neighbor double)) (j : nat) (y : double) : bool :=
  match r with Ok (Neighbor i d) => (i =? j)%nat && is_finite_strict d && is_finite_strict y && Beqb d y | _ => false end.
Lemma nn_is_eq r j y : nn_is r j y = true -> r = Ok (Neighbor j y).
Proof.
  destruct r as [[i d]| |]; try discriminate. cbn. rewrite !andb_true_iff. intros [[[A B] C] D].
  apply Nat.eqb_eq in A. subst i. f_equal. f_equal.
  apply B2R_inj; auto. rewrite Beqb_correct in D by (apply is_finite_strict_finite || idtac; destruct d, y; auto; discriminate).
  destruct (Req_bool_spec (B2R d) (B2R y)); auto; discriminate.
Qed.

Lemma below_top (sp : space double) :
  forallb (forallb (fun x => is_finite x && Bleb (Babs x) (f64 1 900))) (sp_pts sp) = true ->
  all_coords (below 53 1024 (1024 - 2)) sp.
Proof.
  intros H. apply below_all in H; [|lia]. eapply Forall_impl; [|exact H]. intros p Hp.
  eapply Forall_impl; [|exact Hp]. intros x [A B]. split; auto. eapply Rle_trans; [exact B|]. apply bpow_le. lia.
Qed.
