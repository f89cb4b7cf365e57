(** Concrete inputs for the examples of PropCircle.v. *)
From Coq Require Import List ZArith Reals Bool Arith Lia Lra.
From Flocq Require Import Core.Core IEEE754.BinarySingleNaN.
From Verif Require Import Base ModelBox ModelBuild ModelSearch Spec SpecRound SpecCircle Instances Floats FloatThms
  FloatEx Examples.
Import ListNotations.
Local Open Scope R_scope.

(** Deciding [circle_coord] for doubles. *)
Definition coord_check (cm : circle_metric) (e : Z) (k : nat) (x : double) : bool :=
  is_finite x && if circular cm k then Bleb (f64 0 0) x && Bleb x (f64 1 0) else Bleb (Babs x) (f64 1 e).
Lemma coord_checked cm e k x : (-1074 <= e <= 900)%Z -> coord_check cm e k x = true -> circle_coord 53 1024 cm e k x.
Proof.
  intros He H. apply andb_true_iff in H as [F L]. split; [exact F|]. destruct (circular cm k).
  - apply andb_true_iff in L as [L0 L1].
    destruct (f64_R 0 0) as [F0 E0]; [reflexivity|lia|lia|]. destruct (f64_R 1 0) as [F1 E1]; [reflexivity|lia|lia|].
    rewrite Bleb_correct in L0, L1; auto. rewrite E0 in L0. rewrite E1 in L1.
    destruct (Rle_bool_spec (IZR 0 * bpow radix2 0) (B2R x)); [|discriminate].
    destruct (Rle_bool_spec (B2R x) (IZR 1 * bpow radix2 0)); [|discriminate].
    cbn [bpow] in *. lra.
  - apply (below_f64 e x He). rewrite F, L. reflexivity.
Qed.
Definition point_check (cm : circle_metric) (e : Z) (n : nat) (p : list double) : bool :=
  forallb (fun k => coord_check cm e k (nth k p (B754_zero false))) (seq 0 n).
Lemma point_checked cm e n p k : (-1074 <= e <= 900)%Z -> point_check cm e n p = true -> (k < n)%nat ->
  circle_coord 53 1024 cm e k (nth k p (B754_zero false)).
Proof.
  intros He H Hk. apply coord_checked; auto. unfold point_check in H. rewrite forallb_forall in H.
  apply H. apply in_seq. lia.
Qed.
Lemma circle_fit cm e n : (0 <= e <= 100)%Z -> (n <= 100)%nat ->
  INR n * circle_bound cm e <= bpow radix2 (1024 - 3).
Proof.
  intros He Hn.
  assert (N : INR n <= bpow radix2 7).
  { change (bpow radix2 7) with (IZR 128). rewrite INR_IZR_INZ. apply IZR_le. lia. }
  assert (B : 0 <= circle_bound cm e <= bpow radix2 (2 * e + 2)).
  { unfold circle_bound. assert (1 <= bpow radix2 (2 * e + 2)) by (change 1 with (bpow radix2 0); apply bpow_le; lia).
    destruct cm; lra. }
  apply Rle_trans with (bpow radix2 7 * bpow radix2 (2 * e + 2)).
  - apply Rmult_le_compat; try apply pos_INR; tauto.
  - rewrite <- bpow_plus. apply bpow_le. lia.
Qed.
Lemma circle_checked cm e sp q : (0 <= e <= 100)%Z -> circle_dims cm (sp_sdim sp) -> (sp_sdim sp <= 100)%nat ->
  (1 <=? sp_sdim sp)%nat && forallb (fun p => (length p =? sp_sdim sp)%nat) (q :: sp_pts sp)
  && forallb (point_check cm e (sp_sdim sp)) (q :: sp_pts sp) = true ->
  circle_input 53 1024 cm e sp bounds_from_space q.
Proof.
  intros He HD HN H. apply andb_true_iff in H as [H H3]. apply andb_true_iff in H as [H1 H2].
  rewrite forallb_forall in H2, H3. constructor; auto.
  - lia.
  - apply circle_fit; auto.
  - apply wf_space_check. rewrite H1. apply forallb_forall. intros p Hp. apply H2. right. exact Hp.
  - intros p k Hp Hk. apply (point_checked cm e (sp_sdim sp)); auto; [lia|]. apply H3. right. exact Hp.
  - exact I.
  - apply Nat.eqb_eq. apply H2. left. reflexivity.
  - intros k Hk. apply (point_checked cm e (sp_sdim sp)); auto; [lia|]. apply H3. left. reflexivity.
Qed.

(** On the circle: the nearest of 0.96 is 0.03 on the other side of the end. *)
Definition cx_sp : space double :=
  Space 1 [[f64 0x1eb851eb851eb8 (-58)]; [f64 0x1c000000000000 (-53)]; [f64 0x1eb851eb851eb (-50)]; [f64 1 (-2)]]%Z.
Definition cx_q : list double := [f64 0x1eb851eb851eb8 (-53)].
Lemma cx_input : circle_input 53 1024 OnCircle 0 cx_sp bounds_from_space cx_q.
Proof. apply circle_checked; [lia|reflexivity|cbn; lia|vm_compute; reflexivity]. Qed.

Lemma cx_below_one x p : In p (cx_q :: sp_pts cx_sp) -> In x p -> B2R x < 1.
Proof.
  intros Hp Hx.
  assert (C : forallb (forallb (fun y : double => is_finite y && Bltb y (f64 1 0))) (cx_q :: sp_pts cx_sp) = true)
    by (vm_compute; reflexivity).
  rewrite forallb_forall in C. specialize (C p Hp). rewrite forallb_forall in C. specialize (C x Hx).
  apply andb_true_iff in C as [F L]. destruct (f64_R 1 0) as [F1 E1]; [reflexivity|lia|lia|].
  rewrite Bltb_correct in L; auto. rewrite E1 in L.
  destruct (Rlt_bool_spec (B2R x) (IZR 1 * bpow radix2 0)); [|discriminate]. cbn [bpow] in *. lra.
Qed.

(** The end of the interval. *)
Definition ce_sp : space double := Space 1 [[f64 1 (-55)]; [f64 1 0]].
Definition ce_q : list double := [f64 1 0].
Lemma ce_input : circle_input 53 1024 OnCircle 0 ce_sp bounds_from_space ce_q.
Proof. apply circle_checked; [lia|reflexivity|cbn; lia|vm_compute; reflexivity]. Qed.
Lemma ce_true : true_on 53 1024 OnCircle ce_sp ce_q 0 = bpow radix2 (-55)
  /\ true_on 53 1024 OnCircle ce_sp ce_q 1 = 0.
Proof.
  destruct (f64_R 1 0) as [_ E1]; [reflexivity|lia|lia|]. destruct (f64_R 1 (-55)) as [_ E2]; [reflexivity|lia|lia|].
  unfold true_on. cbn [ce_sp sp_sdim sp_pts ce_q seq map fold_right nth]. rewrite E1, E2.
  rewrite !Rmult_1_l. change (bpow radix2 0) with 1.
  assert (B : 0 < bpow radix2 (-55) <= / 2).
  { split; [apply bpow_gt_0|]. change (/ 2) with (bpow radix2 (-1)). apply bpow_le. lia. }
  unfold arcR. split.
  - rewrite (Rabs_pos_eq (1 - bpow radix2 (-55))) by lra. rewrite Rmin_right; lra.
  - rewrite Rminus_diag_eq, Rabs_R0 by auto. rewrite Rmin_left; lra.
Qed.

(** Poses in the plane and points of a torus on a grid. *)
Definition cp_sp : space double :=
  Space 3 [[f64 0 0; f64 0 0; f64 1 (-3)]; [f64 10 0; f64 3 0; f64 7 (-3)]; [f64 (-4) 0; f64 1 0; f64 1 (-1)];
           [f64 2 0; f64 2 0; f64 0 0]; [f64 7 0; f64 (-9) 0; f64 3 (-2)]].
Definition cp_q : list double := [f64 1 0; f64 1 0; f64 15 (-4)].
Lemma cp_input : circle_input 53 1024 OnPlane 4 cp_sp bounds_from_space cp_q.
Proof. apply circle_checked; [lia|reflexivity|cbn; lia|vm_compute; reflexivity]. Qed.
Definition ct_sp : space double :=
  Space 2 [[f64 1 (-3); f64 1 (-3)]; [f64 7 (-3); f64 15 (-4)]; [f64 1 (-1); f64 3 (-2)]; [f64 0 0; f64 1 (-1)]].
Definition ct_q : list double := [f64 1 (-4); f64 1 0].
Lemma ct_input : circle_input 53 1024 OnTorus 0 ct_sp bounds_from_space ct_q.
Proof. apply circle_checked; [lia|cbn; lia|cbn; lia|vm_compute; reflexivity]. Qed.

Lemma grid16 m e : (Z.abs m < 2 ^ 53)%Z -> (-4 <= e <= 900)%Z ->
  exists z : Z, B2R (f64 m e) = IZR z * bpow radix2 (-4).
Proof.
  intros Hm He. destruct (f64_R m e Hm) as [_ E]; [lia|lia|]. exists (m * 2 ^ (e + 4))%Z.
  rewrite E, mult_IZR, (IZR_Zpower radix2), Rmult_assoc, <- bpow_plus by lia. f_equal. f_equal. lia.
Qed.
Lemma cp_grid : circle_grid 53 1024 OnPlane (-4) 4 cp_sp cp_q.
Proof.
  constructor.
  - lia.
  - intros p Hp. cbn [cp_sp sp_pts In] in Hp.
    repeat (destruct Hp as [<-|Hp]; [repeat (constructor; [apply grid16; [reflexivity|lia]|]); constructor|]).
    all: destruct Hp.
  - repeat (constructor; [apply grid16; [reflexivity|lia]|]). constructor.
  - vm_compute. discriminate.
  - cbn [cp_sp sp_sdim]. unfold circle_bound.
    apply Rle_lt_trans with (bpow radix2 2 * bpow radix2 (2 * 4 + 2)).
    + apply Rmult_le_compat_r; [apply bpow_ge_0|]. cbn. lra.
    + rewrite <- bpow_plus. apply bpow_lt. lia.
Qed.
Lemma ct_grid : circle_grid 53 1024 OnTorus (-4) 0 ct_sp ct_q.
Proof.
  constructor.
  - lia.
  - intros p Hp. cbn [ct_sp sp_pts In] in Hp.
    repeat (destruct Hp as [<-|Hp]; [repeat (constructor; [apply grid16; [reflexivity|lia]|]); constructor|]).
    all: destruct Hp.
  - repeat (constructor; [apply grid16; [reflexivity|lia]|]). constructor.
  - vm_compute. discriminate.
  - cbn [ct_sp sp_sdim]. unfold circle_bound.
    apply Rle_lt_trans with (bpow radix2 2).
    + cbn. lra.
    + apply bpow_lt. lia.
Qed.

(** Checking the index of an answer. *)
Definition nn_index_is (r : res (neighbor double)) (j : nat) : bool :=
  match r with Ok (Neighbor i _) => (i =? j)%nat | _ => false end.
Lemma nn_index_eq r j : nn_index_is r j = true -> exists d, r = Ok (Neighbor j d).
Proof. destruct r as [[i d]| |]; try discriminate. cbn. intros H. apply Nat.eqb_eq in H. subst. eauto. Qed.

(** The nearest of the distances of the refutation. *)
Lemma circle_refutation :
  ~ exists c : R, forall (sp : space double) (bnds : start_bounds double) (q : list double),
    circle_input 53 1024 OnCircle 0 sp bnds q ->
    forall alg : std_algos, std_laws alg ->
    forall (it : index_type) (fuel : nat) (stop : stop_condition) (ru : rule) (tree : kd_tree double),
    ru <> midpoint_max_side ->
    @kd_tree_make double F64 alg it (@circle_of double F64 OnCircle) fuel sp stop bnds ru = Ok tree ->
    forall nn0 : neighbor double,
    exists i d, @search_nn double F64 tree q nn0 = Ok (Neighbor i d)
      /\ nearest_within (npts sp) (true_on 53 1024 OnCircle sp q) c i.
Proof.
  intros (c & H).
  destruct (make_exists (@metric_so2 double F64) std_example it_int 9 ce_sp (max_leaf_size 2) bounds_from_space
    sliding_midpoint_max_side (fun d =>
      nn_index_is (@search_nn double F64 (KdTree ce_sp (@metric_so2 double F64) d) ce_q (Neighbor 9 (f64 0 0))) 0))
    as (data & EM & K); [vm_compute; reflexivity|].
  apply nn_index_eq in K as (d0 & K).
  destruct (H ce_sp bounds_from_space ce_q ce_input std_example std_example_laws it_int 9%nat (max_leaf_size 2)
    sliding_midpoint_max_side _ ltac:(discriminate) EM (Neighbor 9 (f64 0 0))) as (i & d & E & N1 & N2).
  rewrite K in E. injection E as <- <-. destruct ce_true as [T0 T1].
  specialize (N2 1%nat ltac:(cbn; lia)). rewrite T0, T1 in N2.
  pose proof (bpow_gt_0 radix2 (-55)). lra.
Qed.
