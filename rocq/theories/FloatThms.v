(** Floating point meets the order and range laws; rounding facts. *)
From Coq Require Import List ZArith Reals Bool Arith Lia Lra.
From Flocq Require Import Core.Core IEEE754.BinarySingleNaN Plus_error Mult_error Relative.
From Verif Require Import Base ModelBox ModelBuild ModelSearch Spec Floats.
Import ListNotations.

Section Format.
Variables (prec emax : Z).
Context (Hprec : Prec_gt_0 prec) (Hmax : Prec_lt_emax prec emax).
Local Notation F := (binary_float prec emax).
Local Notation fin := (finite prec emax).
Local Notation fexp := (SpecFloat.fexp prec emax).
Local Notation emin := (SpecFloat.emin prec emax).
Local Notation rnd := (round radix2 fexp ZnearestE).
Local Notation fmt := (generic_format radix2 fexp).
Local Notation pow := (bpow radix2).
Local Instance SF : Scalar F := Float_scalar prec emax Hprec Hmax.
Local Open Scope R_scope.

Lemma fexp_FLT : forall e, fexp e = FLT_exp emin prec e.
Proof. reflexivity. Qed.
Local Instance vexp : Valid_exp fexp.
Proof. apply (FLT_exp_valid emin prec). Qed.
Local Instance vmon : Monotone_exp fexp.
Proof. apply (FLT_exp_monotone emin prec). Qed.

Lemma prec_pos : (0 < prec)%Z. Proof. exact Hprec. Qed.
Lemma prec_emax : (prec < emax)%Z. Proof. exact Hmax. Qed.
Lemma emin_eq : emin = (3 - emax - prec)%Z. Proof. reflexivity. Qed.

Lemma fmt_B2R (x : F) : fmt (B2R x).
Proof. apply generic_format_B2R. Qed.
Lemma rnd_le x y : x <= y -> rnd x <= rnd y.
Proof. apply round_le; typeclasses eauto. Qed.
Lemma rnd_fmt x : fmt x -> rnd x = x.
Proof. apply round_generic; typeclasses eauto. Qed.
Lemma fmt_rnd x : fmt (rnd x).
Proof. apply generic_format_round; typeclasses eauto. Qed.
Lemma rnd_0 : rnd 0 = 0.
Proof. apply round_0; typeclasses eauto. Qed.
Lemma rnd_opp x : rnd (- x) = - rnd x.
Proof. apply round_NE_opp. Qed.
Lemma fmt_opp x : fmt x -> fmt (- x).
Proof. apply generic_format_opp. Qed.
Lemma fmt_pow e : (emin <= e)%Z -> fmt (pow e).
Proof. intros H. apply generic_format_FLT_bpow; auto. Qed.
Lemma rnd_ge_0 x : 0 <= x -> 0 <= rnd x.
Proof. intros. rewrite <- rnd_0. apply rnd_le; auto. Qed.
Lemma rnd_le_0 x : x <= 0 -> rnd x <= 0.
Proof. intros. replace 0 with (rnd 0) by apply rnd_0. apply rnd_le; auto. Qed.
Lemma rnd_abs x : Rabs (rnd x) = rnd (Rabs x).
Proof.
  unfold Rabs at 2. destruct (Rcase_abs x).
  - rewrite rnd_opp. apply Rabs_left1. apply rnd_le_0. lra.
  - apply Rabs_right, Rle_ge, rnd_ge_0. lra.
Qed.
Lemma rnd_abs_le x b : fmt b -> Rabs x <= b -> Rabs (rnd x) <= b.
Proof. intros Fb H. rewrite rnd_abs, <- (rnd_fmt b Fb). apply rnd_le. auto. Qed.
Lemma rnd_pow x e : (emin <= e)%Z -> Rabs x <= pow e -> Rabs (rnd x) <= pow e.
Proof. intros He. apply rnd_abs_le, fmt_pow, He. Qed.

(** ** Comparisons *)
Lemma ltb_R (x y : F) : fin x -> fin y -> s_ltb x y = true <-> B2R x < B2R y.
Proof.
  intros Hx Hy. cbn [s_ltb SF Float_scalar]. rewrite Bltb_correct by auto.
  destruct (Rlt_bool_spec (B2R x) (B2R y)); split; intros; auto; try discriminate; lra.
Qed.
Lemma leb_R (x y : F) : fin x -> fin y -> s_leb x y = true <-> B2R x <= B2R y.
Proof.
  intros Hx Hy. cbn [s_leb SF Float_scalar]. rewrite Bleb_correct by auto.
  destruct (Rle_bool_spec (B2R x) (B2R y)); split; intros; auto; try discriminate; lra.
Qed.
Lemma ltb_R_false (x y : F) : fin x -> fin y -> s_ltb x y = false <-> B2R y <= B2R x.
Proof.
  intros Hx Hy. cbn [s_ltb SF Float_scalar]. rewrite Bltb_correct by auto.
  destruct (Rlt_bool_spec (B2R x) (B2R y)); split; intros; auto; try discriminate; lra.
Qed.
Lemma leb_R_false (x y : F) : fin x -> fin y -> s_leb x y = false <-> B2R y < B2R x.
Proof.
  intros Hx Hy. cbn [s_leb SF Float_scalar]. rewrite Bleb_correct by auto.
  destruct (Rle_bool_spec (B2R x) (B2R y)); split; intros; auto; try discriminate; lra.
Qed.

Lemma fin_max : fin (s_max : F). Proof. reflexivity. Qed.
Lemma fin_lowest : fin (s_lowest : F). Proof. reflexivity. Qed.
Lemma fin_zero : fin (s_zero : F). Proof. reflexivity. Qed.
Lemma R_zero : B2R (s_zero : F) = 0. Proof. reflexivity. Qed.

Lemma float_ord : ord_laws SF fin.
Proof.
  constructor; try reflexivity; intros x y.
  - intros Hx Hy. destruct (s_leb y x) eqn:E; cbn [negb].
    + apply leb_R in E; auto. apply ltb_R_false; auto.
    + apply leb_R_false in E; auto. apply ltb_R; auto.
  - intros Hx Hy. rewrite !leb_R by auto. lra.
  - intros z Hx Hy Hz. rewrite !leb_R by auto. lra.
Qed.

(** ** Largest values *)
Lemma R_max : B2R (s_max : F) = pow emax - pow (emax - prec).
Proof.
  pose proof prec_pos. pose proof prec_emax.
  cbn [s_max SF Float_scalar]. unfold Bmax_float. rewrite B2R_SF2B. unfold SF2R, F2R; cbn [Fnum Fexp cond_Zopp].
  rewrite Pos2Z.inj_sub.
  2:{ change (Z.pos 1 < Z.pos (shift_pos (Z.to_pos prec) 1))%Z.
      rewrite shift_pos_correct, Z.mul_1_r, Z.pow_pos_fold.
      rewrite Z2Pos.id by auto. now apply (Zpower_gt_1 radix2). }
  rewrite shift_pos_correct, Z.mul_1_r, Z.pow_pos_fold, Z2Pos.id by auto.
  change 2%Z with (radix_val radix2). rewrite minus_IZR, IZR_Zpower by lia.
  rewrite Rmult_minus_distr_r, <- bpow_plus, Rmult_1_l. f_equal. f_equal. lia.
Qed.
Lemma R_lowest : B2R (s_lowest : F) = - B2R (s_max : F).
Proof. cbn [s_lowest s_max SF Float_scalar]. apply B2R_Bopp. Qed.
Lemma R_range (x : F) : Rabs (B2R x) <= B2R (s_max : F).
Proof. rewrite R_max. apply abs_B2R_le_emax_minus_prec; auto. Qed.
Lemma max_ge_pow : pow (emax - 1) <= B2R (s_max : F).
Proof.
  pose proof prec_pos. rewrite R_max.
  assert (pow (emax - prec) <= pow (emax - 1)) by (apply bpow_le; lia).
  assert (pow emax = 2 * pow (emax - 1)).
  { replace emax with (1 + (emax - 1))%Z at 1 by ring. rewrite bpow_plus. reflexivity. }
  lra.
Qed.
Lemma max_lt_pow : B2R (s_max : F) < pow emax.
Proof. rewrite R_max. pose proof (bpow_gt_0 radix2 (emax - prec)). lra. Qed.

Lemma float_finite : ok_finite SF fin.
Proof.
  intros x Hx. rewrite !leb_R by (auto; reflexivity). rewrite R_lowest.
  pose proof (R_range x). apply Rabs_le_inv in H. lra.
Qed.

(** ** Operations that do not overflow *)
Lemma add_R (x y : F) : fin x -> fin y -> Rabs (rnd (B2R x + B2R y)) < pow emax ->
  fin (s_add x y) /\ B2R (s_add x y) = rnd (B2R x + B2R y).
Proof.
  intros Hx Hy H. pose proof (Bplus_correct prec emax _ _ mode_NE x y Hx Hy) as C.
  cbn [round_mode] in C. rewrite Rlt_bool_true in C by exact H. destruct C as (C1 & C2 & _). split; auto.
Qed.
Lemma sub_R (x y : F) : fin x -> fin y -> Rabs (rnd (B2R x - B2R y)) < pow emax ->
  fin (s_sub x y) /\ B2R (s_sub x y) = rnd (B2R x - B2R y).
Proof.
  intros Hx Hy H. pose proof (Bminus_correct prec emax _ _ mode_NE x y Hx Hy) as C.
  cbn [round_mode] in C. rewrite Rlt_bool_true in C by exact H. destruct C as (C1 & C2 & _). split; auto.
Qed.
Lemma mul_R (x y : F) : fin x -> fin y -> Rabs (rnd (B2R x * B2R y)) < pow emax ->
  fin (s_mul x y) /\ B2R (s_mul x y) = rnd (B2R x * B2R y).
Proof.
  intros Hx Hy H. pose proof (Bmult_correct prec emax _ _ mode_NE x y) as C.
  cbn [round_mode] in C. rewrite Rlt_bool_true in C by exact H. destruct C as (C1 & C2 & _). split; auto.
  unfold finite. cbn [s_mul SF Float_scalar]. rewrite C2, Hx, Hy. reflexivity.
Qed.
Lemma div_R (x y : F) : fin x -> B2R y <> 0 -> Rabs (rnd (B2R x / B2R y)) < pow emax ->
  fin (s_div x y) /\ B2R (s_div x y) = rnd (B2R x / B2R y).
Proof.
  intros Hx Hy H. pose proof (Bdiv_correct prec emax _ _ mode_NE x y Hy) as C.
  cbn [round_mode] in C. rewrite Rlt_bool_true in C by exact H. destruct C as (C1 & C2 & _). split; auto.
  unfold finite. cbn [s_div SF Float_scalar]. rewrite C2. exact Hx.
Qed.
Lemma abs_R (x : F) : fin x -> fin (s_abs x) /\ B2R (s_abs x) = Rabs (B2R x).
Proof.
  intros Hx. cbn [s_abs SF Float_scalar]. split; [|apply B2R_Babs].
  unfold finite. rewrite is_finite_Babs. exact Hx.
Qed.

Lemma lt_emax x e : (e < emax)%Z -> Rabs x <= pow e -> Rabs x < pow emax.
Proof. intros He H. eapply Rle_lt_trans; [exact H|]. apply bpow_lt; auto. Qed.
Lemma emin_lt e : (0 <= e)%Z -> (emin <= e)%Z.
Proof. pose proof prec_pos. pose proof prec_emax. rewrite emin_eq. lia. Qed.

Lemma R_one : B2R (s_one : F) = 1. Proof. apply Bone_correct. Qed.
Lemma fin_one : fin (s_one : F). Proof. apply is_finite_Bone. Qed.
Lemma two_R : fin (s_two : F) /\ B2R (s_two : F) = 2.
Proof.
  assert (E : rnd (B2R (s_one : F) + B2R (s_one : F)) = 2).
  { rewrite R_one. replace (1 + 1) with (pow 1) by (cbn; lra). rewrite rnd_fmt; [reflexivity|].
    apply fmt_pow, emin_lt. lia. }
  pose proof prec_pos. pose proof prec_emax.
  destruct (add_R s_one s_one fin_one fin_one) as [A B].
  - rewrite E. change 2 with (pow 1). rewrite Rabs_right by (apply Rle_ge, bpow_ge_0). apply bpow_lt. lia.
  - split; [exact A|]. etransitivity; [exact B|exact E].
Qed.

(** ** Midpoints *)
Hypothesis P2 : (2 <= prec)%Z.

Lemma emin_neg : (emin <= -2)%Z.
Proof. pose proof prec_emax. rewrite emin_eq. lia. Qed.

Lemma half_R : fin (s_half : F) /\ B2R (s_half : F) = / 2.
Proof.
  destruct two_R as [F2 E2]. pose proof prec_emax.
  assert (E : rnd (B2R (s_one : F) / B2R (s_two : F)) = / 2).
  { rewrite E2, R_one. replace (1 / 2) with (pow (-1)) by (cbn; lra).
    rewrite rnd_fmt; [cbn; lra|]. apply fmt_pow. pose proof emin_neg. lia. }
  destruct (div_R s_one s_two fin_one) as [A B].
  - rewrite E2. lra.
  - rewrite E. rewrite Rabs_right by lra. apply Rlt_trans with (pow 0); [cbn; lra|]. apply bpow_lt. lia.
  - split; [exact A|]. etransitivity; [exact B|exact E].
Qed.

(** Numbers of the format differ by at least the smallest positive one. *)
Lemma fmt_min x : fmt x -> x <> 0 -> pow emin <= Rabs x.
Proof.
  intros Fx Nx. pose proof (generic_format_ge_bpow radix2 fexp emin) as G.
  rewrite <- (Rabs_pos_eq (Rabs x)) in * by apply Rabs_pos. rewrite Rabs_Rabsolu.
  apply G.
  - intros e. rewrite fexp_FLT. unfold FLT_exp. lia.
  - apply Rabs_pos_lt; auto.
  - apply generic_format_abs; auto.
Qed.

(** Half of a rounded difference does not exceed the difference. *)
Lemma half_diff x y : fmt x -> fmt y -> x <= y ->
  0 <= rnd (rnd (y - x) / 2) <= y - x.
Proof.
  intros Fx Fy Hxy. pose proof prec_pos as PP.
  assert (D0 : 0 <= rnd (y - x)) by (apply rnd_ge_0; lra).
  split; [apply rnd_ge_0; lra|].
  destruct (Rle_or_lt (rnd (y - x)) (y - x)) as [Hd|Hd].
  - eapply Rle_trans; [|exact Hd]. rewrite <- (rnd_fmt (rnd (y - x)) (fmt_rnd _)) at 2.
    apply rnd_le. lra.
  - (* the difference is not representable, hence not tiny *)
    assert (Big : pow (prec + emin) < y - x).
    { destruct (Rlt_or_le (pow (prec + emin)) (y - x)); auto. exfalso.
      assert (fmt (y + - x)).
      { apply (FLT_format_plus_small radix2 emin prec); auto.
        - apply (generic_format_opp radix2 fexp); auto.
        - replace (y + - x) with (y - x) by ring. rewrite Rabs_pos_eq by lra. auto. }
      replace (y + - x) with (y - x) in H0 by ring. rewrite (rnd_fmt _ H0) in Hd. lra. }
    assert (Ex : fmt (rnd (y - x) / 2)).
    { set (d := rnd (y - x)) in *. assert (Fd : fmt d) by apply fmt_rnd.
      replace (d / 2) with (d * pow (-1)) by (cbn; lra).
      apply (mult_bpow_exact_FLT radix2 emin prec); auto.
      assert (Nd : d <> 0).
      { pose proof (bpow_gt_0 radix2 (prec + emin)). lra. }
      assert (prec + emin < mag radix2 d)%Z.
      { apply mag_gt_bpow. rewrite Rabs_pos_eq by lra. lra. }
      lia. }
    rewrite (rnd_fmt _ Ex).
    destruct (FLT_plus_error_N_ex radix2 emin prec (fun x => negb (Z.even x)) y (- x)) as (eps & He & E); auto.
    { apply (generic_format_opp radix2 fexp); auto. }
    change (rnd (y + - x) = (y + - x) * (1 + eps)) in E.
    replace (y + - x) with (y - x) in E by ring. rewrite E.
    assert (eps <= 1).
    { apply Rabs_le_inv in He. assert (u_ro radix2 prec / (1 + u_ro radix2 prec) <= 1); [|lra].
      pose proof (u_ro_pos radix2 prec). apply Rmult_le_reg_r with (1 + u_ro radix2 prec); [lra|].
      unfold Rdiv. rewrite Rmult_assoc, Rinv_l by lra. lra. }
    assert (0 <= y - x) by lra. nra.
Qed.

Lemma mid_bounds x y : fmt x -> fmt y -> x <= y ->
  x <= rnd (rnd (rnd (y - x) / 2) + x) <= y.
Proof.
  intros Fx Fy H. destruct (half_diff x y Fx Fy H) as [A B]. split.
  - rewrite <- (rnd_fmt x Fx) at 1. apply rnd_le. lra.
  - rewrite <- (rnd_fmt y Fy) at 2. apply rnd_le. lra.
Qed.
Lemma mid_bounds_rev x y : fmt x -> fmt y -> y <= x ->
  y <= rnd (rnd (rnd (y - x) / 2) + x) <= x.
Proof.
  intros Fx Fy H.
  pose proof (mid_bounds (- x) (- y) (fmt_opp _ Fx) (fmt_opp _ Fy) ltac:(lra)) as [A B].
  replace (rnd (- y - - x) / 2) with (- (rnd (y - x) / 2)) in *.
  2:{ replace (- y - - x) with (- (y - x)) by ring. rewrite rnd_opp. lra. }
  rewrite rnd_opp in *.
  replace (- rnd (rnd (y - x) / 2) + - x) with (- (rnd (rnd (y - x) / 2) + x)) in * by ring.
  rewrite rnd_opp in *. lra.
Qed.
Lemma mid_abs x y b : fmt x -> fmt y -> Rabs x <= b -> Rabs y <= b ->
  Rabs (rnd (rnd (rnd (y - x) / 2) + x)) <= b.
Proof.
  intros Fx Fy Hx Hy. apply Rabs_le_inv in Hx, Hy. apply Rabs_le.
  destruct (Rle_or_lt x y) as [H|H].
  - pose proof (mid_bounds x y Fx Fy H). lra.
  - pose proof (mid_bounds_rev x y Fx Fy ltac:(lra)). lra.
Qed.

(** Values at most a quarter of the range. *)
Definition quarter : F -> Prop := below prec emax (emax - 2).

Lemma quarter_fin x : quarter x -> fin x. Proof. intros [H _]; auto. Qed.

Lemma emax_2 : pow (emax - 1) = 2 * pow (emax - 2) /\ (emin <= emax - 2)%Z /\ (emax - 2 < emax)%Z /\ (emax - 1 < emax)%Z.
Proof.
  pose proof prec_emax. rewrite emin_eq. split; [|lia].
  replace (emax - 1)%Z with (1 + (emax - 2))%Z by ring. rewrite bpow_plus. reflexivity.
Qed.

Lemma diff_R x y : quarter x -> quarter y ->
  fin (s_sub y x) /\ B2R (s_sub y x) = rnd (B2R y - B2R x) /\ Rabs (rnd (B2R y - B2R x)) <= pow (emax - 1).
Proof.
  intros [Fx Hx] [Fy Hy]. destruct emax_2 as (E & E1 & E2 & E3).
  assert (A : Rabs (rnd (B2R y - B2R x)) <= pow (emax - 1)).
  { apply rnd_pow; [lia|]. rewrite E. apply Rabs_le_inv in Hx, Hy. apply Rabs_le. lra. }
  destruct (sub_R y x Fy Fx) as [C D]; auto.
  apply (lt_emax _ (emax - 1)); auto; lia.
Qed.

Lemma half_sub_R x y : quarter x -> quarter y ->
  (fin (s_mul (s_sub y x) s_half) /\ B2R (s_mul (s_sub y x) s_half) = rnd (rnd (B2R y - B2R x) / 2))
  /\ (fin (s_div (s_sub y x) s_two) /\ B2R (s_div (s_sub y x) s_two) = rnd (rnd (B2R y - B2R x) / 2)).
Proof.
  intros Hx Hy. destruct (diff_R x y Hx Hy) as (A & B & C). destruct emax_2 as (E & E1 & E2 & E3).
  destruct half_R as [Hf Hh]. destruct two_R as [Tf Th].
  assert (K : Rabs (rnd (rnd (B2R y - B2R x) / 2)) < pow emax).
  { apply (lt_emax _ (emax - 2)); auto. apply rnd_pow; auto.
    unfold Rdiv. rewrite Rabs_mult. rewrite (Rabs_right (/ 2)) by lra. lra. }
  split.
  - destruct (mul_R (s_sub y x) s_half A Hf) as [M1 M2].
    + rewrite B, Hh. exact K.
    + split; auto. rewrite M2, B, Hh. reflexivity.
  - destruct (div_R (s_sub y x) s_two A) as [M1 M2].
    + rewrite Th. lra.
    + rewrite B, Th. exact K.
    + split; auto. rewrite M2, B, Th. reflexivity.
Qed.

Lemma mid_R x y z : quarter x -> quarter y -> fin z -> B2R z = rnd (rnd (B2R y - B2R x) / 2) ->
  fin (s_add z x) /\ B2R (s_add z x) = rnd (rnd (rnd (B2R y - B2R x) / 2) + B2R x) /\ quarter (s_add z x).
Proof.
  intros [Fx Hx] [Fy Hy] Fz Ez. destruct emax_2 as (E & E1 & E2 & E3).
  pose proof (mid_abs (B2R x) (B2R y) (pow (emax - 2)) (fmt_B2R x) (fmt_B2R y) Hx Hy) as M.
  destruct (add_R z x Fz Fx) as [A B].
  - rewrite Ez. apply (lt_emax _ (emax - 2)); auto.
  - rewrite Ez in B. split; auto. split; auto. split; auto. rewrite B. exact M.
Qed.

Lemma quarter_lt_max x : quarter x -> s_ltb x s_max = true /\ s_ltb s_lowest x = true.
Proof.
  intros [Fx Hx]. rewrite !ltb_R by (auto; reflexivity). rewrite R_lowest.
  destruct emax_2 as (E & _). pose proof max_ge_pow. pose proof (bpow_gt_0 radix2 (emax - 2)).
  apply Rabs_le_inv in Hx. lra.
Qed.

Lemma max_gt_pow : pow (emax - 1) < B2R (s_max : F).
Proof.
  rewrite R_max. assert (pow (emax - prec) <= pow (emax - 2)) by (apply bpow_le; lia).
  assert (pow emax = 2 * pow (emax - 1)).
  { replace emax with (1 + (emax - 1))%Z at 1 by ring. rewrite bpow_plus. reflexivity. }
  destruct emax_2 as (E & _). pose proof (bpow_gt_0 radix2 (emax - 2)). lra.
Qed.

Lemma float_range : range_laws SF quarter.
Proof.
  constructor; intros x.
  - intros y Hx Hy. destruct (diff_R x y Hx Hy) as (A & B & C).
    apply ltb_R; auto; [reflexivity|]. rewrite R_lowest, B.
    destruct Hx as [Fx Hx], Hy as [Fy Hy]. destruct emax_2 as (E & E1 & E2 & E3).
    assert (- pow (emax - 1) <= rnd (B2R y - B2R x)) by (apply Rabs_le_inv in C; lra).
    pose proof max_gt_pow. lra.
  - intros y Hx Hy. destruct (half_sub_R x y Hx Hy) as [[A B] _]. apply (mid_R x y); auto.
  - intros y Hx Hy. destruct (half_sub_R x y Hx Hy) as [_ [A B]]. apply (mid_R x y); auto.
  - intros Hx. left. apply quarter_lt_max; auto.
  - intros Hx. left. apply quarter_lt_max; auto.
Qed.

Lemma float_mid x y : quarter x -> quarter y -> s_leb x y = true ->
  quarter (s_add (s_mul (s_sub y x) s_half) x)
  /\ s_leb x (s_add (s_mul (s_sub y x) s_half) x) = true
  /\ s_leb (s_add (s_mul (s_sub y x) s_half) x) y = true.
Proof.
  intros Hx Hy H. destruct (half_sub_R x y Hx Hy) as [[A B] _].
  destruct (mid_R x y _ Hx Hy A B) as (C & D & E). split; auto.
  apply leb_R in H; try apply quarter_fin; auto. rewrite !leb_R by (auto; apply quarter_fin; auto).
  rewrite D. apply mid_bounds; auto; apply fmt_B2R.
Qed.
End Format.
