(** The theorems of PropCircle.v. *)
From Coq Require Import List ZArith Reals Bool Arith Permutation Sorted Lia Lra.
From Flocq Require Import Core.Core IEEE754.BinarySingleNaN Plus_error Relative Sterbenz.
From Verif Require Import Base ModelBox ModelBuild ModelSearch Spec SpecRound SpecCircle Lemmas BuildProofs
  BuildShape BuildThms SearchProofs Visitors QueryThms TopThms OrdThms Floats FloatThms FloatSearch FloatQuery FloatTopo
  FloatCircle CircleQuery.
Import ListNotations.
Local Open Scope R_scope.

(** Distances to the nearer end of [0, 1] change no faster than their argument. *)
Lemma min_lipschitz a b : Rabs (Rmin a (1 - a) - Rmin b (1 - b)) <= Rabs (a - b).
Proof.
  unfold Rmin. destruct (Rle_dec a (1 - a)), (Rle_dec b (1 - b)).
  - apply Rle_refl.
  - apply Rabs_le. assert (b >= a) by lra. rewrite (Rabs_left1 (a - b)) by lra. lra.
  - apply Rabs_le. assert (a >= b) by lra. rewrite (Rabs_pos_eq (a - b)) by lra. lra.
  - replace (1 - a - (1 - b)) with (- (a - b)) by ring. rewrite Rabs_Ropp. apply Rle_refl.
Qed.

Section Circle.
Variables (prec emax : Z).
Context (Hprec : Prec_gt_0 prec) (Hmax : Prec_lt_emax prec emax) (P2 : (2 <= prec)%Z).
Local Notation F := (binary_float prec emax).
Local Notation fin := (finite prec emax).
Local Notation fexp := (SpecFloat.fexp prec emax).
Local Notation emin := (SpecFloat.emin prec emax).
Local Notation rnd := (round radix2 fexp ZnearestE).
Local Notation fmt := (generic_format radix2 fexp).
Local Notation pow2 := (bpow radix2).
Local Notation u := (bpow radix2 (- prec)).
Local Existing Instance SF.
Let ve := vexp prec emax Hprec.
Local Existing Instance ve.

Lemma fmt_half : fmt (/ 2).
Proof.
  change (/ 2) with (pow2 (-1)). apply fmt_pow; auto. pose proof (emin_neg prec emax Hmax P2). lia.
Qed.
Lemma fmt_gap x y : fmt (gap prec emax x y).
Proof. unfold gap. rewrite rnd_abs by auto. apply fmt_rnd; auto. Qed.

(** Only the difference is rounded. *)
Lemma ang_exact x y : angle x -> angle y ->
  ang prec emax x y = Rmin (gap prec emax x y) (1 - gap prec emax x y).
Proof.
  intros Hx Hy. unfold ang. pose proof (gap_bounds prec emax Hprec Hmax x y Hx Hy) as G.
  pose proof (fmt_gap x y) as FG. set (d := gap prec emax x y) in *.
  destruct (Rle_or_lt (/ 2) d) as [H|H].
  - rewrite (rnd_fmt prec emax (1 - d)); auto. apply (sterbenz radix2 fexp 1 d).
    + apply fmt_1; auto. + exact FG. + lra.
  - assert (/ 2 <= rnd (1 - d)).
    { rewrite <- (rnd_fmt prec emax (/ 2)) by apply fmt_half. apply rnd_le; auto. lra. }
    rewrite !Rmin_left; lra.
Qed.

Lemma gap_error x y : fmt x -> fmt y -> Rabs (gap prec emax x y - Rabs (x - y)) <= u * Rabs (x - y).
Proof.
  intros Fx Fy. unfold gap. destruct (rnd_minus prec emax Hprec x y Fx Fy) as (d & Hd & Ed).
  eapply Rle_trans; [apply Rabs_triang_inv2|]. rewrite Ed.
  replace ((x - y) * (1 + d) - (x - y)) with (d * (x - y)) by ring. rewrite Rabs_mult.
  apply Rmult_le_compat_r; [apply Rabs_pos|auto].
Qed.

Lemma arc_error x y : fmt x -> fmt y -> angle x -> angle y ->
  Rabs (ang prec emax x y - arcR x y) <= u * Rabs (x - y).
Proof.
  intros Fx Fy Ax Ay. rewrite ang_exact by auto. unfold arcR.
  eapply Rle_trans; [apply min_lipschitz|]. apply gap_error; auto.
Qed.

(** Below one, the rounding is at most half of the distance. *)
Lemma gap_half_ulp x y : angle x -> angle y -> Rabs (x - y) < 1 ->
  Rabs (gap prec emax x y - Rabs (x - y)) <= / 2 * u.
Proof.
  intros Ax Ay L. unfold gap. eapply Rle_trans; [apply Rabs_triang_inv2|].
  destruct (Req_dec (x - y) 0) as [Z|Z].
  { rewrite Z, rnd_0, Rminus_0_r, Rabs_R0. pose proof (bpow_gt_0 radix2 (- prec)). lra. }
  eapply Rle_trans; [apply error_le_half_ulp; auto|]. apply Rmult_le_compat_l; [lra|].
  rewrite ulp_neq_0 by auto. apply bpow_le. unfold cexp.
  assert (M : (mag radix2 (x - y) <= 0)%Z) by (apply mag_le_bpow; auto).
  rewrite (fexp_FLT prec emax). unfold FLT_exp. pose proof (emax_pos prec emax Hmax P2) as EP.
  rewrite (emin_eq prec emax). lia.
Qed.
Lemma pred_one x : fmt x -> x < 1 -> x <= 1 - u.
Proof.
  intros Fx H. pose proof (emax_pos prec emax Hmax P2) as EP.
  assert (S : succ radix2 fexp x <= 1) by (apply succ_le_lt; auto; apply fmt_1; auto).
  assert (E : pred radix2 fexp 1 = 1 - u).
  { change 1 with (pow2 0). rewrite pred_bpow. f_equal. f_equal. rewrite (fexp_FLT prec emax). unfold FLT_exp.
    rewrite (emin_eq prec emax). lia. }
  rewrite <- E. apply pred_ge_gt; auto. apply fmt_1; auto.
Qed.
Lemma arc_relative x y : fmt x -> fmt y -> 0 <= x < 1 -> 0 <= y < 1 ->
  Rabs (ang prec emax x y - arcR x y) <= / 2 * arcR x y.
Proof.
  intros Fx Fy Ax Ay. assert (Bx : angle x) by (unfold angle; lra). assert (By : angle y) by (unfold angle; lra).
  pose proof (pred_one x Fx ltac:(lra)). pose proof (pred_one y Fy ltac:(lra)).
  pose proof (u_bounds prec P2) as [U0 U1].
  assert (D1 : Rabs (x - y) <= 1 - u) by (apply Rabs_le; lra).
  pose proof (Rabs_pos (x - y)) as D0.
  destruct (Rle_or_lt (Rabs (x - y)) (/ 2)) as [L|L].
  - assert (A : arcR x y = Rabs (x - y)) by (unfold arcR; apply Rmin_left; lra).
    eapply Rle_trans; [apply arc_error; auto|]. rewrite A. nra.
  - assert (A : arcR x y = 1 - Rabs (x - y)) by (unfold arcR; apply Rmin_right; lra).
    rewrite ang_exact by auto. unfold arcR at 1.
    eapply Rle_trans; [apply min_lipschitz|]. eapply Rle_trans; [apply gap_half_ulp; auto; lra|]. lra.
Qed.

Section Input.
Variables (cm : circle_metric) (e : Z) (sp : space F) (bnds : start_bounds F) (q : list F).
Hypothesis CI : circle_input prec emax cm e sp bnds q.
Let n := sp_sdim sp.
Let N := length (sp_pts sp).
Let D := computed_on prec emax Hprec Hmax cm sp q.
Let E := true_on prec emax cm sp q.

Lemma on_circle j : cm = OnCircle -> (j < N)%nat ->
  D j = ang prec emax (B2R (get q 0)) (B2R (coord sp 0 j))
  /\ E j = arcR (B2R (get q 0)) (B2R (coord sp 0 j))
  /\ angle (B2R (get q 0)) /\ angle (B2R (coord sp 0 j)).
Proof.
  intros Ec Hj. pose proof (ci_dims _ _ _ _ _ _ _ CI) as DM. rewrite Ec in DM. cbn in DM.
  destruct (query_c prec emax Hprec Hmax cm e sp bnds q CI 0%nat ltac:(lia)) as [Fq Aq].
  destruct (coords_c prec emax Hprec Hmax cm e sp bnds q CI j 0%nat Hj ltac:(lia)) as [Fc Ac].
  unfold okc in Aq, Ac. rewrite Ec in Aq, Ac. cbn [circular] in Aq, Ac.
  split; [|split; [|split; auto]].
  - unfold D, computed_on. rewrite Ec. cbn [circle_of m_dist metric_so2].
    apply (s1_R prec emax Hprec Hmax P2); auto.
  - unfold E, true_on. rewrite Ec, DM. cbn [seq map fold_right]. rewrite Rplus_0_r. reflexivity.
Qed.

Lemma circle_accuracy j : cm = OnCircle -> (j < N)%nat -> Rabs (D j - E j) <= u.
Proof.
  intros Ec Hj. destruct (on_circle j Ec Hj) as (-> & -> & Aq & Ac).
  eapply Rle_trans; [apply arc_error; auto; apply fmt_B2R|]. unfold angle in *.
  pose proof (bpow_gt_0 radix2 (- prec)).
  assert (Rabs (B2R (get q 0) - B2R (coord sp 0 j)) <= 1) by (apply Rabs_le; lra). nra.
Qed.

Lemma ang_half x y : angle x -> angle y -> 0 <= ang prec emax x y <= / 2.
Proof.
  intros Ax Ay. split; [apply ang_bounds; auto|]. rewrite ang_exact by auto.
  pose proof (gap_bounds prec emax Hprec Hmax x y Ax Ay). unfold Rmin. destruct (Rle_dec _ _); lra.
Qed.
Lemma arc_half x y : angle x -> angle y -> 0 <= arcR x y <= / 2.
Proof.
  intros Ax Ay. unfold angle in *. assert (Rabs (x - y) <= 1) by (apply Rabs_le; lra).
  pose proof (Rabs_pos (x - y)). unfold arcR, Rmin. destruct (Rle_dec _ _); lra.
Qed.
Lemma sqr_error a : 0 <= a <= / 2 -> Rabs (sqr prec emax a - a * a) <= / 2 * u.
Proof.
  intros Ha. unfold sqr. pose proof (emax_pos prec emax Hmax P2) as EP.
  destruct (Req_dec (a * a) 0) as [Z|Z].
  { rewrite Z, rnd_0, Rminus_0_r, Rabs_R0. pose proof (bpow_gt_0 radix2 (- prec)). lra. }
  eapply Rle_trans; [apply error_le_half_ulp; auto|]. apply Rmult_le_compat_l; [lra|].
  rewrite ulp_neq_0 by auto. apply bpow_le. unfold cexp.
  assert (M : (mag radix2 (a * a) <= 0)%Z).
  { apply mag_le_bpow; auto. change (pow2 0) with 1. apply Rabs_lt. nra. }
  rewrite (fexp_FLT prec emax). unfold FLT_exp. rewrite (emin_eq prec emax). lia.
Qed.
Lemma square_term_error x y : fmt x -> fmt y -> angle x -> angle y ->
  Rabs (sqr prec emax (ang prec emax x y) - arcR x y * arcR x y) <= 3 / 2 * u.
Proof.
  intros Fx Fy Ax Ay. pose proof (ang_half x y Ax Ay) as H1. pose proof (arc_half x y Ax Ay) as H2.
  pose proof (sqr_error _ H1) as H3. pose proof (arc_error x y Fx Fy Ax Ay) as H4.
  set (a := ang prec emax x y) in *. set (b := arcR x y) in *.
  assert (H5 : Rabs (a * a - b * b) <= u).
  { replace (a * a - b * b) with ((a - b) * (a + b)) by ring. rewrite Rabs_mult.
    pose proof (Rabs_pos (a - b)). rewrite (Rabs_pos_eq (a + b)) by lra.
    assert (Rabs (x - y) <= 1) by (unfold angle in *; apply Rabs_le; lra).
    pose proof (bpow_gt_0 radix2 (- prec)). assert (Rabs (a - b) <= u) by nra. nra. }
  replace (sqr prec emax a - b * b) with ((sqr prec emax a - a * a) + (a * a - b * b)) by ring.
  eapply Rle_trans; [apply Rabs_triang|]. lra.
Qed.
Lemma sumR_diff m0 (f1 f2 : nat -> R) c : (forall k, (k < m0)%nat -> Rabs (f1 k - f2 k) <= c) ->
  Rabs (sumR m0 f1 - sumR m0 f2) <= INR m0 * c.
Proof.
  induction m0 as [|m0 IH]; intros H.
  - rewrite !sumR_0, Rminus_diag_eq, Rabs_R0 by auto. cbn. lra.
  - rewrite !sumR_S, S_INR. specialize (H m0 (Nat.lt_succ_diag_r _)) as Hm.
    assert (IH' := IH (fun k Hk => H k (Nat.lt_lt_succ_r _ _ Hk))).
    replace (sumR m0 f1 + f1 m0 - (sumR m0 f2 + f2 m0)) with ((sumR m0 f1 - sumR m0 f2) + (f1 m0 - f2 m0)) by ring.
    eapply Rle_trans; [apply Rabs_triang|]. lra.
Qed.

Lemma torus_accuracy j : cm = OnTorus -> INR n * u <= / 2 -> (j < N)%nat ->
  Rabs (D j - E j) <= INR (n * (n + 3)) / 2 * u.
Proof.
  intros Ec NU Hj.
  destruct (Dhatt_bounds prec emax Hprec Hmax P2 (circle_of cm) sp (ci_space _ _ _ _ _ _ _ CI) (okc e cm) (dtc prec emax cm)
    (circle_bound cm e) (TM prec emax Hprec Hmax P2 cm e sp bnds q CI) (n_pos_c prec emax Hprec Hmax cm e sp bnds q CI)
    (coords_c prec emax Hprec Hmax cm e sp bnds q CI) q (ci_length _ _ _ _ _ _ _ CI)
    (query_c prec emax Hprec Hmax cm e sp bnds q CI) (ci_fit _ _ _ _ _ _ _ CI) NU 0 j Hj) as (_ & C & _).
  change (B2R (Dhatt prec emax (circle_of cm) sp q j)) with (D j) in C. fold n in C.
  set (t1 := termt prec emax Hprec Hmax sp (dtc prec emax cm) q j) in *.
  pose proof (u_bounds prec P2) as [U0 U1].
  assert (TB : forall k, (k < n)%nat -> 0 <= t1 k <= / 4
    /\ Rabs (t1 k - arcR (B2R (get q k)) (B2R (coord sp k j)) * arcR (B2R (get q k)) (B2R (coord sp k j))) <= 3 / 2 * u).
  { intros k Hk. destruct (query_c prec emax Hprec Hmax cm e sp bnds q CI k Hk) as [Fq Aq].
    destruct (coords_c prec emax Hprec Hmax cm e sp bnds q CI j k Hj Hk) as [Fc Ac].
    unfold okc in Aq, Ac. rewrite Ec in Aq, Ac. cbn [circular] in Aq, Ac.
    unfold t1, termt, dtc. rewrite Ec. cbn [circular].
    pose proof (ang_half _ _ Aq Ac) as H1. split.
    - split; [apply sqr_nonneg; auto|]. unfold sqr. rewrite <- (rnd_fmt prec emax (/ 4)).
      + apply rnd_le; auto. nra.
      + change (/ 4) with (pow2 (-2)). apply fmt_pow; auto. apply (emin_neg prec emax Hmax P2).
    - apply square_term_error; auto; apply fmt_B2R. }
  assert (S0 : 0 <= sumR n t1) by (apply sumR_nonneg; intros; apply TB; auto).
  assert (SB : sumR n t1 <= INR n * / 4) by (apply sumR_bound; intros; apply TB; auto).
  pose proof (pow_lower u ltac:(lra) n) as L0.
  assert (UU : 0 <= u <= 1) by (split; lra).
  pose proof (pow_up _ n UU NU) as L1.
  assert (EE : E j = sumR n (fun k => arcR (B2R (get q k)) (B2R (coord sp k j)) * arcR (B2R (get q k)) (B2R (coord sp k j)))).
  { unfold E, true_on. rewrite Ec. reflexivity. }
  assert (DD : Rabs (sumR n t1 - E j) <= INR n * (3 / 2 * u)).
  { rewrite EE. apply sumR_diff. intros k Hk. apply TB; auto. }
  pose proof (pos_INR n) as N0.
  assert (RR : Rabs (D j - sumR n t1) <= 2 * INR n * u * sumR n t1).
  { apply Rabs_le. destruct C as [C1 C2]. split; nra. }
  replace (D j - E j) with ((D j - sumR n t1) + (sumR n t1 - E j)) by ring.
  eapply Rle_trans; [apply Rabs_triang|].
  rewrite mult_INR, plus_INR. replace (INR 3) with 3 by (cbn; lra).
  assert (2 * INR n * u * sumR n t1 <= 2 * INR n * u * (INR n * / 4)).
  { apply Rmult_le_compat_l; auto. apply Rmult_le_pos; [lra|lra]. }
  nra.
Qed.

(** On a grid. *)
Variable g : Z.
Hypothesis GI : circle_grid prec emax cm g e sp q.

Lemma grid_facts : (g <= 0)%Z /\ (emin <= 2 * g)%Z /\ (emin <= g)%Z /\ (0 < g + prec)%Z
  /\ INR n * circle_bound cm e < pow2 (2 * g + prec) /\ circle_bound cm e < pow2 (2 * g + prec)
  /\ (cm = OnPlane -> (e + 1 < g + prec)%Z).
Proof.
  destruct GI as [G0 _ _ GM GR]. fold n in GR.
  pose proof (n_pos_c prec emax Hprec Hmax cm e sp bnds q CI) as NP. fold n in NP.
  assert (N1 : 1 <= INR n) by (change 1 with (INR 1); apply le_INR; lia).
  assert (B1 : 1 <= circle_bound cm e).
  { unfold circle_bound. destruct cm; try lra. change 1 with (pow2 0). apply bpow_le.
    pose proof (ci_exp _ _ _ _ _ _ _ CI). lia. }
  assert (BR : circle_bound cm e < pow2 (2 * g + prec)) by (eapply Rle_lt_trans; [|exact GR]; nra).
  pose proof (emin_neg prec emax Hmax P2) as EN.
  assert (X : (0 < 2 * g + prec)%Z).
  { apply (lt_bpow radix2). change (pow2 0) with 1. lra. }
  repeat split; auto; try lia.
  intros Ec. rewrite Ec in BR. cbn [circle_bound] in BR. apply (lt_bpow radix2) in BR. pose proof (ci_exp _ _ _ _ _ _ _ CI). lia.
Qed.

Definition ongrid (k : Z) (x : R) : Prop := exists z : Z, x = IZR z * pow2 k.
Lemma ongrid_fmt k x : (emin <= k)%Z -> ongrid k x -> Rabs x < pow2 (k + prec) -> fmt x.
Proof.
  apply (gridt_fmt prec emax Hprec P2 sp (n_pos_c prec emax Hprec Hmax cm e sp bnds q CI) q (ci_length _ _ _ _ _ _ _ CI) k).
Qed.

Lemma gap_grid x y : ongrid g x -> ongrid g y -> Rabs (x - y) < pow2 (g + prec) ->
  gap prec emax x y = Rabs (x - y) /\ ongrid g (Rabs (x - y)).
Proof.
  intros [a ->] [b ->] L. destruct grid_facts as (_ & _ & G & _).
  assert (Ez : IZR a * pow2 g - IZR b * pow2 g = IZR (a - b) * pow2 g) by (rewrite minus_IZR; ring).
  unfold gap. rewrite Ez in *. split.
  - rewrite (rnd_fmt prec emax); auto. apply (ongrid_fmt g); auto. exists (a - b)%Z. reflexivity.
  - exists (Z.abs (a - b)). rewrite Rabs_mult, abs_IZR, (Rabs_pos_eq (pow2 g)); auto. apply bpow_ge_0.
Qed.
Lemma sqr_grid d : ongrid g d -> d * d < pow2 (2 * g + prec) -> sqr prec emax d = d * d /\ ongrid (2 * g) (d * d).
Proof.
  intros [z ->] L. destruct grid_facts as (_ & G & _).
  assert (Es : IZR z * pow2 g * (IZR z * pow2 g) = IZR (z * z) * pow2 (2 * g)).
  { rewrite mult_IZR. replace (2 * g)%Z with (g + g)%Z by ring. rewrite bpow_plus. ring. }
  assert (OG : ongrid (2 * g) (IZR z * pow2 g * (IZR z * pow2 g))) by (rewrite Es; exists (z * z)%Z; reflexivity).
  split; auto. unfold sqr. apply rnd_fmt; auto. apply (ongrid_fmt (2 * g)); auto.
  rewrite Rabs_pos_eq; auto. apply Rle_0_sqr.
Qed.
Lemma ongrid_coarse x : ongrid g x -> ongrid (2 * g) x.
Proof.
  intros [z ->]. destruct grid_facts as (G0 & _).
  exists (z * 2 ^ (- g))%Z. rewrite mult_IZR, Rmult_assoc. f_equal.
  rewrite (IZR_Zpower radix2) by lia. rewrite <- bpow_plus. f_equal. lia.
Qed.
Lemma one_grid : ongrid g 1.
Proof.
  destruct grid_facts as (G0 & _). exists (2 ^ (- g))%Z. rewrite (IZR_Zpower radix2) by lia.
  rewrite <- bpow_plus. replace (- g + g)%Z with 0%Z by lia. reflexivity.
Qed.
Lemma ang_grid x y : ongrid g x -> ongrid g y -> angle x -> angle y ->
  ang prec emax x y = arcR x y /\ ongrid g (arcR x y) /\ 0 <= arcR x y <= 1.
Proof.
  intros Gx Gy Ax Ay. destruct grid_facts as (_ & _ & _ & G & _).
  assert (L1 : Rabs (x - y) <= 1) by (unfold angle in *; apply Rabs_le; lra).
  pose proof (Rabs_pos (x - y)) as L0.
  destruct (gap_grid x y Gx Gy) as [E1 E2].
  { eapply Rle_lt_trans; [exact L1|]. change 1 with (pow2 0). apply bpow_lt. lia. }
  rewrite ang_exact, E1 by auto. split; [reflexivity|]. split.
  - unfold arcR, Rmin. destruct (Rle_dec _ _); auto.
    destruct one_grid as [a Ea], E2 as [b Eb]. exists (a - b)%Z. rewrite minus_IZR, Rmult_minus_distr_r, <- Ea, <- Eb. reflexivity.
  - unfold arcR. split; [apply Rmin_glb; lra|]. eapply Rle_trans; [apply Rmin_l|auto].
Qed.

Definition exact_term (k : nat) (x y : R) : R :=
  match cm with
  | OnCircle => arcR x y
  | _ => if circular cm k then arcR x y * arcR x y else (x - y) * (x - y)
  end.
Lemma term_grid k x y : ongrid g x -> ongrid g y -> okc e cm k x -> okc e cm k y ->
  dtc prec emax cm k x y = exact_term k x y /\ ongrid (2 * g) (exact_term k x y).
Proof.
  intros Gx Gy Ox Oy. destruct grid_facts as (_ & _ & _ & _ & _ & BR & EP).
  assert (SA : angle x -> angle y -> 1 < pow2 (2 * g + prec) ->
    sqr prec emax (ang prec emax x y) = arcR x y * arcR x y /\ ongrid (2 * g) (arcR x y * arcR x y)).
  { intros Ax Ay L. destruct (ang_grid x y Gx Gy Ax Ay) as (E1 & E2 & E3). rewrite E1. apply sqr_grid; auto.
    eapply Rle_lt_trans; [|exact L]. replace 1 with (1 * 1) by ring. apply Rmult_le_compat; lra. }
  pose proof (ang_grid x y Gx Gy) as AG. pose proof (gap_grid x y Gx Gy) as GG. pose proof sqr_grid as SG.
  pose proof ongrid_coarse as OC. pose proof (ci_exp _ _ _ _ _ _ _ CI) as EX.
  unfold okc, dtc, exact_term in *. destruct cm eqn:Ec; cbn [circular circle_bound] in *.
  - destruct (AG Ox Oy) as (E1 & E2 & _). split; auto.
  - destruct (2 <=? k)%nat.
    + apply SA; auto. eapply Rle_lt_trans; [|exact BR]. change 1 with (pow2 0). apply bpow_le. lia.
    + unfold line in Ox, Oy. apply Rabs_le_inv in Ox, Oy.
      assert (L : Rabs (x - y) <= pow2 (e + 1)).
      { rewrite (bpow_plus radix2 e 1). apply Rabs_le. cbn. lra. }
      destruct GG as [E1 E2].
      { eapply Rle_lt_trans; [exact L|]. apply bpow_lt. apply EP. reflexivity. }
      assert (ES : (x - y) * (x - y) = Rabs (x - y) * Rabs (x - y)).
      { rewrite <- Rabs_mult, Rabs_pos_eq; auto. apply Rle_0_sqr. }
      rewrite E1, ES. apply SG; auto. eapply Rle_lt_trans; [|exact BR].
      replace (2 * e + 2)%Z with ((e + 1) + (e + 1))%Z by ring. rewrite bpow_plus.
      apply Rmult_le_compat; auto using Rabs_pos.
  - apply SA; auto.
Qed.

Lemma point_grid j k : (j < N)%nat -> (k < n)%nat -> ongrid g (B2R (coord sp k j)).
Proof.
  intros Hj Hk. pose proof (cg_coords _ _ _ _ _ _ _ GI (sp_at sp j)) as K.
  assert (IN : In (sp_at sp j) (sp_pts sp)) by (apply nth_In; exact Hj). specialize (K IN).
  rewrite Forall_forall in K. apply K. apply nth_In.
  rewrite (sp_at_length sp (ci_space _ _ _ _ _ _ _ CI)); auto. apply in_space_lt; auto.
Qed.
Lemma query_grid k : (k < n)%nat -> ongrid g (B2R (get q k)).
Proof.
  intros Hk. pose proof (cg_query _ _ _ _ _ _ _ GI) as K. rewrite Forall_forall in K. apply K. apply nth_In.
  rewrite (ci_length _ _ _ _ _ _ _ CI). exact Hk.
Qed.

Lemma grid_exactly : exact_casec prec emax Hprec Hmax cm e sp q (2 * g).
Proof.
  right. destruct grid_facts as (_ & G & _ & _ & GR & _). split; [exact G|]. split; [exact GR|].
  intros j k Hj Hk. unfold termt.
  destruct (term_grid k (B2R (get q k)) (B2R (coord sp k j))) as [E1 E2].
  - apply query_grid; auto.
  - apply point_grid; auto.
  - apply (query_c prec emax Hprec Hmax cm e sp bnds q CI); auto.
  - apply (coords_c prec emax Hprec Hmax cm e sp bnds q CI); auto.
  - rewrite E1. exact E2.
Qed.
Lemma grid_same j : INR n * u <= / 2 -> (j < N)%nat -> D j = E j.
Proof.
  intros NU Hj.
  destruct (Dhatt_bounds prec emax Hprec Hmax P2 (circle_of cm) sp (ci_space _ _ _ _ _ _ _ CI) (okc e cm) (dtc prec emax cm)
    (circle_bound cm e) (TM prec emax Hprec Hmax P2 cm e sp bnds q CI) (n_pos_c prec emax Hprec Hmax cm e sp bnds q CI)
    (coords_c prec emax Hprec Hmax cm e sp bnds q CI) q (ci_length _ _ _ _ _ _ _ CI)
    (query_c prec emax Hprec Hmax cm e sp bnds q CI) (ci_fit _ _ _ _ _ _ _ CI) NU (2 * g) j Hj) as (_ & _ & C).
  specialize (C grid_exactly). change (D j = sumR n (termt prec emax Hprec Hmax sp (dtc prec emax cm) q j)) in C.
  rewrite C. unfold E, true_on. apply sumR_ext. intros k Hk. unfold termt.
  destruct (term_grid k (B2R (get q k)) (B2R (coord sp k j))) as [E1 _].
  - apply query_grid; auto.
  - apply point_grid; auto.
  - apply (query_c prec emax Hprec Hmax cm e sp bnds q CI); auto.
  - apply (coords_c prec emax Hprec Hmax cm e sp bnds q CI); auto.
  - exact E1.
Qed.
End Input.

Lemma within_same alg tree n0 q (D1 D2 : nat -> R) : (forall j, (j < n0)%nat -> D1 j = D2 j) ->
  searches_within prec emax Hprec Hmax alg tree n0 q D1 1 -> searches_within prec emax Hprec Hmax alg tree n0 q D2 1.
Proof.
  intros H (A & B & C). split; [|split].
  - intros nn0. destruct (A nn0) as (i & d & E1 & E2 & [N1 N2]). exists i, d. split; auto.
    rewrite <- (H i) by auto. split; auto. split; auto. intros j Hj. rewrite <- !H by auto. auto.
  - intros k knn0 Hk. destruct (B k knn0 Hk) as (out & E1 & [K1 K2 K3 K4 K5]). exists out. split; auto. constructor; auto.
    + intros i d Hi. destruct (K3 i d Hi) as [X ->]. split; auto.
    + intros i d j Hi Hj. rewrite <- H by auto. eauto.
  - intros r sort Fr. destruct (C r sort Fr) as (l & E1 & [R1 R2 R3] & E2). exists l. split; auto. split; auto.
    constructor; auto.
    + intros i d Hi. destruct (R2 i d Hi) as (X & -> & Y). split; auto.
    + intros i Hi. rewrite <- H by auto. auto.
Qed.

Section Top.
Variables (cm : circle_metric) (e : Z) (sp : space F) (bnds : start_bounds F) (q : list F).
Hypothesis CI : circle_input prec emax cm e sp bnds q.
Variables (alg : std_algos) (SL : std_laws alg).
Variables (it : index_type) (fuel : nat) (stop : stop_condition) (ru : rule) (tree : kd_tree F).
Hypothesis (NM : ru <> midpoint_max_side).
Hypothesis HM : kd_tree_make alg it (circle_of cm) fuel sp stop bnds ru = Ok tree.
Let h := node_height (kd_root (kt_data tree)).
Hypothesis FEW : few_steps prec (sp_sdim sp) h.
Let D := computed_on prec emax Hprec Hmax cm sp q.
Let E := true_on prec emax cm sp q.

Lemma top_within : searches_within prec emax Hprec Hmax alg tree (npts sp) q D (slack prec (sp_sdim sp) h).
Proof. exact (within_slack prec emax Hprec Hmax P2 cm e sp bnds q CI alg SL it fuel stop ru tree NM HM FEW 0). Qed.

Lemma top_circle : cm = OnCircle -> searches_within prec emax Hprec Hmax alg tree (npts sp) q D 1.
Proof.
  intros Ec. apply (within_exact prec emax Hprec Hmax P2 cm e sp bnds q CI alg SL it fuel stop ru tree NM HM FEW 0).
  left. pose proof (ci_dims _ _ _ _ _ _ _ CI) as DM. rewrite Ec in DM. exact DM.
Qed.
Lemma NU : INR (sp_sdim sp) * u <= / 2.
Proof.
  eapply Rle_trans; [|exact FEW]. apply Rmult_le_compat_r; [apply bpow_ge_0|]. apply le_INR. lia.
Qed.
Lemma top_grid g : circle_grid prec emax cm g e sp q ->
  searches_within prec emax Hprec Hmax alg tree (npts sp) q E 1.
Proof.
  intros GI. apply within_same with (D1 := D).
  - intros j Hj. apply (grid_same cm e sp bnds q CI g GI); auto. exact NU.
  - apply (within_exact prec emax Hprec Hmax P2 cm e sp bnds q CI alg SL it fuel stop ru tree NM HM FEW (2 * g)).
    apply (grid_exactly cm e sp bnds q CI g GI).
Qed.

(** Coordinates below one. *)
Lemma top_below_one : cm = OnCircle -> (forall x p, In p (q :: sp_pts sp) -> In x p -> B2R x < 1) ->
  (forall j, (j < npts sp)%nat -> / 2 * E j <= D j <= 3 / 2 * E j)
  /\ forall nn0, exists i d, search_nn tree q nn0 = Ok (Neighbor i d) /\ nearest_within (npts sp) E 3 i.
Proof.
  intros Ec LT.
  assert (A : forall j, (j < npts sp)%nat -> / 2 * E j <= D j <= 3 / 2 * E j).
  { intros j Hj. destruct (on_circle cm e sp bnds q CI j Ec Hj) as (E1 & E2 & Aq & Ac).
    assert (DM : sp_sdim sp = 1%nat) by (pose proof (ci_dims _ _ _ _ _ _ _ CI) as DM; rewrite Ec in DM; exact DM).
    assert (Lq : B2R (get q 0) < 1).
    { apply (LT _ q); [left; auto|]. apply nth_In. rewrite (ci_length _ _ _ _ _ _ _ CI). lia. }
    assert (Lc : B2R (coord sp 0 j) < 1).
    { apply (LT _ (sp_at sp j)); [right; apply nth_In; exact Hj|]. apply nth_In.
      rewrite (sp_at_length sp (ci_space _ _ _ _ _ _ _ CI)); [lia|]. apply in_space_lt; auto. }
    unfold angle in Aq, Ac.
    assert (Bq : 0 <= B2R (get q 0) < 1) by (split; [apply Aq|exact Lq]).
    assert (Bc : 0 <= B2R (coord sp 0 j) < 1) by (split; [apply Ac|exact Lc]).
    pose proof (arc_relative _ _ (fmt_B2R prec emax (get q 0)) (fmt_B2R prec emax (coord sp 0 j)) Bq Bc) as R.
    unfold D, E. rewrite E1, E2. apply Rabs_le_inv in R. lra. }
  split; [exact A|]. intros nn0. destruct (top_circle Ec) as (NN & _).
  destruct (NN nn0) as (i & d & E1 & _ & [N1 N2]). exists i, d. split; auto. split; auto.
  intros j Hj. specialize (N2 j Hj). pose proof (A i N1). pose proof (A j Hj). lra.
Qed.

Lemma top_circle_true : cm = OnCircle -> forall nn0,
  exists i d, search_nn tree q nn0 = Ok (Neighbor i d) /\ (i < npts sp)%nat
    /\ forall j, (j < npts sp)%nat -> E i <= E j + 2 * u.
Proof.
  intros Ec nn0. destruct (top_circle Ec) as (NN & _). destruct (NN nn0) as (i & d & E1 & _ & [N1 N2]).
  exists i, d. split; auto. split; auto. intros j Hj. specialize (N2 j Hj).
  pose proof (circle_accuracy cm e sp bnds q CI i Ec N1) as A1.
  pose proof (circle_accuracy cm e sp bnds q CI j Ec Hj) as A2.
  apply Rabs_le_inv in A1, A2. fold D E in A1, A2. lra.
Qed.
End Top.
End Circle.
