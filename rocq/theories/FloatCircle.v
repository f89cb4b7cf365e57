(** Searches with metric_so2, metric_se2_squared and the metric of the torus in
    floating point. *)
From Coq Require Import List ZArith Reals Bool Arith Permutation Sorted Lia Lra.
From Flocq Require Import Core.Core IEEE754.BinarySingleNaN Plus_error Relative.
From Verif Require Import Base ModelBox ModelBuild ModelSearch Spec SpecRound SpecCircle Lemmas BuildProofs
  BuildShape BuildThms SearchProofs Visitors QueryThms TopThms OrdThms Floats FloatThms FloatSearch FloatTopo.
Import ListNotations.
Local Open Scope R_scope.

Section Terms.
Variables (prec emax : Z).
Context (Hprec : Prec_gt_0 prec) (Hmax : Prec_lt_emax prec emax) (P2 : (2 <= prec)%Z).
Local Notation F := (binary_float prec emax).
Local Notation fin := (finite prec emax).
Local Notation fexp := (SpecFloat.fexp prec emax).
Local Notation emin := (SpecFloat.emin prec emax).
Local Notation rnd := (round radix2 fexp ZnearestE).
Local Notation fmt := (generic_format radix2 fexp).
Local Notation pow2 := (bpow radix2).
Local Notation u := (bpow radix2 (- prec)).
Local Existing Instance SF.

Lemma fmt_1 : fmt 1.
Proof.
  change 1 with (pow2 0). apply fmt_pow; auto. pose proof (emin_lt prec emax Hprec Hmax 0 ltac:(lia)). lia.
Qed.
Lemma emax_pos : (2 < emax)%Z.
Proof. pose proof (prec_emax prec emax Hmax). lia. Qed.
Lemma one_small : 1 < pow2 emax.
Proof. change 1 with (pow2 0). apply bpow_lt. pose proof emax_pos. lia. Qed.

(** The difference of two numbers of [0, 1]. *)
Definition angle (x : R) : Prop := 0 <= x <= 1.
Definition gap (x y : R) : R := Rabs (rnd (x - y)).
Definition ang (x y : R) : R := Rmin (gap x y) (rnd (1 - gap x y)).
Definition sqr (x : R) : R := rnd (x * x).

Lemma gap_sym x y : gap x y = gap y x.
Proof. unfold gap. replace (y - x) with (- (x - y)) by ring. rewrite rnd_opp, Rabs_Ropp. reflexivity. Qed.
Lemma gap_bounds x y : angle x -> angle y -> 0 <= gap x y <= 1.
Proof.
  intros Hx Hy. split; [apply Rabs_pos|]. unfold gap. apply rnd_abs_le; auto; [apply fmt_1|].
  unfold angle in *. apply Rabs_le. lra.
Qed.
Lemma co_gap_bounds d : 0 <= d <= 1 -> 0 <= rnd (1 - d) <= 1.
Proof.
  intros Hd. split; [apply rnd_ge_0; auto; lra|]. rewrite <- (rnd_fmt prec emax 1) at 2 by apply fmt_1.
  apply rnd_le; auto. lra.
Qed.
Lemma ang_bounds x y : angle x -> angle y -> 0 <= ang x y <= 1.
Proof.
  intros Hx Hy. unfold ang. pose proof (gap_bounds x y Hx Hy) as G. pose proof (co_gap_bounds _ G).
  split; [apply Rmin_glb; lra|]. eapply Rle_trans; [apply Rmin_l|lra].
Qed.
Lemma sqr_mono x y : 0 <= x <= y -> sqr x <= sqr y.
Proof. intros H. apply rnd_le; auto. apply Rmult_le_compat; lra. Qed.
Lemma sqr_nonneg x : 0 <= sqr x.
Proof. apply rnd_ge_0; auto. apply Rle_0_sqr. Qed.
Lemma sqr_le_1 x : 0 <= x <= 1 -> sqr x <= 1.
Proof.
  intros H. unfold sqr. rewrite <- (rnd_fmt prec emax 1) by apply fmt_1. apply rnd_le; auto.
  replace 1 with (1 * 1) by ring. apply Rmult_le_compat; lra.
Qed.
Lemma sqr_min a b : 0 <= a -> 0 <= b -> sqr (Rmin a b) = Rmin (sqr a) (sqr b).
Proof.
  intros Ha Hb. unfold Rmin at 1. destruct (Rle_dec a b).
  - symmetry. apply Rmin_left. apply sqr_mono. lra.
  - symmetry. apply Rmin_right. apply sqr_mono. lra.
Qed.

(** Between its ends, a segment is at least as far as one of them. *)
Lemma gap_mono v a c : (v <= a <= c \/ c <= a <= v) -> gap v a <= gap v c.
Proof.
  intros H. unfold gap. rewrite !rnd_abs by auto. apply rnd_le; auto. destruct H.
  - rewrite !Rabs_left1; lra.
  - rewrite !Rabs_pos_eq; lra.
Qed.
Lemma ang_concave v a c b : (v < a \/ b < v) -> a <= c <= b -> Rmin (ang v a) (ang v b) <= ang v c.
Proof.
  intros Hv Hc. unfold ang at 3. apply Rmin_glb.
  - destruct Hv as [Hv|Hv].
    + eapply Rle_trans; [apply Rmin_l|]. eapply Rle_trans; [apply Rmin_l|]. apply gap_mono. lra.
    + eapply Rle_trans; [apply Rmin_r|]. eapply Rle_trans; [apply Rmin_l|]. apply gap_mono. lra.
  - destruct Hv as [Hv|Hv].
    + eapply Rle_trans; [apply Rmin_r|]. eapply Rle_trans; [apply Rmin_r|]. apply rnd_le; auto.
      pose proof (gap_mono v c b). lra.
    + eapply Rle_trans; [apply Rmin_l|]. eapply Rle_trans; [apply Rmin_r|]. apply rnd_le; auto.
      pose proof (gap_mono v c a). lra.
Qed.

(** ** The functions *)
Lemma std_min_R (a b : F) : fin a -> fin b -> fin (std_min a b) /\ B2R (std_min a b) = Rmin (B2R a) (B2R b).
Proof.
  intros Fa Fb. unfold std_min. destruct (s_ltb b a) eqn:E.
  - apply ltb_R in E; auto. split; auto. rewrite Rmin_right; lra.
  - apply ltb_R_false in E; auto. split; auto. rewrite Rmin_left; lra.
Qed.
Lemma gap_R (x y : F) : fin x -> fin y -> angle (B2R x) -> angle (B2R y) ->
  fin (s_abs (s_sub x y)) /\ B2R (s_abs (s_sub x y)) = gap (B2R x) (B2R y).
Proof.
  intros Fx Fy Ax Ay. pose proof (gap_bounds _ _ Ax Ay) as G. unfold gap in *.
  destruct (sub_R prec emax Hprec Hmax x y Fx Fy) as [A C].
  { eapply Rle_lt_trans; [apply G|]. apply one_small. }
  destruct (abs_R prec emax Hprec Hmax _ A) as [D E]. rewrite C in E. auto.
Qed.
Lemma s1_R (x y : F) : fin x -> fin y -> angle (B2R x) -> angle (B2R y) ->
  fin (s1_distance x y) /\ B2R (s1_distance x y) = ang (B2R x) (B2R y).
Proof.
  intros Fx Fy Ax Ay. destruct (gap_R x y Fx Fy Ax Ay) as [A C]. unfold s1_distance. cbv zeta.
  pose proof (gap_bounds _ _ Ax Ay) as G. pose proof (co_gap_bounds _ G) as G'.
  destruct (sub_R prec emax Hprec Hmax s_one (s_abs (s_sub x y))) as [D E]; auto.
  { apply fin_one. }
  { rewrite R_one, C. rewrite Rabs_pos_eq by lra. pose proof one_small. lra. }
  rewrite R_one, C in E. destruct (std_min_R _ _ A D) as [H K]. rewrite C, E in K. auto.
Qed.
Lemma squared_R (x : F) : fin x -> Rabs (rnd (B2R x * B2R x)) < pow2 emax ->
  fin (squared x) /\ B2R (squared x) = sqr (B2R x).
Proof. intros Fx H. apply mul_R; auto. Qed.
Lemma squared_R1 (x : F) : fin x -> 0 <= B2R x <= 1 -> fin (squared x) /\ B2R (squared x) = sqr (B2R x).
Proof.
  intros Fx H. apply squared_R; auto. fold (sqr (B2R x)). rewrite Rabs_pos_eq by apply sqr_nonneg.
  pose proof (sqr_le_1 _ H). pose proof one_small. lra.
Qed.

(** A linear coordinate. *)
Variable e : Z.
Hypotheses (E0 : (0 <= e)%Z) (E2 : (2 * e + 2 < emax)%Z).
Definition line (x : R) : Prop := Rabs x <= pow2 e.
Lemma gap_line x y : line x -> line y -> 0 <= gap x y <= pow2 (e + 1).
Proof.
  intros Hx Hy. split; [apply Rabs_pos|]. unfold gap. apply rnd_pow; auto.
  { pose proof (emin_lt prec emax Hprec Hmax (e + 1) ltac:(lia)). lia. }
  unfold line in *. apply Rabs_le_inv in Hx, Hy. rewrite bpow_plus. cbn [bpow]. apply Rabs_le. cbn. lra.
Qed.
Lemma sqr_line d : 0 <= d <= pow2 (e + 1) -> 0 <= sqr d <= pow2 (2 * e + 2).
Proof.
  intros H. split; [apply sqr_nonneg|]. unfold sqr.
  rewrite <- (rnd_fmt prec emax (pow2 (2 * e + 2))).
  2:{ apply fmt_pow; auto. pose proof (emin_lt prec emax Hprec Hmax (2 * e + 2) ltac:(lia)). lia. }
  apply rnd_le; auto. replace (2 * e + 2)%Z with ((e + 1) + (e + 1))%Z by ring. rewrite bpow_plus.
  apply Rmult_le_compat; lra.
Qed.
Lemma line_R (x y : F) : fin x -> fin y -> line (B2R x) -> line (B2R y) ->
  fin (squared (s_sub x y)) /\ B2R (squared (s_sub x y)) = sqr (gap (B2R x) (B2R y)).
Proof.
  intros Fx Fy Ax Ay. pose proof (gap_line _ _ Ax Ay) as G. pose proof (sqr_line _ G) as G2.
  destruct (sub_R prec emax Hprec Hmax x y Fx Fy) as [A C].
  { eapply Rle_lt_trans; [apply G|]. apply bpow_lt. lia. }
  assert (Q : sqr (gap (B2R x) (B2R y)) = rnd (B2R (s_sub x y) * B2R (s_sub x y))).
  { unfold sqr, gap. rewrite C. f_equal. rewrite <- Rabs_mult, Rabs_pos_eq; auto. apply Rle_0_sqr. }
  rewrite Q in *. apply mul_R; auto. rewrite Rabs_pos_eq by lra.
  eapply Rle_lt_trans; [apply G2|]. apply bpow_lt. lia.
Qed.
Lemma line_concave v a c b : (v < a \/ b < v) -> a <= c <= b ->
  Rmin (sqr (gap v a)) (sqr (gap v b)) <= sqr (gap v c).
Proof.
  intros Hv Hc. destruct Hv as [Hv|Hv].
  - eapply Rle_trans; [apply Rmin_l|]. apply sqr_mono. split; [apply Rabs_pos|]. apply gap_mono. lra.
  - eapply Rle_trans; [apply Rmin_r|]. apply sqr_mono. split; [apply Rabs_pos|]. apply gap_mono. lra.
Qed.

(** ** Distances to segments *)
Lemma seg_s1_R (mn mx v : F) : fin mn -> fin mx -> fin v ->
  angle (B2R mn) -> angle (B2R mx) -> angle (B2R v) -> B2R mn <= B2R mx ->
  fin (segment_s1_distance mn mx v)
  /\ B2R (segment_s1_distance mn mx v) = boxR ang (B2R mn) (B2R mx) (B2R v).
Proof.
  intros F1 F2 F3 A1 A2 A3 L. unfold segment_s1_distance, segment_s1_linear.
  assert (E1 : s_leb mn mx = true) by (apply leb_R; auto). rewrite E1.
  unfold segment_s1_distance_min_max, boxR.
  destruct (s1_R v mn F3 F1 A3 A1) as [B1 C1]. destruct (s1_R v mx F3 F2 A3 A2) as [B2 C2].
  destruct (std_min_R _ _ B1 B2) as [B3 C3]. rewrite C1, C2 in C3.
  destruct (s_ltb v mn) eqn:X1.
  - apply ltb_R in X1; auto. cbn [orb]. destruct (Rlt_dec (B2R v) (B2R mn)); [auto|lra].
  - apply ltb_R_false in X1; auto. cbn [orb]. destruct (Rlt_dec (B2R v) (B2R mn)); [lra|].
    destruct (s_ltb mx v) eqn:X2.
    + apply ltb_R in X2; auto. destruct (Rlt_dec (B2R mx) (B2R v)); [auto|lra].
    + apply ltb_R_false in X2; auto. destruct (Rlt_dec (B2R mx) (B2R v)); [lra|]. split; reflexivity.
Qed.

Lemma boxR_sqr (t : R -> R -> R) mn mx v : 0 <= t v mn -> 0 <= t v mx ->
  sqr (boxR t mn mx v) = boxR (fun x y => sqr (t x y)) mn mx v.
Proof.
  intros H1 H2. unfold boxR. destruct (Rlt_dec v mn); [apply sqr_min; auto|].
  destruct (Rlt_dec mx v); [apply sqr_min; auto|]. unfold sqr. rewrite Rmult_0_l, rnd_0. reflexivity.
Qed.

Lemma seg_r1_R (mn mx v : F) : fin mn -> fin mx -> fin v ->
  line (B2R mn) -> line (B2R mx) -> line (B2R v) -> B2R mn <= B2R mx ->
  fin (squared (segment_r1_distance mn mx v))
  /\ B2R (squared (segment_r1_distance mn mx v)) = boxR (fun x y => sqr (gap x y)) (B2R mn) (B2R mx) (B2R v).
Proof.
  intros F1 F2 F3 A1 A2 A3 L. unfold segment_r1_distance, boxR.
  destruct (s_ltb v mn) eqn:X1.
  - apply ltb_R in X1; auto. destruct (Rlt_dec (B2R v) (B2R mn)); [|lra].
    destruct (line_R mn v F1 F3 A1 A3) as [C D]. split; auto. rewrite D, gap_sym.
    symmetry. apply Rmin_left. apply sqr_mono. split; [apply Rabs_pos|]. apply gap_mono. lra.
  - apply ltb_R_false in X1; auto. destruct (Rlt_dec (B2R v) (B2R mn)); [lra|].
    destruct (s_ltb mx v) eqn:X2.
    + apply ltb_R in X2; auto. destruct (Rlt_dec (B2R mx) (B2R v)); [|lra].
      destruct (line_R v mx F3 F2 A3 A2) as [C D]. split; auto. rewrite D.
      symmetry. apply Rmin_right. apply sqr_mono. split; [apply Rabs_pos|]. apply gap_mono. lra.
    + apply ltb_R_false in X2; auto. destruct (Rlt_dec (B2R mx) (B2R v)); [lra|].
      destruct (squared_R1 s_zero) as [C D]; [reflexivity|rewrite R_zero; lra|]. split; [exact C|].
      rewrite D, R_zero. unfold sqr. rewrite Rmult_0_l. apply rnd_0.
Qed.

(** ** The three metrics *)
Definition okc (cm : circle_metric) (k : nat) (x : R) : Prop :=
  if circular cm k then angle x else line x.
Definition dtc (cm : circle_metric) (k : nat) (x y : R) : R :=
  match cm with
  | OnCircle => ang x y
  | _ => if circular cm k then sqr (ang x y) else sqr (gap x y)
  end.
Local Notation Bc cm := (circle_bound cm e).

Lemma one_le_B : 1 <= pow2 (2 * e + 2).
Proof. change 1 with (pow2 0). apply bpow_le. lia. Qed.

Lemma dtc_bounds cm k x y : okc cm k x -> okc cm k y -> 0 <= dtc cm k x y <= Bc cm.
Proof.
  unfold okc, dtc, circle_bound, circular. pose proof one_le_B as OB.
  assert (SA : forall a b, angle a -> angle b -> 0 <= sqr (ang a b) <= 1).
  { intros a b Ha Hb. split; [apply sqr_nonneg|]. apply sqr_le_1. apply ang_bounds; auto. }
  destruct cm; intros Hx Hy.
  - apply ang_bounds; auto.
  - destruct (2 <=? k)%nat.
    + specialize (SA x y Hx Hy). lra.
    + apply sqr_line. apply gap_line; auto.
  - apply SA; auto.
Qed.

Lemma dtc_concave cm k v a c b : (v < a \/ b < v) -> a <= c <= b ->
  okc cm k v -> okc cm k a -> okc cm k b ->
  Rmin (dtc cm k v a) (dtc cm k v b) <= dtc cm k v c.
Proof.
  intros Hv Hc Ov Oa Ob.
  assert (SA : angle v -> angle a -> angle b ->
    Rmin (sqr (ang v a)) (sqr (ang v b)) <= sqr (ang v c)).
  { intros Av Aa Ab. rewrite <- sqr_min by (apply ang_bounds; auto). apply sqr_mono. split.
    - apply Rmin_glb; apply ang_bounds; auto.
    - apply ang_concave; auto. }
  unfold okc, dtc, circular in *. destruct cm.
  - apply ang_concave; auto.
  - destruct (2 <=? k)%nat; [apply SA; auto|apply line_concave; auto].
  - apply SA; auto.
Qed.

Lemma box_R cm k (mn mx v : F) : fin mn -> fin mx -> fin v ->
  okc cm k (B2R mn) -> okc cm k (B2R mx) -> okc cm k (B2R v) -> B2R mn <= B2R mx ->
  exists r : F, box_distance (circle_of cm) mn mx v k = Ok r /\ fin r
    /\ B2R r = boxR (dtc cm k) (B2R mn) (B2R mx) (B2R v).
Proof.
  intros F1 F2 F3 O1 O2 O3 L.
  assert (SB : angle (B2R mn) -> angle (B2R mx) -> angle (B2R v) ->
    0 <= boxR ang (B2R mn) (B2R mx) (B2R v) <= 1).
  { intros A1 A2 A3. pose proof (ang_bounds _ _ A3 A1). pose proof (ang_bounds _ _ A3 A2). unfold boxR.
    destruct (Rlt_dec _ _); [|destruct (Rlt_dec _ _)]; try lra;
      (split; [apply Rmin_glb; lra|eapply Rle_trans; [apply Rmin_l|lra]]). }
  assert (SS : angle (B2R mn) -> angle (B2R mx) -> angle (B2R v) ->
    fin (squared (segment_s1_distance mn mx v))
    /\ B2R (squared (segment_s1_distance mn mx v)) = boxR (fun x y => sqr (ang x y)) (B2R mn) (B2R mx) (B2R v)).
  { intros A1 A2 A3. destruct (seg_s1_R mn mx v F1 F2 F3 A1 A2 A3 L) as [C D].
    destruct (squared_R1 _ C) as [G H]; [rewrite D; auto|]. split; auto. rewrite H, D.
    apply boxR_sqr; apply ang_bounds; auto. }
  unfold okc, dtc, circular in *. unfold box_distance. destruct cm; cbn [circle_of m_dim_space m_app metric_so2 metric_se2_squared metric_t2_squared].
  - destruct (seg_s1_R mn mx v F1 F2 F3 O1 O2 O3 L) as [C D]. eexists. split; [reflexivity|].
    destruct (abs_R prec emax Hprec Hmax _ C) as [G H]. split; auto. rewrite H, D.
    apply Rabs_pos_eq. apply SB; auto.
  - rewrite Nat.ltb_antisym. destruct (2 <=? k)%nat; cbn [negb].
    + eexists. split; [reflexivity|]. apply SS; auto.
    + assert (E1 : segment_r1_ok mn mx = true) by (apply leb_R; auto). rewrite E1. cbn [guard bind].
      eexists. split; [reflexivity|]. apply seg_r1_R; auto.
  - eexists. split; [reflexivity|]. apply SS; auto.
Qed.

Lemma zero_plus (t : F) : fin t -> fin (s_add s_zero t) /\ B2R (s_add s_zero t) = B2R t.
Proof.
  intros Ft. pose proof (R_range prec emax Hprec Hmax t) as RG. pose proof (max_lt_pow prec emax Hprec Hmax) as ML.
  assert (E : rnd (B2R (s_zero : F) + B2R t) = B2R t).
  { rewrite R_zero, Rplus_0_l. apply rnd_fmt. apply fmt_B2R. }
  destruct (add_R prec emax Hprec Hmax s_zero t) as [A C]; auto.
  { reflexivity. } { rewrite E. lra. }
  rewrite E in C. auto.
Qed.

Lemma dist_R cm n (x y : list F) : circle_dims cm n -> length x = n -> length y = n ->
  (forall k, (k < n)%nat -> fin (get x k) /\ okc cm k (B2R (get x k))) ->
  (forall k, (k < n)%nat -> fin (get y k) /\ okc cm k (B2R (get y k))) ->
  exists ts : list F, length ts = n
    /\ (forall k, (k < n)%nat -> fin (get ts k) /\ B2R (get ts k) = dtc cm k (B2R (get x k)) (B2R (get y k)))
    /\ m_dist (circle_of cm) x y = match cm with OnCircle => get ts 0 | _ => fold_left s_add ts s_zero end.
Proof.
  intros HD Lx Ly Hx Hy.
  assert (SQ : forall a b : F, fin a -> fin b -> angle (B2R a) -> angle (B2R b) ->
    fin (squared_s1_distance a b) /\ B2R (squared_s1_distance a b) = sqr (ang (B2R a) (B2R b))).
  { intros a b Fa Fb Aa Ab. destruct (s1_R a b Fa Fb Aa Ab) as [C D]. unfold squared_s1_distance.
    destruct (squared_R1 _ C) as [G H]; [rewrite D; apply ang_bounds; auto|]. rewrite D in H. auto. }
  destruct cm; cbn [circle_of m_dist metric_so2 metric_se2_squared metric_t2_squared].
  - cbn in HD. subst n. exists [s1_distance (get x 0) (get y 0)]. split; auto.
    split; [|reflexivity]. intros [|k] Hk; [|lia]. cbn [get nth dtc].
    apply s1_R; try apply Hx; try apply Hy; lia.
  - cbn in HD. subst n.
    exists [squared_r1_distance (get x 0) (get y 0); squared_r1_distance (get x 1) (get y 1);
            squared_s1_distance (get x 2) (get y 2)].
    split; [reflexivity|]. split.
    + intros k Hk. destruct k as [|[|[|k]]]; [| | |lia]; cbn [get nth].
      * destruct (Hx 0%nat ltac:(lia)) as [Fx Ax], (Hy 0%nat ltac:(lia)) as [Fy Ay]. exact (line_R _ _ Fx Fy Ax Ay).
      * destruct (Hx 1%nat ltac:(lia)) as [Fx Ax], (Hy 1%nat ltac:(lia)) as [Fy Ay]. exact (line_R _ _ Fx Fy Ax Ay).
      * destruct (Hx 2%nat ltac:(lia)) as [Fx Ax], (Hy 2%nat ltac:(lia)) as [Fy Ay]. exact (SQ _ _ Fx Fy Ax Ay).
    + destruct x as [|x0 [|x1 [|x2 [|]]]]; try discriminate.
      destruct y as [|y0 [|y1 [|y2 [|]]]]; try discriminate. reflexivity.
  - exists (map (fun k => squared_s1_distance (get x k) (get y k)) (seq 0 n)).
    split; [rewrite map_length, seq_length; auto|]. split.
    + intros k Hk. set (f := fun k => squared_s1_distance (get x k) (get y k)).
      assert (G : get (map f (seq 0 n)) k = f k).
      { unfold get. rewrite (nth_indep _ s_zero (f 0%nat)) by (rewrite map_length, seq_length; auto).
        rewrite (map_nth f), seq_nth by auto. reflexivity. }
      rewrite G.
      destruct (Hx k Hk) as [Fx Ax], (Hy k Hk) as [Fy Ay]. exact (SQ _ _ Fx Fy Ax Ay).
    + unfold sum_op. rewrite (combine_get prec emax Hprec Hmax x y n Lx Ly).
      generalize (s_zero : F). induction (seq 0 n) as [|k l IH]; intros z; auto. cbn [map fold_left]. apply IH.
Qed.
End Terms.
