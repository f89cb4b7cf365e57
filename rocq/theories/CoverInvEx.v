(** Levels of rational distances, and rational trees as examples. *)
From Coq Require Import List ZArith QArith Qround Qreals Reals Bool Arith Lia Lra.
From Coq Require RMicromega.
From Verif Require Import Base ModelBox ModelBuild ModelSearch Spec ModelCover SpecCover SpecCoverInv Instances Examples
  CoverEx CoverInvTop.
Import ListNotations.
Local Open Scope Q_scope.

(** The largest [k] with b^k <= x, searching upwards. *)
Fixpoint climb (b x : Q) (fuel : nat) (k : Z) : Z :=
  match fuel with
  | O => k
  | Datatypes.S f => if Qle_bool (Qred (Qpower b (k + 1))) x then climb b x f (k + 1) else k
  end.
Definition flog (b x : Q) : Z :=
  let n := (4 * (Z.log2 (Qnum x) + Z.log2 (Zpos (Qden x)) + 2))%Z in climb b x (Z.to_nat (2 * n)) (- n).
(** A rational number between whose integer neighbours the logarithm of [x] to base [b] is. *)
Definition q_log (b x : Q) : Q :=
  let k := flog b x in if Qeq_bool (Qred (Qpower b k)) x then inject_Z k else inject_Z k + (1#2).
Definition q_levels (b : Q) : cmath Q := CMath
  (fun b x => Qred (Qpower b (Qfloor x)))
  (q_log b)
  (fun x => inject_Z (Qceiling x))
  (fun x => inject_Z (Qfloor x))
  (fun x => x).

Lemma Q2R_red x : Q2R (Qred x) = Q2R x.
Proof. apply Qeq_eqR, Qred_correct. Qed.
Lemma Q2R_Z z : Q2R (inject_Z z) = IZR z.
Proof. unfold Q2R. cbn. field. Qed.

Lemma Int_part_unique r z : (IZR z <= r < IZR z + 1)%R -> Int_part r = z.
Proof.
  intros [A B]. destruct (base_Int_part r) as [C D].
  assert ((Int_part r < z + 1)%Z) by (apply lt_IZR; rewrite plus_IZR; lra).
  assert ((z < Int_part r + 1)%Z) by (apply lt_IZR; rewrite plus_IZR; lra). lia.
Qed.
Lemma Int_part_bounds r : (IZR (Int_part r) <= r < IZR (Int_part r) + 1)%R.
Proof. destruct (base_Int_part r). lra. Qed.
Lemma Int_part_Q x : Int_part (Q2R x) = Qfloor x.
Proof.
  apply Int_part_unique. split.
  - rewrite <- Q2R_Z. apply Qle_Rle, Qfloor_le.
  - rewrite <- plus_IZR, <- Q2R_Z. apply Qlt_Rlt, Qlt_floor.
Qed.
Lemma Int_part_IZR z : Int_part (IZR z) = z.
Proof. apply Int_part_unique. lra. Qed.
Lemma Int_part_succ r : Int_part (r + 1) = (Int_part r + 1)%Z.
Proof. apply Int_part_unique. rewrite plus_IZR. pose proof (Int_part_bounds r). lra. Qed.
Lemma Int_part_mono x y : (x <= y)%R -> (Int_part x <= Int_part y)%Z.
Proof.
  intros H. pose proof (Int_part_bounds x). pose proof (Int_part_bounds y).
  assert ((Int_part x < Int_part y + 1)%Z); [|lia]. apply lt_IZR. rewrite plus_IZR. lra.
Qed.

Section Powers.
Variable b : Q.
Hypothesis B1 : 1 < b.
Hypothesis B4 : 2 <= Qpower b 4.
Hypothesis LB : q_log b b == 1.
Let B := Q2R b.
Definition q_power (b : Q) (r : R) : R := powerRZ (Q2R b) (Int_part r).

Lemma B_gt : (1 < B)%R.
Proof. rewrite <- RMicromega.Q2R_1. apply Qlt_Rlt. auto. Qed.
Lemma Q2R_power z : Q2R (Qpower b z) = powerRZ B z.
Proof.
  apply RMicromega.Q2RpowerRZ. left. intros E. rewrite E in B1. discriminate.
Qed.
Lemma p_add m n : powerRZ B (m + n) = (powerRZ B m * powerRZ B n)%R.
Proof. apply powerRZ_add. pose proof B_gt. lra. Qed.
Lemma p_pos z : (0 < powerRZ B z)%R.
Proof. apply powerRZ_lt. pose proof B_gt. lra. Qed.
Lemma p_succ z : powerRZ B (z + 1) = (B * powerRZ B z)%R.
Proof. rewrite p_add. change (powerRZ B 1) with (B * 1)%R. ring. Qed.
Lemma p_mono m n : (m <= n)%Z -> (powerRZ B m <= powerRZ B n)%R.
Proof.
  intros H. replace n with (m + Z.of_nat (Z.to_nat (n - m)))%Z by lia. generalize (Z.to_nat (n - m)). clear H.
  induction n0 as [|k IH]; [rewrite Z.add_0_r; lra|].
  replace (m + Z.of_nat (Datatypes.S k))%Z with (m + Z.of_nat k + 1)%Z by lia. rewrite p_succ.
  pose proof B_gt. pose proof (p_pos (m + Z.of_nat k)). nra.
Qed.
Lemma p_two n : (0 <= n)%Z -> (IZR (2 ^ n) <= powerRZ B (4 * n))%R.
Proof.
  intros H. replace n with (Z.of_nat (Z.to_nat n)) by lia. generalize (Z.to_nat n). clear n H.
  assert (F : (2 <= powerRZ B 4)%R).
  { rewrite <- Q2R_power. replace 2%R with (Q2R 2) by (unfold Q2R; cbn; lra). apply Qle_Rle. auto. }
  induction n as [|k IH]; [cbn; lra|].
  replace (4 * Z.of_nat (Datatypes.S k))%Z with (4 * Z.of_nat k + 4)%Z by lia. rewrite p_add.
  rewrite Nat2Z.inj_succ, Z.pow_succ_r, mult_IZR by lia.
  assert (0 <= IZR (2 ^ Z.of_nat k))%R by (apply IZR_le; lia). nra.
Qed.

Lemma climb_spec x : forall fuel k, (powerRZ B k <= Q2R x)%R -> (Q2R x < powerRZ B (k + Z.of_nat fuel))%R ->
  (powerRZ B (climb b x fuel k) <= Q2R x < powerRZ B (climb b x fuel k + 1))%R.
Proof.
  induction fuel as [|f IH]; intros k Lo Hi; cbn [climb].
  - rewrite Z.add_0_r in Hi. lra.
  - destruct (Qle_bool _ _) eqn:E.
    + apply Qle_bool_iff, Qle_Rle in E. rewrite Q2R_red, Q2R_power in E. apply IH; auto.
      replace (k + 1 + Z.of_nat f)%Z with (k + Z.of_nat (Datatypes.S f))%Z by lia. auto.
    + split; auto. rewrite <- Q2R_power, <- (Q2R_red (_ ^ _)). apply Qlt_Rlt. apply Qnot_le_lt. intros C.
      apply Qle_bool_iff in C. congruence.
Qed.

Lemma flog_spec x : 0 < x -> (powerRZ B (flog b x) <= Q2R x < powerRZ B (flog b x + 1))%R.
Proof.
  intros H. unfold flog. set (n := (4 * _)%Z).
  assert (NP : (0 < Qnum x)%Z) by (destruct x as [nu de]; unfold Qlt in H; cbn in *; lia).
  pose proof (Z.log2_spec (Qnum x) NP) as [_ LN]. pose proof (Z.log2_spec (Z.pos (Qden x)) (Pos2Z.is_pos _)) as [_ LD].
  pose proof (Z.log2_nonneg (Qnum x)). pose proof (Z.log2_nonneg (Z.pos (Qden x))).
  apply climb_spec.
  - assert (D : (IZR (Z.pos (Qden x)) <= powerRZ B n)%R).
    { eapply Rle_trans; [apply IZR_le, Z.lt_le_incl, LD|]. eapply Rle_trans; [apply p_two; lia|]. apply p_mono. lia. }
    assert (E : (powerRZ B (- n) * powerRZ B n = 1)%R).
    { rewrite <- p_add. replace (- n + n)%Z with 0%Z by lia. reflexivity. }
    pose proof (p_pos (- n)). pose proof (p_pos n).
    assert (DP : (0 < IZR (Z.pos (Qden x)))%R) by (apply IZR_lt; lia).
    assert (NN : (1 <= IZR (Qnum x))%R) by (apply IZR_le; lia).
    unfold Q2R. apply (Rmult_le_reg_r (IZR (Z.pos (Qden x)))); auto.
    rewrite Rmult_assoc, Rinv_l, Rmult_1_r by lra.
    apply (Rle_trans _ (powerRZ B (- n) * powerRZ B n)); [apply Rmult_le_compat_l; lra|lra].
  - replace (- n + Z.of_nat (Z.to_nat (2 * n)))%Z with n by lia.
    apply (Rle_lt_trans _ (IZR (Qnum x))).
    + assert (NN : (1 <= IZR (Z.pos (Qden x)))%R) by (apply IZR_le; lia).
      assert (0 < IZR (Qnum x))%R by (apply IZR_lt; lia). unfold Q2R.
      rewrite <- (Rmult_1_r (IZR (Qnum x))) at 2. apply Rmult_le_compat_l; [lra|].
      rewrite <- Rinv_1. apply Rinv_le_contravar; lra.
    + eapply Rlt_le_trans; [apply IZR_lt, LN|]. eapply Rle_trans; [apply p_two; lia|]. apply p_mono. lia.
Qed.

Lemma Qfloor_half k : Qfloor (inject_Z k + (1#2)) = k.
Proof.
  rewrite <- Int_part_Q. apply Int_part_unique. rewrite Q2R_plus, Q2R_Z. unfold Q2R. cbn. lra.
Qed.
Lemma Qceiling_half k : Qceiling (inject_Z k + (1#2)) = (k + 1)%Z.
Proof.
  unfold Qceiling. rewrite (Qfloor_comp _ (inject_Z (- k - 1) + (1 # 2))), Qfloor_half; [lia|].
  rewrite <- Z.sub_opp_l. unfold Z.sub. rewrite !inject_Z_plus, !inject_Z_opp. ring.
Qed.

Lemma log_div x : s_div (c_log (q_levels b) x) (c_log (q_levels b) b) == q_log b x.
Proof.
  change (Qred (q_log b x / q_log b b) == q_log b x). rewrite Qred_correct, LB. field.
Qed.

Lemma q_powers : powers Q2R (q_levels b) b (q_power b).
Proof.
  constructor; unfold q_power; fold B.
  - intros x. cbn [q_levels c_pow]. rewrite Q2R_red, Q2R_power, Int_part_Q. reflexivity.
  - intros x. apply p_pos.
  - intros x y H. apply p_mono, Int_part_mono. auto.
  - intros x. rewrite Int_part_succ. apply p_succ.
  - intros d H. rewrite <- RMicromega.Q2R_0 in H. apply Rlt_Qlt in H.
    change (c_floor (q_levels b) ?x) with (inject_Z (Qfloor x)). rewrite (Qfloor_comp _ _ (log_div d)).
    rewrite Q2R_Z, <- plus_IZR, Int_part_IZR. pose proof (flog_spec d H) as [_ U].
    unfold q_log. destruct (Qeq_bool _ _); [rewrite Qfloor_Z|rewrite Qfloor_half]; auto.
  - intros d H. rewrite <- RMicromega.Q2R_0 in H. apply Rlt_Qlt in H.
    change (c_ceil (q_levels b) ?x) with (inject_Z (Qceiling x)). rewrite (Qceiling_comp _ _ (log_div d)).
    rewrite Q2R_Z, Int_part_IZR. pose proof (flog_spec d H) as [_ U].
    unfold q_log. destruct (Qeq_bool _ _) eqn:E; [rewrite Qceiling_Z|rewrite Qceiling_half; lra].
    apply Qeq_bool_iff, Qeq_eqR in E. rewrite Q2R_red, Q2R_power in E. rewrite E. lra.
Qed.
End Powers.

Lemma QD_real_ops : real_ops QD Q2R.
Proof.
  constructor; cbn [QD Q_scalar s_ltb s_leb s_add s_sub s_one s_two s_mul].
  - intros x y. rewrite negb_Qle_bool_lt. split; [apply Qlt_Rlt|apply Rlt_Qlt].
  - intros x y. rewrite Qle_bool_iff. split; [apply Qle_Rle|apply Rle_Qle].
  - intros. rewrite Q2R_red. apply Q2R_plus.
  - intros. rewrite Q2R_red. apply Q2R_minus.
  - apply RMicromega.Q2R_1.
  - intros. rewrite Q2R_red, Q2R_mult. f_equal. unfold Q2R. cbn. lra.
Qed.

(** Distances of finitely many points, checked one by one. *)
Definition metric_check (m : metric Q) (sp : space Q) : bool :=
  let l := seq 0 (npts sp) in
  forallb (fun i => Qeq_bool (between m sp i i) 0
    && forallb (fun j => Qeq_bool (between m sp i j) (between m sp j i)
      && forallb (fun k => Qle_bool (between m sp i k) (between m sp i j + between m sp j k)) l) l) l.
Lemma metric_check_ok m sp : metric_check m sp = true -> is_metric Q2R m sp.
Proof.
  intros H. unfold metric_check in H. rewrite forallb_forall in H.
  assert (A : forall i, (i < npts sp)%nat -> Qeq_bool (between m sp i i) 0 = true /\
    forall j, (j < npts sp)%nat -> Qeq_bool (between m sp i j) (between m sp j i) = true /\
    forall k, (k < npts sp)%nat -> Qle_bool (between m sp i k) (between m sp i j + between m sp j k) = true).
  { intros i Hi. specialize (H i ltac:(apply in_seq; lia)). apply andb_true_iff in H as [H1 H]. split; auto.
    intros j Hj. rewrite forallb_forall in H. specialize (H j ltac:(apply in_seq; lia)). apply andb_true_iff in H as [H2 H]. split; auto.
    intros k Hk. rewrite forallb_forall in H. apply (H k ltac:(apply in_seq; lia)). }
  constructor.
  - intros i Hi. rewrite <- RMicromega.Q2R_0. apply Qeq_eqR, Qeq_bool_iff. apply (A i Hi).
  - intros i j Hi Hj. apply Qeq_eqR, Qeq_bool_iff. apply (A i Hi). auto.
  - intros i j k Hi Hj Hk. rewrite <- Q2R_plus. apply Qle_Rle, Qle_bool_iff. apply (A i Hi); auto.
Qed.

Definition line_sp (l : list Q) : space Q := Space 1 (map (fun x => [x]) l).
(** The root of the tree built of the given points in the given order. *)
Definition cover_root (b : Q) (l : list Q) : option (cover_node Q) :=
  match build_cover_tree (q_levels b) std_example metric_l1 (line_sp l) b 60 (seq 0 (length l)) with Ok r => Some r | _ => None end.
(** Seven points on a line. *)
Definition seven : list Q := [0; 10; 7; 21#2; -10; 12; 18].
(** The tree of the seven points for base 1.3. *)
Definition low_root : cover_node Q :=
  CoverNode 12 22 5
    [CoverNode 11 (41#2) 3
      [CoverNode 10 20 4 [CoverNode 9 10 0 [CoverNode 8 3 1 [CoverNode 7 0 2 []]]];
       CoverNode 10 0 6 []]].
Definition two_root : cover_node Q :=
  CoverNode 6 28 6
    [CoverNode 5 22 4
      [CoverNode 4 12 0
        [CoverNode 3 3 1
          [CoverNode 2 0 2 []; CoverNode 2 (3#2) 5 [CoverNode 1 0 3 []]]]]].

Lemma low_make : cover_tree_make (q_levels (13#10)) std_example (fun l => l) metric_l1 60 (line_sp seven) (13#10)
  = Ok (CoverTree (line_sp seven) metric_l1 low_root).
Proof. apply make_cover_ok. vm_compute. reflexivity. Qed.
Lemma two_make : cover_tree_make (q_levels 2) std_example (fun l => l) metric_l1 60 (line_sp seven) 2
  = Ok (CoverTree (line_sp seven) metric_l1 two_root).
Proof. apply make_cover_ok. vm_compute. reflexivity. Qed.
Lemma low_powers : powers Q2R (q_levels (13#10)) (13#10) (q_power (13#10)).
Proof. apply q_powers; vm_compute; congruence. Qed.
Lemma two_powers : powers Q2R (q_levels 2) 2 (q_power 2).
Proof. apply q_powers; vm_compute; congruence. Qed.
Lemma seven_metric : is_metric Q2R metric_l1 (line_sp seven).
Proof. apply metric_check_ok. vm_compute. reflexivity. Qed.

(** * Floating point numbers *)
From Flocq Require Import Core.Core IEEE754.BinarySingleNaN.
From Verif Require Import Floats FloatThms FloatEx.

Section FloatOrder.
Variables (prec emax : Z).
Context (Hprec : Prec_gt_0 prec) (Hmax : Prec_lt_emax prec emax).
Local Notation F := (binary_float prec emax).
Local Instance SF : Scalar F := Float_scalar prec emax Hprec Hmax.

(** Values with the infinities beyond all others. *)
Definition ext (x : F) : R :=
  match x with
  | B754_infinity false => bpow radix2 emax
  | B754_infinity true => - bpow radix2 emax
  | _ => B2R x
  end.
Lemma ext_le (x y : F) : is_nan x = false -> is_nan y = false -> s_leb x y = true <-> (ext x <= ext y)%R.
Proof.
  assert (D : forall z : F, (- bpow radix2 emax < B2R z < bpow radix2 emax)%R).
  { intros z. apply Rabs_lt_inv. apply abs_B2R_lt_emax. }
  pose proof (bpow_gt_0 radix2 emax) as E0.
  intros Nx Ny. destruct (is_finite x) eqn:Fx, (is_finite y) eqn:Fy.
  - rewrite (leb_R prec emax Hprec Hmax) by auto. destruct x, y; try discriminate; reflexivity.
  - destruct y as [|[]| |]; try discriminate; destruct x as [[]|[]| |[]]; try discriminate; cbn [ext];
      match goal with |- s_leb ?x _ = true <-> _ => pose proof (D x) end; cbn; cbn in *; split; intros; try discriminate; try lra; auto.
  - destruct x as [|[]| |]; try discriminate; destruct y as [[]|[]| |[]]; try discriminate; cbn [ext];
      match goal with |- s_leb _ ?x = true <-> _ => pose proof (D x) end; cbn; cbn in *; split; intros; try discriminate; try lra; auto.
  - destruct x as [|[]| |], y as [|[]| |]; try discriminate; cbn; split; intros; try discriminate; try lra; auto.
Qed.
Lemma ltb_negb (x y : F) : is_nan x = false -> is_nan y = false -> s_ltb x y = negb (s_leb y x).
Proof.
  intros Nx Ny. cbn [s_ltb s_leb SF Float_scalar]. unfold Bltb, Bleb, SpecFloat.SFltb, SpecFloat.SFleb.
  assert (C : Bcompare x y = match Bcompare y x with Some c => Some (CompOpp c) | None => None end) by apply Bcompare_swap.
  unfold Bcompare in C. rewrite C. destruct (SpecFloat.SFcompare (B2SF y) (B2SF x)) as [[]|] eqn:K; auto. exfalso. clear C.
  destruct x as [[]|[]| |[]], y as [[]|[]| |[]]; cbn in *; try discriminate; repeat (destruct (_ ?= _)%Z in K; try discriminate);
   repeat (destruct Pos.compare_cont in K; try discriminate).
Qed.
Lemma float_ord_nan : ord_laws SF (fun x => is_nan x = false).
Proof.
  constructor; try reflexivity.
  - apply ltb_negb.
  - intros x y Hx Hy. rewrite !ext_le by auto. lra.
  - intros x y z Hx Hy Hz. rewrite !ext_le by auto. lra.
Qed.
End FloatOrder.

(** Powers and logarithms of two. *)
Local Existing Instance F64.
Local Existing Instance prec_gt_53.
Local Existing Instance prec_lt_1024.
Definition f_levels : cmath double := CMath
  (fun _ l => Bldexp mode_NE (f64 1 0) (Btrunc l))
  (fun x => f64 (snd (Bfrexp x) - 1) 0)
  (fun x => s_add x (f64 1 0)) (fun x => x) (fun x => x).
Definition f_seven : space double :=
  Space 1 (map (fun z => [f64 z (-1)]) [0; 20; 14; 21; -20; 24; 36]%Z).
Definition f_root : cover_node double :=
  match build_cover_tree f_levels std_example metric_l1 f_seven (f64 2 0) 60 (seq 0 7) with Ok r => r | _ => CoverNode s_zero s_zero 0 [] end.
Lemma f_seven_make : cover_tree_make f_levels std_example (fun l => l) metric_l1 60 f_seven (f64 2 0)
  = Ok (CoverTree f_seven metric_l1 f_root).
Proof.
  apply make_cover_ok. unfold f_root. change (sp_size f_seven) with 7%nat. cbv beta.
  assert (H : match build_cover_tree f_levels std_example metric_l1 f_seven (f64 2 0) 60 (seq 0 7) with Ok _ => true | _ => false end = true)
    by (vm_compute; reflexivity).
  destruct (build_cover_tree _ _ _ _ _ _ _); try discriminate H. reflexivity.
Qed.
Lemma pair_check (f : nat -> nat -> bool) n : forallb (fun i => forallb (f i) (seq 0 n)) (seq 0 n) = true ->
  forall i j, (i < n)%nat -> (j < n)%nat -> f i j = true.
Proof.
  intros H i j Hi Hj. rewrite forallb_forall in H. specialize (H i). rewrite forallb_forall in H.
  apply H; apply in_seq; lia.
Qed.
Definition f_seven_pair (i j : nat) : bool :=
  negb (is_nan (between metric_l1 f_seven i j)) && s_leb (between metric_l1 f_seven i j) (between metric_l1 f_seven j i).
Lemma f_seven_check : forallb (fun i => forallb (f_seven_pair i) (seq 0 7)) (seq 0 7) = true.
Proof. vm_compute. reflexivity. Qed.
Lemma f_seven_ok i j : (i < npts f_seven)%nat -> (j < npts f_seven)%nat ->
  is_nan (between metric_l1 f_seven i j) = false /\ s_leb (between metric_l1 f_seven i j) (between metric_l1 f_seven j i) = true.
Proof.
  intros Hi Hj. pose proof (pair_check f_seven_pair 7 f_seven_check i j Hi Hj) as H.
  unfold f_seven_pair in H. apply andb_true_iff in H as [A B]. apply negb_true_iff in A. auto.
Qed.
