(** Nearest neighbour search in floating point: how far rounding can make the
    search skip a point. *)
From Coq Require Import List ZArith Reals Bool Arith Permutation Lia Lra.
From Flocq Require Import Core.Core IEEE754.BinarySingleNaN Plus_error Relative.
From Verif Require Import Base ModelBox ModelBuild ModelSearch Spec Lemmas BuildProofs
  BuildShape BuildThms SearchProofs OrdThms Floats FloatThms.
Import ListNotations.
Local Open Scope R_scope.

(** * Sums of reals *)
Definition sumR (n : nat) (f : nat -> R) : R := fold_right Rplus 0 (map f (seq 0 n)).

Lemma fold_right_app_plus a b : fold_right Rplus 0 (a ++ b) = fold_right Rplus 0 a + fold_right Rplus 0 b.
Proof. induction a; cbn [app fold_right]; [lra|]. rewrite IHa. lra. Qed.
Lemma sumR_0 f : sumR 0 f = 0. Proof. reflexivity. Qed.
Lemma sumR_S n f : sumR (S n) f = sumR n f + f n.
Proof. unfold sumR. rewrite seq_S, map_app, fold_right_app_plus. cbn. lra. Qed.
Lemma sumR_ext n f g : (forall k, (k < n)%nat -> f k = g k) -> sumR n f = sumR n g.
Proof. induction n; intros H; [reflexivity|]. rewrite !sumR_S, IHn, H by auto. reflexivity. Qed.
Lemma sumR_le n f g : (forall k, (k < n)%nat -> f k <= g k) -> sumR n f <= sumR n g.
Proof.
  induction n; intros H; [apply Rle_refl|]. rewrite !sumR_S.
  specialize (IHn ltac:(auto)). specialize (H n ltac:(auto)). lra.
Qed.
Lemma sumR_nonneg n f : (forall k, (k < n)%nat -> 0 <= f k) -> 0 <= sumR n f.
Proof.
  induction n; intros H; [apply Rle_refl|]. rewrite sumR_S.
  specialize (IHn ltac:(auto)). specialize (H n ltac:(auto)). lra.
Qed.
Lemma sumR_bound n f b : (forall k, (k < n)%nat -> f k <= b) -> sumR n f <= INR n * b.
Proof.
  induction n; intros H; [rewrite sumR_0; cbn; lra|]. rewrite sumR_S, S_INR.
  specialize (IHn ltac:(auto)). specialize (H n ltac:(auto)). lra.
Qed.
Lemma sumR_update n f g s : (s < n)%nat -> (forall k, (k < n)%nat -> k <> s -> g k = f k) ->
  sumR n g = sumR n f - f s + g s.
Proof.
  induction n; intros Hs H; [lia|]. rewrite !sumR_S.
  destruct (Nat.eq_dec s n) as [->|N].
  - rewrite (sumR_ext n g f) by (intros; apply H; lia). lra.
  - rewrite IHn by (auto; lia). rewrite (H n) by lia. lra.
Qed.
Lemma sumR_ge_one n f s : (s < n)%nat -> (forall k, (k < n)%nat -> 0 <= f k) -> f s <= sumR n f.
Proof.
  induction n; intros Hs H; [lia|]. rewrite sumR_S.
  destruct (Nat.eq_dec s n) as [->|N].
  - pose proof (sumR_nonneg n f ltac:(auto)). lra.
  - specialize (IHn ltac:(lia) ltac:(auto)). specialize (H n ltac:(auto)). lra.
Qed.

(** * Growth of rounding errors *)
Section Growth.
Variable u : R.
Hypotheses (U0 : 0 <= u) (U1 : u <= 1).
Lemma pow_lower k : 1 - INR k * u <= (1 - u) ^ k.
Proof.
  induction k; [cbn; lra|]. rewrite S_INR. cbn [pow].
  assert (0 <= INR k) by apply pos_INR.
  assert ((1 - u) * (1 - INR k * u) <= (1 - u) * (1 - u) ^ k) by (apply Rmult_le_compat_l; lra). nra.
Qed.
Lemma pow_prod k : 0 <= (1 - u) ^ k /\ (1 + u) ^ k * (1 - u) ^ k <= 1.
Proof.
  split; [apply pow_le; lra|]. rewrite <- Rpow_mult_distr.
  replace 1 with (1 ^ k) at 3 by apply pow1. apply pow_incr. nra.
Qed.
Lemma pow_ge_1 k : 1 <= (1 + u) ^ k.
Proof. apply pow_R1_Rle. lra. Qed.
Lemma pow_upper k : INR k * u <= /2 -> (1 + u) ^ k <= 2.
Proof.
  intros H. pose proof (pow_lower k). destruct (pow_prod k). pose proof (pow_ge_1 k). nra.
Qed.
Lemma pow_mono j k : (j <= k)%nat -> (1 + u) ^ j <= (1 + u) ^ k.
Proof. intros. apply Rle_pow; auto; lra. Qed.
(** The combined factor of [a] rounding errors up and [b] down. *)
Lemma pow_slack a b x y : INR (a + b) * u <= /2 -> 0 <= y ->
  (1 - u) ^ b * x <= (1 + u) ^ a * y -> x <= (1 + 2 * INR (a + b) * u) * y.
Proof.
  intros H Hy E. set (w := INR (a + b) * u) in *.
  assert (W0 : 0 <= w) by (apply Rmult_le_pos; [apply pos_INR|auto]).
  destruct (pow_prod a) as [A0 A1]. pose proof (pow_lower (a + b)) as L. fold w in L.
  rewrite pow_add in L. destruct (pow_prod b) as [B0 _].
  replace (2 * INR (a + b) * u) with (2 * w) by (unfold w; ring).
  destruct (Rle_or_lt x 0) as [X|X].
  { apply Rle_trans with 0; auto. apply Rmult_le_pos; [nra|auto]. }
  assert ((1 - u) ^ a * ((1 - u) ^ b * x) <= y).
  { apply Rle_trans with ((1 - u) ^ a * ((1 + u) ^ a * y)); [apply Rmult_le_compat_l; auto|].
    rewrite <- Rmult_assoc, (Rmult_comm ((1 - u) ^ a)). rewrite <- (Rmult_1_l y) at 2.
    apply Rmult_le_compat_r; auto. }
  rewrite <- Rmult_assoc in H0.
  assert ((1 - w) * x <= y) by (eapply Rle_trans; [apply Rmult_le_compat_r; [lra|exact L]|exact H0]).
  assert (1 <= (1 + 2 * w) * (1 - w)) by nra.
  assert (x <= (1 + 2 * w) * ((1 - w) * x)).
  { rewrite <- Rmult_assoc, <- (Rmult_1_l x) at 1. apply Rmult_le_compat_r; lra. }
  eapply Rle_trans; [exact H3|]. apply Rmult_le_compat_l; lra.
Qed.
End Growth.

Section Search.
Variables (prec emax : Z).
Context (Hprec : Prec_gt_0 prec) (Hmax : Prec_lt_emax prec emax) (P2 : (2 <= prec)%Z).
Local Notation F := (binary_float prec emax).
Local Notation fin := (finite prec emax).
Local Notation fexp := (SpecFloat.fexp prec emax).
Local Notation emin := (SpecFloat.emin prec emax).
Local Notation rnd := (round radix2 fexp ZnearestE).
Local Notation fmt := (generic_format radix2 fexp).
Local Notation pow2 := (bpow radix2).
Local Existing Instance SF.
Let ve := vexp prec emax Hprec.
Local Existing Instance ve.
Local Notation u := (bpow radix2 (- prec)).

(** A sum of two numbers of the format has a small relative error. *)
Lemma rnd_plus x y : fmt x -> fmt y -> exists e, Rabs e <= u /\ rnd (x + y) = (x + y) * (1 + e).
Proof.
  intros Fx Fy.
  destruct (FLT_plus_error_N_ex radix2 emin prec (fun x => negb (Z.even x)) x y Fx Fy) as (e & He & E).
  exists e. split; [|exact E].
  assert (Eu : u_ro radix2 prec = u).
  { unfold u_ro. replace (/ 2) with (bpow radix2 (-1)) by (cbn; lra). rewrite <- bpow_plus. f_equal. lia. }
  rewrite Eu in He. pose proof (bpow_gt_0 radix2 (- prec)).
  eapply Rle_trans; [exact He|]. apply Rmult_le_reg_r with (1 + u); [lra|].
  unfold Rdiv. rewrite Rmult_assoc, Rinv_l by lra. nra.
Qed.
Lemma rnd_minus x y : fmt x -> fmt y -> exists e, Rabs e <= u /\ rnd (x - y) = (x - y) * (1 + e).
Proof. intros. apply (rnd_plus x (- y)); auto. apply generic_format_opp; auto. Qed.

Lemma u_bounds : 0 < u <= / 4.
Proof.
  split; [apply bpow_gt_0|]. replace (/ 4) with (pow2 (-2)) by (cbn; lra). apply bpow_le. lia.
Qed.

Lemma fmt_double x : fmt x -> fmt (2 * x).
Proof.
  intros Fx. rewrite Rmult_comm. change 2 with (pow2 1).
  apply (Mult_error.mult_bpow_pos_exact_FLT radix2 emin prec); auto. lia.
Qed.

(** ** Metrics: a sum of terms, one per coordinate, each computed from the
    rounded difference of the coordinates. *)
Variable e : Z.      (* coordinates are at most 2^e in absolute value *)
Hypothesis E3 : (e + 3 < emax)%Z.
Record float_metric (m : metric F) (phi : R -> R) (B : R) : Prop := {
  fm_cat : m_cat m = Euclidean;
  fm_dist : forall x y, m_dist m x y = sum_op (fun a b => m_app m (s_sub a b)) x y;
  fm_app : forall z, fin z -> Rabs (B2R z) <= pow2 (e + 1) ->
     fin (m_app m z) /\ B2R (m_app m z) = phi (Rabs (B2R z));
  fm_mono : forall x y, 0 <= x <= y -> phi x <= phi y;
  fm_nonneg : forall x, 0 <= x -> 0 <= phi x;
  fm_bound : forall x, 0 <= x <= pow2 (e + 1) -> phi x <= B
}.

Variables (m : metric F) (phi : R -> R) (B : R) (FM : float_metric m phi B).
Variables (sp : space F) (WF : wf_space sp) (COORDS : all_coords (below prec emax e) sp).
Let n := sp_sdim sp.
Let N := length (sp_pts sp).
Variable q : list F.
Hypotheses (LQ : length q = n) (HQ : Forall (below prec emax e) q).
Hypotheses (FIT : INR n * B <= pow2 (emax - 3)) (NU : INR n * u <= / 2).

Lemma B_nonneg : 0 <= B.
Proof.
  apply Rle_trans with (phi 0); [apply (fm_nonneg _ _ _ FM); lra|].
  apply (fm_bound _ _ _ FM). split; [lra|apply bpow_ge_0].
Qed.

(** The computed term of point [j] in dimension [k]. *)
Definition term (j k : nat) : R := phi (Rabs (rnd (B2R (get q k) - B2R (coord sp k j)))).
(** The computed distance of point [j]. *)
Definition Dhat (j : nat) : F := m_dist m q (sp_at sp j).

Lemma pow_double x : pow2 (x + 1) = 2 * pow2 x.
Proof. rewrite bpow_plus. cbn. lra. Qed.

Lemma diff_below x y : below prec emax e x -> below prec emax e y ->
  fin (s_sub x y) /\ B2R (s_sub x y) = rnd (B2R x - B2R y) /\ Rabs (rnd (B2R x - B2R y)) <= pow2 (e + 1).
Proof.
  intros [Fx Hx] [Fy Hy].
  destruct (Rle_or_lt (Rabs (B2R x - B2R y)) (pow2 emin)) as [Hs|Hs].
  - (* a tiny difference is exact or zero *)
    assert (K : Rabs (B2R x - B2R y) <= pow2 (e + 1)).
    { rewrite pow_double. apply Rabs_le_inv in Hx, Hy. apply Rabs_le. lra. }
    assert (Fd : fmt (B2R x - B2R y)).
    { apply (FLT_format_plus_small radix2 emin prec (B2R x) (- B2R y)).
      - apply fmt_B2R; auto.
      - apply generic_format_opp. apply fmt_B2R; auto.
      - eapply Rle_trans; [exact Hs|]. apply bpow_le. pose proof (prec_pos prec Hprec). lia. }
    assert (Ed : rnd (B2R x - B2R y) = B2R x - B2R y) by (apply rnd_fmt; auto).
    destruct (sub_R prec emax Hprec Hmax x y Fx Fy) as [A C].
    + rewrite Ed. eapply lt_emax; [|exact K]. lia.
    + rewrite Ed in *. auto.
  - assert (He : (emin <= e + 1)%Z).
    { destruct (Z.le_gt_cases emin (e + 1)); auto. exfalso.
      assert (pow2 (e + 1) <= pow2 emin) by (apply bpow_le; lia).
      rewrite pow_double in H0. apply Rabs_le_inv in Hx, Hy.
      assert (Rabs (B2R x - B2R y) <= 2 * pow2 e) by (apply Rabs_le; lra). lra. }
    assert (A : Rabs (rnd (B2R x - B2R y)) <= pow2 (e + 1)).
    { apply rnd_pow; auto. rewrite pow_double. apply Rabs_le_inv in Hx, Hy. apply Rabs_le. lra. }
    destruct (sub_R prec emax Hprec Hmax x y Fx Fy) as [C D]; auto.
    apply (lt_emax emax _ (e + 1)); auto; lia.
Qed.

Lemma q_below k : (k < n)%nat -> below prec emax e (get q k).
Proof. intros H. unfold get. rewrite Forall_forall in HQ. apply HQ, nth_In. rewrite LQ. auto. Qed.
Lemma c_below j k : (j < N)%nat -> (k < n)%nat -> below prec emax e (coord sp k j).
Proof. intros Hj Hk. apply (ok_coord (below prec emax e) sp WF COORDS); auto. apply in_space_lt; auto. Qed.

Lemma app_diff x y : below prec emax e x -> below prec emax e y ->
  fin (m_app m (s_sub x y)) /\ B2R (m_app m (s_sub x y)) = phi (Rabs (rnd (B2R x - B2R y)))
  /\ 0 <= phi (Rabs (rnd (B2R x - B2R y))) <= B.
Proof.
  intros Hx Hy. destruct (diff_below x y Hx Hy) as (A & C & D).
  destruct (fm_app _ _ _ FM _ A) as [G H]; [rewrite C; auto|]. rewrite C in H.
  split; auto. split; auto. split.
  - apply (fm_nonneg _ _ _ FM), Rabs_pos.
  - apply (fm_bound _ _ _ FM). split; [apply Rabs_pos|auto].
Qed.

Lemma term_bounds j k : (j < N)%nat -> (k < n)%nat -> 0 <= term j k <= B.
Proof. intros. apply app_diff; [apply q_below; auto|apply c_below; auto]. Qed.

Lemma phi_sym x y : phi (Rabs (rnd (x - y))) = phi (Rabs (rnd (y - x))).
Proof.
  replace (x - y) with (- (y - x)) by ring. rewrite rnd_opp, Rabs_Ropp. reflexivity.
Qed.

Lemma combine_get (x y : list F) k : length x = k -> length y = k ->
  combine x y = map (fun i => (get x i, get y i)) (seq 0 k).
Proof.
  revert y k. induction x as [|a x IH]; intros [|b y] k Hx Hy; cbn in Hx, Hy; subst k; try discriminate; auto.
  cbn [length seq map combine]. f_equal. rewrite <- seq_shift, map_map. apply IH; auto.
Qed.

(** ** Sums that are computed exactly: one dimension, or terms on a grid. *)
Variable g : Z.
Definition grid (x : R) : Prop := exists z : Z, x = IZR z * pow2 g.
Definition exactly : Prop :=
  n = 1%nat
  \/ ((emin <= g)%Z /\ INR n * B < pow2 (g + prec)
      /\ forall j k, (j < N)%nat -> (k < n)%nat -> grid (term j k)).

Lemma grid_plus x y : grid x -> grid y -> grid (x + y).
Proof. intros [a ->] [b ->]. exists (a + b)%Z. rewrite plus_IZR. ring. Qed.
Lemma grid_minus x y : grid x -> grid y -> grid (x - y).
Proof. intros [a ->] [b ->]. exists (a - b)%Z. rewrite minus_IZR. ring. Qed.
Lemma grid_0 : grid 0. Proof. exists 0%Z. ring. Qed.
Lemma grid_fmt x : (emin <= g)%Z -> grid x -> Rabs x < pow2 (g + prec) -> fmt x.
Proof.
  intros Hg [z ->] H. apply (generic_format_FLT radix2 emin prec).
  exists (Float radix2 z g); auto. cbn.
  rewrite Rabs_mult, (Rabs_pos_eq (pow2 g)), Z.add_comm, bpow_plus in H by apply bpow_ge_0.
  apply Rmult_lt_reg_r in H; [|apply bpow_gt_0].
  rewrite <- abs_IZR in H. rewrite <- IZR_Zpower in H by (pose proof (prec_pos prec Hprec); lia).
  apply lt_IZR in H. exact H.
Qed.

(** ** The computed distance *)
Lemma fold_sum (ts : list F) : forall i acc s,
  (forall t, In t ts -> fin t /\ 0 <= B2R t <= B) ->
  fin acc -> (1 - u) ^ i * s <= B2R acc <= (1 + u) ^ i * s -> 0 <= s <= INR i * B ->
  (i + length ts <= n)%nat ->
  let r := fold_left s_add ts acc in
  let s' := s + fold_right Rplus 0 (map B2R ts) in
  fin r /\ (1 - u) ^ (i + length ts) * s' <= B2R r <= (1 + u) ^ (i + length ts) * s'
  /\ ((emin <= g)%Z -> INR n * B < pow2 (g + prec) -> (forall t, In t ts -> grid (B2R t)) ->
      grid s -> B2R acc = s -> B2R r = s').
Proof.
  pose proof u_bounds as [U0 U1].
  induction ts as [|t ts IH]; intros i acc s Ht Fa Ha Hs Hi.
  - cbn [fold_left map fold_right length]. rewrite Nat.add_0_r, Rplus_0_r. auto.
  - destruct (Ht t (or_introl eq_refl)) as [Ft Bt]. cbn [length] in Hi.
    assert (FA := fmt_B2R prec emax acc). assert (FT := fmt_B2R prec emax t).
    pose proof B_nonneg as B0.
    assert (Hp : (1 + u) ^ i <= 2).
    { apply pow_upper; try lra. eapply Rle_trans; [|exact NU]. apply Rmult_le_compat_r; [lra|].
      apply le_INR. lia. }
    assert (Hin : INR i + 1 <= INR n) by (rewrite <- S_INR; apply le_INR; lia).
    pose proof (pos_INR i) as I0.
    destruct (pow_prod u ltac:(lra) ltac:(lra) i) as [L0 _]. pose proof (pow_ge_1 u ltac:(lra) i) as L1.
    assert (A0 : 0 <= B2R acc) by (eapply Rle_trans; [|apply Ha]; apply Rmult_le_pos; lra).
    assert (AB : B2R acc + B2R t <= pow2 (emax - 2)).
    { replace (emax - 2)%Z with (emax - 3 + 1)%Z by ring. rewrite pow_double.
      assert (B2R acc <= 2 * (INR i * B)) by nra. nra. }
    assert (RB : Rabs (rnd (B2R acc + B2R t)) <= pow2 (emax - 2)).
    { apply rnd_pow; auto.
      - pose proof (prec_emax prec emax Hmax). rewrite emin_eq. lia.
      - rewrite Rabs_pos_eq; lra. }
    destruct (add_R prec emax Hprec Hmax acc t Fa Ft) as [Fs Es].
    { apply (lt_emax emax _ (emax - 2)); auto. lia. }
    destruct (rnd_plus (B2R acc) (B2R t) FA FT) as (d & Hd & Ed).
    apply Rabs_le_inv in Hd.
    assert (HB : (1 - u) ^ (i + 1) * (s + B2R t) <= B2R (s_add acc t) <= (1 + u) ^ (i + 1) * (s + B2R t)).
    { rewrite Es, Ed, !pow_add, !pow_1.
      assert (L2 : (1 - u) ^ i <= 1).
      { replace 1 with (1 ^ i) at 2 by apply pow1. apply pow_incr. lra. }
      split.
      - apply Rle_trans with ((1 - u) ^ i * (s + B2R t) * (1 - u)); [lra|].
        apply Rmult_le_compat; try nra.
      - apply Rle_trans with ((1 + u) ^ i * (s + B2R t) * (1 + u)); [|lra].
        apply Rmult_le_compat; try nra. }
    destruct (IH (i + 1)%nat (s_add acc t) (s + B2R t)) as (R1 & R2 & R3); auto.
    { intros t' Ht'. apply Ht. right; auto. }
    { rewrite plus_INR. cbn [INR]. split; nra. }
    { lia. }
    cbn zeta in *. cbn [fold_left map fold_right length].
    replace (i + S (length ts))%nat with (i + 1 + length ts)%nat by lia.
    rewrite <- Rplus_assoc. split; [exact R1|]. split; [exact R2|].
    intros Hg HN HG Gs Eas. apply R3; auto.
    { intros t' Ht'. apply HG. right; auto. }
    { apply grid_plus; auto. apply HG. left; auto. }
    rewrite Es, Eas. apply rnd_fmt; auto.
    apply grid_fmt; auto.
    { apply grid_plus; auto. apply HG. left; auto. }
    rewrite Rabs_pos_eq by lra. eapply Rle_lt_trans; [|exact HN]. nra.
Qed.

Lemma Dhat_terms j : (j < N)%nat ->
  Dhat j = fold_left s_add (map (fun k => m_app m (s_sub (get q k) (coord sp k j))) (seq 0 n)) s_zero.
Proof.
  intros Hj. unfold Dhat. rewrite (fm_dist _ _ _ FM). unfold sum_op.
  rewrite (combine_get q (sp_at sp j) n); auto.
  2:{ apply (sp_at_length sp WF). apply in_space_lt; auto. }
  generalize (s_zero : F). induction (seq 0 n) as [|k l IH]; intros z; auto.
  cbn [map fold_left]. apply IH.
Qed.

Lemma Dhat_bounds j : (j < N)%nat ->
  fin (Dhat j)
  /\ (1 - u) ^ n * sumR n (term j) <= B2R (Dhat j) <= (1 + u) ^ n * sumR n (term j)
  /\ (exactly -> B2R (Dhat j) = sumR n (term j)).
Proof.
  intros Hj. rewrite Dhat_terms by auto.
  set (ts := map _ (seq 0 n)).
  assert (Ets : map B2R ts = map (term j) (seq 0 n)).
  { unfold ts. rewrite map_map. apply map_ext_in. intros k Hk. apply in_seq in Hk.
    apply app_diff; [apply q_below; lia|apply c_below; auto; lia]. }
  assert (Hts : forall t, In t ts -> fin t /\ 0 <= B2R t <= B).
  { intros t Ht. apply in_map_iff in Ht as (k & <- & Hk). apply in_seq in Hk.
    destruct (app_diff (get q k) (coord sp k j)) as (A & C & D); [apply q_below; lia|apply c_below; auto; lia|].
    rewrite C. auto. }
  assert (Lts : length ts = n) by (unfold ts; rewrite map_length, seq_length; auto).
  destruct (fold_sum ts 0 s_zero 0) as (A & C & D); auto.
  { reflexivity. } { rewrite R_zero. cbn. lra. } { cbn. lra. } { lia. }
  cbn zeta in *. rewrite Ets, Lts, Rplus_0_l in *. cbn [Nat.add] in *. fold (sumR n (term j)) in *.
  split; auto. split; auto. intros [H1|(Hg & HN & HG)].
  - (* one coordinate *)
    clear A C D. revert Hts Lts Ets. rewrite H1. destruct ts as [|t [|]]; intros; try discriminate.
    cbn in Ets. injection Ets as Ets. unfold sumR. cbn [seq map fold_right fold_left]. rewrite Rplus_0_r, <- Ets.
    destruct (Hts t (or_introl eq_refl)) as [Ft Bt].
    destruct (add_R prec emax Hprec Hmax s_zero t) as [_ E]; auto.
    { reflexivity. }
    { rewrite R_zero, Rplus_0_l, rnd_fmt by (auto; apply fmt_B2R).
      rewrite Rabs_pos_eq by lra. pose proof (R_range prec emax Hprec Hmax t).
      rewrite Rabs_pos_eq in H by lra. eapply Rle_lt_trans; [exact H|]. apply max_lt_pow; auto. }
    rewrite E, R_zero, Rplus_0_l. apply rnd_fmt; auto. apply fmt_B2R.
  - apply D; auto; [|apply grid_0].
    intros t Ht. apply in_map_iff in Ht as (k & <- & Hk). apply in_seq in Hk.
    destruct (app_diff (get q k) (coord sp k j)) as (_ & -> & _); [apply q_below; lia|apply c_below; auto; lia|].
    apply HG; auto. lia.
Qed.

(** ** The search *)
Variable top : nat.    (* the height of the tree *)
Hypothesis HU : INR (2 * top) * u <= / 2.

Record LBf (s : nat) (o : list F) (d : F) (l : list nat) : Prop := {
  lf_len : length o = n;
  lf_off : forall k, (k < n)%nat -> fin (get o k) /\ 0 <= B2R (get o k) <= B;
  lf_fin : fin d;
  lf_err : Rabs (B2R d - sumR n (fun k => B2R (get o k)))
           <= ((1 + u) ^ (2 * s) - 1) * sumR n (fun k => B2R (get o k));
  lf_exact : exactly -> B2R d = sumR n (fun k => B2R (get o k));
  lf_grid : (forall j k, (j < N)%nat -> (k < n)%nat -> grid (term j k)) ->
            forall k, (k < n)%nat -> grid (B2R (get o k));
  lf_low : forall j k, In j l -> (k < n)%nat -> B2R (get o k) <= term j k;
  lf_in : forall j, In j l -> (j < N)%nat
}.

Lemma LBf_incl s o d l l' : LBf s o d l -> incl l' l -> LBf s o d l'.
Proof. intros [] H. constructor; auto. Qed.

Lemma grid_sum k f : (forall i, (i < k)%nat -> grid (f i)) -> grid (sumR k f).
Proof.
  induction k; intros H; [apply grid_0|]. rewrite sumR_S. apply grid_plus; auto.
Qed.

Lemma LBf_start l : incl l (seq 0 N) -> LBf 0 (offsets0 sp) s_zero l.
Proof.
  intros Hl.
  assert (Z : forall k, (k < n)%nat -> get (offsets0 sp) k = (s_zero : F)).
  { intros k Hk. unfold offsets0, get. rewrite nth_tab by auto. reflexivity. }
  assert (S0 : sumR n (fun k => B2R (get (offsets0 sp) k)) = 0).
  { rewrite (sumR_ext n _ (fun _ => 0)) by (intros; rewrite Z by auto; reflexivity).
    clear. induction n; [reflexivity|]. rewrite sumR_S, IHn0. lra. }
  constructor.
  - apply length_tab.
  - intros k Hk. rewrite Z by auto. split; [reflexivity|]. rewrite R_zero. pose proof B_nonneg. lra.
  - reflexivity.
  - rewrite S0, R_zero. rewrite Rminus_0_r, Rabs_R0. lra.
  - intros _. rewrite S0. reflexivity.
  - intros _ k Hk. rewrite Z by auto. rewrite R_zero. apply grid_0.
  - intros j k Hj Hk. rewrite Z by auto. rewrite R_zero. apply term_bounds; auto.
    apply Hl in Hj. apply in_seq in Hj. lia.
  - intros j Hj. apply Hl in Hj. apply in_seq in Hj. lia.
Qed.

Lemma LBf_step s o d l l' sd no old :
  (s < top)%nat -> LBf s o d l -> incl l' l -> (sd < n)%nat -> at_ o sd = Ok old ->
  fin no -> 0 <= B2R no <= B -> B2R old <= B2R no ->
  ((forall j k, (j < N)%nat -> (k < n)%nat -> grid (term j k)) -> grid (B2R no)) ->
  (forall j, In j l' -> B2R no <= term j sd) ->
  LBf (s + 1) (set_nth o sd no) (s_add (s_sub d old) no) l'.
Proof.
  intros Hs [A1 A2 A3 A4 A5 A6 A7 A8] HI Hsd Ho Fno Bno Hon Gno Lno.
  pose proof u_bounds as [U0 U1]. pose proof B_nonneg as B0.
  set (S := sumR n (fun k => B2R (get o k))) in *.
  assert (Eold : get o sd = old).
  { apply at_ok in Ho. unfold get. apply nth_error_nth. exact Ho. }
  destruct (A2 sd Hsd) as [Fold Bold]. rewrite Eold in *.
  assert (ES : sumR n (fun k => B2R (get (set_nth o sd no) k)) = S - B2R old + B2R no).
  { rewrite (sumR_update n (fun k => B2R (get o k)) (fun k => B2R (get (set_nth o sd no) k)) sd); auto.
    - rewrite get_set_same by lia. rewrite Eold. reflexivity.
    - intros k Hk Hne. rewrite get_set_other by auto. reflexivity. }
  assert (Sold : B2R old <= S).
  { rewrite <- Eold. unfold S. apply (sumR_ge_one n (fun k => B2R (get o k))); auto. intros k Hk. apply A2; auto. }
  assert (SB : S <= INR n * B) by (apply sumR_bound; intros k Hk; apply A2; auto).
  assert (P2s : (1 + u) ^ (2 * s) <= 2).
  { eapply Rle_trans; [apply (pow_mono u) with (k := (2 * top)%nat); [lra|lia]|].
    apply pow_upper; auto; lra. }
  pose proof (pow_ge_1 u ltac:(lra) (2 * s)) as P1s.
  assert (D0 : 0 <= B2R d <= 2 * S).
  { apply Rabs_le_inv in A4. nra. }
  set (P := (1 + u) ^ (2 * s)) in *.
  assert (Fd := fmt_B2R prec emax d). assert (FoF := fmt_B2R prec emax old). assert (FnF := fmt_B2R prec emax no).
  assert (Em : (emin <= emax - 2)%Z) by (pose proof (prec_emax prec emax Hmax); rewrite emin_eq; lia).
  assert (E32 : pow2 (emax - 2) = 2 * pow2 (emax - 3)).
  { replace (emax - 2)%Z with (emax - 3 + 1)%Z by ring. apply pow_double. }
  assert (E21 : pow2 (emax - 1) = 2 * pow2 (emax - 2)).
  { replace (emax - 1)%Z with (emax - 2 + 1)%Z by ring. apply pow_double. }
  assert (Bn : B <= INR n * B).
  { assert (1 <= INR n) by (change 1 with (INR 1); apply le_INR; lia). nra. }
  assert (RA : Rabs (rnd (B2R d - B2R old)) <= pow2 (emax - 2)).
  { apply rnd_pow; auto. apply Rabs_le. lra. }
  destruct (sub_R prec emax Hprec Hmax d old A3 Fold) as [Fa Ea].
  { apply (lt_emax emax _ (emax - 2)); auto. lia. }
  assert (FaF := fmt_B2R prec emax (s_sub d old)).
  assert (RB : Rabs (rnd (B2R (s_sub d old) + B2R no)) <= pow2 (emax - 1)).
  { apply rnd_pow; [auto|lia|]. rewrite Ea. apply Rabs_le_inv in RA. apply Rabs_le. lra. }
  destruct (add_R prec emax Hprec Hmax (s_sub d old) no Fa Fno) as [Fr Er].
  { apply (lt_emax emax _ (emax - 1)); auto. lia. }
  assert (X : exactly -> B2R (s_add (s_sub d old) no) = S - B2R old + B2R no).
  { intros EX. specialize (A5 EX). rewrite Er, Ea, A5.
    destruct EX as [H1|(Hg & HN & HG)].
    - assert (S = B2R old) as ->.
      { unfold S. rewrite H1. assert (sd = 0%nat) as Esd by lia. rewrite <- Eold, Esd. unfold sumR. cbn. lra. }
      replace (B2R old - B2R old) with 0 by ring. rewrite rnd_0, !Rplus_0_l by auto. apply rnd_fmt; auto.
    - assert (GS : grid S) by (apply grid_sum; auto).
      assert (Go : grid (B2R old)) by (rewrite <- Eold; auto).
      rewrite (rnd_fmt prec emax (S - B2R old)).
      2:{ apply grid_fmt; auto. { apply grid_minus; auto. } rewrite Rabs_pos_eq; lra. }
      apply rnd_fmt; auto. apply grid_fmt; auto. { apply grid_plus; [apply grid_minus|]; auto. }
      rewrite Rabs_pos_eq by lra. rewrite <- ES. eapply Rle_lt_trans; [|exact HN].
      apply sumR_bound. intros k Hk. destruct (Nat.eq_dec sd k) as [<-|Hne].
      + rewrite get_set_same by lia. lra.
      + rewrite get_set_other by auto. apply A2; auto. }
  constructor.
  - rewrite length_set_nth. auto.
  - intros k Hk. destruct (Nat.eq_dec sd k) as [<-|Hne].
    + rewrite get_set_same by lia. auto.
    + rewrite get_set_other by auto. auto.
  - exact Fr.
  - rewrite ES, Er, Ea.
    destruct (rnd_minus (B2R d) (B2R old) Fd FoF) as (e1 & H1 & Q1).
    destruct (rnd_plus (B2R (s_sub d old)) (B2R no) FaF FnF) as (e2 & H2 & Q2).
    rewrite Ea in Q2. rewrite Q2, Q1.
    replace (2 * (s + 1))%nat with (2 * s + 2)%nat by lia. rewrite pow_add. fold P.
    set (r := S - B2R old). set (v := B2R no) in *. set (E := B2R d - S) in *.
    replace (B2R d - B2R old) with (E + r) by (unfold E, r; ring).
    fold E in A4. clearbody E.
    assert (R0 : 0 <= r) by (unfold r; lra).
    assert (SS : S <= r + v) by (unfold r; lra).
    clearbody r v. clear - A4 H1 H2 R0 SS P1s U0 U1 Bno Sold Bold. destruct Bno as [V0 _].
    replace (((E + r) * (1 + e1) + v) * (1 + e2) - (r + v))
      with (E * ((1 + e1) * (1 + e2)) + r * ((1 + e1) * (1 + e2) - 1) + v * e2) by ring.
    assert (Q : Rabs ((1 + e1) * (1 + e2) - 1) <= (1 + u) ^ 2 - 1).
    { replace ((1 + e1) * (1 + e2) - 1) with (e1 + e2 + e1 * e2) by ring.
      eapply Rle_trans; [apply Rabs_triang|]. rewrite Rabs_mult.
      assert (Rabs (e1 + e2) <= 2 * u) by (eapply Rle_trans; [apply Rabs_triang|lra]).
      assert (Rabs e1 * Rabs e2 <= u * u).
      { apply Rmult_le_compat; auto using Rabs_pos. }
      cbn [pow]. lra. }
    assert (Q' : Rabs ((1 + e1) * (1 + e2)) <= (1 + u) ^ 2).
    { replace ((1 + e1) * (1 + e2)) with (1 + ((1 + e1) * (1 + e2) - 1)) by ring.
      eapply Rle_trans; [apply Rabs_triang|]. rewrite Rabs_R1. lra. }
    eapply Rle_trans; [apply Rabs_triang|].
    eapply Rle_trans; [apply Rplus_le_compat_r, Rabs_triang|].
    rewrite (Rabs_mult E), (Rabs_mult r), (Rabs_mult v), (Rabs_pos_eq r), (Rabs_pos_eq v) by auto.
    set (W := (1 + u) ^ 2) in *.
    assert (W1 : 1 + u <= W) by (unfold W; cbn [pow]; nra).
    assert (T1 : Rabs E * Rabs ((1 + e1) * (1 + e2)) <= (P - 1) * (r + v) * W).
    { apply Rmult_le_compat; auto using Rabs_pos. eapply Rle_trans; [exact A4|].
      apply Rmult_le_compat_l; lra. }
    assert (T2 : r * Rabs ((1 + e1) * (1 + e2) - 1) <= r * (W - 1)) by (apply Rmult_le_compat_l; auto).
    assert (T3 : v * Rabs e2 <= v * (W - 1)).
    { apply Rmult_le_compat_l; auto. lra. }
    replace ((P * W - 1) * (r + v)) with ((P - 1) * (r + v) * W + r * (W - 1) + v * (W - 1)) by ring.
    lra.
  - intros EX. rewrite ES. auto.
  - intros G k Hk. destruct (Nat.eq_dec sd k) as [<-|Hne].
    + rewrite get_set_same by lia. auto.
    + rewrite get_set_other by auto. auto.
  - intros j k Hj Hk. destruct (Nat.eq_dec sd k) as [<-|Hne].
    + rewrite get_set_same by lia. auto.
    + rewrite get_set_other by auto. auto.
  - intros j Hj. apply A8, HI, Hj.
Qed.

Lemma go_left_R lm rm v : below prec emax e lm -> below prec emax e rm -> below prec emax e v ->
  B2R lm <= B2R rm ->
  if s_ltb s_zero (s_sub (s_sub (s_add lm rm) v) v) then B2R v <= B2R rm else B2R lm <= B2R v.
Proof.
  intros [F1 H1] [F2 H2] [F3 H3] HL.
  assert (G1 := fmt_B2R prec emax lm). assert (G2 := fmt_B2R prec emax rm). assert (G3 := fmt_B2R prec emax v).
  apply Rabs_le_inv in H1, H2, H3.
  assert (Em : (emin <= emax - 2)%Z) by (pose proof (prec_emax prec emax Hmax); rewrite emin_eq; lia).
  pose proof (pow_double e) as Q1.
  assert (Q2 : pow2 (e + 2) = 4 * pow2 e) by (rewrite bpow_plus; cbn; lra).
  assert (Q3 : pow2 (e + 3) <= pow2 (emax - 1)) by (apply bpow_le; lia).
  assert (Q4 : pow2 (e + 3) = 8 * pow2 e) by (rewrite bpow_plus; cbn; lra).
  assert (Q5 : pow2 (emax - 1) < pow2 emax) by (apply bpow_lt; lia).
  (* no overflow: every rounded value is between representable multiples *)
  set (M := B2R (s_max : F)).
  assert (FMx : fmt M) by apply fmt_B2R.
  assert (MG : pow2 (emax - 1) <= M) by (apply max_ge_pow; auto).
  assert (ML : M < pow2 emax) by (apply max_lt_pow; auto).
  assert (RL : forall x, Rabs x <= pow2 (emax - 1) -> Rabs (rnd x) <= M).
  { intros x Hx. apply rnd_abs_le; auto. lra. }
  assert (E0 := bpow_gt_0 radix2 e).
  (* sum *)
  assert (B1 : - (2 * pow2 e) <= B2R lm + B2R rm <= 2 * pow2 e) by lra.
  destruct (add_R prec emax Hprec Hmax lm rm F1 F2) as [A1 A2].
  { eapply Rle_lt_trans; [apply RL|exact ML]. apply Rabs_le. lra. }
  (* bounds of the rounded sum by doubled arguments *)
  assert (LO1 : 2 * B2R lm <= B2R (s_add lm rm)).
  { rewrite A2. rewrite <- (rnd_fmt prec emax (2 * B2R lm)) by (apply fmt_double; auto).
    apply rnd_le; auto. lra. }
  assert (HI1 : B2R (s_add lm rm) <= 2 * B2R rm).
  { rewrite A2. rewrite <- (rnd_fmt prec emax (2 * B2R rm)) by (apply fmt_double; auto).
    apply rnd_le; auto. lra. }
  destruct (sub_R prec emax Hprec Hmax (s_add lm rm) v A1 F3) as [A3 A4].
  { eapply Rle_lt_trans; [apply RL|exact ML]. apply Rabs_le. lra. }
  assert (FIN4 : fin (s_sub (s_sub (s_add lm rm) v) v)
     /\ B2R (s_sub (s_sub (s_add lm rm) v) v) = rnd (B2R (s_sub (s_add lm rm) v) - B2R v)).
  { apply sub_R; auto.
    assert (C : Rabs (B2R (s_sub (s_add lm rm) v)) <= 4 * pow2 e).
    { rewrite A4. destruct (Z.le_gt_cases emin (e + 2)) as [He|He].
      - rewrite <- Q2. apply rnd_pow; auto. rewrite Q2. apply Rabs_le. lra.
      - (* everything is below the smallest positive number: zero *)
        assert (Z0 : forall x, fmt x -> Rabs x <= pow2 e -> x = 0).
        { intros x Fx Hx. destruct (Req_dec x 0); auto. exfalso.
          pose proof (fmt_min prec emax x Fx H). assert (pow2 e < pow2 emin) by (apply bpow_lt; lia). lra. }
        assert (ZS : forall x, fmt x -> Rabs x <= 4 * pow2 e -> x = 0).
        { intros x Fx Hx. destruct (Req_dec x 0); auto. exfalso.
          pose proof (fmt_min prec emax x Fx H). rewrite <- Q2 in Hx.
          assert (pow2 (e + 2) < pow2 emin) by (apply bpow_lt; lia). lra. }
        assert (B2R (s_add lm rm) = 0) as ->.
        { apply ZS; [apply fmt_B2R|]. apply Rabs_le. lra. }
        rewrite (Z0 (B2R v)); auto; [|apply Rabs_le; lra].
        rewrite Rminus_0_r, rnd_0, Rabs_R0. lra. }
    apply Rabs_le_inv in C.
    eapply Rle_lt_trans; [apply RL|exact ML]. apply Rabs_le. lra. }
  destruct FIN4 as [A5 A6].
  destruct (s_ltb _ _) eqn:EL.
  - apply ltb_R in EL; auto; [|reflexivity]. rewrite R_zero, A6 in EL.
    destruct (Rle_or_lt (B2R v) (B2R rm)) as [|HC]; auto. exfalso.
    assert (B2R (s_sub (s_add lm rm) v) <= B2R v).
    { rewrite A4. replace (B2R v) with (rnd (B2R v)) at 2 by (apply rnd_fmt; auto).
      apply rnd_le; auto. lra. }
    assert (rnd (B2R (s_sub (s_add lm rm) v) - B2R v) <= 0) by (apply rnd_le_0; auto; lra). lra.
  - apply ltb_R_false in EL; auto; [|reflexivity]. rewrite R_zero, A6 in EL.
    destruct (Rle_or_lt (B2R lm) (B2R v)) as [|HC]; auto. exfalso.
    assert (B2R lm <= B2R (s_sub (s_add lm rm) v)).
    { rewrite A4. replace (B2R lm) with (rnd (B2R lm)) at 1 by (apply rnd_fmt; auto).
      apply rnd_le; auto. lra. }
    assert (rnd (B2R lm - B2R v) <= rnd (B2R (s_sub (s_add lm rm) v) - B2R v)) by (apply rnd_le; auto; lra).
    assert (0 <= rnd (B2R lm - B2R v)) by (apply rnd_ge_0; auto; lra).
    assert (NZ : rnd (B2R lm + - B2R v) <> 0).
    { apply round_plus_neq_0; auto; try typeclasses eauto. { apply generic_format_opp; auto. } lra. }
    replace (B2R lm + - B2R v) with (B2R lm - B2R v) in NZ by ring. lra.
Qed.

Lemma phi_rnd_mono x y : (0 <= x <= y \/ y <= x <= 0) -> phi (Rabs (rnd x)) <= phi (Rabs (rnd y)).
Proof.
  intros H. apply (fm_mono _ _ _ FM). split; [apply Rabs_pos|]. rewrite !rnd_abs by auto.
  apply rnd_le; auto. destruct H as [H|H].
  - rewrite !Rabs_pos_eq; lra.
  - rewrite !Rabs_left1; lra.
Qed.

Lemma step_float s br l r o d :
  (s < top)%nat -> R_tight fin sp Euclidean br l r -> incl (l ++ r) (seq 0 N) -> LBf s o d (l ++ r) ->
  exists sd gl no old, decide_euclidean m q br = Ok (sd, gl, no) /\ at_ o sd = Ok old
    /\ LBf (s + 1) (set_nth o sd no) (s_add (s_sub d old) no) (if gl : bool then r else l).
Proof.
  intros Hs (lb & rb & sd & [-> Hd W1 W2 O1 O2 Ho1 Ho2 T1 T2 Hord]) HI HL.
  cbn [set_branch]. unfold decide_euclidean. cbn [bs_split_dim bs_left_max bs_right_min].
  assert (Il : forall i, In i l -> (i < N)%nat).
  { intros i Hi. assert (In i (seq 0 N)) by (apply HI, in_or_app; auto). apply in_seq in H. lia. }
  assert (Ir : forall i, In i r -> (i < N)%nat).
  { intros i Hi. assert (In i (seq 0 N)) by (apply HI, in_or_app; auto). apply in_seq in H. lia. }
  fold n in Hd. rewrite (at_lt q _ s_zero) by lia. cbn [bind]. fold (get q sd).
  set (v := get q sd). set (lm := get (box_max lb) sd) in *. set (rm := get (box_min rb) sd) in *.
  destruct (O1 sd Hd) as [_ Flm]. fold lm in Flm. destruct (O2 sd Hd) as [Frm _]. fold rm in Frm.
  destruct (T1 sd Hd) as [_ (jl & Hjl & Ejl)]. destruct (T2 sd Hd) as [(jr & Hjr & Ejr) _].
  fold lm in Ejl. fold rm in Ejr.
  assert (Cl := c_below jl sd (Il _ Hjl) Hd). assert (Cr := c_below jr sd (Ir _ Hjr) Hd).
  assert (LE : forall x y : F, fin x -> fin y -> s_leb x y = true -> B2R x <= B2R y).
  { intros x y Fx Fy H. apply leb_R in H; auto. }
  assert (Kl : forall i, In i l -> B2R (coord sp sd i) <= B2R lm).
  { intros i Hi. apply LE; auto; [apply c_below; auto|]. apply (Ho1 i Hi sd Hd). }
  assert (Kr : forall i, In i r -> B2R rm <= B2R (coord sp sd i)).
  { intros i Hi. apply LE; auto; [apply c_below; auto|]. apply (Ho2 i Hi sd Hd). }
  assert (El : B2R lm = B2R (coord sp sd jl)).
  { apply Rle_antisym; auto. apply LE; auto. apply Cl. }
  assert (Er : B2R rm = B2R (coord sp sd jr)).
  { apply Rle_antisym; auto. apply LE; auto. apply Cr. }
  assert (Bl : below prec emax e lm) by (split; [auto|rewrite El; apply Cl]).
  assert (Br : below prec emax e rm) by (split; [auto|rewrite Er; apply Cr]).
  assert (Bv : below prec emax e v) by (apply q_below; auto).
  assert (Hlr : B2R lm <= B2R rm) by (apply LE; auto).
  assert (Eo : at_ o sd = Ok (get o sd)) by (apply at_lt; rewrite (lf_len _ _ _ _ HL); auto).
  pose proof (go_left_R lm rm v Bl Br Bv Hlr) as GL.
  do 4 eexists. split; [reflexivity|]. split; [exact Eo|].
  destruct (app_diff rm v Br Bv) as (R1 & R2 & R3). destruct (app_diff lm v Bl Bv) as (L1 & L2 & L3).
  assert (Tr : B2R (m_app m (s_sub rm v)) = term jr sd).
  { rewrite R2, Er. unfold term. rewrite phi_sym. reflexivity. }
  assert (Tl : B2R (m_app m (s_sub lm v)) = term jl sd).
  { rewrite L2, El. unfold term. rewrite phi_sym. reflexivity. }
  destruct (s_ltb _ _).
  - eapply LBf_step; eauto.
    + intros x Hx. apply in_or_app; auto.
    + rewrite R2. auto.
    + rewrite Tr. apply (lf_low _ _ _ _ HL); auto. apply in_or_app; auto.
    + intros G. rewrite Tr. apply G; auto.
    + intros j Hj. rewrite R2. unfold term. rewrite (phi_sym (B2R (get q sd))). fold v.
      apply phi_rnd_mono. left. specialize (Kr j Hj). lra.
  - eapply LBf_step; eauto.
    + intros x Hx. apply in_or_app; auto.
    + rewrite L2. auto.
    + rewrite Tl. apply (lf_low _ _ _ _ HL); auto. apply in_or_app; auto.
    + intros G. rewrite Tl. apply G; auto.
    + intros j Hj. rewrite L2. unfold term. rewrite (phi_sym (B2R (get q sd))). fold v.
      apply phi_rnd_mono. right. specialize (Kl j Hj). lra.
Qed.

(** The factor by which a skipped point may still be nearer. *)
Definition skipped (x : F) (j : nat) : Prop :=
  (1 - u) ^ n * B2R x < (1 + u) ^ (2 * top) * B2R (Dhat j) /\ (exactly -> B2R x < B2R (Dhat j)).

Lemma prune_float s o d l x j : (s <= top)%nat -> LBf s o d l -> fin x -> s_leb d x = false ->
  In j l -> skipped x j.
Proof.
  intros Hs [A1 A2 A3 A4 A5 A6 A7 A8] Fx EL Hj. pose proof (A8 j Hj) as HjN. apply leb_R_false in EL; auto.
  pose proof u_bounds as [U0 U1].
  destruct (Dhat_bounds j HjN) as (D1 & D2 & D3).
  set (S := sumR n (fun k => B2R (get o k))) in *.
  assert (ST : S <= sumR n (term j)) by (apply sumR_le; intros k Hk; apply A7; auto).
  assert (S0 : 0 <= S) by (apply sumR_nonneg; intros k Hk; apply A2; auto).
  split.
  - apply Rabs_le_inv in A4.
    assert (PM := pow_mono u ltac:(lra) (2 * s) (2 * top) ltac:(lia)).
    assert (X : B2R x < (1 + u) ^ (2 * top) * S) by nra.
    assert (LP : 0 < (1 - u) ^ n) by (apply pow_lt; lra).
    assert (UP : 0 <= (1 + u) ^ (2 * top)) by (apply pow_le; lra).
    apply Rlt_le_trans with ((1 - u) ^ n * ((1 + u) ^ (2 * top) * S)).
    { apply Rmult_lt_compat_l; auto. }
    rewrite <- Rmult_assoc, (Rmult_comm ((1 - u) ^ n)), Rmult_assoc.
    apply Rmult_le_compat_l; auto.
    eapply Rle_trans; [|apply D2]. apply Rmult_le_compat_l; lra.
  - intros EX. rewrite D3 by auto. rewrite A5 in EL by auto. lra.
Qed.

Section Visitor.
Context {V : Type} (vis : visitor F V).
Variable (Inv : V -> Prop).
Hypotheses
  (V_inv : forall st i, Inv st -> (i < N)%nat -> Inv (v_visit vis i (Dhat i) st))
  (V_fin : forall st, Inv st -> fin (v_max vis st))
  (V_mono : forall st i, Inv st -> (i < N)%nat ->
     B2R (v_max vis (v_visit vis i (Dhat i) st)) <= B2R (v_max vis st)).

Lemma search_float c (root : node (branch_data c F)) idx v0 : m_cat m = c ->
  node_spans (R_tight fin sp c) root 0 idx -> Permutation idx (seq 0 N) ->
  (node_height root <= top)%nat -> Inv v0 ->
  exists tr rest, Permutation (tr ++ rest) (seq 0 N)
    /\ search_nearest_root m c vis sp idx q root v0 = Ok (visits m vis sp q tr v0)
    /\ Inv (visits m vis sp q tr v0)
    /\ forall j, In j rest -> skipped (v_max vis (visits m vis sp q tr v0)) j.
Proof.
  intros Hc NS P HT HI. rewrite (fm_cat _ _ _ FM) in Hc. subst c.
  assert (Hin : forall i, In i idx <-> (i < N)%nat).
  { intros i. rewrite <- In_seq0. split; apply Permutation_in; auto; symmetry; auto. }
  destruct (search_gen_levels m vis sp idx q (R_tight fin sp Euclidean) (decide_euclidean m q)
              Inv (fun st j => skipped (v_max vis st) j) LBf top idx) with
    (nd := root) (b := 0%nat) (l := idx) (s := 0%nat) (pre := @nil nat) (post := @nil nat)
    (o := offsets0 sp) (d := s_zero (Scalar := SF prec emax Hprec Hmax)) (st := v0)
    as (tr & rest & Pt & E & HF); auto.
  - intros st i HIs Hi. apply V_inv; auto. apply Hin; auto.
  - intros st i j HIs Hi [S1 S2]. apply Hin in Hi. specialize (V_mono st i HIs Hi).
    pose proof u_bounds as [U0 U1]. unfold Dhat in *. split.
    + eapply Rle_lt_trans; [|exact S1]. apply Rmult_le_compat_l; auto. apply pow_le. lra.
    + intros EX. eapply Rle_lt_trans; [exact V_mono|exact (S2 EX)].
  - intros. eapply LBf_incl; eauto.
  - intros s o d l st Hs HL HIs EL j Hj. eapply prune_float; eauto.
  - intros s br l r o d Hs HR Hi HL. apply step_float; auto.
    intros x Hx. apply In_seq0, Hin, Hi, Hx.
  - rewrite app_nil_r. reflexivity.
  - apply Forall_forall. intros i Hi. apply in_space_lt. apply Hin; auto.
  - apply incl_refl.
  - apply LBf_start. intros x Hx. apply In_seq0, Hin, Hx.
  - exists tr, rest. split; [rewrite Pt; auto|]. split.
    + rewrite search_nearest_root_gen. cbn [decide]. rewrite E. reflexivity.
    + split; auto. apply (visits_inv m vis sp q Inv idx); auto.
      * intros st i HIs Hi. apply V_inv; auto. apply Hin; auto.
      * intros x Hx. eapply Permutation_in; [exact Pt|]. apply in_or_app; auto.
Qed.
End Visitor.
End Search.
