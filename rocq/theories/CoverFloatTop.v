(** Statements about cover trees in floating point. *)
From Coq Require Import List ZArith Reals Bool Arith Permutation Sorted Lia Lra.
From Flocq Require Import Core.Core IEEE754.BinarySingleNaN Plus_error Relative.
From Verif Require Import Base ModelBox ModelBuild ModelSearch Spec SpecRound ModelCover SpecCover SpecReal
  SpecCoverFloat Lemmas BuildProofs BuildShape BuildThms SearchProofs Visitors QueryThms TopThms OrdThms
  Floats FloatThms FloatSearch FloatQuery CoverThms CoverSearch CoverReal CoverFloat CoverFloatThms.
Import ListNotations.
Local Open Scope R_scope.

Section Top.
Variables (prec emax : Z).
Context (Hprec : Prec_gt_0 prec) (Hmax : Prec_lt_emax prec emax) (P2 : (2 <= prec)%Z).
Local Notation F := (binary_float prec emax).
Local Notation FS := (Float_scalar prec emax Hprec Hmax).
Local Notation fin := (finite prec emax).
Local Notation fexp := (SpecFloat.fexp prec emax).
Local Notation emin := (SpecFloat.emin prec emax).
Local Notation rnd := (round radix2 fexp ZnearestE).
Local Notation pow2 := (bpow radix2).
Local Notation u := (bpow radix2 (- prec)).
Local Existing Instance SF.

Lemma true_nonneg em sp q j : 0 <= true_dist prec emax em sp q j.
Proof.
  unfold true_dist. apply sumR_nonneg. intros k _. destruct em; try apply Rabs_pos; apply Rle_0_sqr.
Qed.

Lemma pow_facts : 1 <= pow2 (emax - 3) /\ 4 * pow2 (emax - 3) < B2R (s_max : F).
Proof.
  pose proof (prec_emax prec emax Hmax). split.
  - change 1 with (pow2 0). apply bpow_le. lia.
  - eapply Rle_lt_trans; [|apply (max_gt_pow prec emax Hprec Hmax P2)].
    replace (emax - 1)%Z with (2 + (emax - 3))%Z by ring. rewrite bpow_plus. change (pow2 2) with 4. lra.
Qed.

Section L1.
Variables (e : Z) (sp : space F) (q : list F).
Hypothesis FI : float_input prec emax L1 e sp bounds_from_space q.
Let n := sp_sdim sp.
Let N := npts sp.
Let eps := 2 * INR (n + 3) * u.
Let tq := true_dist prec emax L1 sp q.
Let tp (i j : nat) := true_dist prec emax L1 sp (sp_at sp i) j.
Variables (cm : cmath F) (alg : std_algos) (SL : std_laws alg) (shuffle : list nat -> list nat) (SH : shuffles shuffle).
Variables (fuel : nat) (base : F) (t : cover_tree F).
Hypothesis HM : cover_tree_make cm alg shuffle metric_l1 fuel sp base = Ok t.
Hypothesis NU : INR (n + 3) * u <= / 16.

Lemma NU2 : INR (n + 3) * u <= / 2. Proof. lra. Qed.
Lemma eps_bounds : u <= eps <= / 8.
Proof.
  unfold eps. split; [|lra]. pose proof (bpow_ge_0 radix2 (- prec)).
  assert (3 <= INR (n + 3)) by (rewrite plus_INR; pose proof (pos_INR n); cbn; lra). nra.
Qed.

Lemma l1_searches w : spread prec emax (true_dist prec emax L1 sp) sp w ->
  cover_searches_upto prec emax Hprec Hmax alg t N q (computed prec emax Hprec Hmax L1 sp q)
    (fun j => limit eps 0 w (tq j)).
Proof.
  intros W. pose proof eps_bounds as [E1 E2]. pose proof pow_facts as [X1 X2].
  assert (U0 : 0 < u) by apply bpow_gt_0.
  assert (PI : forall i, (i < N)%nat -> float_input prec emax L1 e sp bounds_from_space (sp_at sp i)).
  { intros i Hi. apply (point_input prec emax L1 e sp q i FI Hi). }
  set (w' := Rmin w (pow2 (emax - 3))).
  apply (upto_mono prec emax Hprec Hmax alg t N q _ (fun j => limit eps 0 w' (tq j))).
  { intros j _. unfold limit. assert (w' <= w) by apply Rmin_l.
    assert (eps * w' <= eps * w) by (apply Rmult_le_compat_l; lra). lra. }
  refine (accurate_searches prec emax Hprec Hmax P2 metric_l1 sp q tq tp eps 0 w' _ _ _ _ _ _ _ _ _ E1 E2 (Rle_refl 0) _ _
    (fi_length _ _ _ _ _ _ _ FI) cm alg SL shuffle SH fuel base t HM).
  - exact (input_fin prec emax Hprec Hmax P2 L1 e sp q FI NU2).
  - intros i j. destruct (Nat.lt_ge_cases i N) as [Hi|Hi].
    + exact (input_fin prec emax Hprec Hmax P2 L1 e sp _ (PI i Hi) NU2 j).
    + unfold sp_at. rewrite (nth_overflow _ _ Hi). reflexivity.
  - intros j Hj. apply (input_facts prec emax Hprec Hmax P2 L1 e sp q FI NU2 j Hj).
  - intros i j Hi Hj. apply (input_facts prec emax Hprec Hmax P2 L1 e sp _ (PI i Hi) NU2 j Hj).
  - intros j _. apply true_nonneg.
  - intros i j _ _. apply true_nonneg.
  - intros j Hj. pose proof (computed_accurate prec emax Hprec Hmax P2 L1 e sp _ q FI j Hj NU2) as K.
    unfold accurate in K. exact K.
  - intros i j Hi Hj. pose proof (computed_accurate prec emax Hprec Hmax P2 L1 e sp _ _ (PI i Hi) j Hj NU2) as K.
    unfold accurate in K. exact K.
  - intros c j Hc Hj. apply true_l1_triangle. reflexivity.
  - intros i j Hi Hj. apply Rmin_glb; [apply W; auto|].
    apply (true_bound prec emax Hprec Hmax L1 e sp _ (PI i Hi) j Hj).
  - intros j Hj. assert (w' <= pow2 (emax - 3)) by apply Rmin_r.
    pose proof (true_bound prec emax Hprec Hmax L1 e sp q FI j Hj) as B. fold (tq j) in B.
    pose proof (true_nonneg L1 sp q j) as B0. fold (tq j) in B0. unfold limit.
    assert (eps * tq j <= / 8 * tq j) by (apply Rmult_le_compat_r; lra).
    assert (eps * w' <= eps * pow2 (emax - 3)) by (apply Rmult_le_compat_l; lra).
    assert (eps * pow2 (emax - 3) <= / 8 * pow2 (emax - 3)) by (apply Rmult_le_compat_r; lra). lra.
Qed.

Lemma l1_true w : spread prec emax (true_dist prec emax L1 sp) sp w ->
  forall nn0, exists i d, cover_search_nn alg t q nn0 = Ok (Neighbor i d)
    /\ (i < N)%nat
    /\ forall j, (j < N)%nat -> tq i <= (1 + 5 * eps) * tq j + 4 * eps * w.
Proof.
  intros W nn0. destruct (l1_searches w W) as (A & _ & _). destruct (A nn0) as (i & d & E & _ & Hi & K).
  exists i, d. split; auto. split; auto. intros j Hj. pose proof eps_bounds as [E1 E2].
  assert (U0 : 0 < u) by apply bpow_gt_0.
  assert (W0 : 0 <= w).
  { eapply Rle_trans; [apply (true_nonneg L1 sp (sp_at sp i) i)|]. apply W; auto. }
  replace ((1 + 5 * eps) * tq j + 4 * eps * w) with ((1 + 5 * eps) * tq j + 4 * eps * w + 5 * 0) by ring.
  apply (true_limit eps 0 w (computed prec emax Hprec Hmax L1 sp q i) (tq i) (tq j)); auto; try lra; try apply true_nonneg.
  pose proof (computed_accurate prec emax Hprec Hmax P2 L1 e sp _ q FI i Hi NU2) as KA. exact KA.
Qed.
End L1.

(** On a grid all distances are exact. *)
Section Grid.
Variables (g e : Z) (sp : space F) (q : list F).
Hypothesis FI : float_input prec emax L1 e sp bounds_from_space q.
Hypothesis GI : grid_input prec emax L1 g e sp q.
Let n := sp_sdim sp.
Let N := npts sp.
Variables (cm : cmath F) (alg : std_algos) (SL : std_laws alg) (shuffle : list nat -> list nat) (SH : shuffles shuffle).
Variables (fuel : nat) (base : F) (t : cover_tree F).
Hypothesis HM : cover_tree_make cm alg shuffle metric_l1 fuel sp base = Ok t.
Hypothesis NU : INR (n + 3) * u <= / 2.

Lemma grid_true p : float_input prec emax L1 e sp bounds_from_space p -> grid_input prec emax L1 g e sp p ->
  forall j, (j < N)%nat -> computed prec emax Hprec Hmax L1 sp p j = true_dist prec emax L1 sp p j.
Proof.
  intros FP GP j Hj. rewrite <- (proj2 (grid_exact prec emax Hprec Hmax P2 L1 e sp _ p FP g GP) j Hj).
  assert (NU' : INR (sp_sdim sp) * u <= / 2).
  { eapply Rle_trans; [|exact NU]. apply Rmult_le_compat_r; [apply bpow_ge_0|]. apply le_INR. unfold n. lia. }
  destruct (Dhat_bounds prec emax Hprec Hmax P2 e (proj2 (fi_exp _ _ _ _ _ _ _ FP)) (metric_of L1) _ _
    (FM prec emax Hprec Hmax L1 e sp _ p FP)
    sp (fi_space _ _ _ _ _ _ _ FP) (fi_coords _ _ _ _ _ _ _ FP) p (fi_length _ _ _ _ _ _ _ FP)
    (fi_query _ _ _ _ _ _ _ FP) (fit_B prec emax L1 e sp _ p FP) NU' g j Hj) as (_ & _ & C).
  apply C. exact (proj1 (grid_exact prec emax Hprec Hmax P2 L1 e sp _ p FP g GP)).
Qed.

Lemma point_grid i : (i < N)%nat -> grid_input prec emax L1 g e sp (sp_at sp i).
Proof.
  intros Hi. destruct GI as [G1 G2 G3 G4]. constructor; auto.
  unfold all_coords in G1. rewrite Forall_forall in G1. apply G1. apply nth_In; auto.
Qed.

Lemma l1_grid : cover_searches_upto prec emax Hprec Hmax alg t N q
  (true_dist prec emax L1 sp q) (true_dist prec emax L1 sp q).
Proof.
  set (D := computed prec emax Hprec Hmax L1 sp q).
  assert (ED : forall j, (j < N)%nat -> D j = true_dist prec emax L1 sp q j) by (apply grid_true; auto).
  assert (PI : forall i, (i < N)%nat -> float_input prec emax L1 e sp bounds_from_space (sp_at sp i)).
  { intros i Hi. apply (point_input prec emax L1 e sp q i FI Hi). }
  assert (EP : forall i j, (i < N)%nat -> (j < N)%nat ->
    B2R (m_dist metric_l1 (sp_at sp i) (sp_at sp j)) = true_dist prec emax L1 sp (sp_at sp i) j).
  { intros i j Hi Hj. apply (grid_true (sp_at sp i) (PI i Hi) (point_grid i Hi) j Hj). }
  assert (K : cover_searches_upto prec emax Hprec Hmax alg t N q D D).
  { refine (cover_float_searches prec emax Hprec Hmax metric_l1 sp q D _ _ _ _ _ _ _
      (fi_length _ _ _ _ _ _ _ FI) cm alg SL shuffle SH fuel base t HM).
    - exact (input_fin prec emax Hprec Hmax P2 L1 e sp q FI NU).
    - intros i j. destruct (Nat.lt_ge_cases i N) as [Hi|Hi].
      + exact (input_fin prec emax Hprec Hmax P2 L1 e sp _ (PI i Hi) NU j).
      + unfold sp_at. rewrite (nth_overflow _ _ Hi). reflexivity.
    - intros j Hj. apply (input_facts prec emax Hprec Hmax P2 L1 e sp q FI NU j Hj).
    - intros i j Hi Hj. apply (input_facts prec emax Hprec Hmax P2 L1 e sp _ (PI i Hi) NU j Hj).
    - intros j _. apply Rle_refl.
    - intros j Hj. rewrite ED by auto. pose proof (true_bound prec emax Hprec Hmax L1 e sp q FI j Hj).
      pose proof pow_facts as [X1 X2]. lra.
    - intros c j Hc Hj. rewrite <- (rnd_fmt prec emax (D j)) by apply fmt_B2R. apply rnd_le; auto.
      rewrite EP by auto. change (B2R (m_dist metric_l1 q (sp_at sp c))) with (D c). rewrite !ED by auto.
      pose proof (true_l1_triangle prec emax L1 sp q c j eq_refl). lra. }
  destruct K as (A & B & C). split; [|split].
  - intros nn0. destruct (A nn0) as (i & d & E & Ed & Hi & K). exists i, d. split; auto. rewrite <- ED by auto.
    split; auto. split; auto. intros j Hj. rewrite <- !ED by auto. auto.
  - intros k knn0 Hk. destruct (B k knn0 Hk) as (out & E & [K1 K2 K3 K4 K5]). exists out. split; auto.
    constructor; auto.
    + intros i d Hi. destruct (K3 i d Hi) as [X ->]. split; auto.
    + intros i d j Hi Hj HN. rewrite <- ED by auto. eauto.
  - intros r sort Fr. destruct (C r sort Fr) as (l & E & [K1 K2 K3] & S). exists l. split; auto. split; auto.
    constructor; auto.
    + intros i d Hi. destruct (K2 i d Hi) as (X & -> & Y). split; auto.
    + intros i Hi HL. rewrite <- ED in HL by auto. auto.
Qed.
End Grid.

Section L2.
Variables (e : Z) (sp : space F) (q : list F).
Hypothesis P4 : (4 <= prec)%Z.
Hypothesis FI : float_input prec emax L2Squared e sp bounds_from_space q.
Let n := sp_sdim sp.
Let N := npts sp.
Let eps := 4 * INR (n + 3) * u.
Let eta := 2 * sqrt (INR n * pow2 emin).
Let tq := true_l2 prec emax sp q.
Let tp (i j : nat) := true_l2 prec emax sp (sp_at sp i) j.
Variables (cm : cmath F) (alg : std_algos) (SL : std_laws alg) (shuffle : list nat -> list nat) (SH : shuffles shuffle).
Hypothesis SQ : rounds_sqrt prec emax cm.
Variables (fuel : nat) (base : F) (t : cover_tree F).
Hypothesis HM : cover_tree_make cm alg shuffle (metric_l2 cm) fuel sp base = Ok t.
Hypothesis NU : INR (n + 3) * u <= / 32.

Lemma NU3 : INR (n + 3) * u <= / 2. Proof. lra. Qed.
Lemma n3 : 3 <= INR (n + 3).
Proof. rewrite plus_INR; pose proof (pos_INR n); cbn; lra. Qed.
Lemma eps2_bounds : u <= eps <= / 8.
Proof.
  unfold eps. split; [|lra]. pose proof (bpow_ge_0 radix2 (- prec)). pose proof n3. nra.
Qed.

(** Correctly rounded roots of numbers of the format have a small relative
    error: they do not underflow. *)
Lemma sqrt_round (x : F) : 0 <= B2R x -> exists d, Rabs d <= u /\ rnd (sqrt (B2R x)) = sqrt (B2R x) * (1 + d).
Proof.
  intros X0. destruct (Req_dec (B2R x) 0) as [Z|NZ].
  { rewrite Z, sqrt_0. exists 0. rewrite Rabs_R0. split; [apply bpow_ge_0|]. rewrite rnd_0 by auto. ring. }
  assert (XM : pow2 emin <= B2R x).
  { rewrite <- (Rabs_pos_eq (B2R x)) by auto. apply (fmt_min prec emax); auto. apply fmt_B2R. }
  assert (SM : pow2 (emin + prec - 1) <= Rabs (sqrt (B2R x))).
  { rewrite Rabs_pos_eq by apply sqrt_pos. rewrite <- (sqrt_square (pow2 (emin + prec - 1))) by apply bpow_ge_0.
    apply sqrt_le_1_alt. eapply Rle_trans; [|exact XM]. rewrite <- bpow_plus. apply bpow_le.
    pose proof (emin_eq prec emax) as E. pose proof (prec_emax prec emax Hmax). lia. }
  destruct (relative_error_N_FLT_ex radix2 emin prec (prec_pos prec Hprec) (fun x => negb (Z.even x)) _ SM) as (d & Hd & E).
  exists d. split; [|exact E]. eapply Rle_trans; [exact Hd|]. rewrite bpow_plus. change (pow2 1) with 2. lra.
Qed.

Section Pair.
Variable p : list F.
Hypothesis FP : float_input prec emax L2Squared e sp bounds_from_space p.

Lemma l2_fin j : fin (m_dist (metric_l2 cm) p (sp_at sp j)).
Proof.
  cbn [metric_l2 m_dist]. change (sum_op squared_r1_distance p (sp_at sp j)) with (m_dist metric_l2_squared p (sp_at sp j)).
  apply SQ; [exact (input_fin prec emax Hprec Hmax P2 L2Squared e sp p FP NU3 j)|].
  destruct (Nat.lt_ge_cases j N) as [Hj|Hj].
  - apply (input_facts prec emax Hprec Hmax P2 L2Squared e sp p FP NU3 j Hj).
  - unfold sp_at. rewrite (nth_overflow _ _ Hj). cbn [metric_l2_squared m_dist]. unfold sum_op. rewrite combine_nil.
    cbn. lra.
Qed.

Lemma l2_accurate j : (j < N)%nat ->
  0 <= computed_l2 prec emax Hprec Hmax cm sp p j
  /\ Rabs (computed_l2 prec emax Hprec Hmax cm sp p j - true_l2 prec emax sp p j)
     <= eps * true_l2 prec emax sp p j + eta.
Proof.
  intros Hj. set (s := m_dist metric_l2_squared p (sp_at sp j) : F).
  destruct (input_facts prec emax Hprec Hmax P2 L2Squared e sp p FP NU3 j Hj) as [Fs [S0 _]].
  change (computed prec emax Hprec Hmax L2Squared sp p j) with (B2R s) in S0.
  destruct (SQ s Fs S0) as [_ ES].
  assert (EC : computed_l2 prec emax Hprec Hmax cm sp p j = rnd (sqrt (B2R s))) by exact ES.
  destruct (sqrt_round s S0) as (d & Hd & Ed). rewrite EC, Ed. clear EC Ed ES.
  pose proof (computed_accurate prec emax Hprec Hmax P2 L2Squared e sp _ p FP j Hj NU3) as A. unfold accurate in A.
  change (computed prec emax Hprec Hmax L2Squared sp p j) with (B2R s) in A.
  fold n in A. unfold true_l2. set (T := true_dist prec emax L2Squared sp p j) in *.
  assert (T0 : 0 <= T) by apply true_nonneg.
  set (b := INR n * pow2 emin) in *. set (a := 2 * INR (n + 3) * u) in *.
  assert (B0 : 0 <= b) by (apply Rmult_le_pos; [apply pos_INR|apply bpow_ge_0]).
  pose proof (u_bounds prec P2) as [U0 U1]. pose proof n3 as N3.
  assert (A0 : 6 * u <= a <= / 16) by (unfold a; split; [nra|lra]).
  assert (EA : eps = 2 * a) by (unfold eps, a; ring).
  apply Rabs_le_inv in A, Hd. set (x := sqrt (B2R s)). set (y := sqrt T). set (z := sqrt b).
  assert (X0 : 0 <= x) by apply sqrt_pos. assert (Y0 : 0 <= y) by apply sqrt_pos. assert (Z0 : 0 <= z) by apply sqrt_pos.
  assert (XX : x * x = B2R s) by (apply sqrt_sqrt; auto). assert (YY : y * y = T) by (apply sqrt_sqrt; auto).
  assert (ZZ : z * z = b) by (apply sqrt_sqrt; auto).
  rewrite <- XX, <- YY, <- ZZ in A.
  assert (UP : x <= (1 + a) * y + z).
  { destruct (Rle_or_lt x ((1 + a) * y + z)) as [H|H]; auto. exfalso.
    assert (0 <= (1 + a) * y + z) by nra.
    assert (((1 + a) * y + z) * ((1 + a) * y + z) < x * x) by nra.
    assert (0 <= y * y) by nra. assert (0 <= y * z) by nra. nra. }
  assert (DN : (1 - a) * y <= x + z).
  { destruct (Rle_or_lt ((1 - a) * y) (x + z)) as [H|H]; auto. exfalso.
    assert ((x + z) * (x + z) < ((1 - a) * y) * ((1 - a) * y)) by nra.
    assert (0 <= x * z) by nra. assert (0 <= y * y) by nra. nra. }
  split; [nra|]. rewrite EA. unfold eta. fold b z. apply Rabs_le.
  assert (XD : - (x * u) <= x * d <= x * u) by nra.
  assert (XU : x * u <= ((1 + a) * y + z) * u) by (apply Rmult_le_compat_r; lra).
  assert (Q1 : y * u <= y * (a / 6)) by (apply Rmult_le_compat_l; lra).
  assert (Q2 : z * u <= z * / 4) by (apply Rmult_le_compat_l; lra).
  assert (Q3 : a * (y * u) <= 1 * (y * u)) by (apply Rmult_le_compat_r; [apply Rmult_le_pos; lra|lra]).
  assert (Q4 : 0 <= a * y) by (apply Rmult_le_pos; lra).
  lra.
Qed.

Lemma l2_bound j : (j < N)%nat -> true_l2 prec emax sp p j <= / 2 * pow2 (emax - 3).
Proof.
  intros Hj. pose proof (true_bound prec emax Hprec Hmax L2Squared e sp p FP j Hj) as B.
  apply Rle_trans with (sqrt (pow2 (emax - 3))); [apply sqrt_le_1_alt; exact B|].
  rewrite <- (sqrt_square (/ 2 * pow2 (emax - 3))).
  2:{ pose proof (bpow_ge_0 radix2 (emax - 3)). lra. }
  apply sqrt_le_1_alt. assert (4 <= pow2 (emax - 3)).
  { change 4 with (pow2 2). apply bpow_le. pose proof (prec_emax prec emax Hmax). lia. }
  nra.
Qed.
End Pair.

Lemma eta_bound : 0 <= eta <= pow2 (emax - 3).
Proof.
  unfold eta. split; [pose proof (sqrt_pos (INR n * pow2 emin)); lra|].
  assert (X4 : 4 <= pow2 (emax - 3)).
  { change 4 with (pow2 2). apply bpow_le. pose proof (prec_emax prec emax Hmax). lia. }
  assert (B : INR n * pow2 emin <= pow2 (emax - 3)).
  { eapply Rle_trans; [|exact (fi_fit _ _ _ _ _ _ _ FI)]. unfold distance_bound. apply Rmult_le_compat_l; [apply pos_INR|].
    apply bpow_le. apply (fi_exp _ _ _ _ _ _ _ FI). }
  assert (sqrt (INR n * pow2 emin) <= / 2 * pow2 (emax - 3)); [|lra].
  rewrite <- (sqrt_square (/ 2 * pow2 (emax - 3))) by lra. apply sqrt_le_1_alt. nra.
Qed.

Lemma l2_searches w : spread prec emax (true_l2 prec emax sp) sp w ->
  cover_searches_upto prec emax Hprec Hmax alg t N q (computed_l2 prec emax Hprec Hmax cm sp q)
    (fun j => limit eps eta w (tq j)).
Proof.
  intros W. pose proof eps2_bounds as [E1 E2]. pose proof pow_facts as [X1 X2]. pose proof eta_bound as [H0 H1].
  assert (U0 : 0 < u) by apply bpow_gt_0.
  assert (PI : forall i, (i < N)%nat -> float_input prec emax L2Squared e sp bounds_from_space (sp_at sp i)).
  { intros i Hi. apply (point_input prec emax L2Squared e sp q i FI Hi). }
  set (w' := Rmin w (/ 2 * pow2 (emax - 3))).
  apply (upto_mono prec emax Hprec Hmax alg t N q _ (fun j => limit eps eta w' (tq j))).
  { intros j _. unfold limit. assert (w' <= w) by apply Rmin_l.
    assert (eps * w' <= eps * w) by (apply Rmult_le_compat_l; lra). lra. }
  refine (accurate_searches prec emax Hprec Hmax P2 (metric_l2 cm) sp q tq tp eps eta w' _ _ _ _ _ _ _ _ _ E1 E2 H0 _ _
    (fi_length _ _ _ _ _ _ _ FI) cm alg SL shuffle SH fuel base t HM).
  - exact (l2_fin q FI).
  - intros i j. destruct (Nat.lt_ge_cases i N) as [Hi|Hi].
    + exact (l2_fin _ (PI i Hi) j).
    + unfold sp_at. rewrite (nth_overflow _ _ Hi). apply SQ; [reflexivity|cbn; lra].
  - intros j Hj. apply (l2_accurate q FI j Hj).
  - intros i j Hi Hj. apply (l2_accurate _ (PI i Hi) j Hj).
  - intros j _. apply sqrt_pos.
  - intros i j _ _. apply sqrt_pos.
  - intros j Hj. apply (l2_accurate q FI j Hj).
  - intros i j Hi Hj. apply (l2_accurate _ (PI i Hi) j Hj).
  - intros c j Hc Hj. apply true_l2_triangle; auto. { apply (fi_length _ _ _ _ _ _ _ FI). } { apply (fi_space _ _ _ _ _ _ _ FI). }
  - intros i j Hi Hj. apply Rmin_glb; [apply W; auto|]. apply (l2_bound _ (PI i Hi) j Hj).
  - intros j Hj. assert (w' <= / 2 * pow2 (emax - 3)) by apply Rmin_r.
    pose proof (l2_bound q FI j Hj) as B. fold (tq j) in B.
    assert (B0 : 0 <= tq j) by apply sqrt_pos. unfold limit.
    assert (eps * tq j <= / 8 * tq j) by (apply Rmult_le_compat_r; lra).
    assert (eps * w' <= eps * (/ 2 * pow2 (emax - 3))) by (apply Rmult_le_compat_l; lra).
    assert (eps * pow2 (emax - 3) <= / 8 * pow2 (emax - 3)) by (apply Rmult_le_compat_r; lra). lra.
Qed.

Lemma l2_true w : spread prec emax (true_l2 prec emax sp) sp w ->
  forall nn0, exists i d, cover_search_nn alg t q nn0 = Ok (Neighbor i d)
    /\ (i < N)%nat
    /\ forall j, (j < N)%nat -> tq i <= (1 + 5 * eps) * tq j + 4 * eps * w + 5 * eta.
Proof.
  intros W nn0. destruct (l2_searches w W) as (A & _ & _). destruct (A nn0) as (i & d & E & _ & Hi & K).
  exists i, d. split; auto. split; auto. intros j Hj. pose proof eps2_bounds as [E1 E2]. pose proof eta_bound as [H0 H1].
  assert (U0 : 0 < u) by apply bpow_gt_0.
  assert (W0 : 0 <= w).
  { eapply Rle_trans; [apply (sqrt_pos (true_dist prec emax L2Squared sp (sp_at sp i) i))|]. apply (W i i Hi Hi). }
  apply (true_limit eps eta w (computed_l2 prec emax Hprec Hmax cm sp q i) (tq i) (tq j)); auto; try lra; try apply sqrt_pos.
  apply (l2_accurate q FI i Hi).
Qed.
End L2.
End Top.

Definition c141_l2 prec emax Hprec Hmax (P4 : (4 <= prec)%Z) e sp q FI cm alg SL shuffle SH SQ fuel base t HM NU w W :=
  l2_searches prec emax Hprec Hmax (Z.le_trans 2 4 prec ltac:(lia) P4) e sp q P4 FI cm alg SL shuffle SH SQ fuel base t HM NU w W.
Definition c141_l2_exact prec emax Hprec Hmax (P4 : (4 <= prec)%Z) e sp q FI cm alg SL shuffle SH SQ fuel base t HM NU w W :=
  l2_true prec emax Hprec Hmax (Z.le_trans 2 4 prec ltac:(lia) P4) e sp q P4 FI cm alg SL shuffle SH SQ fuel base t HM NU w W.
