(** Answers of the query functions for floating point coordinates. *)
From Coq Require Import List ZArith Reals Bool Arith Permutation Sorted Lia Lra.
From Flocq Require Import Core.Core IEEE754.BinarySingleNaN Plus_error Relative.
From Verif Require Import Base ModelBox ModelBuild ModelSearch Spec SpecRound Lemmas BuildProofs
  BuildShape BuildThms SearchProofs Visitors QueryThms TopThms OrdThms Floats FloatThms FloatSearch.
Import ListNotations.
Local Open Scope R_scope.

Section Query.
Variables (prec emax : Z).
Context (Hprec : Prec_gt_0 prec) (Hmax : Prec_lt_emax prec emax) (P2 : (2 <= prec)%Z).
Local Notation F := (binary_float prec emax).
Local Notation fin := (finite prec emax).
Local Notation fexp := (SpecFloat.fexp prec emax).
Local Notation emin := (SpecFloat.emin prec emax).
Local Notation rnd := (round radix2 fexp ZnearestE).
Local Notation fmt := (generic_format radix2 fexp).
Local Notation pow2 := (bpow radix2).
Local Notation u := (bpow radix2 (- prec)).
Local Existing Instance SF.
Let OL := float_ord prec emax Hprec Hmax.

(** ** The metrics *)
Lemma metric_l1_float e : (e + 3 < emax)%Z ->
  float_metric prec emax Hprec Hmax e metric_l1 (fun x => x) (pow2 (e + 1)).
Proof.
  intros He. constructor; auto; try (intros; lra).
  intros z Fz _. apply abs_R; auto.
Qed.

Lemma metric_l2_float e : (emin <= 2 * e + 2 < emax)%Z ->
  float_metric prec emax Hprec Hmax e metric_l2_squared (fun x => rnd (x * x)) (pow2 (2 * e + 2)).
Proof.
  intros He.
  assert (K : forall x, 0 <= x <= pow2 (e + 1) -> x * x <= pow2 (2 * e + 2)).
  { intros x Hx. replace (2 * e + 2)%Z with ((e + 1) + (e + 1))%Z by ring. rewrite bpow_plus.
    apply Rmult_le_compat; lra. }
  assert (BD : forall x, 0 <= x <= pow2 (e + 1) -> 0 <= rnd (x * x) <= pow2 (2 * e + 2)).
  { intros x Hx. split; [apply rnd_ge_0; auto; apply Rle_0_sqr|].
    rewrite <- (rnd_fmt prec emax (pow2 (2 * e + 2))) by (apply fmt_pow; auto; lia).
    apply rnd_le; auto. }
  constructor.
  - reflexivity.
  - reflexivity.
  - intros z Fz Hz. cbn [m_app metric_l2_squared]. unfold squared.
    assert (E : Rabs (B2R z) * Rabs (B2R z) = B2R z * B2R z).
    { rewrite <- Rabs_mult. apply Rabs_pos_eq. apply Rle_0_sqr. }
    rewrite E. apply mul_R; auto. rewrite <- E.
    destruct (BD (Rabs (B2R z))) as [B0 B1]; [split; [apply Rabs_pos|auto]|].
    rewrite Rabs_pos_eq by auto. eapply Rle_lt_trans; [exact B1|]. apply bpow_lt. lia.
  - intros x y Hxy. apply rnd_le; auto. apply Rmult_le_compat; lra.
  - intros x Hx. apply rnd_ge_0; auto. apply Rle_0_sqr.
  - intros x Hx. apply BD; auto.
Qed.

(** ** Queries *)
Variables (em : exact_metric) (e : Z) (sp : space F) (bnds : start_bounds F) (q : list F).
Hypothesis FI : float_input prec emax em e sp bnds q.
Let n := sp_sdim sp.
Let N := length (sp_pts sp).
Let D := computed prec emax Hprec Hmax em sp q.
Let Dh (j : nat) : F := m_dist (metric_of em) q (sp_at sp j).
Let phi : R -> R := match em with L1 => fun x => x | _ => fun x => rnd (x * x) end.
Let B : R := match em with L1 => pow2 (e + 1) | _ => pow2 (2 * e + 2) end.

Lemma n_pos : 1 <= INR n.
Proof. change 1 with (INR 1). apply le_INR. pose proof (fi_dim _ _ _ _ _ _ _ FI). unfold n. lia. Qed.
Lemma fit_B : INR n * B <= pow2 (emax - 3).
Proof. exact (fi_fit _ _ _ _ _ _ _ FI). Qed.
Lemma B_le : B <= pow2 (emax - 3).
Proof.
  eapply Rle_trans; [|exact fit_B]. rewrite <- (Rmult_1_l B) at 1. apply Rmult_le_compat_r; [|exact n_pos].
  unfold B. destruct em; apply bpow_ge_0.
Qed.
Lemma FM : float_metric prec emax Hprec Hmax e (metric_of em) phi B.
Proof.
  pose proof (fi_exp _ _ _ _ _ _ _ FI) as [X1 X2]. pose proof B_le as BL. unfold phi, B in *.
  destruct (fi_metric _ _ _ _ _ _ _ FI) as [-> | ->].
  - apply metric_l1_float; auto.
  - apply metric_l2_float. split; auto. apply le_bpow in BL. lia.
Qed.

Lemma u_small : 0 < u <= / 4. Proof. apply u_bounds; auto. Qed.

Lemma all_coords_get (P : F -> Prop) j k : all_coords P sp -> (j < N)%nat -> (k < n)%nat -> P (coord sp k j).
Proof.
  intros A Hj Hk. unfold all_coords in A. rewrite Forall_forall in A.
  assert (IN : In (sp_at sp j) (sp_pts sp)) by (apply nth_In; exact Hj).
  specialize (A _ IN). rewrite Forall_forall in A. apply A. apply nth_In.
  rewrite (sp_at_length sp (fi_space _ _ _ _ _ _ _ FI)); auto. apply in_space_lt; auto.
Qed.

(** ** Coordinates on a grid *)
Let grid_exp (g : Z) : Z := match em with L1 => g | _ => 2 * g end.
Lemma grid_exact g : grid_input prec emax em g e sp q ->
  exactly prec emax Hprec Hmax phi B sp q (grid_exp g)
  /\ forall j, (j < N)%nat -> sumR n (term prec emax Hprec Hmax phi sp q j) = true_dist prec emax em sp q j.
Proof.
  intros [GC GQ GM GR]. pose proof n_pos as N1. pose proof (fi_metric _ _ _ _ _ _ _ FI) as EM.
  assert (B0 : 0 <= B) by (unfold B; destruct em; apply bpow_ge_0).
  assert (NB : INR n * B < pow2 (grid_exp g + prec)) by exact GR.
  assert (BR : B < pow2 (grid_exp g + prec)) by (eapply Rle_lt_trans; [|exact NB]; nra).
  assert (EN : (emin <= -2)%Z).
  { rewrite emin_eq. unfold Prec_gt_0, Prec_lt_emax in *. lia. }
  assert (HE : (emin <= g)%Z /\ (e + 1 < g + prec)%Z).
  { unfold B, grid_exp in BR, GM. destruct EM as [E0|E0]; rewrite E0 in BR, GM; apply lt_bpow in BR; lia. }
  destruct HE as [HE1 HE2].
  assert (TERM : forall j k, (j < N)%nat -> (k < n)%nat ->
    exists z, B2R (get q k) - B2R (coord sp k j) = IZR z * pow2 g
      /\ rnd (B2R (get q k) - B2R (coord sp k j)) = IZR z * pow2 g
      /\ Rabs (IZR z * pow2 g) <= pow2 (e + 1)).
  { intros j k Hj Hk.
    assert (Gq : on_grid prec emax g (get q k)).
    { rewrite Forall_forall in GQ. apply GQ. apply nth_In. rewrite (fi_length _ _ _ _ _ _ _ FI). exact Hk. }
    assert (Bq : below prec emax e (get q k)).
    { pose proof (fi_query _ _ _ _ _ _ _ FI) as K. rewrite Forall_forall in K. apply K. apply nth_In.
      rewrite (fi_length _ _ _ _ _ _ _ FI). exact Hk. }
    assert (Gc : on_grid prec emax g (coord sp k j)).
    { apply (all_coords_get (on_grid prec emax g) j k GC); auto. }
    assert (Bc : below prec emax e (coord sp k j)).
    { apply (all_coords_get (below prec emax e) j k (fi_coords _ _ _ _ _ _ _ FI)); auto. }
    destruct Gq as [a Ea], Gc as [b Eb]. exists (a - b)%Z.
    assert (E0 : B2R (get q k) - B2R (coord sp k j) = IZR (a - b) * pow2 g)
      by (rewrite Ea, Eb, minus_IZR; ring).
    assert (RB : Rabs (IZR (a - b) * pow2 g) <= pow2 (e + 1)).
    { rewrite <- E0. replace (e + 1)%Z with (1 + e)%Z by ring. rewrite bpow_plus. cbn [bpow].
      destruct Bq as [_ Bq], Bc as [_ Bc]. apply Rabs_le_inv in Bq, Bc. apply Rabs_le. cbn. lra. }
    split; auto. split; auto. rewrite E0. apply rnd_fmt; auto.
    apply (grid_fmt prec emax Hprec P2 sp q (fi_length _ _ _ _ _ _ _ FI) g); auto. { exists (a - b)%Z; reflexivity. }
    eapply Rle_lt_trans; [exact RB|]. apply bpow_lt. lia. }
  assert (SQ : forall z, IZR z * pow2 g * (IZR z * pow2 g) = IZR (z * z) * pow2 (2 * g)).
  { intros z. rewrite mult_IZR. replace (2 * g)%Z with (g + g)%Z by ring. rewrite bpow_plus. ring. }
  assert (SQF : em = L2Squared -> forall z, Rabs (IZR z * pow2 g) <= pow2 (e + 1) ->
     rnd (Rabs (IZR z * pow2 g) * Rabs (IZR z * pow2 g)) = IZR (z * z) * pow2 (2 * g)).
  { intros E0 z Hz. unfold B, grid_exp in BR, GM. rewrite E0 in BR, GM.
    rewrite <- Rabs_mult, SQ. rewrite Rabs_pos_eq by (rewrite <- SQ; apply Rle_0_sqr).
    apply rnd_fmt; auto. apply (grid_fmt prec emax Hprec P2 sp q (fi_length _ _ _ _ _ _ _ FI) (2 * g)); auto. { exists (z * z)%Z; reflexivity. }
    rewrite <- SQ, Rabs_mult. eapply Rle_lt_trans; [|exact BR].
    replace (2 * e + 2)%Z with ((e + 1) + (e + 1))%Z by ring. rewrite bpow_plus.
    apply Rmult_le_compat; auto using Rabs_pos. }
  split.
  - right. split; [exact GM|]. split; [exact NB|].
    intros j k Hj Hk. destruct (TERM j k Hj Hk) as (z & E1 & E2 & E3).
    unfold term. rewrite E2. unfold phi, grid_exp, grid. destruct EM as [E0|E0]; rewrite E0.
    + exists (Z.abs z). rewrite Rabs_mult, abs_IZR, (Rabs_pos_eq (pow2 g)); auto. apply bpow_ge_0.
    + exists (z * z)%Z. apply SQF; auto.
  - intros j Hj. unfold true_dist. apply sumR_ext. intros k Hk.
    destruct (TERM j k Hj Hk) as (z & E1 & E2 & E3).
    change (nth k q (B754_zero false)) with (get q k).
    change (nth k (sp_at sp j) (B754_zero false)) with (coord sp k j).
    cbv zeta. unfold term. rewrite E2, E1. unfold phi. destruct EM as [E0|E0]; rewrite E0; auto.
    rewrite SQF, SQ; auto.
Qed.

(** ** Accuracy of the distances *)
Lemma pow_up (w : R) k : 0 <= w <= 1 -> INR k * w <= / 2 -> (1 + w) ^ k <= 1 + 2 * INR k * w.
Proof.
  intros Hw H. pose proof (pow_slack w ltac:(lra) ltac:(lra) k 0 ((1 + w) ^ k) 1) as K.
  rewrite Nat.add_0_r in K. rewrite <- (Rmult_1_r (1 + 2 * _ * _)). apply K; auto; try lra.
Qed.

Lemma sumR_plus k a b : sumR k (fun i => a i + b i) = sumR k a + sumR k b.
Proof. induction k; [unfold sumR; cbn; lra|]. rewrite !sumR_S, IHk. ring. Qed.
Lemma sumR_scale k c a : sumR k (fun i => c * a i) = c * sumR k a.
Proof. induction k; [unfold sumR; cbn; lra|]. rewrite !sumR_S, IHk. ring. Qed.
Lemma sumR_const k c : sumR k (fun _ => c) = INR k * c.
Proof. induction k; [unfold sumR; cbn; lra|]. rewrite sumR_S, IHk, S_INR. ring. Qed.

Let exact_term (j k : nat) : R :=
  let x := B2R (get q k) - B2R (coord sp k j) in match em with L1 => Rabs x | _ => x * x end.
Let eta : R := match em with L1 => 0 | _ => / 2 * pow2 emin end.

Lemma term_accurate j k :
  (1 - u) ^ 3 * exact_term j k - eta <= term prec emax Hprec Hmax phi sp q j k
    <= (1 + u) ^ 3 * exact_term j k + eta.
Proof.
  pose proof u_small as [U0 U1]. unfold term, exact_term, phi, eta. cbv zeta.
  set (a := B2R (get q k)). set (b := B2R (coord sp k j)).
  destruct (rnd_plus prec emax Hprec a (- b)) as (d & Hd & Ed).
  { apply fmt_B2R. } { apply fmt_opp. apply fmt_B2R. }
  fold (Rminus a b) in Ed. rewrite Ed. set (x := a - b). apply Rabs_le_inv in Hd.
  assert (L3 : 0 <= (1 - u) ^ 3 <= 1 - u) by (cbn [pow]; nra).
  assert (U3 : 1 + u <= (1 + u) ^ 3) by (cbn [pow]; nra).
  assert (AD : Rabs (x * (1 + d)) = Rabs x * (1 + d)) by (rewrite Rabs_mult, (Rabs_pos_eq (1 + d)); lra).
  pose proof (Rabs_pos x) as X0.
  destruct (fi_metric _ _ _ _ _ _ _ FI) as [E0|E0]; rewrite E0.
  - rewrite AD. nra.
  - destruct (error_N_FLT radix2 emin prec (prec_pos prec Hprec) (fun x => negb (Z.even x))
       (Rabs (x * (1 + d)) * Rabs (x * (1 + d)))) as (ep & et & Hep & Het & _ & EE).
    change (round radix2 (FLT_exp emin prec) (Znearest (fun x => negb (Z.even x)))) with rnd in EE.
    rewrite EE. clear EE.
    replace (/ 2 * pow2 (- prec + 1)) with u in Hep by (rewrite bpow_plus; cbn; lra).
    apply Rabs_le_inv in Hep, Het.
    rewrite <- Rabs_mult, Rabs_pos_eq by apply Rle_0_sqr.
    replace (x * (1 + d) * (x * (1 + d)) * (1 + ep)) with ((x * x) * ((1 + d) * (1 + d) * (1 + ep))) by ring.
    assert (XX : 0 <= x * x) by apply Rle_0_sqr.
    assert (G : (1 - u) ^ 3 <= (1 + d) * (1 + d) * (1 + ep) <= (1 + u) ^ 3).
    { cbn [pow]. rewrite !Rmult_1_r, <- !Rmult_assoc. split; apply Rmult_le_compat; try nra. }
    nra.
Qed.

Lemma computed_accurate j : (j < N)%nat -> INR (n + 3) * u <= / 2 ->
  accurate prec emax em n (true_dist prec emax em sp q j) (D j).
Proof.
  intros Hj HU. pose proof u_small as [U0 U1].
  assert (NU : INR n * u <= / 2).
  { eapply Rle_trans; [|exact HU]. apply Rmult_le_compat_r; [lra|]. apply le_INR. lia. }
  destruct (Dhat_bounds prec emax Hprec Hmax P2 e (proj2 (fi_exp _ _ _ _ _ _ _ FI)) (metric_of em) phi B FM
    sp (fi_space _ _ _ _ _ _ _ FI) (fi_coords _ _ _ _ _ _ _ FI) q (fi_length _ _ _ _ _ _ _ FI)
    (fi_query _ _ _ _ _ _ _ FI) fit_B NU 0%Z j Hj) as (_ & C & _).
  change (B2R (Dhat prec emax (metric_of em) sp q j)) with (D j) in C.
  fold n in C. set (S := sumR n (term prec emax Hprec Hmax phi sp q j)) in *.
  change (true_dist prec emax em sp q j) with (sumR n (exact_term j)). set (T := sumR n (exact_term j)).
  assert (T0 : 0 <= T).
  { apply sumR_nonneg. intros k _. unfold exact_term. cbv zeta. destruct em; try apply Rabs_pos; apply Rle_0_sqr. }
  assert (E0 : 0 <= eta) by (unfold eta; destruct em; try lra; pose proof (bpow_ge_0 radix2 emin); lra).
  assert (SL : (1 - u) ^ 3 * T - INR n * eta <= S).
  { unfold T, S. rewrite <- sumR_const, <- sumR_scale. unfold Rminus. rewrite <- Ropp_mult_distr_l_reverse || idtac.
    replace (- sumR n (fun _ => eta)) with (sumR n (fun _ => - eta)) by (rewrite !sumR_const; ring).
    rewrite <- sumR_plus. apply sumR_le. intros k Hk. apply term_accurate. }
  assert (SU : S <= (1 + u) ^ 3 * T + INR n * eta).
  { unfold T, S. rewrite <- sumR_const, <- sumR_scale, <- sumR_plus. apply sumR_le. intros k Hk. apply term_accurate. }
  assert (EE : match em with L1 => 0 | _ => INR n * pow2 emin end = 2 * (INR n * eta)).
  { unfold eta. destruct em; lra. }
  unfold accurate. rewrite EE. clear EE.
  set (w := INR n * eta) in *. assert (W0 : 0 <= w) by (apply Rmult_le_pos; auto; apply pos_INR).
  assert (P1 : (1 + u) ^ n <= 2) by (apply pow_upper; lra).
  assert (P3 := pow_up u (n + 3) ltac:(lra) HU). rewrite pow_add in P3.
  assert (P4 := pow_lower u ltac:(lra) (n + 3)). rewrite pow_add in P4.
  assert (P5 := pow_ge_1 u ltac:(lra) n). destruct (pow_prod u ltac:(lra) ltac:(lra) n) as [P6 _].
  assert (P7 : (1 - u) ^ n <= 1).
  { replace 1 with (1 ^ n) at 2 by apply pow1. apply pow_incr. lra. }
  set (a := (1 + u) ^ n) in *. set (b := (1 - u) ^ n) in *.
  set (a3 := (1 + u) ^ 3) in *. set (b3 := (1 - u) ^ 3) in *. set (c := INR (n + 3) * u) in *.
  replace (2 * INR (n + 3) * u) with (2 * c) in * by (unfold c; ring).
  assert (C0 : 0 <= c) by (apply Rmult_le_pos; [apply pos_INR|lra]).
  destruct C as [C1 C2]. apply Rabs_le. split.
  - assert (b * (b3 * T - w) <= b * S) by (apply Rmult_le_compat_l; auto).
    assert (b * b3 * T >= (1 - c) * T) by (apply Rle_ge, Rmult_le_compat_r; auto). nra.
  - assert (a * S <= a * (a3 * T + w)) by (apply Rmult_le_compat_l; auto; lra).
    assert (a * a3 * T <= (1 + 2 * c) * T) by (apply Rmult_le_compat_r; auto).
    assert (a * w <= 2 * w) by (apply Rmult_le_compat_r; auto). lra.
Qed.

Section Tree.
Variables (alg : std_algos) (SL : std_laws alg).
Variables (it : index_type) (fuel : nat) (stop : stop_condition) (ru : rule) (tree : kd_tree F).
Hypothesis (NM : ru <> midpoint_max_side).
Hypothesis HM : kd_tree_make alg it (metric_of em) fuel sp stop bnds ru = Ok tree.
Let h := node_height (kd_root (kt_data tree)).
Hypothesis FEW : few_steps prec n h.
Lemma NU : INR n * u <= / 2.
Proof.
  eapply Rle_trans; [|exact FEW]. apply Rmult_le_compat_r; [pose proof u_small; lra|]. apply le_INR. lia.
Qed.
Lemma HU : INR (2 * h) * u <= / 2.
Proof.
  eapply Rle_trans; [|exact FEW]. apply Rmult_le_compat_r; [pose proof u_small; lra|]. apply le_INR. lia.
Qed.

Variable g : Z.   (* the exponent of the grid, if there is one *)
Definition exact_case : Prop := exactly prec emax Hprec Hmax phi B sp q g.
Definition skip : F -> nat -> Prop := skipped prec emax Hprec Hmax (metric_of em) phi B sp q g h.

Lemma search_contract {V} (vis : visitor F V) (Inv : V -> Prop) v0 :
  (forall st i, Inv st -> (i < N)%nat -> Inv (v_visit vis i (Dh i) st)) ->
  (forall st, Inv st -> fin (v_max vis st)) ->
  (forall st i, Inv st -> (i < N)%nat -> s_leb (v_max vis (v_visit vis i (Dh i) st)) (v_max vis st) = true) ->
  Inv v0 ->
  exists tr rest, Permutation (tr ++ rest) (seq 0 N)
    /\ search_nearest tree vis q v0 = Ok (visits (metric_of em) vis sp q tr v0)
    /\ Inv (visits (metric_of em) vis sp q tr v0)
    /\ forall j, In j rest -> skip (v_max vis (visits (metric_of em) vis sp q tr v0)) j.
Proof.
  intros VI VF VM I0. unfold skip.
  destruct (kd_tree_make_inv _ _ _ _ _ _ _ _ _ HM) as (data & Et & HB).
  assert (Q : forall x, below prec emax e x -> quarter prec emax x).
  { intros x [A C]. split; auto. eapply Rle_trans; [exact C|]. apply bpow_le.
    pose proof (fi_exp _ _ _ _ _ _ _ FI). lia. }
  assert (GC : all_coords (quarter prec emax) sp).
  { pose proof (fi_coords _ _ _ _ _ _ _ FI) as C. unfold all_coords in *. eapply Forall_impl; [|exact C].
    intros p Hp. eapply Forall_impl; [|exact Hp]. auto. }
  apply (build_tight_ord fin OL (float_finite prec emax Hprec Hmax) (quarter prec emax)
           (float_range prec emax Hprec Hmax P2) (quarter_fin prec emax) sp (fi_space _ _ _ _ _ _ _ FI) GC alg SL)
    in HB as [P NS]; auto; [|apply (fi_bounds _ _ _ _ _ _ _ FI)].
  clear GC Q.
  destruct (search_float prec emax Hprec Hmax P2 e (proj2 (fi_exp _ _ _ _ _ _ _ FI)) (metric_of em) phi B FM
    sp (fi_space _ _ _ _ _ _ _ FI) (fi_coords _ _ _ _ _ _ _ FI) q (fi_length _ _ _ _ _ _ _ FI)
    (fi_query _ _ _ _ _ _ _ FI) fit_B NU g h HU vis Inv)
    with (c := m_cat (metric_of (T := F) em)) (root := kd_root data) (idx := kd_indices data) (v0 := v0)
    as (tr & rest & Pt & E & I1 & HF); auto.
  { intros st i HI Hi. specialize (VM st i HI Hi). apply leb_R in VM; auto. }
  { unfold h. rewrite Et. apply le_n. }
  exists tr, rest. split; auto. split; auto.
  rewrite Et. unfold search_nearest. cbn [kt_space kt_metric kt_data]. rewrite (fi_length _ _ _ _ _ _ _ FI), Nat.eqb_refl.
  exact E.
Qed.

Lemma D_facts j : (j < N)%nat -> fin (Dh j) /\ 0 <= D j <= pow2 (emax - 2).
Proof.
  intros Hj.
  destruct (Dhat_bounds prec emax Hprec Hmax P2 e (proj2 (fi_exp _ _ _ _ _ _ _ FI)) (metric_of em) phi B FM
    sp (fi_space _ _ _ _ _ _ _ FI) (fi_coords _ _ _ _ _ _ _ FI) q (fi_length _ _ _ _ _ _ _ FI)
    (fi_query _ _ _ _ _ _ _ FI) fit_B NU g j Hj) as (A & C & _).
  split; [exact A|].
  change (B2R (Dhat prec emax (metric_of em) sp q j)) with (D j) in C.
  assert (TB : forall k, (k < n)%nat -> 0 <= term prec emax Hprec Hmax phi sp q j k <= B).
  { intros k Hk. apply (term_bounds prec emax Hprec Hmax P2 e (proj2 (fi_exp _ _ _ _ _ _ _ FI)) (metric_of em) phi B FM
      sp (fi_space _ _ _ _ _ _ _ FI) (fi_coords _ _ _ _ _ _ _ FI) q (fi_length _ _ _ _ _ _ _ FI)
      (fi_query _ _ _ _ _ _ _ FI)); auto. }
  fold n in C. set (S := sumR n (term prec emax Hprec Hmax phi sp q j)) in *.
  assert (S0 : 0 <= S) by (apply sumR_nonneg; intros; apply TB; auto).
  assert (SB : S <= INR n * B) by (apply sumR_bound; intros; apply TB; auto).
  pose proof u_small as [U0 U1].
  destruct (pow_prod u ltac:(lra) ltac:(lra) n) as [L0 _].
  pose proof (pow_upper u ltac:(lra) ltac:(lra) n NU) as L1.
  pose proof (pow_ge_1 u ltac:(lra) n) as L2.
  split.
  - eapply Rle_trans; [|apply C]. apply Rmult_le_pos; auto.
  - eapply Rle_trans; [apply C|].
    replace (pow2 (emax - 2)) with (2 * pow2 (emax - 3)).
    { pose proof fit_B. apply Rmult_le_compat; lra. }
    replace (emax - 2)%Z with (1 + (emax - 3))%Z by ring. rewrite bpow_plus. reflexivity.
Qed.

(** Also for an index out of range, whose "point" has no coordinates. *)
Lemma D_fin j : fin (Dh j).
Proof.
  destruct (Nat.lt_ge_cases j N) as [H|H]; [apply D_facts; auto|].
  unfold Dh, sp_at. rewrite nth_overflow by auto.
  destruct (fi_metric _ _ _ _ _ _ _ FI) as [-> | ->]; cbn [metric_of m_dist metric_l1 metric_l2_squared];
    unfold sum_op; rewrite combine_nil; reflexivity.
Qed.

Section Factor.
Variable f : R.
Hypotheses (F1 : 1 <= f) (F2 : f <= 2) (SK : forall x j, (j < N)%nat -> fin x -> skip x j -> B2R x <= f * D j).

Lemma D_self j : (j < N)%nat -> D j <= f * D j.
Proof. intros Hj. destruct (D_facts j Hj) as [_ [A _]]. nra. Qed.

(** No distance comes near the largest number. *)
Lemma max_far j : (j < N)%nat -> B2R (s_max : F) <= f * D j -> False.
Proof.
  intros Hj H. destruct (D_facts j Hj) as [_ [A C]]. pose proof (max_gt_pow prec emax Hprec Hmax P2).
  assert (pow2 (emax - 1) = 2 * pow2 (emax - 2)).
  { replace (emax - 1)%Z with (1 + (emax - 2))%Z by ring. rewrite bpow_plus. reflexivity. }
  assert (f * D j <= 2 * pow2 (emax - 2)) by (apply Rmult_le_compat; lra). lra.
Qed.

Lemma visits_nn tr v0 : visits (metric_of em) visitor_nn sp q tr v0 = fold_left (nn_step Dh) tr v0.
Proof. reflexivity. Qed.

Lemma N_pos : (0 < N)%nat.
Proof.
  apply kd_tree_make_inv in HM as (data & _ & HB). apply build_inv in HB as (_ & (H & _) & _). exact H.
Qed.

Lemma nn_float nn0 : exists i d, search_nn tree q nn0 = Ok (Neighbor i d)
  /\ d = Dh i /\ nearest_within N D f i.
Proof.
  destruct (search_contract visitor_nn (fun st => fin (n_distance st)) (visitor_nn_init nn0))
    as (tr & rest & P & E & I1 & HF).
  - intros st i Hst Hi. cbn. destruct (Bltb _ _); [apply D_fin|auto].
  - auto.
  - intros st i Hst Hi. cbn [v_visit v_max visitor_nn]. destruct (s_ltb (Dh i) (n_distance st)) eqn:EL.
    + apply (ltb_leb fin OL); auto. apply D_fin.
    + apply (leb_refl fin OL); auto.
  - reflexivity.
  - unfold search_nn. rewrite E, visits_nn in *.
    set (r := fold_left (nn_step Dh) tr (visitor_nn_init nn0)) in *.
    apply perm_in_seq in P as (Ptr & Prest & Pall & _).
    destruct (nn_minimal Dh OL D_fin tr (visitor_nn_init nn0) (fin_max prec emax Hprec Hmax)) as (A1 & A2 & A3). fold r in A1, A2, A3.
    assert (ALL : forall j, (j < N)%nat -> B2R (n_distance r) <= f * D j).
    { intros j Hj. destruct (Pall j Hj) as [H|H].
      - specialize (A3 j H). apply leb_R in A3; auto; [|apply D_fin]. change (B2R (Dh j)) with (D j) in A3.
        pose proof (D_self j Hj). lra.
      - apply SK; auto. }
    destruct (nn_genuine Dh tr (visitor_nn_init nn0)) as [G|(i & Hi & G)]; fold r in G.
    + exfalso. specialize (ALL 0%nat N_pos). rewrite G in ALL. apply (max_far 0%nat N_pos). exact ALL.
    + exists i, (Dh i). rewrite G. split; [reflexivity|]. split; auto. split; auto.
      intros j Hj. specialize (ALL j Hj). rewrite G in ALL. exact ALL.
Qed.

Lemma radius_float r sort : fin r -> exists l,
  search_radius alg tree q r sort = Ok l
  /\ radius_within N D f (B2R r) (real_answers prec emax l)
  /\ (sort = true -> StronglySorted Rle (map (fun x => B2R (n_distance x)) l)).
Proof.
  intros Fr.
  destruct (search_contract (visitor_radius r) (fun _ => True) []) as (tr & rest & P & E & _ & HF); auto.
  { intros st i _ _. apply (leb_refl fin OL); auto. }
  assert (EV : forall l st, visits (metric_of em) (visitor_radius r) sp q l st = fold_left (radius_step Dh r) l st)
    by reflexivity.
  rewrite EV, radius_result in E. cbn [app] in E.
  apply perm_in_seq in P as (Ptr & Prest & Pall & ND & _).
  set (l0 := map (as_neighbor Dh) (filter (fun i => s_ltb (Dh i) r) tr)) in *.
  assert (A0 : radius_within N D f (B2R r) (real_answers prec emax l0)).
  { unfold l0, real_answers. rewrite map_map. cbn [as_neighbor n_index n_distance].
    assert (LT : forall i, s_ltb (Dh i) r = true <-> D i < B2R r).
    { intros i. apply ltb_R; auto. apply D_fin. }
    constructor.
    - rewrite map_map. cbn. rewrite map_id. apply NoDup_filter. auto.
    - intros i d Hi. apply in_map_iff in Hi as (j & Ej & Hj). injection Ej as <- <-.
      apply filter_In in Hj as [Hj L]. apply LT in L. split; auto.
    - intros i Hi HR. rewrite map_map. cbn. rewrite map_id. apply filter_In.
      pose proof (D_self i Hi). destruct (Pall i Hi) as [H0|H0].
      + split; auto. apply LT. lra.
      + exfalso. pose proof (SK r i Hi Fr (HF i H0)). lra. }
  assert (O0 : forall x, In x l0 -> fin (n_distance x)).
  { intros x Hx. apply in_map_iff in Hx as (i & <- & _). apply D_fin. }
  unfold search_radius. rewrite E. cbn [bind]. eexists. split; [reflexivity|].
  destruct sort; [|split; [exact A0|discriminate]].
  destruct (sort_result fin OL alg SL l0 O0) as [PS SS].
  split.
  - destruct A0 as [R1 R2 R3].
    assert (PA : Permutation (real_answers prec emax (std_sort alg (neighbor F) neighbor_lt l0)) (real_answers prec emax l0))
      by (apply Permutation_map; auto).
    assert (PI := Permutation_map fst PA).
    constructor.
    + eapply Permutation_NoDup; [symmetry; exact PI|auto].
    + intros i d Hi. apply R2. eapply Permutation_in; eauto.
    + intros i Hi HR. eapply Permutation_in; [symmetry; exact PI|auto].
  - intros _. assert (O1 : forall x, In x (std_sort alg (neighbor F) neighbor_lt l0) -> fin (n_distance x)).
    { intros x Hx. apply O0. eapply Permutation_in; eauto. }
    clear - SS O1. induction SS as [|a l SS IH FA]; cbn [map]; constructor.
    + apply IH. intros; apply O1; right; auto.
    + rewrite Forall_forall in *. intros x Hx. apply in_map_iff in Hx as (b & <- & Hb).
      apply (leb_R prec emax Hprec Hmax); [apply O1; left; auto|apply O1; right; auto|auto].
Qed.

Lemma knn_float_range l0 : (0 < length l0)%nat -> knn_max (l0, 0%nat) = s_max ->
  exists st, search_nearest tree visitor_knn q (l0, 0%nat) = Ok st
  /\ length (fst st) = length l0
  /\ knn_within N (length l0) D f (real_answers prec emax (firstn (Nat.min (length l0) N) (fst st)))
  /\ skipn (Nat.min (length l0) N) (fst st) = skipn (Nat.min (length l0) N) l0.
Proof.
  intros H0 HX.
  set (Inv := fun st => exists tr kept dropped,
                knn_holds Dh l0 tr st kept dropped /\ knn_sorted Dh st kept dropped).
  assert (MF : forall st, Inv st -> fin (knn_max st)).
  { intros st (tr & kept & dropped & A & C).
    destruct (le_lt_dec (length l0) (length kept)) as [L|L].
    - destruct (exists_last (l := kept)) as (X & o & EX). { apply length_nonnil. lia. }
      subst kept. pose proof (kh_le _ _ _ _ _ _ A).
      rewrite (knn_max_full _ _ _ _ _ _ _ A) by lia. apply D_fin.
    - rewrite (knn_max_short _ _ _ _ _ _ A) by auto. rewrite HX. apply fin_max. }
  destruct (search_contract visitor_knn Inv (l0, 0%nat)) as (tr & rest & P & E & _ & HF).
  { intros st i (tr & kept & dropped & A & C) _.
    destruct (knn_order_step Dh OL D_fin l0 tr st kept dropped i H0 HX A C) as (k' & d' & A' & C' & _).
    exists (tr ++ [i]), k', d'. auto. }
  { auto. }
  { intros st i (tr & kept & dropped & A & C) _.
    destruct (knn_order_step Dh OL D_fin l0 tr st kept dropped i H0 HX A C) as (k' & d' & _ & _ & C').
    exact C'. }
  { exists [], [], []. split; [apply knn_start|]. constructor; simpl; try tauto. constructor. }
  assert (EV : forall l st, visits (metric_of em) visitor_knn sp q l st = fold_left (knn_step Dh) l st)
    by reflexivity.
  rewrite EV in *.
  destruct (knn_order Dh OL D_fin l0 tr H0 HX) as (kept & dropped & A & C).
  set (st := fold_left (knn_step Dh) tr (l0, 0%nat)) in *.
  assert (Fm : fin (knn_max st)) by (apply MF; exists tr, kept, dropped; auto).
  exists st. split; auto. split; [apply (kh_len _ _ _ _ _ _ A)|].
  pose proof P as P0. apply perm_in_seq in P as (Ptr & Prest & Pall & ND & Pdis).
  assert (Hk : forall i, In i kept -> (i < N)%nat).
  { intros i Hi. apply Ptr. eapply Permutation_in; [apply (kh_perm _ _ _ _ _ _ A)|]. apply in_or_app; auto. }
  assert (Hd : forall i, In i dropped -> (i < N)%nat).
  { intros i Hi. apply Ptr. eapply Permutation_in; [apply (kh_perm _ _ _ _ _ _ A)|]. apply in_or_app; auto. }
  assert (NDk : NoDup kept).
  { eapply NoDup_app_l. eapply Permutation_NoDup; [symmetry; apply (kh_perm _ _ _ _ _ _ A)|auto]. }
  assert (FAR : forall j, In j rest -> B2R (knn_max st) <= f * D j).
  { intros j Hj. apply SK; auto. }
  assert (DRP : forall j, In j dropped -> B2R (knn_max st) <= f * D j).
  { intros j Hj. pose proof (ks_dropped _ _ _ _ C j Hj) as K. apply leb_R in K; auto; [|apply D_fin].
    change (B2R (Dh j)) with (D j) in K. pose proof (D_self j (Hd j Hj)). lra. }
  assert (LK : length kept = Nat.min (length l0) N).
  { pose proof (kh_le _ _ _ _ _ _ A) as L.
    assert (LN : (length kept + length dropped + length rest = N)%nat).
    { apply Permutation_length in P0. rewrite app_length, seq_length in P0.
      pose proof (Permutation_length (kh_perm _ _ _ _ _ _ A)) as L2. rewrite app_length in L2. lia. }
    destruct (le_lt_dec (length l0) (length kept)) as [L1|L1]; [lia|].
    pose proof (knn_max_short Dh l0 tr st kept dropped A L1) as M. rewrite HX in M.
    assert (dropped = []) as ->.
    { destruct dropped as [|i dr]; auto. exfalso. specialize (DRP i (or_introl eq_refl)). rewrite M in DRP.
      apply (max_far i); auto. apply Hd. left; auto. }
    assert (rest = []) as ->.
    { destruct rest as [|i dr]; auto. exfalso. specialize (FAR i (or_introl eq_refl)). rewrite M in FAR.
      apply (max_far i); auto. apply Prest. left; auto. }
    simpl in LN. lia. }
  rewrite <- LK. pose proof (kh_first _ _ _ _ _ _ A) as G1. pose proof (kh_rest _ _ _ _ _ _ A) as G2.
  rewrite (kh_active _ _ _ _ _ _ A) in G1, G2. split; [|exact G2]. rewrite G1.
  unfold real_answers. rewrite map_map. cbn [as_neighbor n_index n_distance].
  constructor.
  - rewrite map_length. auto.
  - rewrite map_map. cbn. rewrite map_id. auto.
  - intros i d Hi. apply in_map_iff in Hi as (j & Ej & Hj). injection Ej as <- <-. split; auto.
  - rewrite map_map. cbn [snd]. pose proof (ks_sorted _ _ _ _ C) as SS. revert SS. generalize kept. intros kk SS.
    induction SS as [|a l SS IH FA]; cbn [map]; constructor; auto. rewrite Forall_forall in *.
    intros x Hx. apply in_map_iff in Hx as (j & <- & Hj).
    apply (leb_R prec emax Hprec Hmax (Dh a) (Dh j)); [apply D_fin|apply D_fin|exact (FA j Hj)].
  - intros i d j Hi Hj Hn. apply in_map_iff in Hi as (i' & Ej & Hi'). injection Ej as <- <-.
    rewrite map_map in Hn. cbn in Hn. rewrite map_id in Hn.
    apply Rle_trans with (B2R (knn_max st)).
    + destruct (le_lt_dec (length l0) (length kept)) as [L1|L1].
      * destruct (exists_last (l := kept)) as (X & o & EX'). { apply length_nonnil. lia. }
        subst kept. pose proof (kh_le _ _ _ _ _ _ A).
        rewrite (knn_max_full _ _ _ _ _ _ _ A) by lia.
        apply in_app_or in Hi' as [Hi'|[<-|[]]]; [|apply Rle_refl].
        pose proof (ks_sorted _ _ _ _ C) as SS. apply StronglySorted_app_inv in SS as (_ & _ & K).
        apply (leb_R prec emax Hprec Hmax (Dh i') (Dh o)); [apply D_fin|apply D_fin|apply (K i' o); simpl; auto].
      * rewrite (knn_max_short _ _ _ _ _ _ A) by auto. rewrite HX.
        pose proof (ks_max _ _ _ _ C i' Hi') as K. apply ltb_R in K; [lra|apply D_fin|apply fin_max].
    + destruct (Pall j Hj) as [H|H]; auto.
      eapply Permutation_in in H; [|symmetry; apply (kh_perm _ _ _ _ _ _ A)].
      apply in_app_or in H as [H|H]; [tauto|auto].
Qed.

Lemma knn_float k knn0 : (0 < k)%nat -> exists out, search_knn tree q k knn0 = Ok out
  /\ knn_within N k D f (real_answers prec emax out).
Proof.
  intros Hk. pose proof N_pos as HN.
  assert (TS : kt_space tree = sp) by (destruct (kd_tree_make_inv _ _ _ _ _ _ _ _ _ HM) as (data & Et & _); rewrite Et; reflexivity).
  unfold search_knn. rewrite TS. change (sp_size sp) with N.
  set (range := vector_resize knn0 (Nat.min k N)).
  assert (LR : length range = Nat.min k N) by apply length_resize.
  destruct (knn_init_ok range ltac:(lia)) as (l0 & EI & L0 & M0 & _ & _).
  destruct (knn_float_range l0) as (st & E & L & A & _); [lia|auto|].
  unfold search_knn_range. rewrite EI. cbn [bind]. rewrite E. cbn [bind].
  exists (fst st). split; auto.
  rewrite firstn_all2 in A by lia.
  destruct A as [A1 A2 A3 A4 A5]. constructor; auto. rewrite A1. lia.
Qed.
End Factor.

Lemma slack_bounds : 1 <= slack prec n h <= 2.
Proof.
  unfold slack. pose proof FEW as K. unfold few_steps in K. pose proof u_small.
  assert (0 <= INR (2 * h + n) * u) by (apply Rmult_le_pos; [apply pos_INR|lra]). lra.
Qed.

Lemma skip_slack x j : (j < N)%nat -> fin x -> skip x j -> B2R x <= slack prec n h * D j.
Proof.
  intros Hj Fx [S1 _]. pose proof u_small.
  apply (pow_slack u ltac:(lra) ltac:(lra) (2 * h) n (B2R x) (D j)).
  - exact FEW.
  - apply D_facts; auto.
  - fold n in S1. left. exact S1.
Qed.

Lemma skip_exact x j : exact_case -> (j < N)%nat -> fin x -> skip x j -> B2R x <= 1 * D j.
Proof. intros X Hj Fx [_ S2]. specialize (S2 X). rewrite Rmult_1_l. left. exact S2. Qed.
End Tree.
End Query.

(** ** Statements about the public functions *)
Section Top.
Variables (prec emax : Z).
Context (Hprec : Prec_gt_0 prec) (Hmax : Prec_lt_emax prec emax).
Local Notation F := (binary_float prec emax).
Local Notation FS := (Float_scalar prec emax Hprec Hmax).
Local Notation dist := (computed prec emax Hprec Hmax).

Section Slack.
Hypothesis P2 : (2 <= prec)%Z.
Variables (em : exact_metric) (e : Z) (sp : space F) (bnds : start_bounds F) (q : list F).
Hypothesis FI : float_input prec emax em e sp bnds q.
Variables (alg : std_algos) (SL : std_laws alg).
Variables (it : index_type) (fuel : nat) (stop : stop_condition) (ru : rule) (tree : kd_tree F).
Hypothesis (NM : ru <> midpoint_max_side).
Hypothesis HM : @kd_tree_make F FS alg it (@metric_of F FS em) fuel sp stop bnds ru = Ok tree.
Local Notation h := (node_height (kd_root (kt_data tree))).
Hypothesis FEW : few_steps prec (sp_sdim sp) h.
Local Notation sl := (slack prec (sp_sdim sp) h).

Lemma top_nn_within nn0 : exists i d, @search_nn F FS tree q nn0 = Ok (Neighbor i d)
  /\ B2R d = dist em sp q i /\ nearest_within (npts sp) (dist em sp q) sl i.
Proof.
  pose proof (slack_bounds prec emax P2 sp tree FEW) as [S1 S2].
  destruct (nn_float prec emax Hprec Hmax P2 em e sp bnds q FI alg SL it fuel stop ru tree NM HM FEW 0%Z sl S1 S2
    (skip_slack prec emax Hprec Hmax P2 em e sp bnds q FI tree FEW 0%Z) nn0) as (i & d & A & -> & C).
  exists i, (m_dist (@metric_of F FS em) q (sp_at sp i)). auto.
Qed.

Lemma top_knn_within k knn0 : (0 < k)%nat -> exists out, @search_knn F FS tree q k knn0 = Ok out
  /\ knn_within (npts sp) k (dist em sp q) sl (real_answers prec emax out).
Proof.
  pose proof (slack_bounds prec emax P2 sp tree FEW) as [S1 S2].
  apply (knn_float prec emax Hprec Hmax P2 em e sp bnds q FI alg SL it fuel stop ru tree NM HM FEW 0%Z sl S1 S2
    (skip_slack prec emax Hprec Hmax P2 em e sp bnds q FI tree FEW 0%Z)).
Qed.

Lemma top_radius_within r sort : finite prec emax r -> exists l, @search_radius F FS alg tree q r sort = Ok l
  /\ radius_within (npts sp) (dist em sp q) sl (B2R r) (real_answers prec emax l)
  /\ (sort = true -> StronglySorted Rle (map snd (real_answers prec emax l))).
Proof.
  pose proof (slack_bounds prec emax P2 sp tree FEW) as [S1 S2]. intros Fr.
  destruct (radius_float prec emax Hprec Hmax P2 em e sp bnds q FI alg SL it fuel stop ru tree NM HM FEW 0%Z sl S1
    (skip_slack prec emax Hprec Hmax P2 em e sp bnds q FI tree FEW 0%Z) r sort Fr) as (l & A & C & E).
  exists l. split; auto. split; auto. unfold real_answers. rewrite map_map. exact E.
Qed.

(** In terms of exact distances. *)
Lemma top_nn_true nn0 : INR (sp_sdim sp + 3) * bpow radix2 (- prec) <= / 2 ->
  exists i d, @search_nn F FS tree q nn0 = Ok (Neighbor i d) /\ (i < npts sp)%nat
  /\ forall j, (j < npts sp)%nat ->
     let a := 2 * INR (sp_sdim sp + 3) * bpow radix2 (- prec) in
     (1 - a) * true_dist prec emax em sp q i
       <= sl * (1 + a) * true_dist prec emax em sp q j
          + (1 + sl) * match em with L1 => 0 | _ => INR (sp_sdim sp) * bpow radix2 (SpecFloat.emin prec emax) end.
Proof.
  intros HA. destruct (top_nn_within nn0) as (i & d & A & _ & [N1 N2]). exists i, d. split; auto. split; auto.
  intros j Hj a. specialize (N2 j Hj).
  pose proof (computed_accurate prec emax Hprec Hmax P2 em e sp bnds q FI i N1 HA) as Ai.
  pose proof (computed_accurate prec emax Hprec Hmax P2 em e sp bnds q FI j Hj HA) as Aj.
  unfold accurate in Ai, Aj. fold a in Ai, Aj. apply Rabs_le_inv in Ai, Aj.
  pose proof (slack_bounds prec emax P2 sp tree FEW) as [S1 S2].
  set (b := match em with L1 => 0 | _ => INR (sp_sdim sp) * bpow radix2 (SpecFloat.emin prec emax) end) in *.
  set (Ti := true_dist prec emax em sp q i) in *. set (Tj := true_dist prec emax em sp q j) in *.
  assert (sl * dist em sp q j <= sl * ((1 + a) * Tj + b)) by (apply Rmult_le_compat_l; lra).
  lra.
Qed.

Section Exact.
Variable g : Z.
Hypothesis EC : exact_case prec emax Hprec Hmax em e sp q g.
Let one := skip_exact prec emax Hprec Hmax em e sp q tree g.

Lemma top_nn_exact nn0 : exists i d, @search_nn F FS tree q nn0 = Ok (Neighbor i d)
  /\ B2R d = dist em sp q i /\ nearest_within (npts sp) (dist em sp q) 1 i.
Proof.
  destruct (nn_float prec emax Hprec Hmax P2 em e sp bnds q FI alg SL it fuel stop ru tree NM HM FEW g 1
    ltac:(lra) ltac:(lra) (fun x j => one x j EC) nn0) as (i & d & A & -> & C).
  exists i, (m_dist (@metric_of F FS em) q (sp_at sp i)). auto.
Qed.

Lemma top_knn_exact k knn0 : (0 < k)%nat -> exists out, @search_knn F FS tree q k knn0 = Ok out
  /\ knn_within (npts sp) k (dist em sp q) 1 (real_answers prec emax out).
Proof.
  apply (knn_float prec emax Hprec Hmax P2 em e sp bnds q FI alg SL it fuel stop ru tree NM HM FEW g 1
    ltac:(lra) ltac:(lra) (fun x j => one x j EC)).
Qed.

Lemma top_radius_exact r sort : finite prec emax r -> exists l, @search_radius F FS alg tree q r sort = Ok l
  /\ radius_within (npts sp) (dist em sp q) 1 (B2R r) (real_answers prec emax l)
  /\ (sort = true -> StronglySorted Rle (map snd (real_answers prec emax l))).
Proof.
  intros Fr.
  destruct (radius_float prec emax Hprec Hmax P2 em e sp bnds q FI alg SL it fuel stop ru tree NM HM FEW g 1
    ltac:(lra) (fun x j => one x j EC) r sort Fr) as (l & A & C & E).
  exists l. split; auto. split; auto. unfold real_answers. rewrite map_map. exact E.
Qed.
End Exact.

(** In one dimension. *)
Lemma one_dim_exact : sp_sdim sp = 1%nat -> exact_case prec emax Hprec Hmax em e sp q 0%Z.
Proof. intros H. left. exact H. Qed.

(** On a grid, where distances are exact. *)
Variable g : Z.
Hypothesis GI : grid_input prec emax em g e sp q.
Let gg : Z := match em with L1 => g | _ => 2 * g end.
Lemma grid_case : exact_case prec emax Hprec Hmax em e sp q gg.
Proof. exact (proj1 (grid_exact prec emax Hprec Hmax P2 em e sp bnds q FI g GI)). Qed.

Lemma grid_dist j : (j < npts sp)%nat -> dist em sp q j = true_dist prec emax em sp q j.
Proof.
  intros Hj. rewrite <- (proj2 (grid_exact prec emax Hprec Hmax P2 em e sp bnds q FI g GI) j Hj).
  assert (NU := NU prec emax P2 sp tree FEW).
  destruct (Dhat_bounds prec emax Hprec Hmax P2 e (proj2 (fi_exp _ _ _ _ _ _ _ FI)) (metric_of em) _ _
    (FM prec emax Hprec Hmax em e sp bnds q FI)
    sp (fi_space _ _ _ _ _ _ _ FI) (fi_coords _ _ _ _ _ _ _ FI) q (fi_length _ _ _ _ _ _ _ FI)
    (fi_query _ _ _ _ _ _ _ FI) (fit_B prec emax em e sp bnds q FI) NU gg j Hj) as (_ & _ & C).
  apply C. exact grid_case.
Qed.

Lemma top_nn_grid nn0 : exists i d, @search_nn F FS tree q nn0 = Ok (Neighbor i d)
  /\ B2R d = true_dist prec emax em sp q i /\ nearest_within (npts sp) (true_dist prec emax em sp q) 1 i.
Proof.
  destruct (top_nn_exact gg grid_case nn0) as (i & d & A & C & [N1 N2]). exists i, d. split; auto.
  rewrite <- (grid_dist i) by auto. split; auto. split; auto.
  intros j Hj. rewrite <- !grid_dist by auto. auto.
Qed.

Lemma top_knn_grid k knn0 : (0 < k)%nat -> exists out, @search_knn F FS tree q k knn0 = Ok out
  /\ knn_within (npts sp) k (true_dist prec emax em sp q) 1 (real_answers prec emax out).
Proof.
  intros Hk. destruct (top_knn_exact gg grid_case k knn0 Hk) as (out & A & [K1 K2 K3 K4 K5]).
  exists out. split; auto. constructor; auto.
  - intros i d Hi. destruct (K3 i d Hi) as [X ->]. split; auto. apply grid_dist; auto.
  - intros i d j Hi Hj. rewrite <- grid_dist by auto. eauto.
Qed.

Lemma top_radius_grid r sort : finite prec emax r -> exists l, @search_radius F FS alg tree q r sort = Ok l
  /\ radius_within (npts sp) (true_dist prec emax em sp q) 1 (B2R r) (real_answers prec emax l)
  /\ (sort = true -> StronglySorted Rle (map snd (real_answers prec emax l))).
Proof.
  intros Fr. destruct (top_radius_exact gg grid_case r sort Fr) as (l & A & [R1 R2 R3] & C).
  exists l. split; auto. split; auto. constructor; auto.
  - intros i d Hi. destruct (R2 i d Hi) as (X & -> & Y). split; auto. rewrite <- grid_dist by auto. auto.
  - intros i Hi. rewrite <- grid_dist by auto. auto.
Qed.
End Slack.
End Top.
