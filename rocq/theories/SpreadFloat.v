(** Depth of trees of floating point numbers, by the spread of the points. *)
From Coq Require Import List ZArith Reals Bool Arith Permutation Lia Lra.
From Flocq Require Import Core.Core IEEE754.BinarySingleNaN.
From Verif Require Import Base ModelBox ModelBuild ModelSearch Spec SpecShape SpecSpread Lemmas
  BuildProofs BuildShape BuildThms ShapeThms ExtraThms Floats FloatThms SpreadThms.
Import ListNotations.
Local Open Scope R_scope.

Section Format.
Variables (prec emax : Z).
Context (Hprec : Prec_gt_0 prec) (Hmax : Prec_lt_emax prec emax).
Hypothesis P2 : (2 <= prec)%Z.
Local Notation F := (binary_float prec emax).
Local Notation fin := (finite prec emax).
Local Notation fexp := (SpecFloat.fexp prec emax).
Local Notation emin := (SpecFloat.emin prec emax).
Local Notation rnd := (round radix2 fexp ZnearestE).
Local Notation fmt := (generic_format radix2 fexp).
Local Notation pow := (bpow radix2).
Local Existing Instance SF.
Local Instance vexp' : Valid_exp fexp := vexp prec emax Hprec.
Local Instance vmon' : Monotone_exp fexp := vmon prec emax.
Variable e : Z.
Hypothesis (He : (emin + prec <= e + 2)%Z) (He2 : (e <= emax - 2)%Z).
Local Notation eta := (pow (e + 1 - prec)).
Local Notation within := (below prec emax e).

Lemma within_quarter x : within x -> quarter prec emax x.
Proof. intros [A B]. split; auto. eapply Rle_trans; [exact B|]. apply bpow_le. lia. Qed.

Lemma rnd_close x : Rabs x <= pow (e + 1) -> Rabs (rnd x - x) <= eta.
Proof.
  intros H. eapply Rle_trans; [apply error_le_half_ulp; typeclasses eauto|].
  assert (U : ulp radix2 fexp x <= ulp radix2 fexp (pow (e + 1))).
  { apply ulp_le; [typeclasses eauto|typeclasses eauto|]. rewrite (Rabs_pos_eq (pow (e + 1))) by apply bpow_ge_0. auto. }
  rewrite ulp_bpow in U. rewrite (fexp_FLT prec emax) in U. unfold FLT_exp in U.
  rewrite Z.max_l in U by lia.
  replace (e + 1 + 1 - prec)%Z with (1 + (e + 1 - prec))%Z in U by ring. rewrite bpow_plus in U. cbn in U. lra.
Qed.

Lemma e_1 : pow (e + 1) = 2 * pow e.
Proof. rewrite Z.add_comm, bpow_plus. reflexivity. Qed.

Lemma diff_close x y : within x -> within y -> Rabs (rnd (B2R y - B2R x) - (B2R y - B2R x)) <= eta.
Proof.
  intros [_ Hx] [_ Hy]. apply rnd_close. rewrite e_1. apply Rabs_le_inv in Hx, Hy. apply Rabs_le. lra.
Qed.

Lemma within_mid x y z : within x -> within y -> fin z -> B2R z = rnd (rnd (B2R y - B2R x) / 2) ->
  within (s_add z x) /\ B2R (s_add z x) = rnd (rnd (rnd (B2R y - B2R x) / 2) + B2R x).
Proof.
  intros Hx Hy Fz Ez.
  destruct (mid_R prec emax Hprec Hmax P2 x y z (within_quarter x Hx) (within_quarter y Hy) Fz Ez) as (A & B & _).
  split; auto. split; auto. rewrite B. apply mid_abs; auto; try apply fmt_B2R; [apply Hx|apply Hy].
Qed.

Lemma within_range : range_laws (SF prec emax Hprec Hmax) within.
Proof.
  pose proof (float_range prec emax Hprec Hmax P2) as RL.
  constructor; intros x.
  - intros y Hx Hy. apply (rl_side _ _ RL); apply within_quarter; auto.
  - intros y Hx Hy.
    destruct (half_sub_R prec emax Hprec Hmax P2 x y (within_quarter x Hx) (within_quarter y Hy)) as [[A B] _].
    apply (within_mid x y); auto.
  - intros y Hx Hy.
    destruct (half_sub_R prec emax Hprec Hmax P2 x y (within_quarter x Hx) (within_quarter y Hy)) as [_ [A B]].
    apply (within_mid x y); auto.
  - intros Hx. left. apply (quarter_lt_max prec emax Hprec Hmax P2), within_quarter; auto.
  - intros Hx. left. apply (quarter_lt_max prec emax Hprec Hmax P2), within_quarter; auto.
Qed.

(** The computed middle is near the middle of the computed side. *)
Lemma mid_close x y v : within x -> within y -> B2R x <= B2R y ->
  v = rnd (rnd (rnd (B2R y - B2R x) / 2) + B2R x) ->
  rnd (v - B2R x) <= rnd (B2R y - B2R x) / 2 + 4 * eta /\ rnd (B2R y - v) <= rnd (B2R y - B2R x) / 2 + 4 * eta.
Proof.
  intros Hx Hy L Ev. pose proof (diff_close x y Hx Hy) as D.
  pose proof (mid_bounds prec emax Hprec (B2R x) (B2R y) (fmt_B2R prec emax x) (fmt_B2R prec emax y) L) as [M1 M2].
  rewrite <- Ev in M1, M2.
  destruct Hx as [Fx Hx], Hy as [Fy Hy].
  set (a := B2R x) in *. set (b := B2R y) in *. set (s := rnd (b - a)) in *.
  apply Rabs_le_inv in Hx, Hy. pose proof e_1 as E1.
  assert (S0 : 0 <= s) by (apply rnd_ge_0; auto; lra).
  assert (S1 : s <= pow (e + 1)).
  { unfold s. rewrite <- (rnd_fmt prec emax (pow (e + 1))).
    - apply rnd_le; auto. lra.
    - apply fmt_pow; auto. lia. }
  assert (H1 : Rabs (rnd (s / 2) - s / 2) <= eta).
  { apply rnd_close. rewrite Rabs_pos_eq by lra. pose proof (bpow_gt_0 radix2 (e + 1)). lra. }
  assert (B2 : rnd (s / 2) + a <= b /\ a <= rnd (s / 2) + a).
  { destruct (half_diff prec emax Hprec a b (fmt_B2R prec emax x) (fmt_B2R prec emax y) L) as [U V]. unfold s. lra. }
  assert (H2 : Rabs (v - (rnd (s / 2) + a)) <= eta).
  { rewrite Ev. apply rnd_close. rewrite E1. apply Rabs_le. pose proof (bpow_gt_0 radix2 e). lra. }
  assert (H3 : Rabs (rnd (v - a) - (v - a)) <= eta).
  { apply rnd_close. rewrite E1. apply Rabs_le. lra. }
  assert (H4 : Rabs (rnd (b - v) - (b - v)) <= eta).
  { apply rnd_close. rewrite E1. apply Rabs_le. lra. }
  apply Rabs_le_inv in H1, H2, H3, H4, D. split; lra.
Qed.

Variables (sp : space F) (WF : wf_space sp) (GOODS : all_coords within sp).
Variables (alg : std_algos) (SL : std_laws alg).
Local Notation n := (sp_sdim sp).

Lemma within_fin x : within x -> fin x. Proof. intros [A _]. exact A. Qed.

Lemma root_extent_float bnds d x : (d < n)%nat -> sp_pts sp <> [] -> bounds_coords within sp bnds ->
  extent_below_float prec emax sp bnds d x ->
  B2R (get (box_max (box_from_bounds sp bnds)) d) - B2R (get (box_min (box_from_bounds sp bnds)) d) < x.
Proof.
  intros Hd NE HC HX.
  assert (IN : forall y : F, within y -> s_ltb y s_max = true /\ s_ltb s_lowest y = true).
  { intros y Hy. apply (quarter_lt_max prec emax Hprec Hmax P2), within_quarter; auto. }
  destruct bnds as [|mn mx]; cbn [box_from_bounds extent_below_float bounds_coords] in *.
  - destruct (fold_fit_touch within n IN (sp_pts sp) NE) with (d := d) as [(p & Hp & Ep) (q & Hq & Eq)]; auto.
    { apply ok_points; auto. }
    unfold sp_bounding_box. rewrite Ep, Eq. apply HX; auto.
  - destruct HC as (L1 & L2 & F1 & F2).
    destruct (fold_fit_touch within n IN [mn; mx] ltac:(discriminate)) with (d := d) as [(p & Hp & Ep) (q & Hq & Eq)]; auto.
    { constructor; [|constructor; [|constructor]]; apply ok_point_list; auto. }
    cbn [fold_left] in Ep, Eq. rewrite Ep, Eq. apply Rabs_def2 in HX. unfold get. cbn in Hp, Hq.
    change (@s_zero F (SF prec emax Hprec Hmax)) with (B754_zero false : F).
    destruct Hp as [<-|[<-|[]]], Hq as [<-|[<-|[]]]; lra.
Qed.

Variables (c : category) (it : index_type) (m : Z) (bnds : start_bounds F).
Hypotheses (Hit : index_type_ok it) (Hm : (0 < m <= it_max it)%Z) (NE : sp_pts sp <> [])
  (Hn : (Z.of_nat (npts sp) <= it_max it)%Z) (HC : bounds_coords within sp bnds)
  (HE : bounds_enclose sp bnds).

Lemma float_spread ru (M : nat) (delta : R) (ks : nat -> nat) : ru <> median_max_side ->
  (ru = midpoint_max_side -> (M <= Z.to_nat m)%nat) -> pow (e + 6 - prec) <= delta ->
  at_most sp M (close_float prec emax n delta) ->
  (forall d, (d < n)%nat -> extent_below_float prec emax sp bnds d (delta / 2 * 2 ^ ks d)) ->
  exists t, (forall fuel, (sum_dims n ks + (M - Z.to_nat m) < fuel)%nat -> build c alg it fuel sp (max_leaf_size m) bnds ru = Ok t)
    /\ (height (kd_root t) <= sum_dims n ks + (M - Z.to_nat m))%nat
    /\ Permutation (kd_indices t) (seq 0 (npts sp)).
Proof.
  intros Hru HM HD CL EX.
  set (near := fun k (a b : F) => rnd (B2R b - B2R a) < 8 * eta + (delta - 9 * eta) * 2 ^ k).
  assert (Em : Z.of_nat (Z.to_nat m) = m) by (apply Z2Nat.id; lia).
  assert (EP : 0 < eta) by apply bpow_gt_0.
  assert (E32 : pow (e + 6 - prec) = 32 * eta).
  { replace (e + 6 - prec)%Z with (5 + (e + 1 - prec))%Z by ring. rewrite bpow_plus. cbn. lra. }
  assert (SB : forall x y : F, within x -> within y -> fin (s_sub y x) /\ B2R (s_sub y x) = rnd (B2R y - B2R x)).
  { intros x y Hx Hy. destruct (diff_R prec emax Hprec Hmax P2 x y (within_quarter x Hx) (within_quarter y Hy)) as (A & B & _). auto. }
  assert (OKS : all_coords fin sp).
  { eapply Forall_impl; [|exact GOODS]. intros p Hp. eapply Forall_impl; [|exact Hp]. apply within_fin. }
  assert (STEP : forall k a b v, within a -> within b -> s_leb a b = true -> near (S k) a b ->
    B2R v = rnd (rnd (rnd (B2R b - B2R a) / 2) + B2R a) -> near k a v /\ near k v b).
  { intros k a b v Ha Hb L N Ev. apply leb_R in L; try (apply within_fin; auto).
    destruct (mid_close a b _ Ha Hb L Ev) as [A B]. unfold near in *. cbn [Rpow_def.pow] in N. lra. }
  destruct (near_build fin (float_ord prec emax Hprec Hmax) sp WF OKS alg SL within within_range GOODS near)
    with (c := c) (ru := ru) (it := it) (m := Z.to_nat m) (M := M)
      (fuel := Datatypes.S (sum_dims n ks + (M - Z.to_nat m))) (bnds := bnds) (ks := ks) as (t & E & Hh & P); auto.
  - apply within_fin.
  - intros x y Hx Hy. apply SB; auto.
  - unfold near. intros k a b c0 d Ha Hb Hc Hd A B N.
    apply leb_R in A; try (apply within_fin; auto). apply leb_R in B; try (apply within_fin; auto).
    eapply Rle_lt_trans; [|exact N]. apply rnd_le; auto. lra.
  - intros k a b Ha Hb L N.
    destruct (half_sub_R prec emax Hprec Hmax P2 a b (within_quarter a Ha) (within_quarter b Hb)) as [[A B] _].
    destruct (within_mid a b _ Ha Hb A B) as [_ E]. apply (STEP k a b); auto.
  - intros k a b Ha Hb L N.
    destruct (half_sub_R prec emax Hprec Hmax P2 a b (within_quarter a Ha) (within_quarter b Hb)) as [_ [A B]].
    destruct (within_mid a b _ Ha Hb A B) as [_ E]. apply (STEP k a b); auto.
  - unfold near. intros a b c0 d Ha Hb Hc Hd A N.
    destruct (SB a b Ha Hb) as [S1 S2]. destruct (SB c0 d Hc Hd) as [S3 S4].
    apply (ltb_false fin (float_ord prec emax Hprec Hmax)) in A; auto. apply leb_R in A; auto.
    rewrite S2, S4 in A. lra.
  - lia.
  - rewrite Em. apply it_cast_fits; auto. lia.
  - intros seg ND Fs HN. apply CL; auto.
    + intros i Hi. rewrite Forall_forall in Fs. apply (in_space_lt sp). apply Fs; auto.
    + intros i j Hi Hj d Hd. rewrite Forall_forall in Fs.
      assert (Wi : within (coord sp d i)) by (apply (good_coord sp WF within GOODS); auto).
      assert (Wj : within (coord sp d j)) by (apply (good_coord sp WF within GOODS); auto).
      pose proof (HN i j d Hi Hj Hd) as N1. pose proof (HN j i d Hj Hi Hd) as N2. unfold near in N1, N2.
      pose proof (diff_close _ _ Wi Wj) as D1. pose proof (diff_close _ _ Wj Wi) as D2.
      apply Rabs_le_inv in D1, D2. cbn [Rpow_def.pow] in N1, N2.
      unfold coord, sp_at, get in N1, N2, D1, D2.
      change (@s_zero F (SF prec emax Hprec Hmax)) with (B754_zero false : F) in N1, N2, D1, D2.
      apply Rabs_def1; lra.
  - eapply bounds_coords_dim; eauto.
  - intros d Hd. unfold near.
    pose proof (root_extent_float bnds d _ Hd NE HC (EX d Hd)) as RE.
    assert (GB : good_box sp within (box_from_bounds sp bnds)).
    { apply (box_from_bounds_good within within_range); auto. }
    destruct (GB d Hd) as [G1 G2]. pose proof (diff_close _ _ G1 G2) as D. apply Rabs_le_inv in D.
    assert (0 < 2 ^ ks d) by (apply pow_lt; lra). nra.
  - rewrite Em in E. exists t. split; [|auto].
    intros fuel Hf. rewrite (shape_recursion sp alg c it _ _ bnds ru t E fuel).
    destruct (Nat.ltb_spec (height (kd_root t)) fuel); [reflexivity|]. unfold sum_dims in Hf. lia.
Qed.
End Format.

Lemma c144_float_midpoint :
  forall (prec emax : Z) (Hprec : Prec_gt_0 prec) (Hmax : Prec_lt_emax prec emax), (2 <= prec)%Z ->
  forall e : Z, (SpecFloat.emin prec emax + prec <= e + 2)%Z -> (e <= emax - 2)%Z ->
  forall sp : space (binary_float prec emax), wf_space sp -> all_coords (below prec emax e) sp ->
  forall alg : std_algos, std_laws alg ->
  forall (c : category) (it : index_type) (m : Z) (bnds : start_bounds (binary_float prec emax)),
  index_type_ok it -> (0 < m <= it_max it)%Z -> sp_pts sp <> [] ->
  (Z.of_nat (npts sp) <= it_max it)%Z -> bounds_coords (below prec emax e) sp bnds ->
  @bounds_enclose _ (Float_scalar prec emax Hprec Hmax) sp bnds ->
  forall (delta : R) (ks : nat -> nat), bpow radix2 (e + 6 - prec) <= delta ->
  at_most sp (Z.to_nat m) (close_float prec emax (sp_sdim sp) delta) ->
  (forall d, (d < sp_sdim sp)%nat -> extent_below_float prec emax sp bnds d (delta / 2 * 2 ^ ks d)) ->
  exists t, (forall fuel, (sum_dims (sp_sdim sp) ks < fuel)%nat ->
      @build _ (Float_scalar prec emax Hprec Hmax) c alg it fuel sp (max_leaf_size m) bnds midpoint_max_side = Ok t)
    /\ (height (kd_root t) <= sum_dims (sp_sdim sp) ks)%nat
    /\ Permutation (kd_indices t) (seq 0 (npts sp)).
Proof.
  intros prec emax Hprec Hmax P2 e He He2 sp WF GO alg SL c it m bnds Hit Hm NE Hn HC HE delta ks HD A B.
  destruct (float_spread prec emax Hprec Hmax P2 e He He2 sp WF GO alg SL c it m bnds Hit Hm NE Hn HC HE midpoint_max_side
    (Z.to_nat m) delta ks ltac:(discriminate) ltac:(auto) HD A B) as (t & E & H & P).
  rewrite Nat.sub_diag, Nat.add_0_r in E, H. exists t. auto.
Qed.

Lemma c144_float_sliding :
  forall (prec emax : Z) (Hprec : Prec_gt_0 prec) (Hmax : Prec_lt_emax prec emax), (2 <= prec)%Z ->
  forall e : Z, (SpecFloat.emin prec emax + prec <= e + 2)%Z -> (e <= emax - 2)%Z ->
  forall sp : space (binary_float prec emax), wf_space sp -> all_coords (below prec emax e) sp ->
  forall alg : std_algos, std_laws alg ->
  forall (c : category) (it : index_type) (m : Z) (bnds : start_bounds (binary_float prec emax)),
  index_type_ok it -> (0 < m <= it_max it)%Z -> sp_pts sp <> [] ->
  (Z.of_nat (npts sp) <= it_max it)%Z -> bounds_coords (below prec emax e) sp bnds ->
  @bounds_enclose _ (Float_scalar prec emax Hprec Hmax) sp bnds ->
  forall (M : nat) (delta : R) (ks : nat -> nat), bpow radix2 (e + 6 - prec) <= delta ->
  at_most sp M (close_float prec emax (sp_sdim sp) delta) ->
  (forall d, (d < sp_sdim sp)%nat -> extent_below_float prec emax sp bnds d (delta / 2 * 2 ^ ks d)) ->
  exists t, (forall fuel, (sum_dims (sp_sdim sp) ks + (M - Z.to_nat m) < fuel)%nat ->
      @build _ (Float_scalar prec emax Hprec Hmax) c alg it fuel sp (max_leaf_size m) bnds sliding_midpoint_max_side = Ok t)
    /\ (height (kd_root t) <= sum_dims (sp_sdim sp) ks + (M - Z.to_nat m))%nat
    /\ Permutation (kd_indices t) (seq 0 (npts sp)).
Proof.
  intros prec emax Hprec Hmax P2 e He He2 sp WF GO alg SL c it m bnds Hit Hm NE Hn HC HE M delta ks HD A B.
  exact (float_spread prec emax Hprec Hmax P2 e He He2 sp WF GO alg SL c it m bnds Hit Hm NE Hn HC HE sliding_midpoint_max_side
    M delta ks ltac:(discriminate) ltac:(discriminate) HD A B).
Qed.
