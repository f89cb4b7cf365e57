(** Floating point with infinities: the order, and searches of points with
    infinite coordinates. *)
From Coq Require Import List ZArith Reals Bool Arith Permutation Sorted Lia Lra.
From Flocq Require Import Core.Core IEEE754.BinarySingleNaN.
From Verif Require Import Base ModelBox ModelBuild ModelSearch Spec SpecRound SpecInf Lemmas BuildProofs
  BuildShape BuildThms SearchProofs Visitors QueryThms TopThms ExtraThms OrdThms InfBuild
  Floats FloatThms FloatSearch FloatQuery BoxThms FloatTop.
Import ListNotations.
Local Open Scope R_scope.

Section Order.
Variables (prec emax : Z).
Context (Hprec : Prec_gt_0 prec) (Hmax : Prec_lt_emax prec emax).
Local Notation F := (binary_float prec emax).
Local Notation fin := (finite prec emax).
Local Notation num := (number prec emax).
Local Notation fexp := (SpecFloat.fexp prec emax).
Local Notation emin := (SpecFloat.emin prec emax).
Local Notation rnd := (round radix2 fexp ZnearestE).
Local Notation pow2 := (bpow radix2).
Local Existing Instance SF.

(** A number as a real: the infinities are just beyond all others. *)
Definition ext (x : F) : R :=
  match x with B754_infinity true => - pow2 emax | B754_infinity false => pow2 emax | _ => B2R x end.

Lemma fin_or_inf (x : F) : num x -> fin x \/ exists s, x = B754_infinity s.
Proof. destruct x as [s|s| |s mm ee H]; intros N; [left|right|discriminate|left]; try reflexivity. exists s; auto. Qed.
Lemma fin_num (x : F) : fin x -> num x.
Proof. destruct x; intros H; try discriminate; reflexivity. Qed.
Lemma ext_fin (x : F) : fin x -> ext x = B2R x.
Proof. destruct x; intros H; try discriminate; reflexivity. Qed.
Lemma fin_lt (x : F) : fin x -> - pow2 emax < B2R x < pow2 emax.
Proof. intros _. pose proof (abs_B2R_lt_emax _ _ x) as H. apply Rabs_lt_inv in H. exact H. Qed.

Lemma leb_ext (x y : F) : num x -> num y -> s_leb x y = true <-> ext x <= ext y.
Proof.
  intros Nx Ny. pose proof (bpow_gt_0 radix2 emax) as PP.
  destruct (fin_or_inf x Nx) as [Fx|[s ->]], (fin_or_inf y Ny) as [Fy|[s' ->]].
  - rewrite !ext_fin by auto. apply leb_R; auto.
  - pose proof (fin_lt x Fx). rewrite (ext_fin x) by auto.
    destruct s', x as [[]|[]| |[] ? ? ?]; try discriminate; cbn [ext]; split; intros; try reflexivity; try discriminate; lra.
  - pose proof (fin_lt y Fy). rewrite (ext_fin y) by auto.
    destruct s, y as [[]|[]| |[] ? ? ?]; try discriminate; cbn [ext]; split; intros; try reflexivity; try discriminate; lra.
  - destruct s, s'; cbn [ext]; split; intros; try reflexivity; try discriminate; lra.
Qed.
Lemma ltb_ext (x y : F) : num x -> num y -> s_ltb x y = true <-> ext x < ext y.
Proof.
  intros Nx Ny. pose proof (bpow_gt_0 radix2 emax) as PP.
  destruct (fin_or_inf x Nx) as [Fx|[s ->]], (fin_or_inf y Ny) as [Fy|[s' ->]].
  - rewrite !ext_fin by auto. apply ltb_R; auto.
  - pose proof (fin_lt x Fx). rewrite (ext_fin x) by auto.
    destruct s', x as [[]|[]| |[] ? ? ?]; try discriminate; cbn [ext]; split; intros; try reflexivity; try discriminate; lra.
  - pose proof (fin_lt y Fy). rewrite (ext_fin y) by auto.
    destruct s, y as [[]|[]| |[] ? ? ?]; try discriminate; cbn [ext]; split; intros; try reflexivity; try discriminate; lra.
  - destruct s, s'; cbn [ext]; split; intros; try reflexivity; try discriminate; lra.
Qed.

Lemma number_ord : ord_laws (SF prec emax Hprec Hmax) num.
Proof.
  constructor; try reflexivity; intros x y.
  - intros Hx Hy. destruct (s_leb y x) eqn:E; cbn [negb].
    + apply leb_ext in E; auto. destruct (s_ltb x y) eqn:E'; auto. apply ltb_ext in E'; auto. lra.
    + destruct (s_ltb x y) eqn:E'; auto. exfalso.
      assert (~ ext y <= ext x) by (rewrite <- leb_ext by auto; congruence).
      assert (~ ext x < ext y) by (rewrite <- ltb_ext by auto; congruence). lra.
  - intros Hx Hy. rewrite !leb_ext by auto. lra.
  - intros z Hx Hy Hz. rewrite !leb_ext by auto. lra.
Qed.

Lemma ltb_number (x v : F) : s_ltb x v = true -> num v.
Proof. destruct x as [[]|[]| |[] ? ? ?], v; cbn; intros; try discriminate; reflexivity. Qed.

(** Construction: the coordinates are numbers, and moderate in one dimension. *)
Lemma inf_build : (2 <= prec)%Z ->
  forall sp : space F, wf_space sp -> all_coords num sp ->
  forall alg : std_algos, std_laws alg ->
  forall c it stop (bnds : start_bounds F) ru (k : nat),
  (k < sp_sdim sp)%nat -> coords_at prec emax (below prec emax (emax - 2)) k sp bnds ->
  @bounds_dim F sp bnds = true ->
  ru <> midpoint_max_side -> index_type_ok it -> stop_fits it stop ->
  sp_pts sp <> [] -> (Z.of_nat (npts sp) <= it_max it)%Z ->
  exists t, (forall fuel, (npts sp <= fuel)%nat -> build c alg it fuel sp stop bnds ru = Ok t)
    /\ Permutation (kd_indices t) (seq 0 (npts sp))
    /\ consecutive 0 (leaf_intervals (kd_root t)) (npts sp)
    /\ Forall (fun '(_, len) => (1 <= len)%nat) (leaf_levels 0 (kd_root t)).
Proof.
  intros P2 sp WF OKS alg SL c it stop bnds ru k Hk [C1 C2] BD NM IT ST NE LE.
  destruct (build_total1 num number_ord (quarter prec emax) (float_range prec emax Hprec Hmax P2) sp WF OKS alg SL c ru it stop
    k Hk) with (bnds := bnds) as (t & Ht); auto.
  { intros i Hi. apply in_space_lt in Hi. apply C1. apply nth_In. exact Hi. }
  exists t. split; [exact Ht|].
  destruct (build_c01 num number_ord sp WF OKS alg SL c it (npts sp) stop bnds ru t
    ltac:(intros; contradiction) (Ht _ (le_n _))) as [A B].
  split; auto. split; auto.
  apply (build_no_empty num number_ord sp WF OKS alg SL c it (npts sp) stop bnds ru t NM (Ht _ (le_n _))).
Qed.

Lemma inf_box :
  forall sp : space F, wf_space sp -> all_coords num sp ->
  forall alg : std_algos, std_laws alg ->
  forall (m : metric F) it fuel stop (bnds : start_bounds F) ru (tree : kd_tree F) (mn mx : list F),
  kd_tree_make alg it m fuel sp stop bnds ru = Ok tree ->
  bounds_coords num sp bnds -> bounds_enclose sp bnds ->
  length mn = sp_sdim sp -> length mx = sp_sdim sp -> Forall num mn -> Forall num mx ->
  ru <> midpoint_max_side -> m_cat m = Euclidean ->
  exists ans, search_box tree mn mx = Ok ans
    /\ index_answer (npts sp) (fun i => inside mn mx (nth i (sp_pts sp) [])) ans.
Proof.
  intros sp WF OKS alg SL m it fuel stop bnds ru tree mn mx HM BC BE L1 L2 F1 F2 NM MC.
  exact (search_box_euclidean num number_ord sp WF OKS alg SL m it fuel stop bnds
    ru tree mn mx HM BC BE L1 L2 F1 F2 ltac:(intros; contradiction) MC).
Qed.
End Order.

(** ** Arithmetic that may overflow *)
Section Arith.
Variables (prec emax : Z).
Context (Hprec : Prec_gt_0 prec) (Hmax : Prec_lt_emax prec emax).
Local Notation F := (binary_float prec emax).
Local Notation fin := (finite prec emax).
Local Notation fexp := (SpecFloat.fexp prec emax).
Local Notation emin := (SpecFloat.emin prec emax).
Local Notation rnd := (round radix2 fexp ZnearestE).
Local Notation fmt := (generic_format radix2 fexp).
Local Notation pow2 := (bpow radix2).
Local Existing Instance SF.

Lemma sign_R (x : F) : fin x -> if Bsign x then B2R x <= 0 else 0 <= B2R x.
Proof.
  intros Fx. destruct x as [s|s| |s mm ee Hb]; try discriminate; cbn [Bsign B2R]; [destruct s; lra|].
  destruct s; unfold cond_Zopp; [apply F2R_le_0|apply F2R_ge_0]; cbn; lia.
Qed.

Lemma add_cases (x y : F) : fin x -> fin y ->
  (fin (s_add x y) /\ B2R (s_add x y) = rnd (B2R x + B2R y))
  \/ (s_add x y = B754_infinity (Bsign x) /\ Bsign y = Bsign x).
Proof.
  intros Fx Fy. cbn [s_add SF Float_scalar].
  pose proof (Bplus_correct prec emax Hprec Hmax mode_NE x y Fx Fy) as H.
  destruct (Rlt_bool _ _).
  - left. destruct H as (A & B & _). split; auto.
  - right. destruct H as (A & B). split; auto. apply B2SF_inj. rewrite A. reflexivity.
Qed.
Lemma sub_cases (x y : F) : fin x -> fin y ->
  (fin (s_sub x y) /\ B2R (s_sub x y) = rnd (B2R x - B2R y))
  \/ (s_sub x y = B754_infinity (Bsign x) /\ Bsign y = negb (Bsign x)).
Proof.
  intros Fx Fy. cbn [s_sub SF Float_scalar].
  pose proof (Bminus_correct prec emax Hprec Hmax mode_NE x y Fx Fy) as H.
  destruct (Rlt_bool _ _).
  - left. destruct H as (A & B & _). split; auto.
  - right. destruct H as (A & B). split; [apply B2SF_inj; rewrite A; reflexivity|]. rewrite B, negb_involutive. auto.
Qed.

(** Infinite, or beyond [c], on one side. *)
Definition beyond (s : bool) (c : R) (x : F) : Prop :=
  x = B754_infinity s \/ (fin x /\ c <= (if s then - B2R x else B2R x)).

Lemma beyond_sign s c x : 0 < c -> beyond s c x -> fin x -> Bsign x = s.
Proof.
  intros C0 [->|[_ H]] Fx; [discriminate|]. pose proof (sign_R x Fx). destruct (Bsign x), s; auto; lra.
Qed.

Lemma beyond_round s c' r (x : F) : fmt c' -> c' <= (if s : bool then - r else r) ->
  fin x -> B2R x = rnd r -> beyond s c' x.
Proof.
  intros Fc H Fx E. right. split; auto. rewrite E.
  destruct s; [rewrite <- rnd_opp|]; rewrite <- (rnd_fmt prec emax c') by auto; apply rnd_le; auto.
Qed.

Lemma beyond_sub s c c' (x v : F) : beyond s c x -> fin v -> Rabs (B2R v) <= c - c' -> fmt c' -> 0 < c' ->
  beyond s c' (s_sub x v).
Proof.
  intros HX Fv Hv Fc C0. destruct HX as [->|[Fx HX]].
  - left. destruct v as [[]|[]| |[] ? ? ?], s; try discriminate; reflexivity.
  - apply Rabs_le_inv in Hv. destruct (sub_cases x v Fx Fv) as [[A B]|[A B]].
    + apply (beyond_round s c' (B2R x - B2R v)); auto. destruct s; lra.
    + left. rewrite A. f_equal. apply (beyond_sign s c); [|right; auto|auto]. destruct s; lra.
Qed.

Lemma beyond_add s c c' (x v : F) : beyond s c x -> Rabs (B2R v) <= c - c' -> fmt c' -> 0 < c' ->
  fin v \/ v = B754_infinity s ->
  beyond s c' (s_add x v) /\ beyond s c' (s_add v x).
Proof.
  intros HX Hv Fc C0 Fv. destruct Fv as [Fv| ->]; [destruct HX as [->|[Fx HX]]|].
  - split; left; destruct v as [[]|[]| |[] ? ? ?], s; try discriminate; reflexivity.
  - apply Rabs_le_inv in Hv.
    assert (SG : Bsign x = s).
    { apply (beyond_sign s c); [|right; auto|auto]. destruct s; lra. }
    split.
    + destruct (add_cases x v Fx Fv) as [[A B]|[A B]].
      * apply (beyond_round s c' (B2R x + B2R v)); auto. destruct s; lra.
      * left. rewrite A, SG. reflexivity.
    + destruct (add_cases v x Fv Fx) as [[A B]|[A B]].
      * apply (beyond_round s c' (B2R v + B2R x)); auto. destruct s; lra.
      * left. rewrite A, <- B, SG. reflexivity.
  - split; left; destruct HX as [->|[Fx HX]];
      try (destruct x as [[]|[]| |[] ? ? ?]; try discriminate); destruct s; reflexivity.
Qed.

(** Which way the search turns when a side of the boxes is infinite or was never
    moved. *)
Variable e : Z.
Hypotheses (P2 : (2 <= prec)%Z) (E3 : (e + 3 < emax)%Z).
Lemma far_turn s (a b v : F) :
  a = B754_infinity s \/ a = (if s then s_lowest else s_max) ->
  b = B754_infinity s \/ below prec emax e b ->
  below prec emax e v ->
  s_ltb s_zero (s_sub (s_sub (s_add a b) v) v) = negb s
  /\ s_ltb s_zero (s_sub (s_sub (s_add b a) v) v) = negb s.
Proof.
  intros HA HB [Fv Hv].
  assert (Em : forall k, (1 <= k <= 4)%Z -> (emin <= emax - k)%Z /\ (e <= emax - 4)%Z).
  { intros k Hk. pose proof (prec_emax prec emax Hmax). pose proof (prec_pos prec Hprec).
    rewrite emin_eq. split; [|lia].
    unfold Prec_gt_0, Prec_lt_emax in *. lia. }
  assert (PW : forall k, pow2 (emax - k) = 2 * pow2 (emax - k - 1)).
  { intros k. replace (emax - k)%Z with (1 + (emax - k - 1))%Z at 1 by ring. apply bpow_plus. }
  assert (PE : pow2 e <= pow2 (emax - 4)) by (apply bpow_le; lia).
  pose proof (PW 1%Z) as Q1. pose proof (PW 2%Z) as Q2. pose proof (PW 3%Z) as Q3.
  replace (emax - 1 - 1)%Z with (emax - 2)%Z in Q1 by ring.
  replace (emax - 2 - 1)%Z with (emax - 3)%Z in Q2 by ring.
  replace (emax - 3 - 1)%Z with (emax - 4)%Z in Q3 by ring.
  pose proof (bpow_gt_0 radix2 (emax - 4)) as Q0.
  assert (A1 : beyond s (pow2 (emax - 1)) a).
  { destruct HA as [->| ->]; [left; auto|]. right.
    pose proof (max_ge_pow prec emax Hprec Hmax). destruct s.
    - split; [reflexivity|]. rewrite R_lowest. lra.
    - split; [reflexivity|]. auto. }
  assert (FB : fin b \/ b = B754_infinity s) by (destruct HB as [|[]]; auto).
  assert (RB : Rabs (B2R b) <= pow2 (emax - 1) - pow2 (emax - 2)).
  { destruct HB as [->|[_ HB]]; [cbn; rewrite Rabs_R0|]; lra. }
  destruct (beyond_add s _ (pow2 (emax - 2)) a b A1 RB) as [S1 S2]; auto; try lra.
  { apply fmt_pow; auto; apply Em; lia. }
  assert (K : forall x, beyond s (pow2 (emax - 2)) x -> s_ltb s_zero (s_sub (s_sub x v) v) = negb s).
  { intros x HX.
    assert (H1 : beyond s (pow2 (emax - 3)) (s_sub x v)).
    { apply (beyond_sub s (pow2 (emax - 2))); auto; try lra. apply fmt_pow; auto; apply Em; lia. }
    assert (H2 : beyond s (pow2 (emax - 4)) (s_sub (s_sub x v) v)).
    { apply (beyond_sub s (pow2 (emax - 3))); auto; try lra. apply fmt_pow; auto; apply Em; lia. }
    destruct H2 as [->|[F2 H2]]; [destruct s; reflexivity|].
    destruct s; cbn [negb].
    - apply ltb_R_false; auto; [reflexivity|]. rewrite R_zero. lra.
    - apply ltb_R; auto; [reflexivity|]. rewrite R_zero. lra. }
  split; auto.
Qed.

(** ** Sums with an infinite term *)
Definition positive (x : F) : Prop := x = B754_infinity false \/ (fin x /\ 0 <= B2R x).

Lemma positive_add x y : positive x -> positive y ->
  positive (s_add x y) /\ (x = B754_infinity false \/ y = B754_infinity false -> s_add x y = B754_infinity false).
Proof.
  assert (K : forall x y : F, positive x -> positive y -> x = B754_infinity false \/ y = B754_infinity false ->
    s_add x y = B754_infinity false).
  { clear. intros x y Px Py [->| ->].
    - destruct Py as [->|[Fy _]]; [reflexivity|]. destruct y as [[]|[]| |[] ? ? ?]; try discriminate; reflexivity.
    - destruct Px as [->|[Fx _]]; [reflexivity|]. destruct x as [[]|[]| |[] ? ? ?]; try discriminate; reflexivity. }
  intros Px Py. split; [|auto].
  pose proof Px as Px0. pose proof Py as Py0.
  destruct Px as [Ex|[Fx Px]]; [left; apply K; auto|].
  destruct Py as [Ey|[Fy Py]]; [left; apply K; auto|].
  destruct (add_cases x y Fx Fy) as [[A B]|[A B]].
  - right. split; auto. rewrite B. apply rnd_ge_0; auto. lra.
  - pose proof (sign_R x Fx) as Sx. pose proof (sign_R y Fy) as Sy. rewrite B in Sy.
    destruct (Bsign x) eqn:E; [|left; auto].
    (* both are zero: the sum does not overflow *)
    exfalso. destruct (add_R prec emax Hprec Hmax x y Fx Fy) as [C _].
    + replace (B2R x + B2R y) with 0 by lra. rewrite rnd_0 by auto. rewrite Rabs_R0. apply bpow_gt_0.
    + rewrite A in C. discriminate.
Qed.

Lemma positive_fold ts : forall acc, (forall t, In t ts -> positive t) -> positive acc ->
  acc = B754_infinity false \/ In (B754_infinity false) ts ->
  fold_left s_add ts acc = B754_infinity false.
Proof.
  induction ts as [|t ts IH]; intros acc Ht Pa H; cbn [fold_left].
  - destruct H as [->|[]]; auto.
  - destruct (positive_add acc t Pa (Ht t (or_introl eq_refl))) as [PA PB].
    apply IH; auto; [intros; apply Ht; right; auto|].
    destruct H as [->|[->|H]]; auto.
Qed.
End Arith.
