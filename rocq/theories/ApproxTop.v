(** The theorems of PropApprox.v. *)
From Coq Require Import List ZArith Reals Bool Arith Permutation Sorted Lia Lra.
From Flocq Require Import Core.Core IEEE754.BinarySingleNaN.
From Verif Require Import Base ModelBox ModelBuild ModelSearch Spec SpecRound SpecApprox Instances Lemmas BuildThms
  Floats FloatThms FloatQuery FloatApprox FloatEx FloatTop Examples.
Import ListNotations.
Local Open Scope R_scope.

(** ** Visitors that do the same *)
Section Ext.
Context {T : Type} {S : Scalar T} {V : Type}.
Variables (v1 v2 : visitor T V).
Hypotheses (HV : forall i d st, v_visit v1 i d st = v_visit v2 i d st) (HM : forall st, v_max v1 st = v_max v2 st).

Lemma range_ext m sp q l : forall st, visit_range m v1 sp q l st = visit_range m v2 sp q l st.
Proof.
  induction l as [|i l IH]; intros st; cbn [visit_range]; auto.
  destruct (guard (in_space sp i) UbIndex); cbn [bind]; auto. rewrite HV. apply IH.
Qed.
Lemma euclidean_ext m sp idx q n : forall d st,
  search_nearest_euclidean m v1 sp idx q n d st = search_nearest_euclidean m v2 sp idx q n d st.
Proof.
  induction n as [b e|br nl IHl nr IHr]; intros d st; cbn [search_nearest_euclidean].
  - destruct (slice idx b e); cbn [bind]; auto. rewrite range_ext. reflexivity.
  - destruct (at_ q (bs_split_dim br)) as [v| |]; cbn [bind]; auto.
    destruct (s_ltb _ _); [rewrite IHl|rewrite IHr];
    (match goal with |- bind ?x _ = _ => destruct x as [st1| |]; cbn [bind]; auto end);
    destruct (at_ (fst st1) (bs_split_dim br)) as [o| |]; cbn [bind]; auto; rewrite HM;
    (match goal with |- (if ?c then _ else _) = _ => destruct c; auto end); [rewrite IHr|rewrite IHl]; reflexivity.
Qed.
Lemma topological_ext m sp idx q n : forall d st,
  search_nearest_topological m v1 sp idx q n d st = search_nearest_topological m v2 sp idx q n d st.
Proof.
  induction n as [b e|br nl IHl nr IHr]; intros d st; cbn [search_nearest_topological].
  - destruct (slice idx b e); cbn [bind]; auto. rewrite range_ext. reflexivity.
  - destruct (at_ q (bd_split_dim br)) as [v| |]; cbn [bind]; auto.
    destruct (box_distance m (bd_left_min br) (bd_left_max br) v (bd_split_dim br)) as [d1| |]; cbn [bind]; auto.
    destruct (box_distance m (bd_right_min br) (bd_right_max br) v (bd_split_dim br)) as [d2| |]; cbn [bind]; auto.
    destruct (s_ltb d1 d2); [rewrite IHl|rewrite IHr];
    (match goal with |- bind ?x _ = _ => destruct x as [st1| |]; cbn [bind]; auto end);
    destruct (at_ (fst st1) (bd_split_dim br)) as [o| |]; cbn [bind]; auto; rewrite HM;
    (match goal with |- (if ?c then _ else _) = _ => destruct c; auto end); [rewrite IHr|rewrite IHl]; reflexivity.
Qed.
Lemma search_ext (t : kd_tree T) q v0 : search_nearest t v1 q v0 = search_nearest t v2 q v0.
Proof.
  unfold search_nearest. destruct (guard _ _); cbn [bind]; auto. unfold search_nearest_root.
  destruct t as [sp m data]. cbn [kt_space kt_metric kt_data]. destruct data as [idx bx root]. cbn [kd_indices kd_root].
  destruct (m_cat m); [rewrite euclidean_ext|rewrite topological_ext]; reflexivity.
Qed.
End Ext.

(** ** A factor of one changes nothing *)
Section One.
Context {T : Type} {S : Scalar T}.
Hypothesis ONE : forall x : T, s_mul x (s_div s_one s_one) = x.

Lemma approx_one_nn (t : kd_tree T) q nn0 : search_nn_approx t q s_one nn0 = search_nn t q nn0.
Proof.
  apply search_ext; [|reflexivity]. intros i d st. cbn [v_visit visitor_approximate_nn visitor_nn]. rewrite ONE. reflexivity.
Qed.
Lemma approx_one_knn (t : kd_tree T) q k knn0 : search_knn_approx t q k s_one knn0 = search_knn t q k knn0.
Proof.
  unfold search_knn_approx, search_knn, search_knn_range_approx, search_knn_range.
  destruct (visitor_knn_init _) as [st0| |]; cbn [bind]; auto.
  rewrite (search_ext (visitor_approximate_knn s_one) visitor_knn); [reflexivity| |reflexivity].
  intros i d st. cbn [v_visit visitor_approximate_knn visitor_knn]. rewrite ONE. reflexivity.
Qed.
Lemma approx_one_radius alg (t : kd_tree T) q r sort : search_radius_approx alg t q r s_one sort = search_radius alg t q r sort.
Proof.
  unfold search_radius_approx, search_radius.
  rewrite (search_ext (visitor_approximate_radius s_one r) (visitor_radius r)); [reflexivity| |].
  - intros i d st. cbn [v_visit visitor_approximate_radius visitor_radius]. rewrite !ONE. reflexivity.
  - intros st. cbn [v_max visitor_approximate_radius visitor_radius]. apply ONE.
Qed.
End One.

Section FloatOne.
Variables (prec emax : Z).
Context (Hprec : Prec_gt_0 prec) (Hmax : Prec_lt_emax prec emax).
Local Notation F := (binary_float prec emax).
Local Existing Instance SF.

Lemma mult_one (x : F) : Bmult mode_NE x Bone = x.
Proof.
  pose proof (prec_emax prec emax Hmax) as PE.
  assert (SG : Bsign (@Bone prec emax Hprec Hmax) = false) by apply Bsign_Bone.
  assert (FO : is_finite (@Bone prec emax Hprec Hmax) = true) by apply is_finite_Bone.
  destruct (is_finite x) eqn:FX.
  - pose proof (Bmult_correct prec emax _ _ mode_NE x Bone) as C. cbn [round_mode] in C.
    rewrite Bone_correct, Rmult_1_r in C.
    assert (E : round radix2 (SpecFloat.fexp prec emax) ZnearestE (B2R x) = B2R x) by (apply rnd_fmt; apply fmt_B2R).
    rewrite E, Rlt_bool_true in C by apply abs_B2R_lt_emax. destruct C as (C1 & C2 & C3).
    rewrite FX, FO in C2. apply B2R_Bsign_inj; auto.
    rewrite C3 by (destruct (Bmult mode_NE x Bone); auto; discriminate). rewrite SG. destruct (Bsign x); reflexivity.
  - destruct (@Bone prec emax Hprec Hmax) as [s| | |s m e H] eqn:EO; try discriminate.
    + exfalso. pose proof (@Bone_correct prec emax Hprec Hmax) as K. rewrite EO in K. cbn in K. lra.
    + cbn in SG. subst s. destruct x as [s|s| |s m' e' H']; try discriminate; cbn; auto. destruct s; reflexivity.
Qed.

Lemma float_one (x : F) : s_mul x (s_div s_one s_one) = x.
Proof.
  assert (E : s_div s_one s_one = (s_one : F)).
  { assert (B1 : B2R (s_one : F) = 1) by apply R_one.
    assert (R1 : round radix2 (SpecFloat.fexp prec emax) ZnearestE (B2R (s_one : F) / B2R (s_one : F)) = B2R (s_one : F)).
    { rewrite B1. unfold Rdiv. rewrite Rinv_1, Rmult_1_r, <- B1. apply rnd_fmt; auto. apply fmt_B2R. }
    pose proof (Bdiv_correct prec emax _ _ mode_NE (s_one : F) (s_one : F) ltac:(rewrite B1; lra)) as C.
    cbn [round_mode] in C. rewrite R1, Rlt_bool_true in C by apply abs_B2R_lt_emax. destruct C as (C1 & C2 & C3).
    assert (FO : is_finite (s_one : F) = true) by apply is_finite_Bone.
    rewrite FO in C2. apply B2R_Bsign_inj; auto.
    change (@Bdiv prec emax Hprec Hmax mode_NE s_one s_one) with (s_div s_one s_one : F) in *.
    rewrite C3 by (destruct (s_div s_one s_one : F); auto; discriminate).
    assert (SG : Bsign (s_one : F) = false) by apply Bsign_Bone. rewrite SG. reflexivity. }
  rewrite E. apply mult_one.
Qed.

Lemma float_approx_one (tree : kd_tree F) (q : list F) (alg : std_algos) :
  (forall nn0, search_nn_approx tree q s_one nn0 = search_nn tree q nn0)
  /\ (forall k knn0, search_knn_approx tree q k s_one knn0 = search_knn tree q k knn0)
  /\ (forall r sort, search_radius_approx alg tree q r s_one sort = search_radius alg tree q r sort).
Proof.
  split; [|split]; intros.
  - apply approx_one_nn. apply float_one.
  - apply approx_one_knn. apply float_one.
  - apply approx_one_radius. apply float_one.
Qed.
End FloatOne.

Lemma c129_refutation : ~ (
  forall (em : exact_metric) (e : Z) (sp : space double) (bnds : start_bounds double) (q : list double) (ea : double),
  float_input 53 1024 em e sp bnds q -> factor_ok 53 1024 ea ->
  forall alg : std_algos, std_laws alg ->
  forall (it : index_type) (fuel : nat) (stop : stop_condition) (ru : rule) (tree : kd_tree double),
  ru <> midpoint_max_side ->
  @kd_tree_make double F64 alg it (@metric_of double F64 em) fuel sp stop bnds ru = Ok tree ->
  forall nn0 : neighbor double,
  exists i d, @search_nn_approx double F64 tree q ea nn0 = Ok (Neighbor i d)
    /\ nearest_within (npts sp) (computed 53 1024 prec_gt_53 prec_lt_1024 em sp q) (B2R ea) i).
Proof.
  intros H. apply c41_refutation. intros em e sp bnds q FI alg SL it fuel stop ru tree NM HM nn0.
  assert (FO : factor_ok 53 1024 (@s_one double F64)).
  { assert (B1 : B2R (@s_one double F64) = 1) by apply R_one.
    split; [apply fin_one|]. rewrite B1. split; [lra|]. change 1 with (bpow radix2 0). apply bpow_le. vm_compute; discriminate. }
  destruct (H em e sp bnds q (@s_one double F64) FI FO alg SL it fuel stop ru tree NM HM nn0) as (i & d & A & B).
  destruct (float_approx_one 53 1024 prec_gt_53 prec_lt_1024 tree q alg) as (E & _).
  exists i, d. split.
  - rewrite <- A. symmetry. apply E.
  - assert (B1 : B2R (@s_one double F64) = 1) by apply R_one. rewrite B1 in B. exact B.
Qed.

(** For the examples. *)
Definition indices_are {T} (x : res (list (neighbor T))) (l : list nat) : bool :=
  match x with Ok a => if list_eq_dec Nat.eq_dec (map n_index a) l then true else false | _ => false end.
Lemma indices_are_eq {T} (x : res (list (neighbor T))) l : indices_are x l = true -> exists a, x = Ok a /\ map n_index a = l.
Proof.
  unfold indices_are. destruct x as [a| |]; try discriminate. destruct (list_eq_dec _ _ _); try discriminate. eauto.
Qed.
