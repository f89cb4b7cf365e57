(** Contracted searches over coordinates on a grid: nothing is rounded. *)
From Coq Require Import List ZArith Reals Bool Arith Permutation Sorted Lia Lra.
From Flocq Require Import Core.Core IEEE754.BinarySingleNaN Plus_error Relative.
From Verif Require Import Base ModelBox ModelBuild ModelSearch Spec SpecRound Lemmas BuildProofs
  BuildShape BuildThms SearchProofs OrdThms Floats FloatThms FloatSearch FloatQuery ModelFused SpecFused
  FusedThms FusedQuery.
Import ListNotations.
Local Open Scope R_scope.

Section Grid.
Variables (prec emax : Z).
Context (Hprec : Prec_gt_0 prec) (Hmax : Prec_lt_emax prec emax) (P2 : (2 <= prec)%Z).
Local Notation F := (binary_float prec emax).
Local Notation fin := (finite prec emax).
Local Notation fexp := (SpecFloat.fexp prec emax).
Local Notation emin := (SpecFloat.emin prec emax).
Local Notation rnd := (round radix2 fexp ZnearestE).
Local Notation fmt := (generic_format radix2 fexp).
Local Notation pow2 := (bpow radix2).
Local Existing Instance SF.
Let ve := vexp prec emax Hprec.
Local Existing Instance ve.
Local Notation add_square := (add_square prec emax Hprec Hmax).

Variables (ct : contraction) (e g : Z) (sp : space F) (bnds : start_bounds F) (q : list F).
Hypothesis FI : float_input prec emax L2Squared e sp bnds q.
Hypothesis GI : grid_input prec emax L2Squared g e sp q.
Let n := sp_sdim sp.
Let N := length (sp_pts sp).
Let B : R := pow2 (2 * e + 2).
Local Notation del := (del prec emax Hprec Hmax sp q).
Local Notation Df := (Df prec emax Hprec Hmax ct sp q).
Local Notation gr := grid.

Lemma gr_plus h x y : gr h x -> gr h y -> gr h (x + y).
Proof. intros [a ->] [b ->]. exists (a + b)%Z. rewrite plus_IZR. ring. Qed.
Lemma gr_minus h x y : gr h x -> gr h y -> gr h (x - y).
Proof. intros [a ->] [b ->]. exists (a - b)%Z. rewrite minus_IZR. ring. Qed.
Lemma gr_0 h : gr h 0. Proof. exists 0%Z. ring. Qed.
Lemma gr_abs h x : gr h x -> gr h (Rabs x).
Proof. intros [a ->]. exists (Z.abs a). rewrite Rabs_mult, abs_IZR, (Rabs_pos_eq (pow2 h)); auto. apply bpow_ge_0. Qed.
Lemma gr_abs_inv h x : gr h (Rabs x) -> gr h x.
Proof.
  intros [a E]. unfold Rabs in E. destruct (Rcase_abs x) as [L|L].
  - exists (- a)%Z. rewrite opp_IZR. lra.
  - exists a. exact E.
Qed.
Lemma gr_sq x : gr g x -> gr (2 * g) (x * x).
Proof.
  intros [a ->]. exists (a * a)%Z. rewrite mult_IZR. replace (2 * g)%Z with (g + g)%Z by ring. rewrite bpow_plus. ring.
Qed.
Lemma gr_sum h k f : (forall i, (i < k)%nat -> gr h (f i)) -> gr h (sumR k f).
Proof. induction k; intros H; [apply gr_0|]. rewrite sumR_S. apply gr_plus; auto. Qed.

Lemma room : INR n * B < pow2 (2 * g + prec) /\ (emin <= 2 * g)%Z.
Proof. split; [exact (gi_room _ _ _ _ _ _ _ GI)|exact (gi_min _ _ _ _ _ _ _ GI)]. Qed.
Lemma gr_fmt x : gr (2 * g) x -> Rabs x <= INR n * B -> fmt x.
Proof.
  intros G H. destruct room as [R1 R2].
  apply (grid_fmt prec emax Hprec P2 sp q (fi_length _ _ _ _ _ _ _ FI) (2 * g)); auto. lra.
Qed.

Let nB := fitB prec emax e sp bnds q FI.
Let n1 := npos prec emax e sp bnds q FI.
Lemma one_fits x : x <= B -> x <= INR n * B.
Proof. intros H. pose proof (bpow_gt_0 radix2 (2 * e + 2)). pose proof n1. fold n in H1. fold B in H0. nra. Qed.

Lemma square_g z : fin z -> Rabs (B2R z) <= pow2 (e + 1) -> gr g (B2R z) ->
  fin (squared z) /\ B2R (squared z) = B2R z * B2R z.
Proof.
  intros Fz Hz Gz. unfold squared.
  pose proof (sq_bound e _ Hz) as SB. fold B in SB. pose proof (Rle_0_sqr (B2R z)) as S0. unfold Rsqr in S0.
  assert (E : rnd (B2R z * B2R z) = B2R z * B2R z).
  { apply rnd_fmt; auto. apply gr_fmt; [apply gr_sq; auto|]. rewrite Rabs_pos_eq by auto. apply one_fits; auto. }
  rewrite <- E. apply mul_R; auto. rewrite E.
  apply (lt_emax emax _ (emax - 3)); [lia|]. rewrite Rabs_pos_eq by auto.
  apply Rle_trans with (INR n * B); [apply one_fits; auto|exact nB].
Qed.

Lemma square_add_g b acc z : fin acc -> fin z -> Rabs (B2R z) <= pow2 (e + 1) -> gr g (B2R z) ->
  gr (2 * g) (B2R acc) -> 0 <= B2R acc -> B2R acc + B2R z * B2R z <= INR n * B ->
  fin (add_square b acc z) /\ B2R (add_square b acc z) = B2R acc + B2R z * B2R z.
Proof.
  intros Fa Fz Hz Gz Ga A0 AB. pose proof (Rle_0_sqr (B2R z)) as S0. unfold Rsqr in S0.
  assert (E : rnd (B2R acc + B2R z * B2R z) = B2R acc + B2R z * B2R z).
  { apply rnd_fmt; auto. apply gr_fmt; [apply gr_plus; auto; apply gr_sq; auto|]. rewrite Rabs_pos_eq; lra. }
  assert (LT : Rabs (B2R acc + B2R z * B2R z) < pow2 emax).
  { apply (lt_emax emax _ (emax - 3)); [lia|]. rewrite Rabs_pos_eq by lra. eapply Rle_trans; [exact AB|exact nB]. }
  destruct b; cbn [ModelFused.add_square].
  - pose proof (Bfma_correct prec emax Hprec Hmax mode_NE z z acc Fz Fz Fa) as K. cbv zeta in K.
    change (round_mode mode_NE) with ZnearestE in K. rewrite (Rplus_comm (B2R z * B2R z)), E in K.
    rewrite Rlt_bool_true in K by auto. destruct K as (K1 & K2 & _). auto.
  - destruct (square_g z Fz Hz Gz) as [Fs Es].
    change (@squared F (SFu prec emax Hprec Hmax)) with (@squared F (SF prec emax Hprec Hmax)).
    change (@s_add F (SFu prec emax Hprec Hmax)) with (@s_add F (SF prec emax Hprec Hmax)).
    rewrite <- E, <- Es. apply add_R; auto. rewrite Es, E. auto.
Qed.

(** ** Distances *)
Lemma diff_g j k : (j < N)%nat -> (k < n)%nat ->
  gr g (B2R (get q k) - B2R (coord sp k j))
  /\ rnd (B2R (get q k) - B2R (coord sp k j)) = B2R (get q k) - B2R (coord sp k j).
Proof.
  intros Hj Hk.
  assert (G : gr g (B2R (get q k) - B2R (coord sp k j))).
  { apply gr_minus.
    - pose proof (gi_query _ _ _ _ _ _ _ GI) as GQ. rewrite Forall_forall in GQ.
      apply (GQ (get q k)). apply nth_In. rewrite (fi_length _ _ _ _ _ _ _ FI). exact Hk.
    - apply (all_coords_get prec emax Hprec Hmax L2Squared e sp bnds q FI (on_grid prec emax g) j k
        (gi_coords _ _ _ _ _ _ _ GI)); auto. }
  split; auto. apply rnd_fmt; auto. destruct room as [R1 R2].
  assert (BR : pow2 (2 * e + 2) < pow2 (2 * g + prec)).
  { eapply Rle_lt_trans; [|exact R1]. apply one_fits. apply Rle_refl. }
  apply lt_bpow in BR.
  apply (grid_fmt prec emax Hprec P2 sp q (fi_length _ _ _ _ _ _ _ FI) g); auto.
  { rewrite emin_eq in *. unfold Prec_gt_0, Prec_lt_emax in *. lia. }
  destruct (qb prec emax Hprec Hmax e sp bnds q FI k Hk) as [_ Q1]. destruct (cb prec emax Hprec Hmax e sp bnds q FI j k Hj Hk) as [_ Q2].
  apply Rabs_le_inv in Q1, Q2.
  apply Rle_lt_trans with (pow2 (e + 1)).
  - rewrite bpow_plus. cbn. apply Rabs_le. lra.
  - apply bpow_lt. lia.
Qed.
Lemma del_g j k : (j < N)%nat -> (k < n)%nat -> gr g (del j k).
Proof. intros Hj Hk. unfold FusedThms.del. apply gr_abs. destruct (diff_g j k Hj Hk) as [G ->]. auto. Qed.

Lemma fused_sum_g j (Hj : (j < N)%nat) : forall m i acc s, (i + m = n)%nat ->
  fin acc -> B2R acc = s -> gr (2 * g) s -> 0 <= s <= INR i * B ->
  let r := fused_sum prec emax Hprec Hmax ct i (map (fun k => (get q k, coord sp k j)) (seq i m)) acc in
  fin r /\ B2R r = s + fold_right Rplus 0 (map (fun k => del j k * del j k) (seq i m)).
Proof.
  induction m as [|m IH]; intros i acc s Hi Fa Ha Gs Hs; cbv zeta.
  - cbn [seq map fused_sum fold_right]. rewrite Rplus_0_r. auto.
  - cbn [seq map fused_sum fold_right].
    change (@s_sub F (SFu prec emax Hprec Hmax)) with (@s_sub F (SF prec emax Hprec Hmax)).
    destruct (diffb prec emax Hprec Hmax P2 e sp bnds q FI (get q i) (coord sp i j)) as (Fz & Ez & Bz).
    { apply (qb prec emax Hprec Hmax e sp bnds q FI). unfold n in Hi. lia. }
    { apply (cb prec emax Hprec Hmax e sp bnds q FI); auto. unfold n in Hi. lia. }
    set (z := s_sub (get q i) (coord sp i j)) in *.
    assert (SZ : B2R z * B2R z = del j i * del j i) by (rewrite del_sq, Ez; auto).
    assert (GZ : gr g (B2R z)).
    { rewrite Ez. destruct (diff_g j i Hj ltac:(lia)) as [G ->]. auto. }
    assert (VB : B2R z * B2R z <= B) by (apply sq_bound; rewrite Ez; auto).
    assert (Hin : INR i + 1 <= INR n) by (rewrite <- S_INR; apply le_INR; lia).
    pose proof (bpow_gt_0 radix2 (2 * e + 2)) as B0. fold B in B0.
    pose proof (Rle_0_sqr (B2R z)) as S0. unfold Rsqr in S0.
    destruct (square_add_g (ct_term ct i) acc z Fa Fz) as (Fr & E).
    { rewrite Ez. auto. } { auto. } { rewrite Ha. auto. } { lra. } { rewrite Ha. nra. }
    rewrite <- Rplus_assoc. apply (IH (S i) _ (s + del j i * del j i)); auto.
    + lia.
    + rewrite E, Ha, SZ. reflexivity.
    + apply gr_plus; auto. rewrite <- SZ. apply gr_sq; auto.
    + rewrite <- SZ, S_INR. lra.
Qed.

Lemma Df_g j : (j < N)%nat -> fin (Df j) /\ B2R (Df j) = sumR n (fun k => del j k * del j k)
  /\ 0 <= B2R (Df j) <= INR n * B.
Proof.
  intros Hj. unfold FusedThms.Df, fused_distance.
  rewrite (combine_get prec emax Hprec Hmax q (sp_at sp j) n).
  2:{ apply (fi_length _ _ _ _ _ _ _ FI). }
  2:{ apply (sp_at_length sp (fi_space _ _ _ _ _ _ _ FI)). apply in_space_lt; auto. }
  destruct (fused_sum_g j Hj n 0 s_zero 0) as [A C]; auto.
  { reflexivity. } { apply gr_0. } { cbn. lra. }
  rewrite Rplus_0_l in C. split; [exact A|].
  fold (sumR n (fun k => del j k * del j k)) in C. split; [exact C|].
  assert (K : 0 <= sumR n (fun k => del j k * del j k) <= INR n * B).
  { split.
    - apply sumR_nonneg. intros. apply Rle_0_sqr.
    - apply sumR_bound. intros k Hk. apply sq_bound.
      rewrite Rabs_pos_eq; apply (del_bounds prec emax Hprec Hmax P2 e sp bnds q FI); auto. }
  rewrite <- C in K. exact K.
Qed.

Lemma fused_true j : (j < N)%nat -> B2R (Df j) = true_dist prec emax L2Squared sp q j.
Proof.
  intros Hj. destruct (Df_g j Hj) as (_ & -> & _). apply sumR_ext. intros k Hk. rewrite del_sq.
  destruct (diff_g j k Hj Hk) as [_ ->]. reflexivity.
Qed.

(** ** The search *)
Record LBx (w : nat -> R) (o : list F) (d : F) (l : list nat) : Prop := {
  lx_len : length o = n;
  lx_side : forall k, (k < n)%nat -> 0 <= w k <= pow2 (e + 1) /\ gr g (w k);
  lx_off : forall k, (k < n)%nat -> fin (get o k) /\ B2R (get o k) = w k * w k;
  lx_fin : fin d;
  lx_sum : B2R d = sumR n (fun k => w k * w k);
  lx_low : forall j k, In j l -> (k < n)%nat -> w k <= del j k;
  lx_in : forall j, In j l -> (j < N)%nat
}.
Definition LBg (s : nat) o d l : Prop := exists w, LBx w o d l.

Lemma LBg_incl s o d l l' : LBg s o d l -> incl l' l -> LBg s o d l'.
Proof. intros [w []] H. exists w. constructor; auto. Qed.

Lemma LBg_start l : incl l (seq 0 N) -> LBg 0 (offsets0 sp) s_zero l.
Proof.
  intros Hl. exists (fun _ => 0).
  assert (Z : forall k, (k < n)%nat -> get (offsets0 sp) k = (s_zero : F)).
  { intros k Hk. unfold offsets0, get. rewrite nth_tab by auto. reflexivity. }
  assert (S0 : sumR n (fun _ => 0 * 0) = 0).
  { clear. induction n; [reflexivity|]. rewrite sumR_S, IHn0. lra. }
  constructor.
  - apply length_tab.
  - intros k Hk. split; [split; [lra|apply bpow_ge_0]|apply gr_0].
  - intros k Hk. rewrite Z by auto. split; [reflexivity|]. rewrite R_zero. lra.
  - reflexivity.
  - rewrite S0, R_zero. reflexivity.
  - intros j k Hj Hk. apply Rabs_pos.
  - intros j Hj. apply Hl in Hj. apply in_seq in Hj. lia.
Qed.

Lemma LBg_step b s o d l l' sd z old :
  LBg s o d l -> incl l' l -> (sd < n)%nat -> at_ o sd = Ok old ->
  fin z -> Rabs (B2R z) <= pow2 (e + 1) -> gr g (B2R z) ->
  (forall j, In j l' -> Rabs (B2R z) <= del j sd) ->
  LBg (s + 1) (set_nth o sd (squared z)) (add_square b (s_sub d old) z) l'.
Proof.
  intros [w [A1 A2 A3 A4 A5 A6 A7]] HI Hsd Ho Fz Bz Gz Lz.
  set (S := sumR n (fun k => w k * w k)) in *.
  assert (Eold : get o sd = old).
  { apply at_ok in Ho. unfold get. apply nth_error_nth. exact Ho. }
  destruct (A3 sd Hsd) as (Fold & Eo). rewrite Eold in *.
  set (w' := fun k => if Nat.eq_dec sd k then Rabs (B2R z) else w k).
  set (t := w sd * w sd) in *. set (v := B2R z * B2R z).
  assert (AV : Rabs (B2R z) * Rabs (B2R z) = v).
  { rewrite <- Rabs_mult. apply Rabs_pos_eq, Rle_0_sqr. }
  assert (ES : sumR n (fun k => w' k * w' k) = S - t + v).
  { rewrite (sumR_update n (fun k => w k * w k) (fun k => w' k * w' k) sd); auto.
    - unfold w'. destruct (Nat.eq_dec sd sd) as [_|X]; [|congruence]. rewrite AV. reflexivity.
    - intros k Hk Hne. unfold w'. destruct (Nat.eq_dec sd k) as [->|_]; [congruence|reflexivity]. }
  assert (W' : forall k, (k < n)%nat -> 0 <= w' k <= pow2 (e + 1) /\ gr g (w' k)).
  { intros k Hk. unfold w'. destruct (Nat.eq_dec sd k) as [<-|Hne]; auto.
    split; [split; [apply Rabs_pos|auto]|apply gr_abs; auto]. }
  assert (T0 : 0 <= t) by apply Rle_0_sqr.
  assert (TS : t <= S).
  { unfold S, t. apply (sumR_ge_one n (fun k => w k * w k)); auto. intros. apply Rle_0_sqr. }
  assert (SB : S <= INR n * B).
  { apply sumR_bound. intros k Hk. apply sq_bound. rewrite Rabs_pos_eq; apply A2; auto. }
  assert (SB' : S - t + v <= INR n * B).
  { rewrite <- ES. apply sumR_bound. intros k Hk. apply sq_bound. rewrite Rabs_pos_eq; apply W'; auto. }
  assert (GS : gr (2 * g) (S - t)).
  { apply gr_minus; [apply gr_sum; intros k Hk; apply gr_sq, A2; auto|apply gr_sq, A2; auto]. }
  assert (E : rnd (B2R d - B2R old) = S - t).
  { rewrite A5, Eo. apply rnd_fmt; auto. apply gr_fmt; auto. rewrite Rabs_pos_eq; lra. }
  destruct (sub_R prec emax Hprec Hmax d old A4 Fold) as [Fa Ea].
  { rewrite E. apply (lt_emax emax _ (emax - 3)); [lia|]. rewrite Rabs_pos_eq by lra.
    apply Rle_trans with (INR n * B); [lra|exact nB]. }
  rewrite E in Ea.
  destruct (square_add_g b (s_sub d old) z) as (Fr & Er); auto.
  { rewrite Ea. auto. } { rewrite Ea. lra. } { rewrite Ea. exact SB'. }
  exists w'. constructor.
  - rewrite length_set_nth. auto.
  - exact W'.
  - intros k Hk. unfold w'. destruct (Nat.eq_dec sd k) as [<-|Hne].
    + rewrite get_set_same by lia. rewrite AV. apply square_g; auto.
    + rewrite get_set_other by auto. auto.
  - exact Fr.
  - rewrite ES, Er, Ea. reflexivity.
  - intros j k Hj Hk. unfold w'. destruct (Nat.eq_dec sd k) as [<-|Hne]; auto.
  - intros j Hj. apply A7, HI, Hj.
Qed.

Definition skipg (x : F) (j : nat) : Prop := B2R x < B2R (Df j).

Lemma prune_g s o d l x j : LBg s o d l -> fin x -> s_leb d x = false -> In j l -> skipg x j.
Proof.
  intros [w [A1 A2 A3 A4 A5 A6 A7]] Fx EL Hj. pose proof (A7 j Hj) as HjN.
  apply leb_R_false in EL; auto. unfold skipg. destruct (Df_g j HjN) as (_ & -> & _).
  eapply Rlt_le_trans; [exact EL|]. rewrite A5. apply sumR_le. intros k Hk. destruct (A2 k Hk) as [[? _] _].
  apply Rmult_le_compat; auto.
Qed.

Section Tree.
Variables (alg : std_algos) (SL : std_laws alg).
Variables (it : index_type) (fuel : nat) (stop : stop_condition) (ru : rule) (t : kd_tree_data Euclidean F).
Hypothesis (NM : ru <> midpoint_max_side).
Hypothesis HM : kd_tree_make alg it metric_l2_squared fuel sp stop bnds ru = Ok (KdTree sp metric_l2_squared t).
Let m := metric_fused prec emax Hprec Hmax ct.

Lemma contract_g (V : Type) (vis : visitor F V) (Inv : V -> Prop) v0 :
  (forall st i, Inv st -> (i < N)%nat -> Inv (v_visit vis i (m_dist m q (sp_at sp i)) st)) ->
  (forall st, Inv st -> fin (v_max vis st)) ->
  (forall st i, Inv st -> (i < N)%nat -> s_leb (v_max vis (v_visit vis i (m_dist m q (sp_at sp i)) st)) (v_max vis st) = true) ->
  Inv v0 ->
  exists tr rest, Permutation (tr ++ rest) (seq 0 N)
    /\ search_fused prec emax Hprec Hmax ct sp t vis q v0 = Ok (visits m vis sp q tr v0)
    /\ Inv (visits m vis sp q tr v0)
    /\ forall j, In j rest -> skipg (v_max vis (visits m vis sp q tr v0)) j.
Proof.
  intros VI VF VM HI.
  destruct (made_tight prec emax Hprec Hmax P2 e sp bnds q FI alg SL it fuel stop ru t NM HM) as [P NS].
  set (idx := kd_indices t) in *.
  assert (Hin : forall i, In i idx <-> (i < N)%nat).
  { intros i. rewrite <- In_seq0. split; apply Permutation_in; auto; symmetry; auto. }
  destruct (fused_levels prec emax Hprec Hmax ct vis sp idx q (R_tight fin sp Euclidean)
              Inv (fun st j => skipg (v_max vis st) j) LBg (node_height (kd_root t)) idx) with
    (nd := kd_root t) (b := 0%nat) (l := idx) (dp := 0%nat) (s := 0%nat) (pre := @nil nat) (post := @nil nat)
    (o := offsets0 sp) (d := s_zero (Scalar := SF prec emax Hprec Hmax)) (st := v0)
    as (tr & rest & Pt & E & HF); auto.
  - intros st i HIs Hi. apply VI; auto. apply Hin; auto.
  - intros st i j HIs Hi S1. apply Hin in Hi. specialize (VM st i HIs Hi).
    apply leb_R in VM; [|apply VF, VI; auto|auto]. unfold skipg in *. eapply Rle_lt_trans; [exact VM|exact S1].
  - intros. eapply LBg_incl; eauto.
  - intros s o d l st _ HL HIs EL j Hj. eapply prune_g; eauto.
  - intros s br l r o d b Hs HR Hi HL.
    assert (Hi' : incl (l ++ r) (seq 0 N)) by (intros x Hx; apply In_seq0, Hin, Hi, Hx).
    destruct (gap_facts prec emax Hprec Hmax P2 e sp bnds q FI br l r HR Hi')
      as (v & Hd & Ev & Z1 & Z2 & (j0 & Hj0 & Z3) & Z4).
    assert (Lo : length o = n) by (destruct HL as [w HL]; apply (lx_len _ _ _ _ HL)).
    assert (Eo : at_ o (bs_split_dim br) = Ok (get o (bs_split_dim br))) by (apply at_lt; rewrite Lo; auto).
    do 2 eexists. split; [exact Ev|]. split; [exact Eo|].
    eapply LBg_step; eauto.
    + intros x Hx. apply in_or_app. destruct (decision _ _ _ _ _ _); auto.
    + apply gr_abs_inv. rewrite Z3. apply del_g; auto. apply Hi' in Hj0. apply in_seq in Hj0. lia.
  - rewrite app_nil_r. reflexivity.
  - apply Forall_forall. intros i Hi. apply in_space_lt. apply Hin; auto.
  - apply incl_refl.
  - apply LBg_start. intros x Hx. apply In_seq0, Hin, Hx.
  - exists tr, rest. split; [rewrite Pt; auto|]. split.
    + unfold search_fused. rewrite (fi_length _ _ _ _ _ _ _ FI), Nat.eqb_refl. cbn [bind guard].
      fold idx. unfold offsets0 in E.
      change (SF prec emax Hprec Hmax) with (SFu prec emax Hprec Hmax) in E. rewrite E. reflexivity.
    + split; auto. apply (visits_inv m vis sp q Inv idx); auto.
      * intros st i HIs Hi. apply VI; auto. apply Hin; auto.
      * intros x Hx. eapply Permutation_in; [exact Pt|]. apply in_or_app; auto.
Qed.

Lemma facts_g j : (j < N)%nat ->
  fin (m_dist m q (sp_at sp j)) /\ 0 <= fused_computed prec emax Hprec Hmax ct sp q j <= pow2 (emax - 2).
Proof.
  intros Hj. destruct (Df_g j Hj) as (A & _ & C). split; [exact A|].
  change (fused_computed prec emax Hprec Hmax ct sp q j) with (B2R (Df j)).
  pose proof (p32 emax). pose proof (bpow_ge_0 radix2 (emax - 3)). pose proof nB as K. fold n B in K. lra.
Qed.
Lemma skip_g x j : (j < N)%nat -> fin x -> skipg x j -> B2R x <= 1 * fused_computed prec emax Hprec Hmax ct sp q j.
Proof. intros Hj Fx H. rewrite Rmult_1_l. left. exact H. Qed.
End Tree.
End Grid.

(** ** Statements about the public functions *)
Section Top.
Variables (prec emax : Z).
Context (Hprec : Prec_gt_0 prec) (Hmax : Prec_lt_emax prec emax) (P2 : (2 <= prec)%Z).
Local Notation F := (binary_float prec emax).
Local Notation FS := (Float_scalar prec emax Hprec Hmax).
Local Notation l2 := (@metric_l2_squared F FS).
Variables (ct : contraction) (e g : Z) (sp : space F) (bnds : start_bounds F) (q : list F).
Hypothesis FI : float_input prec emax L2Squared e sp bnds q.
Hypothesis GI : grid_input prec emax L2Squared g e sp q.
Variables (alg : std_algos) (SL : std_laws alg).
Variables (it : index_type) (fuel : nat) (stop : stop_condition) (ru : rule) (t : kd_tree_data Euclidean F).
Hypothesis (NM : ru <> midpoint_max_side).
Hypothesis HM : @kd_tree_make F FS alg it l2 fuel sp stop bnds ru = Ok (KdTree sp l2 t).
Let D := true_dist prec emax L2Squared sp q.
Let Dc := fused_computed prec emax Hprec Hmax ct sp q.

Lemma D_true j : (j < npts sp)%nat -> Dc j = D j.
Proof. apply (fused_true prec emax Hprec Hmax P2 ct e g sp bnds q FI GI). Qed.

Lemma fused_grid :
  (forall nn0, exists i d, search_nn_fused prec emax Hprec Hmax ct sp t q nn0 = Ok (Neighbor i d)
     /\ B2R d = D i /\ nearest_within (npts sp) D 1 i)
  /\ (forall k knn0, (0 < k)%nat -> exists out, search_knn_fused prec emax Hprec Hmax ct sp t q k knn0 = Ok out
     /\ knn_within (npts sp) k D 1 (real_answers prec emax out))
  /\ (forall r sort, finite prec emax r ->
     exists l, search_radius_fused prec emax Hprec Hmax ct alg sp t q r sort = Ok l
     /\ radius_within (npts sp) D 1 (B2R r) (real_answers prec emax l)
     /\ (sort = true -> StronglySorted Rle (map snd (real_answers prec emax l)))).
Proof.
  pose proof (facts_g prec emax Hprec Hmax P2 ct e g sp bnds q FI GI) as DF.
  pose proof (contract_g prec emax Hprec Hmax P2 ct e g sp bnds q FI GI alg SL it fuel stop ru t NM HM) as CG.
  pose proof (skip_g prec emax Hprec Hmax ct sp q) as SK.
  assert (O1 : 1 <= 1 <= 2) by lra.
  split; [|split].
  - intros nn0.
    destruct (nn_fused prec emax Hprec Hmax P2 ct sp bnds q alg it fuel stop ru t HM _ DF CG 1 ltac:(lra) ltac:(lra) SK nn0)
      as (i & d & A & -> & [C1 C2]).
    eexists i, _. split; [exact A|]. split; [exact (D_true i C1)|]. split; auto.
    intros j Hj. rewrite <- !D_true by auto. apply C2. auto.
  - intros k knn0 Hk.
    destruct (knn_fused prec emax Hprec Hmax P2 ct sp bnds q alg it fuel stop ru t HM _ DF CG 1 ltac:(lra) ltac:(lra) SK k knn0 Hk)
      as (out & A & [C1 C2 C3 C4 C5]).
    exists out. split; [exact A|]. constructor; auto.
    + intros i d Hi. destruct (C3 i d Hi) as [X Y]. split; auto. rewrite Y. apply D_true. auto.
    + intros i d j Hi Hj Hn. rewrite <- D_true by auto. eapply C5; eauto.
  - intros r sort Fr.
    destruct (radius_fused prec emax Hprec Hmax ct sp q alg SL t _ DF CG 1 ltac:(lra) SK r sort Fr)
      as (l & A & [C1 C2 C3] & E).
    exists l. split; [exact A|]. split.
    + constructor; auto.
      * intros i d Hi. destruct (C2 i d Hi) as (X & Y & Z). split; auto. split; auto. rewrite Y. apply D_true. auto.
      * intros i Hi HR. apply C3; auto. pose proof (D_true i Hi) as K. unfold Dc in K. rewrite K. exact HR.
    + intros Hs. unfold real_answers. rewrite map_map. apply E. exact Hs.
Qed.
End Top.
