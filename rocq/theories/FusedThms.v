(** Contracted searches: how far rounding can make them skip a point. *)
From Coq Require Import List ZArith Reals Bool Arith Permutation Lia Lra.
From Flocq Require Import Core.Core IEEE754.BinarySingleNaN Plus_error Relative.
From Verif Require Import Base ModelBox ModelBuild ModelSearch Spec SpecRound Lemmas BuildProofs
  BuildShape BuildThms SearchProofs OrdThms Floats FloatThms FloatSearch ModelFused SpecFused.
Import ListNotations.
Local Open Scope R_scope.

(** ** The search, with any invariant *)
Section Gen.
Variables (prec emax : Z).
Context (Hprec : Prec_gt_0 prec) (Hmax : Prec_lt_emax prec emax).
Local Notation F := (binary_float prec emax).
Local Existing Instance SFu.
Local Notation metric_fused := (metric_fused prec emax Hprec Hmax).
Local Notation add_square := (add_square prec emax Hprec Hmax).
Context {V : Type}.
Variables (ct : contraction) (vis : visitor F V) (sp : space F) (indices : list nat) (q : list F).
Local Notation visits := (visits (metric_fused ct) vis sp q).
Variables (R : branch_single F -> list nat -> list nat -> Prop).
Variables (Inv : V -> Prop) (Far : V -> nat -> Prop) (LB : nat -> list F -> F -> list nat -> Prop).
Variable top : nat.
Variable all : list nat.
Definition decision (br : branch_single F) (v : F) : bool :=
  s_ltb s_zero (s_sub (s_sub (s_add (bs_left_max br) (bs_right_min br)) v) v).
Definition gap_of (br : branch_single F) (v : F) : F :=
  if decision br v then s_sub (bs_right_min br) v else s_sub (bs_left_max br) v.
Hypotheses
  (H_inv : forall st i, Inv st -> In i all -> Inv (v_visit vis i (m_dist (metric_fused ct) q (sp_at sp i)) st))
  (H_far : forall st i j, Inv st -> In i all -> Far st j -> Far (v_visit vis i (m_dist (metric_fused ct) q (sp_at sp i)) st) j)
  (H_incl : forall s o d l l', LB s o d l -> incl l' l -> LB s o d l')
  (H_prune : forall s o d l st, (s <= top)%nat -> LB s o d l -> Inv st -> s_leb d (v_max vis st) = false -> forall j, In j l -> Far st j)
  (H_step : forall s br l r o d b, (s < top)%nat -> R br l r -> incl (l ++ r) all -> LB s o d (l ++ r) ->
     exists v old, at_ q (bs_split_dim br) = Ok v /\ at_ o (bs_split_dim br) = Ok old
       /\ LB (s + 1)%nat (set_nth o (bs_split_dim br) (squared (gap_of br v)))
            (add_square b (s_sub d old) (gap_of br v)) (if decision br v then r else l)).

Lemma fused_levels nd b l : node_spans R nd b l ->
  forall dp s pre post o d st, (s + node_height nd <= top)%nat -> indices = pre ++ l ++ post -> b = length pre ->
  Forall (fun i => in_space sp i = true) l -> incl l all -> LB s o d l -> Inv st ->
  exists tr rest, Permutation (tr ++ rest) l
    /\ search_nearest_fused prec emax Hprec Hmax ct vis sp indices q dp nd d (o, st) = Ok (o, visits tr st)
    /\ forall j, In j rest -> Far (visits tr st) j.
Proof.
  induction 1 as [b l|br nl nr b l r H1 IH1 H2 IH2 HR]; intros dp s pre post o d st HS Hi Hb F0 HA HL HI;
    cbn [node_height] in HS.
  - exists l, []. rewrite app_nil_r. split; auto. split; [|intros ? []].
    simpl. subst b. rewrite Hi, slice_app. cbn [bind].
    rewrite visit_range_visits by auto. reflexivity.
  - apply Forall_app in F0 as [Fl Fr].
    assert (HAl : incl l all) by (intros x Hx; apply HA, in_or_app; auto).
    assert (HAr : incl r all) by (intros x Hx; apply HA, in_or_app; auto).
    destruct (H_step s br l r o d (ct_box ct dp) ltac:(lia) HR HA HL) as (v & old & Ev & Eo & HL').
    cbn [search_nearest_fused]. rewrite Ev. cbn [bind].
    change (s_ltb s_zero (s_sub (s_sub (s_add (bs_left_max br) (bs_right_min br)) v) v)) with (decision br v).
    unfold gap_of in HL'. set (gl := decision br v) in *. cbv zeta.
    set (z := if gl then s_sub (bs_right_min br) v else s_sub (bs_left_max br) v) in *.
    assert (IHn : exists tr rest, Permutation (tr ++ rest) (if gl then l else r)
        /\ search_nearest_fused prec emax Hprec Hmax ct vis sp indices q (S dp) (if gl then nl else nr) d (o, st) = Ok (o, visits tr st)
        /\ forall j, In j rest -> Far (visits tr st) j).
    { destruct gl.
      - apply (IH1 (S dp) s pre (r ++ post)); auto. { lia. } { rewrite Hi, <- app_assoc. auto. }
        apply (H_incl s o d (l ++ r)); auto. intros x Hx; apply in_or_app; auto.
      - apply (IH2 (S dp) s (pre ++ l) post); auto. { lia. } { rewrite Hi, <- !app_assoc. auto. } { rewrite app_length. lia. }
        apply (H_incl s o d (l ++ r)); auto. intros x Hx; apply in_or_app; auto. }
    destruct IHn as (tr & rest & P & E & HF). rewrite E. cbn [bind fst snd]. rewrite Eo. cbn [bind].
    assert (Itr : incl tr all).
    { intros x Hx. assert (Hx' : In x (if gl then l else r)).
      { eapply Permutation_in; [exact P|]. apply in_or_app; auto. }
      destruct gl; auto. }
    assert (HIv : Inv (visits tr st)) by (apply (visits_inv (metric_fused ct) vis sp q Inv all); auto).
    set (d' := add_square (ct_box ct dp) (s_sub d old) z) in *.
    destruct (s_leb _ _) eqn:EL.
    + assert (IHf : exists tr' rest', Permutation (tr' ++ rest') (if gl then r else l)
        /\ search_nearest_fused prec emax Hprec Hmax ct vis sp indices q (S dp) (if gl then nr else nl) d'
             (set_nth o (bs_split_dim br) (squared z), visits tr st)
             = Ok (set_nth o (bs_split_dim br) (squared z), visits tr' (visits tr st))
        /\ forall j, In j rest' -> Far (visits tr' (visits tr st)) j).
      { destruct gl.
        - apply (IH2 (S dp) (s + 1)%nat (pre ++ l) post); auto. { lia. } { rewrite Hi, <- !app_assoc. auto. } { rewrite app_length. lia. }
        - apply (IH1 (S dp) (s + 1)%nat pre (r ++ post)); auto. { lia. } rewrite Hi, <- app_assoc. auto. }
      destruct IHf as (tr' & rest' & P' & E' & HF'). rewrite E'. cbn [bind fst snd].
      exists (tr ++ tr'), (rest ++ rest').
      assert (Itr' : incl tr' all).
      { intros x Hx. assert (Hx' : In x (if gl then r else l)).
        { eapply Permutation_in; [exact P'|]. apply in_or_app; auto. }
        destruct gl; auto. }
      split; [|split].
      * transitivity ((tr ++ rest) ++ (tr' ++ rest')).
        { rewrite <- !app_assoc. apply Permutation_app_head. rewrite !app_assoc.
          apply Permutation_app_tail. apply Permutation_app_comm. }
        rewrite P, P'. destruct gl; auto. apply Permutation_app_comm.
      * rewrite set_nth_restore by (apply at_ok; auto). rewrite visits_app. reflexivity.
      * intros j Hj. rewrite visits_app. apply in_app_iff in Hj as [Hj|Hj]; auto.
        apply (visits_far (metric_fused ct) vis sp q Inv Far all); auto.
    + exists tr, (rest ++ if gl then r else l). split; [|split; auto].
      * rewrite app_assoc, P. destruct gl; auto. apply Permutation_app_comm.
      * intros j Hj. apply in_app_iff in Hj as [Hj|Hj]; auto.
        eapply (H_prune (s + 1)%nat); eauto. lia.
Qed.
End Gen.

(** ** Rounding errors *)
Section Errors.
Variables (prec emax : Z).
Context (Hprec : Prec_gt_0 prec) (Hmax : Prec_lt_emax prec emax) (P2 : (2 <= prec)%Z).
Local Notation F := (binary_float prec emax).
Local Notation fin := (finite prec emax).
Local Notation fexp := (SpecFloat.fexp prec emax).
Local Notation emin := (SpecFloat.emin prec emax).
Local Notation rnd := (round radix2 fexp ZnearestE).
Local Notation fmt := (generic_format radix2 fexp).
Local Notation pow2 := (bpow radix2).
Local Notation u := (bpow radix2 (- prec)).
Local Existing Instance SF.
Let ve := vexp prec emax Hprec.
Local Existing Instance ve.
Local Notation add_square := (add_square prec emax Hprec Hmax).

Variables (ct : contraction) (e a : Z) (sp : space F) (bnds : start_bounds F) (q : list F).
Hypothesis FI : float_input prec emax L2Squared e sp bnds q.
Hypothesis AP : apart prec emax a sp q.
Let n := sp_sdim sp.
Let N := length (sp_pts sp).
Let B : R := pow2 (2 * e + 2).
Definition usual (z : R) : Prop := z = 0 \/ pow2 a <= Rabs z.

Lemma ub : 0 < u <= / 4. Proof. apply u_bounds; auto. Qed.
Lemma fitB : INR n * B <= pow2 (emax - 3). Proof. exact (fi_fit _ _ _ _ _ _ _ FI). Qed.
Lemma npos : 1 <= INR n.
Proof. change 1 with (INR 1). apply le_INR. pose proof (fi_dim _ _ _ _ _ _ _ FI). unfold n. lia. Qed.
Lemma B_pos : 0 < B. Proof. apply bpow_gt_0. Qed.
Lemma B_fits : B <= pow2 (emax - 3).
Proof. pose proof fitB. pose proof npos. pose proof B_pos. nra. Qed.
Lemma dbl x : pow2 (x + 1) = 2 * pow2 x.
Proof. rewrite bpow_plus. cbn. lra. Qed.
Lemma p32 : pow2 (emax - 2) = 2 * pow2 (emax - 3).
Proof. replace (emax - 2)%Z with (emax - 3 + 1)%Z by ring. apply dbl. Qed.
Lemma p21 : pow2 (emax - 1) = 2 * pow2 (emax - 2).
Proof. replace (emax - 1)%Z with (emax - 2 + 1)%Z by ring. apply dbl. Qed.
Lemma emin_small : (emin <= emax - 3)%Z /\ (emin <= a)%Z.
Proof.
  pose proof (ap_normal _ _ _ _ _ AP) as H. rewrite emin_eq in *.
  unfold Prec_gt_0, Prec_lt_emax in *. lia.
Qed.
Lemma sq_bound z : Rabs z <= pow2 (e + 1) -> z * z <= B.
Proof.
  intros H. unfold B. replace (2 * e + 2)%Z with ((e + 1) + (e + 1))%Z by ring. rewrite bpow_plus.
  replace (z * z) with (Rabs z * Rabs z) by (rewrite <- Rabs_mult; apply Rabs_pos_eq, Rle_0_sqr).
  apply Rmult_le_compat; auto using Rabs_pos.
Qed.
Lemma sq_usual z : usual z -> z = 0 \/ pow2 (emin + prec) <= z * z.
Proof.
  intros [->|H]; auto. right.
  replace (z * z) with (Rabs z * Rabs z) by (rewrite <- Rabs_mult; apply Rabs_pos_eq, Rle_0_sqr).
  apply Rle_trans with (pow2 (a + a)).
  - apply bpow_le. pose proof (ap_normal _ _ _ _ _ AP). lia.
  - rewrite bpow_plus. pose proof (bpow_ge_0 radix2 a). apply Rmult_le_compat; auto.
Qed.
Lemma rel_error x : pow2 (emin + prec - 1) <= Rabs x -> exists d, Rabs d <= u /\ rnd x = x * (1 + d).
Proof.
  intros H. destruct (relative_error_N_FLT_ex radix2 emin prec (prec_pos prec Hprec) (fun x => negb (Z.even x)) x H)
    as (d & Hd & E).
  exists d. split; [|exact E].
  replace (/ 2 * bpow radix2 (- prec + 1)) with u in Hd; [exact Hd|]. rewrite bpow_plus. cbn. lra.
Qed.

Lemma square_R z : fin z -> Rabs (B2R z) <= pow2 (e + 1) -> usual (B2R z) ->
  fin (squared z) /\ exists d, Rabs d <= u /\ B2R (squared z) = B2R z * B2R z * (1 + d).
Proof.
  intros Fz Hz Uz. unfold squared.
  pose proof (sq_bound _ Hz) as SB. pose proof B_fits as BF. pose proof emin_small as [EM _].
  pose proof (Rle_0_sqr (B2R z)) as S0. unfold Rsqr in S0.
  destruct (mul_R prec emax Hprec Hmax z z Fz Fz) as [A C].
  { apply (lt_emax emax _ (emax - 3)); [lia|]. apply rnd_pow; auto. rewrite Rabs_pos_eq; lra. }
  split; auto. rewrite C. destruct (sq_usual _ Uz) as [E|E].
  - exists 0. rewrite E, Rabs_R0. pose proof ub. split; [lra|]. rewrite !Rmult_0_l. apply rnd_0; auto.
  - apply rel_error. rewrite Rabs_pos_eq by auto. eapply Rle_trans; [|exact E]. apply bpow_le. lia.
Qed.

Lemma square_add b acc z : fin acc -> fin z -> Rabs (B2R z) <= pow2 (e + 1) -> usual (B2R z) ->
  Rabs (B2R acc) <= pow2 (emax - 2) -> - (B2R z * B2R z / 2) <= B2R acc ->
  fin (add_square b acc z) /\ exists d1 d2, Rabs d1 <= u /\ Rabs d2 <= u
    /\ B2R (add_square b acc z) = (B2R acc + B2R z * B2R z * (1 + d1)) * (1 + d2).
Proof.
  intros Fa Fz Hz Uz Ha La. pose proof ub as [U0 U1].
  pose proof (sq_bound _ Hz) as SB. pose proof B_fits as BF. pose proof emin_small as [EM _].
  pose proof (Rle_0_sqr (B2R z)) as S0. unfold Rsqr in S0. pose proof p32 as Q3. pose proof p21 as Q2.
  apply Rabs_le_inv in Ha. destruct b; cbn [ModelFused.add_square].
  - pose proof (Bfma_correct prec emax Hprec Hmax mode_NE z z acc Fz Fz Fa) as K. cbv zeta in K.
    change (round_mode mode_NE) with ZnearestE in K.
    rewrite Rlt_bool_true in K.
    2:{ apply (lt_emax emax _ (emax - 1)); [lia|]. apply rnd_pow; auto; [lia|]. apply Rabs_le. lra. }
    destruct K as (K1 & K2 & _). split; [exact K2|]. rewrite K1. exists 0.
    replace (B2R z * B2R z * (1 + 0)) with (B2R z * B2R z) by ring.
    rewrite (Rplus_comm (B2R z * B2R z)).
    destruct (sq_usual _ Uz) as [E|E].
    + exists 0. rewrite E, Rabs_R0. split; [lra|]. split; [lra|].
      rewrite Rmult_0_l, !Rplus_0_r, Rmult_1_r. apply rnd_fmt; auto. apply fmt_B2R.
    + destruct (rel_error (B2R acc + B2R z * B2R z)) as (d & Hd & Ed).
      * rewrite Rabs_pos_eq by lra.
        assert (pow2 (emin + prec) = 2 * pow2 (emin + prec - 1)).
        { rewrite <- dbl. f_equal. ring. }
        lra.
      * exists d. rewrite Rabs_R0. split; [lra|]. split; auto.
  - destruct (square_R z Fz Hz Uz) as (Fs & d1 & H1 & E1).
    change (@squared F (SFu prec emax Hprec Hmax)) with (@squared F (SF prec emax Hprec Hmax)).
    change (@s_add F (SFu prec emax Hprec Hmax)) with (@s_add F (SF prec emax Hprec Hmax)).
    destruct (rnd_plus prec emax Hprec (B2R acc) (B2R (squared z)) (fmt_B2R _ _ _) (fmt_B2R _ _ _)) as (d2 & H2 & E2).
    destruct (add_R prec emax Hprec Hmax acc (squared z) Fa Fs) as [A C].
    { apply (lt_emax emax _ (emax - 1)); [lia|]. apply rnd_pow; auto; [lia|].
      rewrite E1. apply Rabs_le_inv in H1.
      assert (0 <= B2R z * B2R z * (1 + d1)) by (apply Rmult_le_pos; lra).
      assert (B2R z * B2R z * (1 + d1) <= B * 2) by (apply Rmult_le_compat; lra).
      apply Rabs_le. lra. }
    split; auto. exists d1, d2. split; auto. split; auto. rewrite C, E2, E1. reflexivity.
Qed.

(** ** Distances *)
Definition del (j k : nat) : R := Rabs (rnd (B2R (get q k) - B2R (coord sp k j))).
Definition Df (j : nat) : F := fused_distance prec emax Hprec Hmax ct q (sp_at sp j).

Lemma qb k : (k < n)%nat -> below prec emax e (get q k).
Proof.
  intros H. unfold get. pose proof (fi_query _ _ _ _ _ _ _ FI) as K. rewrite Forall_forall in K. apply K, nth_In.
  rewrite (fi_length _ _ _ _ _ _ _ FI). auto.
Qed.
Lemma cb j k : (j < N)%nat -> (k < n)%nat -> below prec emax e (coord sp k j).
Proof.
  intros Hj Hk. apply (ok_coord (below prec emax e) sp (fi_space _ _ _ _ _ _ _ FI) (fi_coords _ _ _ _ _ _ _ FI)); auto.
  apply in_space_lt; auto.
Qed.
Lemma diffb x y : below prec emax e x -> below prec emax e y ->
  fin (s_sub x y) /\ B2R (s_sub x y) = rnd (B2R x - B2R y) /\ Rabs (rnd (B2R x - B2R y)) <= pow2 (e + 1).
Proof.
  apply (diff_below prec emax Hprec Hmax P2 e (proj2 (fi_exp _ _ _ _ _ _ _ FI)) sp q (fi_length _ _ _ _ _ _ _ FI)).
Qed.
Lemma usual_rnd x : x = 0 \/ pow2 a <= Rabs x -> usual (rnd x).
Proof.
  intros [->|H]; [left; apply rnd_0; auto|]. right. rewrite rnd_abs by auto.
  rewrite <- (rnd_fmt prec emax (pow2 a)).
  - apply rnd_le; auto.
  - apply fmt_pow; auto. pose proof (ap_normal _ _ _ _ _ AP). pose proof emin_small.
    unfold Prec_gt_0 in *. lia.
Qed.
Lemma del_usual j k : (j < N)%nat -> (k < n)%nat -> usual (rnd (B2R (get q k) - B2R (coord sp k j))).
Proof. intros Hj Hk. apply usual_rnd. exact (ap_coords _ _ _ _ _ AP j k Hj Hk). Qed.
Lemma del_bounds j k : (j < N)%nat -> (k < n)%nat -> 0 <= del j k <= pow2 (e + 1).
Proof.
  intros Hj Hk. split; [apply Rabs_pos|]. apply diffb; [apply qb; auto|apply cb; auto].
Qed.
Lemma del_sq j k : del j k * del j k = rnd (B2R (get q k) - B2R (coord sp k j)) * rnd (B2R (get q k) - B2R (coord sp k j)).
Proof. unfold del. rewrite <- Rabs_mult. apply Rabs_pos_eq, Rle_0_sqr. Qed.

(** What the branch taken second is compared with. *)
Lemma gap_facts br l r :
  R_tight fin sp Euclidean br l r -> incl (l ++ r) (seq 0 N) ->
  exists v, (bs_split_dim br < n)%nat /\ at_ q (bs_split_dim br) = Ok v
    /\ let z := gap_of prec emax Hprec Hmax br v in
       fin z /\ Rabs (B2R z) <= pow2 (e + 1)
       /\ (exists j, In j (l ++ r) /\ Rabs (B2R z) = del j (bs_split_dim br))
       /\ forall j, In j (if decision prec emax Hprec Hmax br v then r else l) -> Rabs (B2R z) <= del j (bs_split_dim br).
Proof.
  intros (lb & rb & sd & [-> Hd W1 W2 O1 O2 Ho1 Ho2 T1 T2 Hord]) HI.
  cbn [set_branch]. unfold gap_of, decision.
  change (SFu prec emax Hprec Hmax) with (SF prec emax Hprec Hmax).
  cbn [bs_split_dim bs_left_max bs_right_min].
  assert (Il : forall i, In i l -> (i < N)%nat).
  { intros i Hi. assert (In i (seq 0 N)) by (apply HI, in_or_app; auto). apply in_seq in H. lia. }
  assert (Ir : forall i, In i r -> (i < N)%nat).
  { intros i Hi. assert (In i (seq 0 N)) by (apply HI, in_or_app; auto). apply in_seq in H. lia. }
  fold n in Hd. rewrite (at_lt q _ s_zero) by (rewrite (fi_length _ _ _ _ _ _ _ FI); exact Hd). fold (get q sd).
  set (v := get q sd). set (lm := get (box_max lb) sd) in *. set (rm := get (box_min rb) sd) in *.
  destruct (O1 sd Hd) as [_ Flm]. fold lm in Flm. destruct (O2 sd Hd) as [Frm _]. fold rm in Frm.
  destruct (T1 sd Hd) as [_ (jl & Hjl & Ejl)]. destruct (T2 sd Hd) as [(jr & Hjr & Ejr) _].
  fold lm in Ejl. fold rm in Ejr.
  assert (Cl := cb jl sd (Il _ Hjl) Hd). assert (Cr := cb jr sd (Ir _ Hjr) Hd).
  assert (LE : forall x y : F, fin x -> fin y -> s_leb x y = true -> B2R x <= B2R y).
  { intros x y Fx Fy H. apply leb_R in H; auto. }
  assert (Kl : forall i, In i l -> B2R (coord sp sd i) <= B2R lm).
  { intros i Hi. apply LE; auto; [apply cb; auto|]. apply (Ho1 i Hi sd Hd). }
  assert (Kr : forall i, In i r -> B2R rm <= B2R (coord sp sd i)).
  { intros i Hi. apply LE; auto; [apply cb; auto|]. apply (Ho2 i Hi sd Hd). }
  assert (El : B2R lm = B2R (coord sp sd jl)).
  { apply Rle_antisym; auto. apply LE; auto. apply Cl. }
  assert (Er : B2R rm = B2R (coord sp sd jr)).
  { apply Rle_antisym; auto. apply LE; auto. apply Cr. }
  assert (Bl : below prec emax e lm) by (split; [auto|rewrite El; apply Cl]).
  assert (Br : below prec emax e rm) by (split; [auto|rewrite Er; apply Cr]).
  assert (Bv : below prec emax e v) by (apply qb; auto).
  assert (Hlr : B2R lm <= B2R rm) by (apply LE; auto).
  pose proof (go_left_R prec emax Hprec Hmax P2 e (proj2 (fi_exp _ _ _ _ _ _ _ FI)) sp q (fi_length _ _ _ _ _ _ _ FI)
    lm rm v Bl Br Bv Hlr) as GL.
  eexists. split; [exact Hd|]. split; [reflexivity|].
  assert (SYM : forall x y, Rabs (rnd (x - y)) = Rabs (rnd (y - x))).
  { intros x y. replace (x - y) with (- (y - x)) by ring. rewrite rnd_opp, Rabs_Ropp. reflexivity. }
  assert (MONO : forall x y, (0 <= x <= y \/ y <= x <= 0) -> Rabs (rnd x) <= Rabs (rnd y)).
  { intros x y H. rewrite !rnd_abs by auto. apply rnd_le; auto. destruct H as [H|H].
    - rewrite !Rabs_pos_eq; lra.
    - rewrite !Rabs_left1; lra. }
  destruct (diffb rm v Br Bv) as (R1 & R2 & R3). destruct (diffb lm v Bl Bv) as (L1 & L2 & L3).
  destruct (s_ltb _ _); cbv zeta.
  - split; [exact R1|]. rewrite R2. split; [exact R3|]. split.
    + exists jr. split; [apply in_or_app; auto|]. rewrite Er, SYM. reflexivity.
    + intros j Hj. unfold del. rewrite (SYM (B2R (get q sd))). fold v.
      apply MONO. left. specialize (Kr j Hj). lra.
  - split; [exact L1|]. rewrite L2. split; [exact L3|]. split.
    + exists jl. split; [apply in_or_app; auto|]. rewrite El, SYM. reflexivity.
    + intros j Hj. unfold del. rewrite (SYM (B2R (get q sd))). fold v.
      apply MONO. right. specialize (Kl j Hj). lra.
Qed.

Hypothesis NU : INR (n + 1) * u <= / 2.

Lemma fused_sum_bounds j (Hj : (j < N)%nat) : forall m i acc s, (i + m = n)%nat ->
  fin acc -> (1 - u) ^ (i + 1) * s <= B2R acc <= (1 + u) ^ (i + 1) * s -> 0 <= s <= INR i * B ->
  let r := fused_sum prec emax Hprec Hmax ct i (map (fun k => (get q k, coord sp k j)) (seq i m)) acc in
  let s' := s + fold_right Rplus 0 (map (fun k => del j k * del j k) (seq i m)) in
  fin r /\ (1 - u) ^ (n + 1) * s' <= B2R r <= (1 + u) ^ (n + 1) * s'.
Proof.
  pose proof ub as [U0 U1]. pose proof B_pos as B0. pose proof fitB as FB.
  induction m as [|m IH]; intros i acc s Hi Fa Ha Hs; cbv zeta.
  - cbn [seq map fused_sum fold_right]. rewrite Rplus_0_r. replace i with n in * by lia. auto.
  - cbn [seq map fused_sum fold_right].
    change (@s_sub F (SFu prec emax Hprec Hmax)) with (@s_sub F (SF prec emax Hprec Hmax)).
    destruct (diffb (get q i) (coord sp i j)) as (Fz & Ez & Bz); [apply qb; lia|apply cb; auto; lia|].
    set (z := s_sub (get q i) (coord sp i j)) in *.
    assert (Hp : (1 + u) ^ (i + 1) <= 2).
    { apply pow_upper; try lra. eapply Rle_trans; [|exact NU]. apply Rmult_le_compat_r; [lra|]. apply le_INR. lia. }
    assert (Hin : INR i + 1 <= INR n) by (rewrite <- S_INR; apply le_INR; lia).
    pose proof (pos_INR i) as I0.
    destruct (pow_prod u ltac:(lra) ltac:(lra) (i + 1)) as [L0 _].
    pose proof (pow_ge_1 u ltac:(lra) (i + 1)) as L1.
    assert (A0 : 0 <= B2R acc) by (eapply Rle_trans; [|apply Ha]; apply Rmult_le_pos; lra).
    assert (AB : B2R acc <= pow2 (emax - 2)).
    { rewrite p32. assert (B2R acc <= 2 * (INR i * B)) by nra. nra. }
    pose proof (Rle_0_sqr (B2R z)) as S0. unfold Rsqr in S0.
    destruct (square_add (ct_term ct i) acc z Fa Fz) as (Fr & d1 & d2 & H1 & H2 & E).
    { rewrite Ez. auto. } { rewrite Ez. apply del_usual; auto. lia. } { rewrite Rabs_pos_eq; auto. } { lra. }
    assert (SZ : B2R z * B2R z = del j i * del j i) by (rewrite del_sq, Ez; auto).
    rewrite SZ in *. set (v := del j i * del j i) in *.
    assert (VB : v <= B) by (rewrite <- SZ; apply sq_bound; rewrite Ez; auto).
    apply Rabs_le_inv in H1, H2.
    rewrite <- Rplus_assoc.
    apply (IH (S i) _ (s + v)); auto.
    + lia.
    + rewrite E. replace (S i + 1)%nat with (i + 1 + 1)%nat by lia.
      rewrite (pow_add (1 - u) (i + 1)), (pow_add (1 + u) (i + 1)), !pow_1.
      assert (M1 : (1 - u) ^ (i + 1) <= 1 - u).
      { rewrite pow_add, pow_1. rewrite <- (Rmult_1_l (1 - u)) at 3. apply Rmult_le_compat_r; [lra|].
        replace 1 with (1 ^ i) at 2 by apply pow1. apply pow_incr. lra. }
      assert (M2 : 1 + u <= (1 + u) ^ (i + 1)).
      { rewrite pow_add, pow_1. rewrite <- (Rmult_1_l (1 + u)) at 1. apply Rmult_le_compat_r; [lra|].
        apply pow_ge_1. lra. }
      split.
      * apply Rle_trans with ((1 - u) ^ (i + 1) * (s + v) * (1 - u)); [lra|].
        apply Rmult_le_compat; try lra. { apply Rmult_le_pos; lra. }
        rewrite Rmult_plus_distr_l. apply Rplus_le_compat; [apply Ha|].
        rewrite Rmult_comm. apply Rmult_le_compat_l; lra.
      * apply Rle_trans with ((1 + u) ^ (i + 1) * (s + v) * (1 + u)); [|lra].
        apply Rmult_le_compat; try lra. { assert (0 <= v * (1 + d1)) by (apply Rmult_le_pos; lra). lra. }
        rewrite (Rmult_plus_distr_l _ s v). apply Rplus_le_compat; [apply Ha|].
        rewrite (Rmult_comm _ v). apply Rmult_le_compat_l; lra.
    + rewrite S_INR. lra.
Qed.

Lemma Df_bounds j : (j < N)%nat ->
  fin (Df j) /\ let s := sumR n (fun k => del j k * del j k) in
    (1 - u) ^ (n + 1) * s <= B2R (Df j) <= (1 + u) ^ (n + 1) * s /\ 0 <= s <= INR n * B.
Proof.
  intros Hj. unfold Df, fused_distance.
  rewrite (combine_get prec emax Hprec Hmax q (sp_at sp j) n).
  2:{ apply (fi_length _ _ _ _ _ _ _ FI). }
  2:{ apply (sp_at_length sp (fi_space _ _ _ _ _ _ _ FI)). apply in_space_lt; auto. }
  destruct (fused_sum_bounds j Hj n 0 s_zero 0) as [A C]; auto.
  { reflexivity. } { rewrite R_zero. lra. } { cbn. lra. }
  rewrite Rplus_0_l in C. split; [exact A|]. cbv zeta. split; [exact C|]. split.
  - apply sumR_nonneg. intros. apply Rle_0_sqr.
  - apply sumR_bound. intros k Hk. apply sq_bound. rewrite Rabs_pos_eq; apply del_bounds; auto.
Qed.

(** ** The search *)
Variable top : nat.    (* the height of the tree *)
Hypothesis HU : INR (3 * top) * u <= / 16.

(** [w k]: the side of the box in dimension [k], of which the offset is the
    rounded square. *)
Record LBw (w : nat -> R) (s : nat) (o : list F) (d : F) (l : list nat) : Prop := {
  lw_len : length o = n;
  lw_side : forall k, (k < n)%nat -> 0 <= w k <= pow2 (e + 1);
  lw_off : forall k, (k < n)%nat -> fin (get o k)
           /\ exists eo, Rabs eo <= u /\ B2R (get o k) = w k * w k * (1 + eo);
  lw_fin : fin d;
  lw_err : Rabs (B2R d - sumR n (fun k => w k * w k)) <= ((1 + u) ^ (3 * s) - 1) * sumR n (fun k => w k * w k);
  lw_low : forall j k, In j l -> (k < n)%nat -> w k <= del j k;
  lw_in : forall j, In j l -> (j < N)%nat
}.
Definition LBz s o d l : Prop := exists w, LBw w s o d l.

Lemma LBz_incl s o d l l' : LBz s o d l -> incl l' l -> LBz s o d l'.
Proof. intros [w []] H. exists w. constructor; auto. Qed.

Lemma LBz_start l : incl l (seq 0 N) -> LBz 0 (offsets0 sp) s_zero l.
Proof.
  intros Hl. exists (fun _ => 0).
  assert (Z : forall k, (k < n)%nat -> get (offsets0 sp) k = (s_zero : F)).
  { intros k Hk. unfold offsets0, get. rewrite nth_tab by auto. reflexivity. }
  assert (S0 : sumR n (fun _ => 0 * 0) = 0).
  { clear. induction n; [reflexivity|]. rewrite sumR_S, IHn0. lra. }
  constructor.
  - apply length_tab.
  - intros k Hk. split; [lra|apply bpow_ge_0].
  - intros k Hk. rewrite Z by auto. split; [reflexivity|]. exists 0. rewrite R_zero, Rabs_R0. pose proof ub. split; lra.
  - reflexivity.
  - rewrite S0, R_zero. rewrite Rminus_0_r, Rabs_R0. lra.
  - intros j k Hj Hk. apply Rabs_pos.
  - intros j Hj. apply Hl in Hj. apply in_seq in Hj. lia.
Qed.

Lemma P_small s : (s <= top)%nat -> 1 <= (1 + u) ^ (3 * s) <= 1 + / 8.
Proof.
  intros Hs. pose proof ub as [U0 U1]. split; [apply pow_ge_1; lra|].
  apply Rle_trans with ((1 + u) ^ (3 * top)). { apply pow_mono; [lra|lia]. }
  pose proof (pow_lower u ltac:(lra) (3 * top)).
  destruct (pow_prod u ltac:(lra) ltac:(lra) (3 * top)) as [_ K].
  pose proof (pow_ge_1 u ltac:(lra) (3 * top)).
  assert ((1 + u) ^ (3 * top) * (15 / 16) <= (1 + u) ^ (3 * top) * (1 - u) ^ (3 * top)).
  { apply Rmult_le_compat_l; lra. }
  lra.
Qed.

Lemma LBz_step b s o d l l' sd z old :
  (s < top)%nat -> LBz s o d l -> incl l' l -> (sd < n)%nat -> at_ o sd = Ok old ->
  fin z -> Rabs (B2R z) <= pow2 (e + 1) -> usual (B2R z) ->
  (exists j, In j l /\ del j sd <= Rabs (B2R z)) ->
  (forall j, In j l' -> Rabs (B2R z) <= del j sd) ->
  LBz (s + 1) (set_nth o sd (squared z)) (add_square b (s_sub d old) z) l'.
Proof.
  intros Hs [w [A1 A2 A3 A4 A5 A6 A7]] HI Hsd Ho Fz Bz Uz (j0 & Hj0 & Kj0) Lz.
  pose proof ub as [U0 U1]. pose proof B_pos as B0. pose proof fitB as FB. pose proof B_fits as BF. pose proof npos as N1.
  set (S := sumR n (fun k => w k * w k)) in *.
  assert (Eold : get o sd = old).
  { apply at_ok in Ho. unfold get. apply nth_error_nth. exact Ho. }
  destruct (A3 sd Hsd) as (Fold & eo & Heo & Eo). rewrite Eold in *.
  set (w' := fun k => if Nat.eq_dec sd k then Rabs (B2R z) else w k).
  set (t := w sd * w sd) in *. set (v := B2R z * B2R z).
  assert (AV : Rabs (B2R z) * Rabs (B2R z) = v).
  { rewrite <- Rabs_mult. apply Rabs_pos_eq, Rle_0_sqr. }
  assert (ES : sumR n (fun k => w' k * w' k) = S - t + v).
  { rewrite (sumR_update n (fun k => w k * w k) (fun k => w' k * w' k) sd); auto.
    - unfold w'. destruct (Nat.eq_dec sd sd) as [_|X]; [|congruence]. rewrite AV. reflexivity.
    - intros k Hk Hne. unfold w'. destruct (Nat.eq_dec sd k) as [->|_]; [congruence|reflexivity]. }
  assert (T0 : 0 <= t) by apply Rle_0_sqr.
  assert (V0 : 0 <= v) by apply Rle_0_sqr.
  assert (TV : t <= v).
  { rewrite <- AV. destruct (A2 sd Hsd). assert (w sd <= Rabs (B2R z)) by (eapply Rle_trans; [apply A6; eauto|auto]).
    apply Rmult_le_compat; auto. }
  assert (TS : t <= S).
  { unfold S, t. apply (sumR_ge_one n (fun k => w k * w k)); auto. intros. apply Rle_0_sqr. }
  assert (SB : S <= INR n * B).
  { apply sumR_bound. intros k Hk. apply sq_bound. rewrite Rabs_pos_eq; apply A2; auto. }
  assert (TB : t <= B) by (apply sq_bound; rewrite Rabs_pos_eq; apply A2; auto).
  destruct (P_small s ltac:(lia)) as [P1 P8].
  set (P := (1 + u) ^ (3 * s)) in *.
  apply Rabs_le_inv in Heo.
  assert (Hd : Rabs (B2R d - S) <= S / 8).
  { eapply Rle_trans; [exact A5|]. unfold Rdiv. rewrite (Rmult_comm S). apply Rmult_le_compat_r; lra. }
  apply Rabs_le_inv in Hd.
  pose proof emin_small as [EM _]. pose proof p32 as Q3.
  assert (OB : 0 <= B2R old <= 2 * B).
  { rewrite Eo. split; [apply Rmult_le_pos; lra|]. rewrite (Rmult_comm 2). apply Rmult_le_compat; lra. }
  assert (RA : Rabs (rnd (B2R d - B2R old)) <= pow2 (emax - 2)).
  { apply rnd_pow; auto; [lia|]. apply Rabs_le. lra. }
  destruct (sub_R prec emax Hprec Hmax d old A4 Fold) as [Fa Ea].
  { apply (lt_emax emax _ (emax - 2)); auto. lia. }
  destruct (rnd_minus prec emax Hprec (B2R d) (B2R old) (fmt_B2R _ _ _) (fmt_B2R _ _ _)) as (e1 & H1 & Q1).
  assert (Q : B2R (s_sub d old) = (B2R d - B2R old) * (1 + e1)) by (rewrite Ea, Q1; reflexivity).
  set (r := S - t). set (E := B2R d - S) in *.
  assert (Ed : B2R d - B2R old = E + r - t * eo) by (rewrite Eo; unfold E, r; ring).
  assert (R0 : 0 <= r) by (unfold r; lra).
  assert (SS : S = r + t) by (unfold r; ring).
  pose proof H1 as H1'. apply Rabs_le_inv in H1'.
  assert (TE : - (v * / 4) <= t * eo <= v * / 4).
  { split.
    - apply Rle_trans with (t * - / 4); [nra|]. apply Rmult_le_compat_l; lra.
    - apply Rle_trans with (t * / 4); [|nra]. apply Rmult_le_compat_l; lra. }
  destruct (square_add b (s_sub d old) z) as (Fr & en & e2 & Hn & H2 & Er); auto.
  { rewrite Ea. auto. }
  { fold v. rewrite Q, Ed.
    assert (X : - (v * (3 / 8)) <= E + r - t * eo) by (rewrite SS in Hd; lra).
    destruct (Rle_or_lt 0 (E + r - t * eo)) as [Y|Y].
    - apply Rle_trans with 0; [lra|]. apply Rmult_le_pos; lra.
    - assert ((E + r - t * eo) * (5 / 4) <= (E + r - t * eo) * (1 + e1)).
      { apply Rmult_le_compat_neg_l; lra. }
      lra. }
  fold v in Er. rewrite Q, Ed in Er.
  exists w'. constructor.
  - rewrite length_set_nth. auto.
  - intros k Hk. unfold w'. destruct (Nat.eq_dec sd k) as [<-|Hne]; auto. split; [apply Rabs_pos|auto].
  - intros k Hk. unfold w'. destruct (Nat.eq_dec sd k) as [<-|Hne].
    + rewrite get_set_same by lia. rewrite AV. apply square_R; auto.
    + rewrite get_set_other by auto. auto.
  - exact Fr.
  - rewrite ES, Er. replace (S - t + v) with (r + v) by (unfold r; ring).
    replace (3 * (s + 1))%nat with (3 * s + 3)%nat by lia. rewrite pow_add. fold P.
    fold E in A5. rewrite SS in A5. apply Rabs_le in Heo. clearbody E r v t P.
    clear - A5 H1 H2 Hn Heo R0 P1 U0 U1 V0 T0 TV.
    replace (((E + r - t * eo) * (1 + e1) + v * (1 + en)) * (1 + e2) - (r + v))
      with (E * ((1 + e1) * (1 + e2)) + r * ((1 + e1) * (1 + e2) - 1) + - (t * eo) * ((1 + e1) * (1 + e2))
            + v * ((1 + en) * (1 + e2) - 1)) by ring.
    assert (G : forall x y, Rabs x <= u -> Rabs y <= u -> Rabs ((1 + x) * (1 + y) - 1) <= (1 + u) ^ 2 - 1).
    { intros x y Hx Hy. replace ((1 + x) * (1 + y) - 1) with (x + y + x * y) by ring.
      eapply Rle_trans; [apply Rabs_triang|]. rewrite Rabs_mult.
      assert (Rabs (x + y) <= 2 * u) by (eapply Rle_trans; [apply Rabs_triang|lra]).
      assert (Rabs x * Rabs y <= u * u) by (apply Rmult_le_compat; auto using Rabs_pos).
      cbn [pow]. lra. }
    pose proof (G e1 e2 H1 H2) as G1. pose proof (G en e2 Hn H2) as G2.
    assert (G3 : Rabs ((1 + e1) * (1 + e2)) <= (1 + u) ^ 2).
    { replace ((1 + e1) * (1 + e2)) with (1 + ((1 + e1) * (1 + e2) - 1)) by ring.
      eapply Rle_trans; [apply Rabs_triang|]. rewrite Rabs_R1. lra. }
    replace ((1 + u) ^ 3) with ((1 + u) ^ 2 * (1 + u)) by ring.
    eapply Rle_trans; [apply Rabs_triang|].
    eapply Rle_trans; [apply Rplus_le_compat_r; eapply Rle_trans; [apply Rabs_triang|apply Rplus_le_compat_r, Rabs_triang]|].
    rewrite (Rabs_mult E), (Rabs_mult r), (Rabs_mult v), (Rabs_mult (- (t * eo))), Rabs_Ropp, (Rabs_mult t),
      (Rabs_pos_eq r), (Rabs_pos_eq v), (Rabs_pos_eq t) by auto.
    set (W := (1 + u) ^ 2) in *.
    assert (W1 : 1 <= W) by (unfold W; cbn [pow]; nra). clearbody W.
    set (X := (r + v)) in *. assert (X0 : 0 <= X) by (unfold X; lra).
    assert (T1 : Rabs E * Rabs ((1 + e1) * (1 + e2)) <= (P - 1) * X * W).
    { apply Rmult_le_compat; auto using Rabs_pos. eapply Rle_trans; [exact A5|].
      apply Rmult_le_compat_l; unfold X; lra. }
    assert (T1' : (P - 1) * X * W <= (P - 1) * X * (W * (1 + u))).
    { apply Rmult_le_compat_l; [apply Rmult_le_pos; lra|nra]. }
    assert (T2 : r * Rabs ((1 + e1) * (1 + e2) - 1) <= r * (W - 1)) by (apply Rmult_le_compat_l; auto).
    assert (T3 : t * Rabs eo * Rabs ((1 + e1) * (1 + e2)) <= v * u * W).
    { apply Rmult_le_compat; auto using Rabs_pos. { apply Rmult_le_pos; auto using Rabs_pos. }
      apply Rmult_le_compat; auto using Rabs_pos. }
    assert (T4 : v * Rabs ((1 + en) * (1 + e2) - 1) <= v * (W - 1)) by (apply Rmult_le_compat_l; auto).
    assert (T5 : 0 <= r * (W * u)) by (apply Rmult_le_pos; [auto|apply Rmult_le_pos; lra]).
    replace ((P * (W * (1 + u)) - 1) * X)
      with ((P - 1) * X * (W * (1 + u)) + r * (W - 1) + r * (W * u) + v * u * W + v * (W - 1)) by (unfold X; ring).
    lra.
  - intros j k Hj Hk. unfold w'. destruct (Nat.eq_dec sd k) as [<-|Hne]; auto.
  - intros j Hj. apply A7, HI, Hj.
Qed.

Lemma step_fused b s br l r o d :
  (s < top)%nat -> R_tight fin sp Euclidean br l r -> incl (l ++ r) (seq 0 N) -> LBz s o d (l ++ r) ->
  exists v old, at_ q (bs_split_dim br) = Ok v /\ at_ o (bs_split_dim br) = Ok old
    /\ LBz (s + 1)%nat (set_nth o (bs_split_dim br) (squared (gap_of prec emax Hprec Hmax br v)))
            (add_square b (s_sub d old) (gap_of prec emax Hprec Hmax br v))
            (if decision prec emax Hprec Hmax br v then r else l).
Proof.
  intros Hs HR HI HL. destruct (gap_facts br l r HR HI) as (v & Hd & Ev & Z1 & Z2 & (j0 & Hj0 & Z3) & Z4).
  assert (Lo : length o = n) by (destruct HL as [w HL]; apply (lw_len _ _ _ _ _ HL)).
  assert (Eo : at_ o (bs_split_dim br) = Ok (get o (bs_split_dim br))) by (apply at_lt; rewrite Lo; auto).
  do 2 eexists. split; [exact Ev|]. split; [exact Eo|].
  eapply LBz_step; eauto.
  - intros x Hx. apply in_or_app. destruct (decision _ _ _ _ _ _); auto.
  - assert (Uj := del_usual j0 (bs_split_dim br)
      ltac:(apply HI in Hj0; apply in_seq in Hj0; lia) Hd).
    unfold usual in *. rewrite Z3. unfold del in Z3. destruct Uj as [U|U]; [left|right; exact U].
    rewrite U, Rabs_R0 in Z3. destruct (Req_dec (B2R (gap_of prec emax Hprec Hmax br v)) 0) as [Y|Y]; [exact Y|].
    apply Rabs_no_R0 in Y. contradiction.
  - exists j0. split; auto. rewrite Z3. apply Rle_refl.
Qed.

Definition skippedf (x : F) (j : nat) : Prop :=
  (1 - u) ^ (n + 1) * B2R x < (1 + u) ^ (3 * top) * B2R (Df j).

Lemma prune_fused s o d l x j : (s <= top)%nat -> LBz s o d l -> fin x -> s_leb d x = false ->
  In j l -> skippedf x j.
Proof.
  intros Hs [w [A1 A2 A3 A4 A5 A6 A7]] Fx EL Hj. pose proof (A7 j Hj) as HjN.
  apply leb_R_false in EL; auto. pose proof ub as [U0 U1].
  destruct (Df_bounds j HjN) as (D1 & D2 & D3). cbv zeta in *.
  set (S := sumR n (fun k => w k * w k)) in *.
  assert (ST : S <= sumR n (fun k => del j k * del j k)).
  { apply sumR_le. intros k Hk. destruct (A2 k Hk). apply Rmult_le_compat; auto. }
  assert (S0 : 0 <= S) by (apply sumR_nonneg; intros k Hk; apply Rle_0_sqr).
  apply Rabs_le_inv in A5.
  assert (PM := pow_mono u ltac:(lra) (3 * s) (3 * top) ltac:(lia)).
  assert (X : B2R x < (1 + u) ^ (3 * top) * S) by nra.
  assert (LP : 0 < (1 - u) ^ (n + 1)) by (apply pow_lt; lra).
  assert (UP : 0 <= (1 + u) ^ (3 * top)) by (apply pow_le; lra).
  unfold skippedf. apply Rlt_le_trans with ((1 - u) ^ (n + 1) * ((1 + u) ^ (3 * top) * S)).
  { apply Rmult_lt_compat_l; auto. }
  rewrite <- Rmult_assoc, (Rmult_comm ((1 - u) ^ (n + 1))), Rmult_assoc.
  apply Rmult_le_compat_l; auto.
  eapply Rle_trans; [|apply D2]. apply Rmult_le_compat_l; lra.
Qed.

Lemma search_fused_contract {V} (vis : visitor F V) (Inv : V -> Prop) (t : kd_tree_data Euclidean F) v0 :
  (forall st i, Inv st -> (i < N)%nat -> Inv (v_visit vis i (Df i) st)) ->
  (forall st, Inv st -> fin (v_max vis st)) ->
  (forall st i, Inv st -> (i < N)%nat -> B2R (v_max vis (v_visit vis i (Df i) st)) <= B2R (v_max vis st)) ->
  node_spans (R_tight fin sp Euclidean) (kd_root t) 0 (kd_indices t) -> Permutation (kd_indices t) (seq 0 N) ->
  (node_height (kd_root t) <= top)%nat -> Inv v0 ->
  let m := metric_fused prec emax Hprec Hmax ct in
  exists tr rest, Permutation (tr ++ rest) (seq 0 N)
    /\ search_fused prec emax Hprec Hmax ct sp t vis q v0 = Ok (visits m vis sp q tr v0)
    /\ Inv (visits m vis sp q tr v0)
    /\ forall j, In j rest -> skippedf (v_max vis (visits m vis sp q tr v0)) j.
Proof.
  intros VI VF VM NS P HT HI m. set (idx := kd_indices t) in *.
  assert (Hin : forall i, In i idx <-> (i < N)%nat).
  { intros i. rewrite <- In_seq0. split; apply Permutation_in; auto; symmetry; auto. }
  destruct (fused_levels prec emax Hprec Hmax ct vis sp idx q (R_tight fin sp Euclidean)
              Inv (fun st j => skippedf (v_max vis st) j) LBz top idx) with
    (nd := kd_root t) (b := 0%nat) (l := idx) (dp := 0%nat) (s := 0%nat) (pre := @nil nat) (post := @nil nat)
    (o := offsets0 sp) (d := s_zero (Scalar := SF prec emax Hprec Hmax)) (st := v0)
    as (tr & rest & Pt & E & HF); auto.
  - intros st i HIs Hi. apply VI; auto. apply Hin; auto.
  - intros st i j HIs Hi S1. apply Hin in Hi. specialize (VM st i HIs Hi).
    pose proof ub as [U0 U1]. unfold skippedf in *. eapply Rle_lt_trans; [|exact S1].
    apply Rmult_le_compat_l; [apply pow_le; lra|exact VM].
  - intros. eapply LBz_incl; eauto.
  - intros s o d l st Hs HL HIs EL j Hj. eapply prune_fused; eauto.
  - intros s br l r o d b Hs HR Hi HL. apply step_fused; auto.
    intros x Hx. apply In_seq0, Hin, Hi, Hx.
  - rewrite app_nil_r. reflexivity.
  - apply Forall_forall. intros i Hi. apply in_space_lt. apply Hin; auto.
  - apply incl_refl.
  - apply LBz_start. intros x Hx. apply In_seq0, Hin, Hx.
  - exists tr, rest. split; [rewrite Pt; auto|]. split.
    + unfold search_fused. rewrite (fi_length _ _ _ _ _ _ _ FI), Nat.eqb_refl. cbn [bind guard].
      fold idx. unfold offsets0 in E.
      change (SF prec emax Hprec Hmax) with (SFu prec emax Hprec Hmax) in E. rewrite E. reflexivity.
    + split; auto. apply (visits_inv m vis sp q Inv idx); auto.
      * intros st i HIs Hi. apply VI; auto. apply Hin; auto.
      * intros x Hx. eapply Permutation_in; [exact Pt|]. apply in_or_app; auto.
Qed.
End Errors.
