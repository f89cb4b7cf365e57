(** Queries of trees of points some of whose coordinates are infinite. *)
From Coq Require Import List ZArith Reals Bool Arith Permutation Sorted Lia Lra.
From Flocq Require Import Core.Core IEEE754.BinarySingleNaN.
From Verif Require Import Base ModelBox ModelBuild ModelSearch Spec Lemmas BuildProofs
  BuildShape BuildThms SearchProofs Visitors QueryThms TopThms ExtraThms OrdThms InfBuild
  Floats FloatThms FloatSearch FloatQuery InfThms InfSearch SpecRound SpecInf.
Import ListNotations.
Local Open Scope R_scope.

Section Query.
Variables (prec emax : Z).
Context (Hprec : Prec_gt_0 prec) (Hmax : Prec_lt_emax prec emax) (P2 : (2 <= prec)%Z).
Local Notation F := (binary_float prec emax).
Local Notation fin := (finite prec emax).
Local Notation num := (number prec emax).
Local Notation pow2 := (bpow radix2).
Local Notation FS := (Float_scalar prec emax Hprec Hmax).
Local Existing Instance SF.
Let OL := float_ord prec emax Hprec Hmax.

Variables (em : exact_metric) (e : Z) (sp : space F) (q : list F).
Hypothesis II : inf_input prec emax em e sp q.
Let n := sp_sdim sp.
Let N := length (sp_pts sp).
Let fps := finite_points prec emax sp.
Variables (alg : std_algos) (SL : std_laws alg).
Variables (it : index_type) (fuel : nat) (stop : stop_condition) (bnds : start_bounds F) (ru : rule) (tree : kd_tree F).
Hypothesis (NM : ru <> midpoint_max_side).
Hypothesis HM : @kd_tree_make F FS alg it (@metric_of F FS em) fuel sp stop bnds ru = Ok tree.
Let h := node_height (kd_root (kt_data tree)).
Hypothesis FEW : few_steps prec (sp_sdim sp) (node_height (kd_root (kt_data tree))).
Local Notation dist := (computed prec emax Hprec Hmax em sp q).
Local Notation sl := (slack prec (sp_sdim sp) (node_height (kd_root (kt_data tree)))).
Local Notation sq := (sp' prec emax Hprec Hmax e sp).
Let FI := FI' prec emax Hprec Hmax P2 em e sp q II.
Let Dh j : F := m_dist (metric_of em) q (sp_at sq j).
Let D j : R := B2R (Dh j).

Lemma fps_in j : In j fps <-> (j < N)%nat /\ finp prec emax sp j = true.
Proof.
  unfold fps, finite_points. rewrite filter_In, In_seq0. reflexivity.
Qed.
Lemma D_dist j : In j fps -> D j = dist j.
Proof.
  intros H. apply fps_in in H as [_ H]. unfold D, Dh. rewrite finp_at by auto. reflexivity.
Qed.
Lemma dist_dh j : In j fps -> m_dist (metric_of em) q (sp_at sp j) = Dh j.
Proof. intros H. apply fps_in in H as [_ H]. unfold Dh. rewrite finp_at by auto. reflexivity. Qed.

Lemma Di_facts j : In j fps -> fin (Dh j) /\ 0 <= D j <= pow2 (emax - 2).
Proof.
  intros H. apply fps_in in H as [H _].
  apply (D_facts prec emax Hprec Hmax P2 em e sq bounds_from_space q FI tree FEW 0%Z j).
  rewrite npts'. exact H.
Qed.
Lemma Di_fin j : fin (Dh j).
Proof.
  destruct (Nat.lt_ge_cases j N) as [H|H].
  - apply (D_facts prec emax Hprec Hmax P2 em e sq bounds_from_space q FI tree FEW 0%Z j).
    rewrite npts'. exact H.
  - unfold Dh, sp_at. rewrite nth_overflow by (rewrite npts'; auto).
    destruct (ii_metric _ _ _ _ _ _ II) as [-> | ->]; cbn [metric_of m_dist metric_l1 metric_l2_squared];
      unfold sum_op; rewrite combine_nil; reflexivity.
Qed.

Lemma sl_bounds : 1 <= sl <= 2.
Proof. exact (slack_bounds prec emax P2 sq tree FEW). Qed.
Lemma Di_self j : In j fps -> D j <= sl * D j.
Proof. intros Hj. destruct (Di_facts j Hj) as [_ [A _]]. pose proof sl_bounds. nra. Qed.
Lemma maxi_far j : In j fps -> B2R (s_max : F) <= sl * D j -> False.
Proof.
  intros Hj. pose proof sl_bounds as [S1 S2]. apply fps_in in Hj as [Hj _].
  apply (max_far prec emax Hprec Hmax P2 em e sq bounds_from_space q FI tree FEW 0%Z sl S1 S2 j).
  rewrite npts'. exact Hj.
Qed.
Lemma SKi x j : In j fps -> fin x -> skip prec emax Hprec Hmax em e sq q tree 0%Z x j -> B2R x <= sl * D j.
Proof.
  intros Hj Fx Hs. apply fps_in in Hj as [Hj _].
  apply (skip_slack prec emax Hprec Hmax P2 em e sq bounds_from_space q FI tree FEW 0%Z x j); auto.
  rewrite npts'. exact Hj.
Qed.

Lemma contract_inf {V} (vis : visitor F V) (Inv : V -> Prop) v0 :
  (forall st i, Inv st -> Inv (v_visit vis i (Dh i) st)) ->
  (forall st, Inv st -> fin (v_max vis st)) ->
  (forall st i, Inv st -> s_leb (v_max vis (v_visit vis i (Dh i) st)) (v_max vis st) = true) ->
  (forall st i, Inv st -> v_visit vis i (B754_infinity false) st = st) ->
  Inv v0 ->
  exists tr rest, Permutation (tr ++ rest) fps
    /\ search_nearest tree vis q v0 = Ok (visits (metric_of em) vis sq q tr v0)
    /\ Inv (visits (metric_of em) vis sq q tr v0)
    /\ forall j, In j rest -> skip prec emax Hprec Hmax em e sq q tree 0%Z (v_max vis (visits (metric_of em) vis sq q tr v0)) j.
Proof.
  intros VI VF VM VX I0.
  destruct (kd_tree_make_inv _ _ _ _ _ _ _ _ _ HM) as (data & Et & HB).
  assert (EC : m_cat (metric_of (T := F) em) = Euclidean)
    by (destruct (ii_metric _ _ _ _ _ _ II) as [-> | ->]; reflexivity).
  assert (K : forall c (t : kd_tree_data c F), c = Euclidean -> build c alg it fuel sp stop bnds ru = Ok t ->
    (node_height (kd_root t) <= h)%nat ->
    exists tr rest, Permutation (tr ++ rest) fps
    /\ search_nearest_root (metric_of em) c vis sp (kd_indices t) q (kd_root t) v0 = Ok (visits (metric_of em) vis sq q tr v0)
    /\ Inv (visits (metric_of em) vis sq q tr v0)
    /\ forall j, In j rest -> skip prec emax Hprec Hmax em e sq q tree 0%Z (v_max vis (visits (metric_of em) vis sq q tr v0)) j).
  { intros c t -> Hb Hh.
    apply (build_loose num (number_ord prec emax Hprec Hmax) (ltb_number prec emax Hprec Hmax) sp (ii_space _ _ _ _ _ _ II)
      (numbers prec emax em e sp q II) alg SL ru it stop NM) in Hb as [P NS].
    assert (UQ : forall i, finp prec emax sp i = true -> m_dist (metric_of em) q (sp_at sp i) = Dh i).
    { intros i Hi. unfold Dh. rewrite finp_at by auto. reflexivity. }
    apply (search_inf prec emax Hprec Hmax P2 em e sp q II (NU prec emax P2 sq tree FEW) 0%Z h (HU prec emax P2 sq tree FEW) vis Inv);
      auto.
    - intros st i HI _ Fi. rewrite UQ by auto. auto.
    - intros st i HI _ Fi. rewrite UQ by auto. auto. }
  assert (Hh : (node_height (kd_root data) <= h)%nat) by (unfold h; rewrite Et; apply le_n).
  destruct (K _ data EC HB Hh) as (tr & rest & A1 & A2 & A3 & A4).
  exists tr, rest. split; auto. split; auto.
  rewrite Et. unfold search_nearest. cbn [kt_space kt_metric kt_data]. rewrite (ii_length _ _ _ _ _ _ II), Nat.eqb_refl.
  exact A2.
Qed.

Lemma inf_not_below (x : F) : fin x -> s_ltb (B754_infinity false) x = false.
Proof. destruct x as [[]|[]| |[] ? ? ?]; intros H; try discriminate; reflexivity. Qed.

Lemma perm_fps tr rest : Permutation (tr ++ rest) fps ->
  (forall i, In i tr -> In i fps) /\ (forall i, In i rest -> In i fps)
  /\ (forall i, In i fps -> In i tr \/ In i rest) /\ NoDup tr.
Proof.
  intros P. split; [|split; [|split]].
  - intros i Hi. eapply Permutation_in; [exact P|]. apply in_or_app; auto.
  - intros i Hi. eapply Permutation_in; [exact P|]. apply in_or_app; auto.
  - intros i Hi. apply in_app_or. eapply Permutation_in; [symmetry; exact P|auto].
  - eapply NoDup_app_l. eapply Permutation_NoDup; [symmetry; exact P|]. apply NoDup_filter, seq_NoDup.
Qed.

Lemma nn_inf nn0 : exists r, @search_nn F FS tree q nn0 = Ok r
  /\ (fps = [] -> r = Neighbor (n_index nn0) s_max)
  /\ (fps <> [] -> nearest_among fps dist sl (n_index r) /\ B2R (n_distance r) = dist (n_index r)).
Proof.
  destruct (contract_inf visitor_nn (fun st => fin (n_distance st)) (visitor_nn_init nn0))
    as (tr & rest & P & E & I1 & HF).
  - intros st i Hst. cbn. destruct (Bltb _ _); [apply Di_fin|auto].
  - auto.
  - intros st i Hst. cbn [v_visit v_max visitor_nn]. destruct (s_ltb (Dh i) (n_distance st)) eqn:EL.
    + apply (ltb_leb fin OL); auto. apply Di_fin.
    + apply (leb_refl fin OL); auto.
  - intros st i Hst. cbn [v_visit visitor_nn]. rewrite inf_not_below by auto. reflexivity.
  - reflexivity.
  - unfold search_nn. change FS with (SF prec emax Hprec Hmax).
    assert (EV : visits (metric_of em) visitor_nn sq q tr (visitor_nn_init nn0)
                 = fold_left (nn_step Dh) tr (visitor_nn_init nn0)) by reflexivity.
    rewrite EV in *. rewrite E.
    set (r := fold_left (nn_step Dh) tr (visitor_nn_init nn0)) in *.
    exists r. split; [reflexivity|].
    destruct (perm_fps _ _ P) as (Ptr & Prest & Pall & _).
    split.
    { intros Z. rewrite Z in P. symmetry in P. apply Permutation_nil, app_eq_nil in P as [-> _]. reflexivity. }
    intros NZ.
    destruct (nn_minimal Dh OL Di_fin tr (visitor_nn_init nn0) (fin_max prec emax Hprec Hmax)) as (A1 & A2 & A3). fold r in A1, A2, A3.
    assert (ALL : forall j, In j fps -> B2R (n_distance r) <= sl * D j).
    { intros j Hj. destruct (Pall j Hj) as [H|H].
      - specialize (A3 j H). apply leb_R in A3; auto; [|apply Di_fin]. change (B2R (Dh j)) with (D j) in A3.
        pose proof (Di_self j Hj). lra.
      - apply SKi; auto. }
    destruct (nn_genuine Dh tr (visitor_nn_init nn0)) as [G|(i & Hi & G)]; fold r in G.
    + exfalso. destruct fps as [|j0 l0] eqn:EF; [congruence|].
      assert (Hj : In j0 fps) by (rewrite EF; left; auto). rewrite <- EF in *.
      specialize (ALL j0 Hj). rewrite G in ALL. apply (maxi_far j0 Hj). exact ALL.
    + rewrite G in *. cbn [as_neighbor n_index n_distance] in *. change (B2R (Dh i)) with (D i) in *.
      rewrite D_dist by auto. split; auto. split; auto.
      intros j Hj. rewrite <- !D_dist by auto. auto.
Qed.

Lemma radius_inf r sort : fin r -> exists l, @search_radius F FS alg tree q r sort = Ok l
  /\ radius_among fps dist sl (B2R r) (real_answers prec emax l)
  /\ (sort = true -> StronglySorted Rle (map snd (real_answers prec emax l))).
Proof.
  intros Fr.
  destruct (contract_inf (visitor_radius r) (fun _ => True) []) as (tr & rest & P & E & _ & HF); auto.
  { intros st i _. apply (leb_refl fin OL); auto. }
  { intros st i _. cbn [v_visit visitor_radius]. rewrite inf_not_below by auto. reflexivity. }
  assert (EV : forall l st, visits (metric_of em) (visitor_radius r) sq q l st = fold_left (radius_step Dh r) l st)
    by reflexivity.
  rewrite EV, radius_result in E. cbn [app] in E.
  destruct (perm_fps _ _ P) as (Ptr & Prest & Pall & ND).
  set (l0 := map (as_neighbor Dh) (filter (fun i => s_ltb (Dh i) r) tr)) in *.
  assert (A0 : radius_among fps dist sl (B2R r) (real_answers prec emax l0)).
  { unfold l0, real_answers. rewrite map_map. cbn [as_neighbor n_index n_distance].
    assert (LT : forall i, s_ltb (Dh i) r = true <-> D i < B2R r).
    { intros i. apply ltb_R; auto. apply Di_fin. }
    constructor.
    - rewrite map_map. cbn. rewrite map_id. apply NoDup_filter. auto.
    - intros i d Hi. apply in_map_iff in Hi as (j & Ej & Hj). injection Ej as <- <-.
      apply filter_In in Hj as [Hj L]. apply LT in L. split; auto. rewrite <- D_dist by auto. split; auto.
    - intros i Hi HR. rewrite map_map. cbn. rewrite map_id. apply filter_In. rewrite <- D_dist in HR by auto.
      pose proof (Di_self i Hi). destruct (Pall i Hi) as [H0|H0].
      + split; auto. apply LT. lra.
      + exfalso. pose proof (SKi r i Hi Fr (HF i H0)). lra. }
  assert (O0 : forall x, In x l0 -> fin (n_distance x)).
  { intros x Hx. apply in_map_iff in Hx as (i & <- & _). apply Di_fin. }
  unfold search_radius. change FS with (SF prec emax Hprec Hmax). rewrite E. cbn [bind]. eexists. split; [reflexivity|].
  destruct sort; [|split; [exact A0|discriminate]].
  destruct (sort_result fin OL alg SL l0 O0) as [PS SS].
  split.
  - destruct A0 as [R1 R2 R3].
    assert (PA : Permutation (real_answers prec emax (std_sort alg (neighbor F) neighbor_lt l0)) (real_answers prec emax l0))
      by (apply Permutation_map; auto).
    assert (PI := Permutation_map fst PA).
    constructor.
    + eapply Permutation_NoDup; [symmetry; exact PI|auto].
    + intros i d Hi. apply R2. eapply Permutation_in; eauto.
    + intros i Hi HR. eapply Permutation_in; [symmetry; exact PI|auto].
  - intros _. assert (O1 : forall x, In x (std_sort alg (neighbor F) neighbor_lt l0) -> fin (n_distance x)).
    { intros x Hx. apply O0. eapply Permutation_in; eauto. }
    unfold real_answers. rewrite map_map. cbn [snd].
    clear - SS O1. induction SS as [|a l SS IH FA]; cbn [map]; constructor.
    + apply IH. intros; apply O1; right; auto.
    + rewrite Forall_forall in *. intros x Hx. apply in_map_iff in Hx as (b & <- & Hb).
      apply (leb_R prec emax Hprec Hmax); [apply O1; left; auto|apply O1; right; auto|auto].
Qed.

Lemma knn_inf_range l0 : (0 < length l0)%nat -> knn_max (l0, 0%nat) = s_max ->
  exists st, search_nearest tree visitor_knn q (l0, 0%nat) = Ok st
  /\ length (fst st) = length l0
  /\ knn_among fps (length l0) dist sl (real_answers prec emax (firstn (Nat.min (length l0) (length fps)) (fst st)))
  /\ skipn (Nat.min (length l0) (length fps)) (fst st) = skipn (Nat.min (length l0) (length fps)) l0.
Proof.
  intros H0 HX.
  set (Inv := fun st => exists tr kept dropped,
                knn_holds Dh l0 tr st kept dropped /\ knn_sorted Dh st kept dropped).
  assert (MF : forall st, Inv st -> fin (knn_max st)).
  { intros st (tr & kept & dropped & A & C).
    destruct (le_lt_dec (length l0) (length kept)) as [L|L].
    - destruct (exists_last (l := kept)) as (X & o & EX). { apply length_nonnil. lia. }
      subst kept. pose proof (kh_le _ _ _ _ _ _ A).
      rewrite (knn_max_full _ _ _ _ _ _ _ A) by lia. apply Di_fin.
    - rewrite (knn_max_short _ _ _ _ _ _ A) by auto. rewrite HX. apply fin_max. }
  destruct (contract_inf visitor_knn Inv (l0, 0%nat)) as (tr & rest & P & E & _ & HF).
  { intros st i (tr & kept & dropped & A & C).
    destruct (knn_order_step Dh OL Di_fin l0 tr st kept dropped i H0 HX A C) as (k' & d' & A' & C' & _).
    exists (tr ++ [i]), k', d'. auto. }
  { auto. }
  { intros st i (tr & kept & dropped & A & C).
    destruct (knn_order_step Dh OL Di_fin l0 tr st kept dropped i H0 HX A C) as (k' & d' & _ & _ & C').
    exact C'. }
  { intros st i HI. cbn [v_visit visitor_knn]. rewrite inf_not_below by auto. reflexivity. }
  { exists [], [], []. split; [apply knn_start|]. constructor; simpl; try tauto. constructor. }
  assert (EV : forall l st, visits (metric_of em) visitor_knn sq q l st = fold_left (knn_step Dh) l st)
    by reflexivity.
  rewrite EV in *.
  destruct (knn_order Dh OL Di_fin l0 tr H0 HX) as (kept & dropped & A & C).
  set (st := fold_left (knn_step Dh) tr (l0, 0%nat)) in *.
  assert (Fm : fin (knn_max st)) by (apply MF; exists tr, kept, dropped; auto).
  exists st. split; auto. split; [apply (kh_len _ _ _ _ _ _ A)|].
  destruct (perm_fps _ _ P) as (Ptr & Prest & Pall & ND).
  assert (Hk : forall i, In i kept -> In i fps).
  { intros i Hi. apply Ptr. eapply Permutation_in; [apply (kh_perm _ _ _ _ _ _ A)|]. apply in_or_app; auto. }
  assert (Hd : forall i, In i dropped -> In i fps).
  { intros i Hi. apply Ptr. eapply Permutation_in; [apply (kh_perm _ _ _ _ _ _ A)|]. apply in_or_app; auto. }
  assert (NDk : NoDup kept).
  { eapply NoDup_app_l. eapply Permutation_NoDup; [symmetry; apply (kh_perm _ _ _ _ _ _ A)|auto]. }
  assert (FAR : forall j, In j rest -> B2R (knn_max st) <= sl * D j).
  { intros j Hj. apply SKi; auto. }
  assert (DRP : forall j, In j dropped -> B2R (knn_max st) <= sl * D j).
  { intros j Hj. pose proof (ks_dropped _ _ _ _ C j Hj) as K. apply leb_R in K; auto; [|apply Di_fin].
    change (B2R (Dh j)) with (D j) in K. pose proof (Di_self j (Hd j Hj)). lra. }
  assert (LK : length kept = Nat.min (length l0) (length fps)).
  { pose proof (kh_le _ _ _ _ _ _ A) as L.
    assert (LN : (length kept + length dropped + length rest = length fps)%nat).
    { pose proof (Permutation_length P) as L1. rewrite app_length in L1.
      pose proof (Permutation_length (kh_perm _ _ _ _ _ _ A)) as L2. rewrite app_length in L2. lia. }
    destruct (le_lt_dec (length l0) (length kept)) as [L1|L1]; [lia|].
    pose proof (knn_max_short Dh l0 tr st kept dropped A L1) as M. rewrite HX in M.
    assert (dropped = []) as ->.
    { destruct dropped as [|i dr]; auto. exfalso. specialize (DRP i (or_introl eq_refl)). rewrite M in DRP.
      apply (maxi_far i); auto. apply Hd. left; auto. }
    assert (rest = []) as ->.
    { destruct rest as [|i dr]; auto. exfalso. specialize (FAR i (or_introl eq_refl)). rewrite M in FAR.
      apply (maxi_far i); auto. apply Prest. left; auto. }
    cbn [length] in LN. lia. }
  rewrite <- LK. pose proof (kh_first _ _ _ _ _ _ A) as G1. pose proof (kh_rest _ _ _ _ _ _ A) as G2.
  rewrite (kh_active _ _ _ _ _ _ A) in G1, G2. split; [|exact G2]. rewrite G1.
  unfold real_answers. rewrite map_map. cbn [as_neighbor n_index n_distance].
  constructor.
  - rewrite map_length. auto.
  - rewrite map_map. cbn. rewrite map_id. auto.
  - intros i d Hi. apply in_map_iff in Hi as (j & Ej & Hj). injection Ej as <- <-. split; auto.
    rewrite <- D_dist by auto. reflexivity.
  - rewrite map_map. cbn [snd]. pose proof (ks_sorted _ _ _ _ C) as SS. revert SS. generalize kept. intros kk SS.
    induction SS as [|a l SS IH FA]; cbn [map]; constructor; auto. rewrite Forall_forall in *.
    intros x Hx. apply in_map_iff in Hx as (j & <- & Hj).
    apply (leb_R prec emax Hprec Hmax (Dh a) (Dh j)); [apply Di_fin|apply Di_fin|exact (FA j Hj)].
  - intros i d j Hi Hj Hn. apply in_map_iff in Hi as (i' & Ej & Hi'). injection Ej as <- <-.
    rewrite map_map in Hn. cbn in Hn. rewrite map_id in Hn. rewrite <- D_dist by auto.
    apply Rle_trans with (B2R (knn_max st)).
    + destruct (le_lt_dec (length l0) (length kept)) as [L1|L1].
      * destruct (exists_last (l := kept)) as (X & o & EX'). { apply length_nonnil. lia. }
        subst kept. pose proof (kh_le _ _ _ _ _ _ A).
        rewrite (knn_max_full _ _ _ _ _ _ _ A) by lia.
        apply in_app_or in Hi' as [Hi'|[<-|[]]]; [|apply Rle_refl].
        pose proof (ks_sorted _ _ _ _ C) as SS. apply StronglySorted_app_inv in SS as (_ & _ & K).
        apply (leb_R prec emax Hprec Hmax (Dh i') (Dh o)); [apply Di_fin|apply Di_fin|apply (K i' o); simpl; auto].
      * rewrite (knn_max_short _ _ _ _ _ _ A) by auto. rewrite HX.
        pose proof (ks_max _ _ _ _ C i' Hi') as K. apply ltb_R in K; [lra|apply Di_fin|apply fin_max].
    + destruct (Pall j Hj) as [H|H]; auto.
      eapply Permutation_in in H; [|symmetry; apply (kh_perm _ _ _ _ _ _ A)].
      apply in_app_or in H as [H|H]; [tauto|auto].
Qed.

Lemma knn_inf range : range <> [] -> exists out, @search_knn_range F FS tree q range = Ok out
  /\ length out = length range
  /\ knn_among fps (length range) dist sl (real_answers prec emax (firstn (length fps) out))
  /\ (forall p, (length fps <= p < length range - 1)%nat -> nth_error out p = nth_error range p)
  /\ (forall old, (length fps < length range)%nat -> nth_error range (length range - 1) = Some old ->
        nth_error out (length range - 1) = Some (Neighbor (n_index old) s_max)).
Proof.
  intros NE. assert (HL : (0 < length range)%nat) by (destruct range; [congruence|cbn; lia]).
  destruct (knn_init_ok range HL) as (l0 & EI & L0 & M0 & K1 & K2).
  destruct (knn_inf_range l0) as (st & E & L & A & B); [lia|auto|].
  unfold search_knn_range. change FS with (SF prec emax Hprec Hmax). rewrite EI. cbn [bind]. rewrite E. cbn [bind].
  exists (fst st). split; auto. split; [lia|].
  assert (NX : forall p, (length fps <= p)%nat -> (length fps < length l0)%nat -> nth_error (fst st) p = nth_error l0 p).
  { intros p Hp Hlt. rewrite Nat.min_r in B by lia.
    rewrite <- (firstn_skipn (length fps) (fst st)), <- (firstn_skipn (length fps) l0).
    rewrite !nth_error_app2 by (rewrite firstn_length; lia).
    rewrite !firstn_length, B, !Nat.min_l by lia. reflexivity. }
  split; [|split].
  - rewrite L0 in A. destruct (Nat.le_gt_cases (length range) (length fps)) as [Hc|Hc].
    + rewrite Nat.min_l in A by lia. rewrite firstn_all2 in A by lia. rewrite firstn_all2 by lia. exact A.
    + rewrite Nat.min_r in A by lia. exact A.
  - intros p Hp. rewrite NX by lia. apply K1. lia.
  - intros old Hlt Ho. rewrite NX by lia. apply K2. auto.
Qed.

(** The version that fills a vector, for a vector that was empty. *)
Lemma knn_inf_vector k : (0 < k)%nat -> exists out, @search_knn F FS tree q k [] = Ok out
  /\ length out = Nat.min k N
  /\ knn_among fps k dist sl (real_answers prec emax (firstn (length fps) out))
  /\ (forall p, (length fps <= p < Nat.min k N - 1)%nat -> nth_error out p = Some (Neighbor 0 s_zero))
  /\ ((length fps < Nat.min k N)%nat -> nth_error out (Nat.min k N - 1) = Some (Neighbor 0 s_max)).
Proof.
  intros Hk.
  assert (HN : (0 < N)%nat).
  { destruct (kd_tree_make_inv _ _ _ _ _ _ _ _ _ HM) as (data & _ & HB).
    apply build_inv in HB as (_ & (H & _) & _). exact H. }
  assert (TS : kt_space tree = sp) by (destruct (kd_tree_make_inv _ _ _ _ _ _ _ _ _ HM) as (data & Et & _); rewrite Et; reflexivity).
  unfold search_knn. rewrite TS. change (sp_size sp) with N.
  assert (ER : vector_resize (T := F) [] (Nat.min k N) = repeat (Neighbor 0%nat s_zero) (Nat.min k N)).
  { unfold vector_resize. rewrite firstn_nil. cbn [app length]. rewrite Nat.sub_0_r. reflexivity. }
  assert (RN : forall m p, (p < m)%nat -> nth_error (repeat (Neighbor 0%nat (s_zero : F)) m) p = Some (Neighbor 0%nat s_zero)).
  { intros m p Hp. apply nth_error_repeat. auto. }
  destruct (knn_inf (repeat (Neighbor 0%nat s_zero) (Nat.min k N))) as (out & E & L & A & K1 & K2).
  { destruct (Nat.min k N) eqn:EM; [lia|discriminate]. }
  rewrite repeat_length in *.
  exists out. split; [exact (eq_trans (f_equal _ ER) E)|]. split; auto. split; [|split].
  - destruct A as [A1 A2 A3 A4 A5]. constructor; auto. rewrite A1.
    assert (LF : (length fps <= N)%nat).
    { rewrite <- (seq_length N 0). apply NoDup_incl_length; [apply NoDup_filter, seq_NoDup|].
      intros x Hx. apply filter_In in Hx as [Hx _]. exact Hx. }
    lia.
  - intros p Hp. rewrite K1 by auto. apply RN. lia.
  - intros Hlt. apply (K2 (Neighbor 0%nat s_zero)); auto. apply RN. lia.
Qed.
End Query.
