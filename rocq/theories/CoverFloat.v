(** Searches of cover trees in floating point. *)
From Coq Require Import List ZArith Reals Bool Arith Permutation Sorted Lia Lra.
From Flocq Require Import Core.Core IEEE754.BinarySingleNaN Plus_error Relative.
From Verif Require Import Base ModelBox ModelBuild ModelSearch Spec SpecRound ModelCover SpecCover SpecCoverFloat
  Lemmas BuildProofs BuildShape BuildThms SearchProofs Visitors QueryThms TopThms OrdThms Floats FloatThms
  FloatSearch CoverThms CoverSearch.
Import ListNotations.
Local Open Scope R_scope.

Section Generic.
Variables (prec emax : Z).
Context (Hprec : Prec_gt_0 prec) (Hmax : Prec_lt_emax prec emax) (P2 : (2 <= prec)%Z).
Local Notation F := (binary_float prec emax).
Local Notation fin := (finite prec emax).
Local Notation fexp := (SpecFloat.fexp prec emax).
Local Notation rnd := (round radix2 fexp ZnearestE).
Local Notation pow2 := (bpow radix2).
Local Existing Instance SF.
Let OL := float_ord prec emax Hprec Hmax.

Variables (m : metric F) (sp : space F) (q : list F).
Let N := length (sp_pts sp).
Let Dh (j : nat) : F := m_dist m q (sp_at sp j).
Let Ph (i j : nat) : F := m_dist m (sp_at sp i) (sp_at sp j).
Let D (j : nat) : R := B2R (Dh j).
Let P (i j : nat) : R := B2R (Ph i j).
Variable L : nat -> R.
Hypotheses (D_fin : forall j, fin (Dh j)) (P_fin : forall i j, fin (Ph i j)).
Hypothesis D_0 : forall j, (j < N)%nat -> 0 <= D j.
Hypothesis P_0 : forall i j, (i < N)%nat -> (j < N)%nat -> 0 <= P i j.
Hypothesis D_L : forall j, (j < N)%nat -> D j <= L j.
Hypothesis L_max : forall j, (j < N)%nat -> L j < B2R (s_max : F).
Hypothesis PRUNE : forall c j, (c < N)%nat -> (j < N)%nat -> rnd (D c - P c j) <= L j.
Hypothesis LQ : length q = sp_sdim sp.

Lemma dist_ok : distances_ok fin m sp q.
Proof. intros i j. split; [apply D_fin|apply P_fin]. Qed.

Lemma sub_nonneg (x y : F) : fin x -> fin y -> 0 <= B2R x -> 0 <= B2R y ->
  fin (s_sub x y) /\ B2R (s_sub x y) = rnd (B2R x - B2R y).
Proof.
  intros Fx Fy X0 Y0.
  assert (K : Rabs (rnd (B2R x - B2R y)) < pow2 emax).
  { eapply Rle_lt_trans; [|apply (max_lt_pow prec emax Hprec Hmax)].
    apply rnd_abs_le; auto. { apply fmt_B2R. }
    pose proof (R_range prec emax Hprec Hmax x) as A. pose proof (R_range prec emax Hprec Hmax y) as B.
    rewrite Rabs_pos_eq in A, B by auto. apply Rabs_le. lra. }
  destruct (sub_R prec emax Hprec Hmax x y Fx Fy K) as [A B]. split; auto.
Qed.

Lemma float_skip : skippable (ok := fin) m sp q (fun x j => (B2R x <= L j)).
Proof.
  constructor.
  - intros x j Hj Fx H. apply leb_R in H; auto; [|apply D_fin]. eapply Rle_trans; [exact H|exact (D_L j Hj)].
  - intros x y j Fx Fy H H1. apply leb_R in H; auto. lra.
  - intros c j md x Hc Hj Fm Fx HB E.
    apply leb_R in HB; auto; [|apply P_fin]. change (B2R (m_dist m _ _)) with (P c j) in HB.
    pose proof (P_0 c j Hc Hj).
    destruct (sub_nonneg (Dh c) md) as [FS ES]; auto. { apply D_0; auto. } { lra. }
    apply ltb_R_false in E; auto. change (m_dist m q (sp_at sp c)) with (Dh c) in E. rewrite ES in E.
    eapply Rle_trans; [exact E|]. eapply Rle_trans; [|apply (PRUNE c j); auto].
    apply rnd_le; auto. fold (D c). lra.
Qed.

Variables (cm : cmath F) (alg : std_algos) (SL : std_laws alg) (shuffle : list nat -> list nat) (SH : shuffles shuffle).
Variables (fuel : nat) (base : F) (t : cover_tree F).
Hypothesis HM : cover_tree_make cm alg shuffle m fuel sp base = Ok t.

Lemma search_contract_cover {V} (vis : visitor F V) (Inv : V -> Prop) v0 :
  (forall st i, Inv st -> (i < N)%nat -> Inv (v_visit vis i (Dh i) st)) ->
  (forall st, Inv st -> fin (v_max vis st)) ->
  (forall st i, Inv st -> (i < N)%nat -> s_leb (v_max vis (v_visit vis i (Dh i) st)) (v_max vis st) = true) ->
  Inv v0 ->
  exists tr rest, Permutation (tr ++ rest) (seq 0 N)
    /\ cover_search alg t vis q v0 = Ok (visits m vis sp q tr v0)
    /\ forall j, In j rest -> B2R (v_max vis (visits m vis sp q tr v0)) <= L j.
Proof.
  intros VI VF VM I0.
  destruct (cover_make_inv _ _ _ _ _ _ _ _ SL SH HM) as (N0 & ES & EM & PE & r0 & ER).
  refine (cover_slack_contract OL alg SL m sp q dist_ok _ float_skip t ES EM PE _ LQ V vis Inv v0 I0 VF _).
  - rewrite ER. apply update_bounded; auto.
  - intros st i Hi HI. split; [apply VI|apply VM]; auto.
Qed.

Lemma cover_N_pos : (0 < N)%nat.
Proof. apply (cover_make_inv _ _ _ _ _ _ _ _ SL SH HM). Qed.
Lemma max_far_cover j : (j < N)%nat -> B2R (s_max : F) <= L j -> False.
Proof. intros Hj H. specialize (L_max j Hj). lra. Qed.

Lemma cover_nn_float nn0 : exists i d, cover_search_nn alg t q nn0 = Ok (Neighbor i d)
  /\ B2R d = D i /\ nearest_upto N D L i.
Proof.
  destruct (search_contract_cover visitor_nn (fun st => fin (n_distance st)) (visitor_nn_init nn0))
    as (tr & rest & Pm & E & HF).
  - intros st i Hst Hi. cbn. destruct (Bltb _ _); [apply D_fin|auto].
  - auto.
  - intros st i Hst Hi. cbn [v_visit v_max visitor_nn]. destruct (s_ltb (Dh i) (n_distance st)) eqn:EL.
    + apply (ltb_leb fin OL); auto. apply D_fin.
    + apply (leb_refl fin OL); auto.
  - reflexivity.
  - unfold cover_search_nn. rewrite E.
    change (visits m visitor_nn sp q tr (visitor_nn_init nn0)) with (fold_left (nn_step Dh) tr (visitor_nn_init nn0)) in *.
    set (r := fold_left (nn_step Dh) tr (visitor_nn_init nn0)) in *.
    apply perm_in_seq in Pm as (Ptr & Prest & Pall & _).
    destruct (nn_minimal Dh OL D_fin tr (visitor_nn_init nn0) (fin_max prec emax Hprec Hmax)) as (A1 & A2 & A3). fold r in A1, A2, A3.
    assert (ALL : forall j, (j < N)%nat -> B2R (n_distance r) <= L j).
    { intros j Hj. destruct (Pall j Hj) as [H|H].
      - specialize (A3 j H). apply leb_R in A3; auto. change (B2R (Dh j)) with (D j) in A3.
        pose proof (D_L j Hj). lra.
      - apply HF; auto. }
    destruct (nn_genuine Dh tr (visitor_nn_init nn0)) as [G|(i & Hi & G)]; fold r in G.
    + exfalso. specialize (ALL 0%nat cover_N_pos). rewrite G in ALL. apply (max_far_cover 0%nat cover_N_pos). exact ALL.
    + exists i, (Dh i). rewrite G. split; [reflexivity|]. split; auto. split; auto.
      intros j Hj. specialize (ALL j Hj). rewrite G in ALL. exact ALL.
Qed.

Lemma cover_radius_float r sort : fin r -> exists l,
  cover_search_radius alg t q r sort = Ok l
  /\ radius_upto N D L (B2R r) (real_answers prec emax l)
  /\ (sort = true -> StronglySorted Rle (map snd (real_answers prec emax l))).
Proof.
  intros Fr.
  destruct (search_contract_cover (visitor_radius r) (fun _ => True) []) as (tr & rest & Pm & E & HF); auto.
  { intros st i _ _. apply (leb_refl fin OL); auto. }
  assert (EV : forall l st, visits m (visitor_radius r) sp q l st = fold_left (radius_step Dh r) l st)
    by reflexivity.
  rewrite EV, radius_result in E. cbn [app] in E.
  apply perm_in_seq in Pm as (Ptr & Prest & Pall & ND & _).
  set (l0 := map (as_neighbor Dh) (filter (fun i => s_ltb (Dh i) r) tr)) in *.
  assert (A0 : radius_upto N D L (B2R r) (real_answers prec emax l0)).
  { unfold l0, real_answers. rewrite map_map. cbn [as_neighbor n_index n_distance].
    assert (LT : forall i, s_ltb (Dh i) r = true <-> D i < B2R r).
    { intros i. apply ltb_R; auto. }
    constructor.
    - rewrite map_map. cbn. rewrite map_id. apply NoDup_filter. auto.
    - intros i d Hi. apply in_map_iff in Hi as (j & Ej & Hj). injection Ej as <- <-.
      apply filter_In in Hj as [Hj LL]. apply LT in LL. split; auto.
    - intros i Hi HR. rewrite map_map. cbn. rewrite map_id. apply filter_In.
      pose proof (D_L i Hi). destruct (Pall i Hi) as [H0|H0].
      + split; auto. apply LT. lra.
      + exfalso. specialize (HF i H0). cbn [v_max visitor_radius] in HF. lra. }
  assert (O0 : forall x, In x l0 -> fin (n_distance x)).
  { intros x Hx. apply in_map_iff in Hx as (i & <- & _). apply D_fin. }
  unfold cover_search_radius. rewrite E. cbn [bind]. eexists. split; [reflexivity|].
  destruct sort; [|split; [exact A0|discriminate]].
  destruct (sort_result fin OL alg SL l0 O0) as [PS SS].
  split.
  - destruct A0 as [R1 R2 R3].
    assert (PA : Permutation (real_answers prec emax (std_sort alg (neighbor F) neighbor_lt l0)) (real_answers prec emax l0))
      by (apply Permutation_map; auto).
    assert (PI := Permutation_map fst PA).
    constructor.
    + eapply Permutation_NoDup; [symmetry; exact PI|auto].
    + intros i d Hi. apply R2. eapply Permutation_in; eauto.
    + intros i Hi HR. eapply Permutation_in; [symmetry; exact PI|auto].
  - intros _. assert (O1 : forall x, In x (std_sort alg (neighbor F) neighbor_lt l0) -> fin (n_distance x)).
    { intros x Hx. apply O0. eapply Permutation_in; eauto. }
    unfold real_answers. rewrite map_map. cbn [snd].
    clear - SS O1. induction SS as [|a l SS IH FA]; cbn [map]; constructor.
    + apply IH. intros; apply O1; right; auto.
    + rewrite Forall_forall in *. intros x Hx. apply in_map_iff in Hx as (b & <- & Hb).
      apply (leb_R prec emax Hprec Hmax); [apply O1; left; auto|apply O1; right; auto|auto].
Qed.

Lemma cover_knn_float_range l0 : (0 < length l0)%nat -> knn_max (l0, 0%nat) = s_max ->
  exists st, cover_search alg t visitor_knn q (l0, 0%nat) = Ok st
  /\ length (fst st) = length l0
  /\ knn_upto N (length l0) D L (real_answers prec emax (firstn (Nat.min (length l0) N) (fst st))).
Proof.
  intros H0 HX.
  set (Inv := fun st => exists tr kept dropped,
                knn_holds Dh l0 tr st kept dropped /\ knn_sorted Dh st kept dropped).
  assert (MF : forall st, Inv st -> fin (knn_max st)).
  { intros st (tr & kept & dropped & A & C).
    destruct (le_lt_dec (length l0) (length kept)) as [LL|LL].
    - destruct (exists_last (l := kept)) as (X & o & EX). { apply length_nonnil. lia. }
      subst kept. pose proof (kh_le _ _ _ _ _ _ A).
      rewrite (knn_max_full _ _ _ _ _ _ _ A) by lia. apply D_fin.
    - rewrite (knn_max_short _ _ _ _ _ _ A) by auto. rewrite HX. apply fin_max. }
  destruct (search_contract_cover visitor_knn Inv (l0, 0%nat)) as (tr & rest & Pm & E & HF).
  { intros st i (tr & kept & dropped & A & C) _.
    destruct (knn_order_step Dh OL D_fin l0 tr st kept dropped i H0 HX A C) as (k' & d' & A' & C' & _).
    exists (tr ++ [i]), k', d'. auto. }
  { auto. }
  { intros st i (tr & kept & dropped & A & C) _.
    destruct (knn_order_step Dh OL D_fin l0 tr st kept dropped i H0 HX A C) as (k' & d' & _ & _ & C').
    exact C'. }
  { exists [], [], []. split; [apply knn_start|]. constructor; simpl; try tauto. constructor. }
  assert (EV : forall l st, visits m visitor_knn sp q l st = fold_left (knn_step Dh) l st)
    by reflexivity.
  rewrite EV in *.
  destruct (knn_order Dh OL D_fin l0 tr H0 HX) as (kept & dropped & A & C).
  set (st := fold_left (knn_step Dh) tr (l0, 0%nat)) in *.
  assert (Fm : fin (knn_max st)) by (apply MF; exists tr, kept, dropped; auto).
  exists st. split; auto. split; [apply (kh_len _ _ _ _ _ _ A)|].
  pose proof Pm as P0. apply perm_in_seq in Pm as (Ptr & Prest & Pall & ND & Pdis).
  assert (Hk : forall i, In i kept -> (i < N)%nat).
  { intros i Hi. apply Ptr. eapply Permutation_in; [apply (kh_perm _ _ _ _ _ _ A)|]. apply in_or_app; auto. }
  assert (Hd : forall i, In i dropped -> (i < N)%nat).
  { intros i Hi. apply Ptr. eapply Permutation_in; [apply (kh_perm _ _ _ _ _ _ A)|]. apply in_or_app; auto. }
  assert (NDk : NoDup kept).
  { eapply NoDup_app_l. eapply Permutation_NoDup; [symmetry; apply (kh_perm _ _ _ _ _ _ A)|auto]. }
  assert (FAR : forall j, In j rest -> B2R (knn_max st) <= L j).
  { intros j Hj. apply HF; auto. }
  assert (DRP : forall j, In j dropped -> B2R (knn_max st) <= L j).
  { intros j Hj. pose proof (ks_dropped _ _ _ _ C j Hj) as K. apply leb_R in K; auto.
    change (B2R (Dh j)) with (D j) in K. pose proof (D_L j (Hd j Hj)). lra. }
  assert (LK : length kept = Nat.min (length l0) N).
  { pose proof (kh_le _ _ _ _ _ _ A) as LL.
    assert (LN : (length kept + length dropped + length rest = N)%nat).
    { apply Permutation_length in P0. rewrite app_length, seq_length in P0.
      pose proof (Permutation_length (kh_perm _ _ _ _ _ _ A)) as L2. rewrite app_length in L2. lia. }
    destruct (le_lt_dec (length l0) (length kept)) as [L1|L1]; [lia|].
    pose proof (knn_max_short Dh l0 tr st kept dropped A L1) as M. rewrite HX in M.
    assert (dropped = []) as ->.
    { destruct dropped as [|i dr]; auto. exfalso. specialize (DRP i (or_introl eq_refl)). rewrite M in DRP.
      apply (max_far_cover i); auto. apply Hd. left; auto. }
    assert (rest = []) as ->.
    { destruct rest as [|i dr]; auto. exfalso. specialize (FAR i (or_introl eq_refl)). rewrite M in FAR.
      apply (max_far_cover i); auto. apply Prest. left; auto. }
    simpl in LN. lia. }
  rewrite <- LK. pose proof (kh_first _ _ _ _ _ _ A) as G1.
  rewrite (kh_active _ _ _ _ _ _ A) in G1. rewrite G1.
  unfold real_answers. rewrite map_map. cbn [as_neighbor n_index n_distance].
  constructor.
  - rewrite map_length. auto.
  - rewrite map_map. cbn. rewrite map_id. auto.
  - intros i d Hi. apply in_map_iff in Hi as (j & Ej & Hj). injection Ej as <- <-. split; auto.
  - rewrite map_map. cbn [snd]. pose proof (ks_sorted _ _ _ _ C) as SS. revert SS. generalize kept. intros kk SS.
    induction SS as [|a l SS IH FA]; cbn [map]; constructor; auto. rewrite Forall_forall in *.
    intros x Hx. apply in_map_iff in Hx as (j & <- & Hj).
    apply (leb_R prec emax Hprec Hmax (Dh a) (Dh j)); [apply D_fin|apply D_fin|exact (FA j Hj)].
  - intros i d j Hi Hj Hn. apply in_map_iff in Hi as (i' & Ej & Hi'). injection Ej as <- <-.
    rewrite map_map in Hn. cbn in Hn. rewrite map_id in Hn.
    apply Rle_trans with (B2R (knn_max st)).
    + destruct (le_lt_dec (length l0) (length kept)) as [L1|L1].
      * destruct (exists_last (l := kept)) as (X & o & EX'). { apply length_nonnil. lia. }
        subst kept. pose proof (kh_le _ _ _ _ _ _ A).
        rewrite (knn_max_full _ _ _ _ _ _ _ A) by lia.
        apply in_app_or in Hi' as [Hi'|[<-|[]]]; [|apply Rle_refl].
        pose proof (ks_sorted _ _ _ _ C) as SS. apply StronglySorted_app_inv in SS as (_ & _ & K).
        apply (leb_R prec emax Hprec Hmax (Dh i') (Dh o)); [apply D_fin|apply D_fin|apply (K i' o); simpl; auto].
      * rewrite (knn_max_short _ _ _ _ _ _ A) by auto. rewrite HX.
        pose proof (ks_max _ _ _ _ C i' Hi') as K. apply ltb_R in K; [unfold Dh in *; lra|apply D_fin|apply fin_max].
    + destruct (Pall j Hj) as [H|H]; auto.
      eapply Permutation_in in H; [|symmetry; apply (kh_perm _ _ _ _ _ _ A)].
      apply in_app_or in H as [H|H]; [tauto|auto].
Qed.

Lemma cover_knn_float k knn0 : (0 < k)%nat -> exists out, cover_search_knn alg t q k knn0 = Ok out
  /\ knn_upto N k D L (real_answers prec emax out).
Proof.
  intros Hk. pose proof cover_N_pos as HN.
  assert (TS : ct_space t = sp) by apply (cover_make_inv _ _ _ _ _ _ _ _ SL SH HM).
  unfold cover_search_knn. rewrite TS. change (sp_size sp) with N.
  set (range := vector_resize knn0 (Nat.min k N)).
  assert (LR : length range = Nat.min k N) by apply length_resize.
  destruct (knn_init_ok range ltac:(lia)) as (l0 & EI & L0 & M0 & _ & _).
  destruct (cover_knn_float_range l0) as (st & E & LL & A); [lia|auto|].
  unfold cover_search_knn_range. rewrite EI. cbn [bind]. rewrite E. cbn [bind].
  exists (fst st). split; auto.
  rewrite firstn_all2 in A by lia.
  destruct A as [A1 A2 A3 A4 A5]. constructor; auto. rewrite A1. lia.
Qed.

Lemma cover_float_searches : cover_searches_upto prec emax Hprec Hmax alg t N q D L.
Proof.
  split; [exact cover_nn_float|]. split; [exact cover_knn_float|exact cover_radius_float].
Qed.
End Generic.
