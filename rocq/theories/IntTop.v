(** The properties of integer scalars. *)
From Coq Require Import List ZArith QArith Qabs Bool Arith Permutation Sorted Lia Lqa.
From Verif Require Import Base ModelBox ModelBuild ModelSearch ModelInt Spec SpecInt Lemmas Instances
  BuildProofs BuildOrder BuildShape BuildThms QueryThms TopThms BoxThms SafeThms ExtraThms IntThms.
Import ListNotations.
Local Open Scope nat_scope.

Section Exact.
Variables (lo hi : Z) (ovf : Z -> Z) (B : Z) (em : exact_metric) (sp : space Z) (bnds : start_bounds Z).
Hypothesis IT : int_tree lo hi B em sp bnds.
Variables (alg : std_algos) (SL : std_laws alg).
Local Notation ZM := (Int_scalar lo hi ovf).
Local Notation ZE := (Int_scalar lo hi (fun x => x)).

Lemma it_facts : (0 <= B)%Z /\ (lo <= - (4 * B))%Z /\ (lo < 0)%Z /\ (4 * B <= hi)%Z /\ (1 <= hi)%Z
  /\ (em = L1 \/ em = L2Squared) /\ (Z.of_nat (sp_sdim sp) * int_cap B em < hi)%Z /\ (0 <= int_cap B em)%Z.
Proof.
  destruct IT as [_ _ _ ((H0 & H1 & H2 & H3) & H4)].
  destruct em; cbn [int_cap]; try contradiction; repeat (split; auto); try nia.
Qed.

(** The tree with exact arithmetic, and that searches agree. *)
Lemma exact_twin it fuel stop ru tree :
  @kd_tree_make Z ZM alg it (@metric_of Z ZM em) fuel sp stop bnds ru = Ok tree ->
  exists twin, @kd_tree_make Z ZE alg it (@metric_of Z ZE em) fuel sp stop bnds ru = Ok twin
    /\ kt_space tree = sp /\ kt_space twin = sp
    /\ forall q, int_query B sp q -> forall V (vis : visitor Z V) v0,
       @search_nearest Z ZM V tree vis q v0 = @search_nearest Z ZE V twin vis q v0.
Proof.
  intros H. destruct it_facts as (H0 & H1 & H2 & H3 & H4 & Hem & Hs & Hc).
  destruct IT as [WF AC BC _].
  assert (Hn : 1 <= sp_sdim sp) by apply WF.
  destruct (metric_eq lo hi ovf B H0 H1 H2 H3 H4 em (sp_sdim sp) Hem Hn ltac:(lia)) as [DIST APP].
  assert (K : m_cat (@metric_of Z ZM em) = Euclidean /\ m_cat (@metric_of Z ZE em) = Euclidean)
    by (destruct Hem; subst em; split; reflexivity).
  set (mM := @metric_of Z ZM em) in *. set (mE := @metric_of Z ZE em) in *.
  clearbody mM mE. destruct K as [KM KE].
  destruct mM as [cM dM aM sM], mE as [cE dE aE sE]. cbn [m_cat] in KM, KE. subst cM cE.
  apply kd_tree_make_inv in H as (data & -> & HD). cbn [m_cat] in data, HD.
  pose proof HD as HDE. rewrite (build_eq lo hi ovf B H0 H1 H2 H3 H4 alg sp AC it stop ru Euclidean fuel bnds BC) in HDE.
  exists (@KdTree Z sp (@Metric Z Euclidean dE aE sE) data). split.
  { unfold kd_tree_make. cbn [m_cat]. rewrite HDE. reflexivity. }
  split; [reflexivity|]. split; [reflexivity|].
  intros q [Lq Fq] V vis v0. unfold search_nearest. cbn [kt_space kt_metric kt_data m_cat].
  rewrite Lq, Nat.eqb_refl. cbn [guard bind]. unfold search_nearest_root.
  apply build_inv in HDE as (_ & [Hne _] & bx' & HC & _).
  apply (create_node_inB lo hi ovf B H0 H1 H2 H3 H4 alg sp AC it stop ru WF SL) in HC as [_ EB].
  - assert (Z0 : zsum (tab (sp_sdim sp) (fun _ => 0%Z)) = 0%Z).
    { unfold tab, zsum. clear. induction (seq 0 (sp_sdim sp)); cbn; auto. }
    assert (O0 : off_ok (int_cap B em) (tab (sp_sdim sp) (fun _ => 0%Z))).
    { unfold off_ok, tab. rewrite Forall_map, Forall_forall. intros; lia. }
    pose proof (search_eq lo hi ovf B H1 H2 H3 H4 sp AC WF (@Metric Z Euclidean dM aM sM)
      (@Metric Z Euclidean dE aE sE) (int_cap B em) q Hc ltac:(lia)) as SE.
    cbn [s_zero Int_scalar].
    assert (X : @search_nearest_euclidean Z ZM V (@Metric Z Euclidean dM aM sM) vis sp (kd_indices data) q (kd_root data) 0%Z (tab (sp_sdim sp) (fun _ => 0%Z), v0)
      = @search_nearest_euclidean Z ZE V (@Metric Z Euclidean dE aE sE) vis sp (kd_indices data) q (kd_root data) 0%Z (tab (sp_sdim sp) (fun _ => 0%Z), v0)).
    { assert (L0 : length (tab (sp_sdim sp) (fun _ => 0%Z)) = sp_sdim sp) by (unfold tab; rewrite map_length, seq_length; reflexivity).
      specialize (SE (fun p Fp _ => DIST q p Lq Fq Fp) APP Fq V vis (kd_indices data) (kd_root data) EB
        (tab (sp_sdim sp) (fun _ => 0%Z)) v0 O0 L0).
      rewrite Z0 in SE. exact SE. }
    rewrite X. reflexivity.
  - apply box_from_bounds_wf.
  - apply (root_bb lo hi ovf B H0 H1 H2 H3 H4 sp AC); auto. apply length_nonnil; auto.
  - right. apply length_nonnil. rewrite seq_length. auto.
Qed.

Lemma int_usable q : int_query B sp q ->
  @usable Z ZE inject_Z em sp bnds q /\ @distances_fit Z ZE inject_Z em sp q.
Proof.
  intros [Lq Fq]. destruct it_facts as (H0 & H1 & H2 & H3 & H4 & Hem & Hs & Hc).
  destruct IT as [WF AC BC _]. split.
  - constructor; auto.
    + apply Forall_forall. intros p Ip. unfold all_coords in AC. rewrite Forall_forall in AC. specialize (AC p Ip).
      eapply Forall_impl; [|exact AC]. intros x Hx. unfold int_within in Hx.
      split; cbn [s_lowest s_max Int_scalar]; rewrite <- Zle_Qle; lia.
    + apply Forall_forall. intros p _. destruct Hem; subst em; exact I.
    + destruct bnds; cbn; auto. destruct Hem; subst em; cbn; auto.
    + destruct Hem; subst em; exact I.
  - intros i Hi. unfold dist_to.
    assert (Fp : Forall (inB B) (nth i (sp_pts sp) [])).
    { unfold all_coords in AC. rewrite Forall_forall in AC. apply AC, nth_In, Hi. }
    revert Fp. generalize (nth i (sp_pts sp) []). cbn [s_max Int_scalar].
    assert (G : forall f cap, (0 <= cap)%Z ->
      (forall a b, inB B a -> inB B b -> (f (inject_Z a) (inject_Z b) <= inject_Z cap)%Q) ->
      forall p q, Forall (inB B) p -> Forall (inB B) q ->
      (sum_dist f (map inject_Z q) (map inject_Z p) <= inject_Z (Z.of_nat (length q) * cap))%Q).
    { clear. intros f cap Hcap Hf p q Fp Fq. revert p Fp.
      induction Fq as [|a q Fa Fq IH]; intros p Fp; [apply Qle_refl|].
      destruct Fp as [|b p Fb Fp].
      - cbn [map sum_dist]. change 0%Q with (inject_Z 0). rewrite <- Zle_Qle. lia.
      - cbn [map sum_dist length]. specialize (IH p Fp). specialize (Hf a b Fa Fb).
        assert (X : (inject_Z (Z.of_nat (S (length q)) * cap) == inject_Z cap + inject_Z (Z.of_nat (length q) * cap))%Q).
        { rewrite <- inject_Z_plus. rewrite Nat2Z.inj_succ. replace (Z.succ (Z.of_nat (length q)) * cap)%Z
            with (cap + Z.of_nat (length q) * cap)%Z by lia. reflexivity. }
        rewrite X. lra. }
    intros p Fp. eapply Qle_lt_trans; [|rewrite <- Zlt_Qlt; exact Hs]. rewrite <- Lq.
    destruct Hem; subst em; cbn [dist_of int_cap] in *; apply G; auto; intros a b Ha Hb; unfold inB in *.
    + unfold abs_diff. assert (X : (inject_Z a - inject_Z b == inject_Z (a - b))%Q).
      { unfold Qminus. rewrite <- inject_Z_opp, <- inject_Z_plus. reflexivity. }
      rewrite X. change (Qabs (inject_Z (a - b))) with (inject_Z (Z.abs (a - b))). rewrite <- Zle_Qle. lia.
    + unfold sq_diff. assert (X : (inject_Z a - inject_Z b == inject_Z (a - b))%Q).
      { unfold Qminus. rewrite <- inject_Z_opp, <- inject_Z_plus. reflexivity. }
      rewrite X, <- inject_Z_mult, <- Zle_Qle. pose proof (square_le (a - b) (2 * B) ltac:(lia)). lia.
Qed.

Variables (it : index_type) (fuel : nat) (stop : stop_condition) (ru : rule) (tree : kd_tree Z) (q : list Z).
Hypothesis HT : @kd_tree_make Z ZM alg it (@metric_of Z ZM em) fuel sp stop bnds ru = Ok tree.
Hypothesis HQ : int_query B sp q.

Lemma E_laws : exact_laws ZE inject_Z.
Proof. destruct it_facts as (H0 & H1 & H2 & H3 & H4 & _). apply E_exact; assumption. Qed.

Lemma int_nn nn0 : exists i d, @search_nn Z ZM tree q nn0 = Ok (Neighbor i d)
  /\ (inject_Z d == dist_to inject_Z em sp q i)%Q
  /\ is_nearest (npts sp) (dist_to inject_Z em sp q) i.
Proof.
  destruct (exact_twin _ _ _ _ _ HT) as (tw & HE & _ & _ & EQ). destruct (int_usable q HQ) as [U D].
  destruct (@top_nn Z ZE inject_Z E_laws em sp alg SL it fuel stop bnds ru tw q HE U D nn0) as (i & d & R & X).
  exists i, d. split; [|exact X]. rewrite <- R. unfold search_nn. apply (EQ q HQ).
Qed.

Lemma int_knn k knn0 : 0 < k -> exists out, @search_knn Z ZM tree q k knn0 = Ok out
  /\ knn_answer (npts sp) k (dist_to inject_Z em sp q) (answers inject_Z out).
Proof.
  intros Hk. destruct (exact_twin _ _ _ _ _ HT) as (tw & HE & S1 & S2 & EQ). destruct (int_usable q HQ) as [U D].
  destruct (@top_knn Z ZE inject_Z E_laws em sp alg SL it fuel stop bnds ru tw q HE U D k knn0 Hk) as (out & R & X).
  exists out. split; [|exact X]. rewrite <- R. unfold search_knn, search_knn_range. rewrite S1, S2.
  change (@vector_resize Z ZM) with (@vector_resize Z ZE). change (@visitor_knn_init Z ZM) with (@visitor_knn_init Z ZE).
  destruct (@visitor_knn_init Z ZE _); cbn [bind]; try reflexivity.
  pose proof (EQ q HQ _ (@visitor_knn Z ZE) a) as EQa.
  change (@search_nearest Z ZM _ tree (@visitor_knn Z ZM) q a) with (@search_nearest Z ZM _ tree (@visitor_knn Z ZE) q a).
  rewrite EQa. reflexivity.
Qed.

Lemma int_radius r sort : exists l, @search_radius Z ZM alg tree q r sort = Ok l
  /\ filter_answer (npts sp) (fun i => (dist_to inject_Z em sp q i < inject_Z r)%Q) (dist_to inject_Z em sp q) (answers inject_Z l)
  /\ (sort = true -> StronglySorted Qle (map (fun x => inject_Z (n_distance x)) l)).
Proof.
  destruct (exact_twin _ _ _ _ _ HT) as (tw & HE & _ & _ & EQ). destruct (int_usable q HQ) as [U _].
  destruct (@top_radius Z ZE inject_Z E_laws em sp alg SL it fuel stop bnds ru tw q HE U r sort) as (l & R & X).
  exists l. split; [|exact X]. rewrite <- R. unfold search_radius.
  change (@visitor_radius Z ZM r) with (@visitor_radius Z ZE r).
  rewrite (EQ q HQ). reflexivity.
Qed.

(** Custom visitors: as with exact arithmetic. *)
Lemma int_visitor : exists twin,
  @kd_tree_make Z ZE alg it (@metric_of Z ZE em) fuel sp stop bnds ru = Ok twin
  /\ forall V (vis : visitor Z V) v0, @search_nearest Z ZM V tree vis q v0 = @search_nearest Z ZE V twin vis q v0.
Proof.
  destruct (exact_twin _ _ _ _ _ HT) as (tw & HE & _ & _ & EQ). exists tw. split; auto.
Qed.
End Exact.

(** * Facts that hold for all integer types *)
Section Any.
Variables (lo hi : Z) (ovf : Z -> Z).
Hypotheses (Hlo : (lo <= 0)%Z) (Hhi : (0 <= hi)%Z).
Local Notation ZM := (Int_scalar lo hi ovf).

Lemma int_ord : ord_laws ZM (int_value lo hi).
Proof.
  constructor; cbn [s_ltb s_leb s_max s_lowest Int_scalar]; unfold int_value; intros.
  - apply Z.ltb_antisym.
  - rewrite !Z.leb_le. lia.
  - rewrite !Z.leb_le in *. lia.
  - lia.
  - lia.
Qed.

Lemma int_ord_true : ord_laws ZM (fun _ => True).
Proof.
  clear. constructor; cbn [s_ltb s_leb s_max s_lowest Int_scalar]; intros; auto.
  - apply Z.ltb_antisym.
  - rewrite !Z.leb_le. lia.
  - rewrite !Z.leb_le in *. lia.
Qed.

Lemma half_add d x : int_value lo hi x -> @s_add Z ZM (@s_mul Z ZM d (@s_half Z ZM)) x = x.
Proof.
  intros Hx. cbn [s_add s_mul s_half Int_scalar]. unfold int_value in Hx. rewrite Z.mul_0_r.
  rewrite (fit_in lo hi ovf 0) by lia. rewrite Z.add_0_l. apply fit_in. exact Hx.
Qed.

Lemma int_mid_ok : mid_ok ZM (int_value lo hi).
Proof. intros x y Hx Hy. rewrite half_add; auto. Qed.

Variables (sp : space Z) (WF : wf_space sp) (AC : all_coords (int_value lo hi) sp).
Variables (alg : std_algos) (SL : std_laws alg).

Lemma int_box (m : metric Z) it fuel stop bnds ru tree mn mx :
  @kd_tree_make Z ZM alg it m fuel sp stop bnds ru = Ok tree ->
  bounds_coords (int_value lo hi) sp bnds -> @bounds_enclose Z ZM sp bnds ->
  length mn = sp_sdim sp -> length mx = sp_sdim sp ->
  Forall (int_value lo hi) mn -> Forall (int_value lo hi) mx -> m_cat m = Euclidean ->
  exists ans, @search_box Z ZM tree mn mx = Ok ans
    /\ index_answer (length (sp_pts sp)) (fun i => @inside Z ZM mn mx (nth i (sp_pts sp) [])) ans.
Proof.
  intros HT HB HE L1 L2 F1 F2 HC.
  apply (@search_box_euclidean Z ZM _ int_ord sp WF AC alg SL m it fuel stop bnds ru tree mn mx); auto.
  intros _. exact int_mid_ok.
Qed.

(** The midpoint rule never separates integer points. *)
Lemma int_midpoint_node c it m fuel : forall depth off seg bx y,
  box_wf (sp_sdim sp) bx -> ok_box (S := ZM) (int_value lo hi) (sp_sdim sp) bx -> holds (S := ZM) sp bx seg ->
  (it_cast it m < Z.of_nat (length seg))%Z ->
  @create_node Z ZM c alg midpoint_max_side it (max_leaf_size m) sp fuel depth off seg bx <> Ok y.
Proof.
  induction fuel as [|fuel IH]; intros depth off seg bx y W O HB HL H; [discriminate|].
  cbn [create_node is_leaf] in H.
  destruct (Z.leb_spec (Z.of_nat (length seg)) (it_cast it m)); [lia|].
  cbn [splitter] in H. okbind H. destruct a as [[[l r] d] w].
  unfold split_midpoint in E. okbind E. destruct a as [d' delta].
  pose proof (split_side_facts sp seg bx d' delta W E0) as (Hd & _ & _).
  destruct (O d' Hd) as [O1 O2].
  rewrite half_add in E by exact O1.
  destruct (std_partition _ _ _) as [a b] eqn:Ep. injection E as <- <- <- <-.
  apply (partition_facts alg SL) in Ep as (P & A & _).
  assert (a = []) as ->.
  { destruct a as [|x a]; [reflexivity|exfalso].
    specialize (A x (or_introl eq_refl)).
    assert (Ix : In x seg) by (eapply Permutation_in; [exact P|left; reflexivity]).
    destruct (HB x Ix d' Hd) as [L _]. unfold coord in A. cbn [s_ltb s_leb Int_scalar] in *. lia. }
  cbn [app] in P. okbind H. destruct a as [[nl sl] lb]. okbind H. destruct a as [[nr sr] rb].
  eapply (IH _ _ b); [| | | |exact E1].
  - apply box_set_min_wf; auto.
  - apply box_set_min_ok; auto.
  - intros i Hi d2 Hd2. assert (Ii : In i seg) by (eapply Permutation_in; eauto).
    destruct (HB i Ii d2 Hd2) as [L1 L2]. cbn [box_set_min box_min box_max]. split; [|exact L2].
    destruct (Nat.eq_dec d' d2) as [->|Nd].
    + rewrite get_set_same; [exact L1|]. destruct W as [W _]. rewrite W. exact Hd2.
    + rewrite get_set_other; auto.
  - rewrite (Permutation_length P). lia.
Qed.

Lemma int_midpoint_never c it m fuel bnds t : index_type_ok it -> (0 < m <= it_max it)%Z ->
  bounds_coords (int_value lo hi) sp bnds -> @bounds_enclose Z ZM sp bnds ->
  (m < Z.of_nat (npts sp))%Z ->
  @build Z ZM c alg it fuel sp (max_leaf_size m) bnds midpoint_max_side <> Ok t.
Proof.
  intros Hi Hm HB HE Hn H. apply build_inv in H as (_ & _ & bx & H & _).
  eapply int_midpoint_node in H; auto.
  - apply box_from_bounds_wf.
  - apply (box_from_bounds_ok (S := ZM) (int_value lo hi) int_ord sp WF AC); auto.
  - apply (box_from_bounds_holds (S := ZM) (int_value lo hi) int_ord sp WF AC); auto. apply seq_in_space.
  - rewrite it_cast_fits by (auto; lia). rewrite seq_length. exact Hn.
Qed.
End Any.

(** * Signed types without overflow *)
Section Signed.
Variables (lo hi : Z) (ovf : Z -> Z) (B : Z).
Hypotheses (HB : (0 <= B)%Z) (Hlo : (lo < - (2 * B))%Z) (Hlo0 : (lo < 0)%Z) (Hhi : (2 * B <= hi)%Z) (Hhi1 : (1 <= hi)%Z).
Local Notation ZM := (Int_scalar lo hi ovf).

Lemma int_range : range_laws ZM (int_within B).
Proof.
  unfold int_within. constructor; cbn [s_sub s_add s_mul s_div s_half s_two s_ltb s_max s_lowest Int_scalar]; intros x.
  - intros y Hx Hy. rewrite fit_in by lia. apply Z.ltb_lt. lia.
  - intros y Hx Hy. rewrite Z.mul_0_r, (fit_in lo hi ovf 0), Z.add_0_l by lia. rewrite fit_in by lia. lia.
  - intros y Hx Hy. rewrite (fit_in lo hi ovf (y - x)) by lia. pose proof (quot2_between (y - x)%Z).
    rewrite (fit_in lo hi ovf ((y - x) ÷ 2)) by lia.
    rewrite fit_in by lia. lia.
  - intros Hx. left. apply Z.ltb_lt. lia.
  - intros Hx. left. apply Z.ltb_lt. lia.
Qed.

Variables (sp : space Z) (WF : wf_space sp) (AC : all_coords (int_within B) sp).
Variables (alg : std_algos) (SL : std_laws alg).

Lemma int_build c it stop bnds ru : bounds_coords (int_within B) sp bnds ->
  ru <> midpoint_max_side -> index_type_ok it -> stop_fits it stop ->
  sp_pts sp <> [] -> (Z.of_nat (npts sp) <= it_max it)%Z ->
  exists t, forall fuel, npts sp <= fuel -> @build Z ZM c alg it fuel sp stop bnds ru = Ok t.
Proof.
  intros. apply (@build_total_any Z ZM (fun _ => True)) with (good := int_within B); auto using int_range.
  - apply int_ord_true.
  - apply all_coords_true.
Qed.

Lemma int_midpoint_diverges c it m fuel bnds : index_type_ok it -> (0 < m <= it_max it)%Z ->
  bounds_coords (int_within B) sp bnds -> @bounds_enclose Z ZM sp bnds ->
  (m < Z.of_nat (npts sp) <= it_max it)%Z ->
  @build Z ZM c alg it fuel sp (max_leaf_size m) bnds midpoint_max_side = OutOfFuel.
Proof.
  intros Hi Hm HBn HE Hn.
  assert (IMP : forall x, int_within B x -> int_value lo hi x) by (unfold int_within, int_value; intros; lia).
  assert (AC' : all_coords (int_value lo hi) sp).
  { unfold all_coords in *. eapply Forall_impl; [|exact AC]. intros p Fp. eapply Forall_impl; [|exact Fp]. exact IMP. }
  assert (HBn' : bounds_coords (int_value lo hi) sp bnds).
  { destruct bnds; cbn in *; auto. destruct HBn as (? & ? & F1 & F2).
    repeat (split; auto); eapply Forall_impl; eauto. }
  destruct (@build Z ZM c alg it fuel sp (max_leaf_size m) bnds midpoint_max_side) as [t|w|] eqn:E; auto; exfalso.
  - eapply int_midpoint_never in E; eauto; lia.
  - revert E. apply (@midpoint_build_no_ub Z ZM (fun _ => True) (int_ord_true lo hi ovf) sp WF (all_coords_true sp) alg SL
      (int_within B) int_range AC); auto.
    + unfold npts in Hn. intros X. rewrite X in Hn. cbn in Hn. lia.
    + unfold npts in Hn. lia.
Qed.
End Signed.

(** * Unsigned types *)
Section Unsigned.
Variable (bits : Z).
Hypothesis Hbits : (1 <= bits)%Z.
Local Notation U := (Unsigned bits).
Local Notation top := (2 ^ bits - 1)%Z.

Lemma pow_bits : (2 <= 2 ^ bits)%Z.
Proof. change 2%Z with (2 ^ 1)%Z at 1. apply Z.pow_le_mono_r; lia. Qed.

Lemma unsigned_fit x : int_fit 0 top (fun x => x mod 2 ^ bits)%Z x = (x mod 2 ^ bits)%Z.
Proof.
  unfold int_fit. destruct (Z.leb_spec 0 x), (Z.leb_spec x top); cbn [andb]; try reflexivity.
  symmetry. apply Z.mod_small. lia.
Qed.

Variables (sp : space Z) (WF : wf_space sp) (AC : all_coords (int_value 0 top) sp).
Variables (alg : std_algos) (SL : std_laws alg).

(** Squared distances are computed modulo 2^bits. *)
Lemma unsigned_dist q p : m_dist (@metric_l2_squared Z U) q p = (sq_dist q p mod 2 ^ bits)%Z.
Proof.
  pose proof pow_bits as Hp. cbn [m_dist metric_l2_squared]. unfold sum_op.
  assert (G : forall l acc, fold_left (fun d '(a, b) => @s_add Z U d (@squared_r1_distance Z U a b)) l (acc mod 2 ^ bits)%Z
    = ((acc + fold_right (fun '(a, b) s => (a - b) * (a - b) + s) 0 l) mod 2 ^ bits)%Z).
  { induction l as [|[a b] l IH]; intros acc; cbn [fold_left fold_right].
    - rewrite Z.add_0_r. reflexivity.
    - unfold squared_r1_distance, squared. cbn [s_add s_mul s_sub Unsigned Int_scalar].
      rewrite !unsigned_fit. rewrite <- Z.mul_mod, <- Z.add_mod by lia.
      rewrite IH. f_equal. lia. }
  specialize (G (combine q p) 0%Z). rewrite Z.mod_0_l in G by lia.
  change (@s_zero Z U) with 0%Z. rewrite G. f_equal. rewrite Z.add_0_l. clear.
  revert p. induction q as [|a q IH]; intros [|b p]; cbn; auto. rewrite IH. reflexivity.
Qed.

(** A cell all of whose points coincide cannot be split. *)
Lemma unsigned_side_none b : (forall d, d < box_size b -> @get Z U (box_max b) d = @get Z U (box_min b) d) ->
  @box_max_side Z U b = (None, 0%Z).
Proof.
  pose proof pow_bits as Hp. intros H. unfold box_max_side. change (@s_lowest Z U) with 0%Z.
  assert (G : forall l, (forall d, In d l -> d < box_size b) ->
    fold_left (fun '(p_max_index, p_max_value) i =>
       let delta := @s_sub Z U (@get Z U (box_max b) i) (@get Z U (box_min b) i) in
       if @s_ltb Z U p_max_value delta then (Some i, delta) else (p_max_index, p_max_value)) l (@None nat, 0%Z)
    = (None, 0%Z)).
  { induction l as [|i l IH]; intros Hl; cbn [fold_left]; [reflexivity|]. cbv zeta.
    rewrite H by (apply Hl; left; reflexivity).
    cbn [s_sub s_ltb Unsigned Int_scalar]. rewrite unsigned_fit, Z.sub_diag, Z.mod_0_l by lia.
    cbn. apply IH. intros d Hd. apply Hl. right. exact Hd. }
  apply G. intros d Hd. apply in_seq in Hd. lia.
Qed.

Lemma fit_same n (b : box Z) p : box_wf n b -> (forall d, d < n -> @get Z U (box_min b) d = @get Z U p d
    /\ @get Z U (box_max b) d = @get Z U p d) ->
  forall d, d < n -> @get Z U (box_min (@box_fit Z U b p)) d = @get Z U p d
    /\ @get Z U (box_max (@box_fit Z U b p)) d = @get Z U p d.
Proof.
  intros W H d Hd. rewrite (get_fit_min n), (get_fit_max n) by auto.
  destruct (H d Hd) as [E1 E2]. rewrite E1, E2. destruct (s_ltb _ _); auto.
Qed.

Lemma coincide_box p pts : Forall (fun x => x = p) pts -> pts <> [] -> Forall (int_value 0 top) p -> length p = sp_sdim sp ->
  forall d, d < sp_sdim sp ->
    @get Z U (box_min (fold_left (@box_fit Z U) pts (@box_inverse_max Z U (sp_sdim sp)))) d = @get Z U p d
    /\ @get Z U (box_max (fold_left (@box_fit Z U) pts (@box_inverse_max Z U (sp_sdim sp)))) d = @get Z U p d.
Proof.
  intros F NE Fp Lp. destruct F as [|x pts -> F]; [congruence|]. cbn [fold_left].
  assert (B0 : forall d, d < sp_sdim sp ->
    @get Z U (box_min (@box_fit Z U (@box_inverse_max Z U (sp_sdim sp)) p)) d = @get Z U p d
    /\ @get Z U (box_max (@box_fit Z U (@box_inverse_max Z U (sp_sdim sp)) p)) d = @get Z U p d).
  { intros d Hd. pose proof (inverse_max_wf (S := U) (sp_sdim sp)) as W0.
    rewrite (get_fit_min (sp_sdim sp)), (get_fit_max (sp_sdim sp)) by auto.
    assert (V : int_value 0 top (@get Z U p d)).
    { rewrite Forall_forall in Fp. apply Fp. unfold get. apply nth_In. lia. }
    unfold int_value in V.
    replace (@get Z U (box_min (@box_inverse_max Z U (sp_sdim sp))) d) with top
      by (unfold get, box_inverse_max; cbn [box_min]; rewrite nth_tab by exact Hd; reflexivity).
    replace (@get Z U (box_max (@box_inverse_max Z U (sp_sdim sp))) d) with 0%Z
      by (unfold get, box_inverse_max; cbn [box_max]; rewrite nth_tab by exact Hd; reflexivity).
    cbn [s_ltb Unsigned Int_scalar]. split.
    - destruct (Z.ltb_spec (@get Z U p d) top); lia.
    - destruct (Z.ltb_spec 0%Z (@get Z U p d)); lia. }
  assert (W1 : box_wf (sp_sdim sp) (@box_fit Z U (@box_inverse_max Z U (sp_sdim sp)) p))
    by (apply box_fit_wf, inverse_max_wf).
  revert W1 B0. generalize (@box_fit Z U (@box_inverse_max Z U (sp_sdim sp)) p).
  induction F as [|x pts -> F IH]; intros b W1 B0; cbn [fold_left]; [exact B0|].
  apply IH; [congruence|apply box_fit_wf; auto|].
  apply fit_same; auto.
Qed.

(** More than m coincident points: split_dim stays uninitialised. *)
Lemma unsigned_coincide c it m fuel ru p : index_type_ok it -> (0 < m <= it_max it)%Z ->
  (forall x, In x (sp_pts sp) -> x = p) -> (m < Z.of_nat (npts sp) <= it_max it)%Z ->
  @build Z U c alg it (Datatypes.S fuel) sp (max_leaf_size m) bounds_from_space ru = Ub UbUninit.
Proof.
  intros Hi Hm HE Hn. unfold npts in Hn.
  assert (NE : sp_pts sp <> []) by (apply length_nonnil; lia).
  unfold build, sp_size. cbn [stop_assert].
  rewrite guard_true by (apply Z.ltb_lt; lia). cbn [bind].
  rewrite guard_true by (apply Nat.ltb_lt; lia). cbn [bind].
  rewrite guard_true by (apply Z.leb_le; lia). cbn [bind bounds_dim guard].
  cbn [create_node is_leaf box_from_bounds]. rewrite seq_length, it_cast_fits by (auto; lia).
  destruct (Z.leb_spec (Z.of_nat (length (sp_pts sp))) m); [lia|].
  assert (SS : @split_side Z U sp (seq 0 (length (sp_pts sp))) (@sp_bounding_box Z U sp) = Ub UbUninit).
  { unfold split_side. rewrite unsigned_side_none; [reflexivity|]. intros d Hd.
    assert (Hs : box_size (@sp_bounding_box Z U sp) = sp_sdim sp).
    { destruct (box_from_bounds_wf (S := U) sp bounds_from_space) as [Ws _]. exact Ws. }
    rewrite Hs in Hd. unfold sp_bounding_box.
    assert (Ip : In p (sp_pts sp)).
    { destruct (sp_pts sp) as [|x l] eqn:Ep; [congruence|]. left. apply HE. left. reflexivity. }
    destruct (coincide_box p (sp_pts sp)) with (d := d) as [-> ->]; auto.
    - apply Forall_forall. auto.
    - unfold all_coords in AC. rewrite Forall_forall in AC. auto.
    - destruct WF as [_ F]. rewrite Forall_forall in F. auto. }
  destruct ru; cbn [splitter]; [unfold split_median|unfold split_midpoint|unfold split_sliding];
    rewrite SS; reflexivity.
Qed.

(** Otherwise construction succeeds. *)
Lemma unsigned_side_some (b : box Z) n d : box_wf n b -> d < n ->
  ok_box (S := U) (int_value 0 top) n b ->
  (@get Z U (box_min b) d < @get Z U (box_max b) d)%Z ->
  exists d' v, @box_max_side Z U b = (Some d', v).
Proof.
  intros [W _] Hd O Hlt. unfold box_max_side. change (@s_lowest Z U) with 0%Z.
  set (f := fun '(p_max_index, p_max_value) i =>
       let delta := @s_sub Z U (@get Z U (box_max b) i) (@get Z U (box_min b) i) in
       if @s_ltb Z U p_max_value delta then (Some i, delta) else (p_max_index, p_max_value)).
  assert (HK : forall l i v, exists d' delta, fold_left f l (Some i, v) = (Some d', delta)).
  { induction l as [|j l IH]; intros i v; cbn [fold_left]; eauto.
    unfold f at 2. destruct (s_ltb v _); apply IH. }
  unfold box_size. rewrite W.
  assert (G : forall l, In d l -> exists d' v, fold_left f l (@None nat, 0%Z) = (Some d', v)).
  { induction l as [|i l IH]; intros [].
    - subst i. cbn [fold_left]. unfold f at 2. cbv zeta.
      assert (D : @s_sub Z U (@get Z U (box_max b) d) (@get Z U (box_min b) d)
                  = (@get Z U (box_max b) d - @get Z U (box_min b) d)%Z).
      { cbn [s_sub Unsigned Int_scalar]. destruct (O d Hd) as [O1 O2]. unfold int_value in *. apply fit_in. lia. }
      rewrite D. cbn [s_ltb Unsigned Int_scalar]. rewrite (proj2 (Z.ltb_lt _ _)) by lia. apply HK.
    - cbn [fold_left]. unfold f at 2. destruct (s_ltb _ _); [apply HK|apply IH; auto]. }
  apply G. apply in_seq. lia.
Qed.

Lemma unsigned_ord : ord_laws U (int_value 0 top).
Proof. pose proof pow_bits. apply int_ord; lia. Qed.

(** A cell that holds two different points has a side that is not zero. *)
Lemma unsigned_two seg (b : box Z) i j : box_wf (sp_sdim sp) b -> ok_box (S := U) (int_value 0 top) (sp_sdim sp) b ->
  holds (S := U) sp b seg -> Forall (fun i => in_space sp i = true) seg ->
  In i seg -> In j seg -> nth i (sp_pts sp) [] <> nth j (sp_pts sp) [] ->
  exists d' v, @box_max_side Z U b = (Some d', v).
Proof.
  intros W O HB F Ii Ij Ne.
  assert (Hp : forall i, In i seg -> length (nth i (sp_pts sp) []) = sp_sdim sp).
  { intros x Ix. rewrite Forall_forall in F. specialize (F x Ix). apply in_space_lt in F.
    destruct WF as [_ FL]. rewrite Forall_forall in FL. apply FL, nth_In. exact F. }
  assert (X : exists d, d < sp_sdim sp /\ nth d (nth i (sp_pts sp) []) 0%Z <> nth d (nth j (sp_pts sp) []) 0%Z).
  { pose proof (Hp i Ii) as L1. pose proof (Hp j Ij) as L2. clear - L1 L2 Ne.
    revert L1 L2 Ne. generalize (nth i (sp_pts sp) []) as x, (nth j (sp_pts sp) []) as y.
    generalize (sp_sdim sp) as n. induction n as [|n IH]; intros [|a x] [|c y]; cbn; intros L1 L2 Ne; try lia; try congruence.
    destruct (Z.eq_dec a c) as [->|Hac].
    - destruct (IH x y) as (d & Hd & E); try lia; [congruence|]. exists (Datatypes.S d). split; [lia|exact E].
    - exists 0. split; [lia|exact Hac]. }
  destruct X as (d & Hd & Hne).
  apply (unsigned_side_some b (sp_sdim sp) d); auto.
  destruct (HB i Ii d Hd) as [A1 A2], (HB j Ij d Hd) as [B1 B2].
  unfold sp_at, get in *. cbn [s_leb s_zero Unsigned Int_scalar] in *.
  apply Z.leb_le in A1, A2, B1, B2. lia.
Qed.

Lemma unsigned_mid x y : int_value 0 top x -> int_value 0 top y -> (x <= y)%Z ->
  int_value 0 top (@s_add Z U (@s_div Z U (@s_sub Z U y x) (@s_two Z U)) x).
Proof.
  unfold int_value. intros Hx Hy Hxy. cbn [s_add s_div s_sub s_two Unsigned Int_scalar].
  rewrite (fit_in _ _ _ (y - x)) by lia.
  assert (0 <= (y - x) ÷ 2 <= y - x)%Z.
  { rewrite Z.quot_div_nonneg by lia. split; [apply Z.div_pos; lia|apply Z.div_le_upper_bound; lia]. }
  rewrite (fit_in _ _ _ ((y - x) ÷ 2)) by lia. rewrite fit_in by lia. lia.
Qed.

Lemma unsigned_node c ru it stop : ru <> midpoint_max_side ->
  (forall depth, is_leaf it stop depth 1 = true) ->
  (forall depth seg, NoDup seg -> Forall (fun i => in_space sp i = true) seg -> is_leaf it stop depth (length seg) = false ->
     exists i j, In i seg /\ In j seg /\ nth i (sp_pts sp) [] <> nth j (sp_pts sp) []) ->
  forall fuel depth off seg bx, box_wf (sp_sdim sp) bx -> ok_box (S := U) (int_value 0 top) (sp_sdim sp) bx ->
  holds (S := U) sp bx seg -> Forall (fun i => in_space sp i = true) seg -> NoDup seg ->
  1 <= length seg <= fuel ->
  exists nd seg' bx', @create_node Z U c alg ru it stop sp fuel depth off seg bx = Ok (nd, seg', bx').
Proof.
  intros Hru H1 HD. pose proof unsigned_ord as OL.
  induction fuel as [|fuel IH]; intros depth off seg bx W O HB F ND HL; [lia|].
  cbn [create_node]. destruct (is_leaf it stop depth (length seg)) eqn:EL.
  - rewrite guard_true by (apply forallb_in_space; auto). cbn [bind]. eauto.
  - assert (H2 : 2 <= length seg).
    { destruct (Nat.eq_dec (length seg) 1) as [E1|]; [|lia]. rewrite E1, H1 in EL. discriminate. }
    destruct (HD depth seg ND F EL) as (i & j & Ii & Ij & Ne).
    destruct (unsigned_two seg bx i j W O HB F Ii Ij Ne) as (d0 & delta & EM).
    assert (ES : @split_side Z U sp seg bx = Ok (d0, delta)).
    { unfold split_side. rewrite EM.
      destruct (max_side_some bx _ d0 delta W EM) as [Hd _].
      rewrite guard_true; auto. apply andb_true_intro. split; [apply forallb_in_space; auto|].
      apply Nat.ltb_lt. exact Hd. }
    pose proof (split_side_facts sp seg bx d0 delta W ES) as (Hd0 & _ & Hdelta).
    assert (Hin : forall d x, d < sp_sdim sp -> in_space sp x = true -> int_value 0 top (@coord Z U sp d x)).
    { intros d x Hd Hx. apply (ok_coord (int_value 0 top) sp WF AC); auto. }
    assert (NT : forall h s, Forall (fun i => in_space sp i = true) s -> h < length s ->
      exists i, at_ (std_nth_element alg (@coord_lt Z U sp d0) h s) h = Ok i /\ in_space sp i = true).
    { intros h s Fs Hh. exact (nth_element_total (int_value 0 top) OL sp WF AC alg SL d0 h s Hd0 Fs Hh). }
    assert (ET : exists l r d v, @splitter Z U alg ru sp seg bx = Ok (l, r, d, v) /\ int_value 0 top v).
    { destruct ru; [| congruence |]; cbn [splitter].
      - unfold split_median. rewrite ES. cbn [bind].
        destruct (NT (length seg / 2) seg F) as (x & Ex & Hx); [apply Nat.div_lt; lia|].
        rewrite Ex. cbn [bind]. rewrite guard_true by auto. cbn [bind].
        do 4 eexists. split; [reflexivity|]. apply Hin; auto.
      - unfold split_sliding. rewrite ES. cbn [bind].
        destruct (std_partition _ _ _) as [l r] eqn:Ep.
        apply (partition_facts alg SL) in Ep as (P & _ & _).
        pose proof (Permutation_length P) as PL.
        assert (F' : Forall (fun i => in_space sp i = true) (l ++ r)) by (eapply Permutation_Forall'; [symmetry|]; eauto).
        destruct r as [|r0 r].
        + destruct (length (l ++ [])) as [|h] eqn:L; [lia|].
          destruct (NT h (l ++ []) F' ltac:(lia)) as (x & Ex & Hx).
          rewrite Ex. cbn [bind]. rewrite guard_true by auto. cbn [bind].
          do 4 eexists. split; [reflexivity|]. apply Hin; auto.
        + destruct l as [|l0 l].
          * destruct (NT 1 ([] ++ r0 :: r) F' ltac:(lia)) as (x & Ex & Hx).
            rewrite Ex. cbn [bind]. rewrite guard_true by auto. cbn [bind].
            do 4 eexists. split; [reflexivity|]. apply Hin; auto.
          * do 4 eexists. split; [reflexivity|]. rewrite Hdelta.
            destruct (O d0 Hd0) as [O1 O2].
            apply unsigned_mid; auto. destruct (HB i Ii d0 Hd0) as [X1 X2].
            cbn [s_leb Unsigned Int_scalar] in X1, X2. apply Z.leb_le in X1, X2. lia. }
    destruct ET as (l & r & d & v & E & Hv). rewrite E. cbn [bind].
    apply (splitter_facts (int_value 0 top) OL sp WF AC alg SL) in E; auto.
    pose proof (sf_perm _ _ _ _ _ _ _ _ _ E) as P. pose proof (sf_dim _ _ _ _ _ _ _ _ _ E) as Hd.
    pose proof (Permutation_length P) as PL. rewrite app_length in PL.
    destruct (sf_nonempty _ _ _ _ _ _ _ _ _ E Hru H2) as [NL NR].
    assert (1 <= length l) by (destruct l; simpl; [congruence|lia]).
    assert (1 <= length r) by (destruct r; simpl; [congruence|lia]).
    assert (F' : Forall (fun i => in_space sp i = true) (l ++ r)) by (eapply Permutation_Forall'; [symmetry|]; eauto).
    apply Forall_app in F' as [Fl Fr].
    assert (ND' : NoDup (l ++ r)) by (eapply Permutation_NoDup; [symmetry; exact P|exact ND]).
    assert (HBl : holds (S := U) sp (box_set_max bx d v) l).
    { intros x Hx d2 Hd2. assert (Ix : In x seg) by (eapply Permutation_in; [exact P|apply in_or_app; auto]).
      destruct (HB x Ix d2 Hd2) as [L1 L2]. cbn [box_set_max box_min box_max]. split; [exact L1|].
      destruct (Nat.eq_dec d d2) as [->|Nd].
      - rewrite get_set_same; [exact (sf_left _ _ _ _ _ _ _ _ _ E Hv x Hx)|]. destruct W as [_ W]. rewrite W. exact Hd2.
      - rewrite get_set_other; auto. }
    assert (HBr : holds (S := U) sp (box_set_min bx d v) r).
    { intros x Hx d2 Hd2. assert (Ix : In x seg) by (eapply Permutation_in; [exact P|apply in_or_app; auto]).
      destruct (HB x Ix d2 Hd2) as [L1 L2]. cbn [box_set_min box_min box_max]. split; [|exact L2].
      destruct (Nat.eq_dec d d2) as [->|Nd].
      - rewrite get_set_same; [exact (sf_right _ _ _ _ _ _ _ _ _ E Hv x Hx)|]. destruct W as [W _]. rewrite W. exact Hd2.
      - rewrite get_set_other; auto. }
    destruct (IH (depth + 1) off l (box_set_max bx d v)) as (nl & sl & lb & El); auto;
      [apply box_set_max_wf; auto | apply box_set_max_ok; auto | eapply NoDup_app_l; eauto | lia |].
    rewrite El. cbn [bind].
    destruct (IH (depth + 1) (off + length l) r (box_set_min bx d v)) as (nr & sr & rb & Er); auto;
      [apply box_set_min_wf; auto | apply box_set_min_ok; auto | eapply NoDup_app_r; eauto | lia |].
    rewrite Er. cbn [bind]. eauto.
Qed.

(** Enough distinct points: construction succeeds. *)
Lemma unsigned_build c it m bnds ru : ru <> midpoint_max_side -> index_type_ok it -> (0 < m <= it_max it)%Z ->
  at_most_coincide m sp ->
  bounds_coords (int_value 0 top) sp bnds -> @bounds_enclose Z U sp bnds ->
  sp_pts sp <> [] -> (Z.of_nat (npts sp) <= it_max it)%Z ->
  exists t, forall fuel, npts sp <= fuel -> @build Z U c alg it fuel sp (max_leaf_size m) bnds ru = Ok t.
Proof.
  intros Hru Hi Hm HD HB HE NE Hsz. unfold npts in *. pose proof unsigned_ord as OL.
  assert (0 < length (sp_pts sp)) by (destruct (sp_pts sp); simpl; [congruence|lia]).
  assert (BT : exists t, @build Z U c alg it (npts sp) sp (max_leaf_size m) bnds ru = Ok t).
  { destruct (unsigned_node c ru it (max_leaf_size m) Hru) with (fuel := npts sp) (depth := 0) (off := 0)
      (seg := seq 0 (length (sp_pts sp))) (bx := @box_from_bounds Z U sp bnds) as (nd & s & bx' & E).
    - apply stop_fits_leaf1; auto.
    - intros depth seg ND F EL. apply HD; auto.
      + intros i Ii. rewrite Forall_forall in F. apply in_space_lt. auto.
      + cbn [is_leaf] in EL. rewrite it_cast_fits in EL by (auto; lia). apply Z.leb_gt in EL. exact EL.
    - apply box_from_bounds_wf.
    - apply (box_from_bounds_ok (S := U) (int_value 0 top) OL sp WF AC); auto.
    - apply (box_from_bounds_holds (S := U) (int_value 0 top) OL sp WF AC); auto. apply seq_in_space.
    - apply seq_in_space.
    - apply seq_NoDup.
    - unfold npts. rewrite seq_length. lia.
    - unfold build, sp_size. cbn [stop_assert]. rewrite guard_true by (apply Z.ltb_lt; lia).
      cbn [bind]. rewrite guard_true by (apply Nat.ltb_lt; auto). cbn [bind].
      rewrite guard_true by (apply Z.leb_le; auto). cbn [bind].
      rewrite guard_true by (eapply bounds_coords_dim; eauto). cbn [bind]. rewrite E. cbn [bind]. eauto. }
  destruct BT as (t & E). exists t. intros fuel Hf. eapply build_fuel; eauto.
Qed.

End Unsigned.
