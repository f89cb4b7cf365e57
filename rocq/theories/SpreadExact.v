(** Depth of trees of exact numbers, by the spread of the points. *)
From Coq Require Import List ZArith QArith Qabs Qminmax Bool Arith Permutation Lia Lqa.
From Verif Require Import Base ModelBox ModelBuild ModelSearch Spec SpecShape SpecSpread Lemmas Instances
  BuildProofs BuildOrder BuildShape BuildThms ShapeThms ExtraThms CellThms SpreadThms.
Import ListNotations.
Local Open Scope nat_scope.

Definition pow2 (k : nat) : Q := inject_Z (2 ^ Z.of_nat k).
Lemma pow2_S k : (pow2 (S k) == 2 * pow2 k)%Q.
Proof.
  unfold pow2. rewrite Nat2Z.inj_succ, Z.pow_succ_r by lia. rewrite inject_Z_mult. reflexivity.
Qed.
Lemma pow2_0 : (pow2 0 == 1)%Q. Proof. reflexivity. Qed.
Lemma pow2_pos k : (0 < pow2 k)%Q.
Proof. induction k as [|k IH]; [reflexivity|]. rewrite pow2_S. lra. Qed.
Lemma pow2_big (x : Q) : exists k, (x < pow2 k)%Q.
Proof.
  assert (A : forall k, (inject_Z (Z.of_nat k) <= pow2 k)%Q).
  { induction k as [|k IH]; [apply Qlt_le_weak, pow2_pos|]. rewrite pow2_S.
    rewrite Nat2Z.inj_succ. unfold Z.succ. rewrite inject_Z_plus.
    assert (1 <= pow2 k)%Q. { unfold pow2. change 1%Q with (inject_Z 1). rewrite <- Zle_Qle. pose proof (Z.pow_pos_nonneg 2 (Z.of_nat k) ltac:(lia) ltac:(lia)). lia. }
    change (inject_Z 1) with 1%Q. lra. }
  exists (S (Z.to_nat (Z.abs (Qnum x)))). eapply Qlt_le_trans; [|apply A].
  destruct x as [a b]. cbn [Qnum]. rewrite Nat2Z.inj_succ, Z2Nat.id by lia.
  unfold Qlt. cbn [Qnum Qden inject_Z]. nia.
Qed.

Section Exact.
Context {T : Type} {S : Scalar T} (val : T -> Q) (EL : exact_laws S val) (FL : field_laws S val).
Variables (sp : space T) (WF : wf_space sp) (GOODS : all_coords (no_overflow val) sp).
Variables (alg : std_algos) (SL : std_laws alg).
Let n := sp_sdim sp.
Let OL := exact_ord val EL.
Let RL := exact_range val EL.

Lemma root_extent bnds d x : d < n -> sp_pts sp <> [] -> bounds_coords (no_overflow val) sp bnds ->
  extent_below val sp bnds d x ->
  (val (get (box_max (box_from_bounds sp bnds)) d) - val (get (box_min (box_from_bounds sp bnds)) d) < x)%Q.
Proof.
  intros Hd NE HC HX. destruct bnds as [|mn mx]; cbn [box_from_bounds extent_below bounds_coords] in *.
  - assert (REP : all_coords (representable val) sp).
    { eapply Forall_impl; [|exact GOODS]. intros p Hp. eapply Forall_impl; [|exact Hp]. intros a [A _]. exact A. }
    destruct (root_box_tight val EL sp WF REP NE d Hd) as [[_ (i & Hi & Ei)] [_ (j & Hj & Ej)]].
    unfold box_lo, box_hi, get in *. apply In_seq0 in Hi, Hj.
    assert (K : (val (nth d (nth j (sp_pts sp) []) s_zero) - val (nth d (nth i (sp_pts sp) []) s_zero) < x)%Q)
      by (apply HX; apply nth_In; auto).
    unfold coord_val in *. lra.
  - destruct HC as (L1 & L2 & F1 & F2).
    set (sp2 := Space n [mn; mx]).
    assert (WF2 : wf_space sp2) by (split; [apply WF|repeat constructor; auto]).
    assert (REP : all_coords (representable val) sp2).
    { repeat constructor; [eapply Forall_impl; [|exact F1]|eapply Forall_impl; [|exact F2]]; intros a [A _]; exact A. }
    destruct (root_box_tight val EL sp2 WF2 REP ltac:(discriminate) d Hd) as [[_ (i & Hi & Ei)] [_ (j & Hj & Ej)]].
    unfold sp_bounding_box, sp2, box_lo, box_hi, get in *. cbn [sp_pts sp_sdim fold_left npts length] in *.
    fold n. apply In_seq0 in Hi, Hj. unfold npts in *. cbn [length sp_pts] in *.
    apply Qabs_Qlt_condition in HX.
    unfold coord_val in *. cbn [sp_pts] in *.
    destruct i as [|[|]], j as [|[|]]; cbn [nth] in *; try lia; lra.
Qed.

Variables (c : category) (it : index_type) (m : Z) (bnds : start_bounds T).
Hypotheses (Hit : index_type_ok it) (Hm : (0 < m <= it_max it)%Z) (NE : sp_pts sp <> [])
  (Hn : (Z.of_nat (npts sp) <= it_max it)%Z) (HC : bounds_coords (no_overflow val) sp bnds)
  (HE : bounds_enclose sp bnds).

Lemma exact_spread ru (M : nat) (delta : Q) (ks : nat -> nat) : ru <> median_max_side ->
  (ru = midpoint_max_side -> M <= Z.to_nat m) ->
  at_most sp M (close val n delta) ->
  (forall d, d < n -> extent_below val sp bnds d (delta * pow2 (ks d))%Q) ->
  exists t, (forall fuel, sum_dims n ks + (M - Z.to_nat m) < fuel -> build c alg it fuel sp (max_leaf_size m) bnds ru = Ok t)
    /\ height (kd_root t) <= sum_dims n ks + (M - Z.to_nat m)
    /\ Permutation (kd_indices t) (seq 0 (npts sp)).
Proof.
  intros Hru HM CL EX.
  set (near := fun k a b => (val b - val a < delta * pow2 k)%Q).
  assert (Em : Z.of_nat (Z.to_nat m) = m) by (apply Z2Nat.id; lia).
  pose proof (fl_half _ _ FL) as FH. pose proof (fl_two _ _ FL) as FT.
  assert (ND2 : ~ (val s_two == 0)%Q) by (rewrite FT; discriminate).
  destruct (near_build (fun _ => True) OL sp WF (all_coords_true sp) alg SL (no_overflow val) RL GOODS near)
    with (c := c) (ru := ru) (it := it) (m := Z.to_nat m) (M := M)
      (fuel := Datatypes.S (sum_dims n ks + (M - Z.to_nat m))) (bnds := bnds) (ks := ks) as (t & E & Hh & P); auto.
  - unfold near. intros k a b c0 d _ _ _ _ A B. apply (leb_val val EL) in A, B. lra.
  - unfold near. intros k a b _ _ _ Nr. rewrite pow2_S in Nr.
    rewrite !(el_add _ _ EL), !(el_mul _ _ EL), !(el_sub _ _ EL), FH. lra.
  - unfold near. intros k a b _ _ _ Nr. rewrite pow2_S in Nr.
    rewrite !(el_add _ _ EL), !(fl_div _ _ FL), !(el_sub _ _ EL) by auto. rewrite FT. unfold Qdiv. change (/ 2)%Q with (1 # 2)%Q. lra.
  - unfold near. intros a b c0 d _ _ _ _ A B. apply (ltb_val_false val EL) in A. rewrite !(el_sub _ _ EL) in A. lra.
  - lia.
  - rewrite Em. apply it_cast_fits; auto. lia.
  - intros seg ND F HN. apply CL; auto.
    + intros i Hi. rewrite Forall_forall in F. apply (in_space_lt sp). apply F; auto.
    + intros i j Hi Hj d Hd. apply Qabs_Qlt_condition.
      pose proof (HN i j d Hi Hj Hd) as N1. pose proof (HN j i d Hj Hi Hd) as N2.
      unfold near, coord, sp_at, get in N1, N2. rewrite pow2_0 in N1, N2. lra.
  - eapply bounds_coords_dim; eauto.
  - intros d Hd. apply (root_extent bnds d _ Hd NE HC (EX d Hd)).
  - rewrite Em in E. exists t. split; [|auto].
    intros fuel Hf. rewrite (shape_recursion sp alg c it _ _ bnds ru t E fuel).
    destruct (Nat.ltb_spec (height (kd_root t)) fuel); [reflexivity|]. unfold sum_dims in Hf. fold n in Hh. lia.
Qed.

(** More than [m] points at one place: the midpoint rule never ends. *)
Lemma midpoint_group (g : list nat) fuel : forall depth off seg bx y,
  NoDup g -> (Z.to_nat m < length g) ->
  (forall i j d, In i g -> In j g -> d < n -> (val (coord sp d i) == val (coord sp d j))%Q) ->
  incl g seg -> box_wf n bx ->
  create_node c alg midpoint_max_side it (max_leaf_size m) sp fuel depth off seg bx <> Ok y.
Proof.
  induction fuel as [|fuel IH]; intros depth off seg bx y ND HL HG IN W H; [discriminate|].
  cbn [create_node is_leaf] in H. rewrite it_cast_fits in H by (auto; lia).
  assert (LG : length g <= length seg) by (apply NoDup_incl_length; auto).
  destruct (Z.leb_spec (Z.of_nat (length seg)) m); [lia|].
  cbn [splitter] in H. okbind H. destruct a as [[[l r] d] w].
  unfold split_midpoint in E. okbind E. destruct a as [d' delta].
  destruct (std_partition _ _ _) as [a b] eqn:Ep. injection E as <- <- <- <-.
  apply split_side_facts in E0 as (Hd & _); auto. fold n in Hd.
  apply (partition_facts alg SL) in Ep as (P & A & B).
  okbind H. destruct a0 as [[nl sl] lb]. okbind H. destruct a0 as [[nr sr] rb].
  assert (IN' : incl g (a ++ b)).
  { intros i Hi. eapply Permutation_in; [symmetry; exact P|]. auto. }
  destruct g as [|i0 g0] eqn:Eg; [cbn in HL; lia|]. rewrite <- Eg in *.
  assert (I0 : In i0 g) by (rewrite Eg; left; auto).
  assert (SAME : forall i, In i g -> s_ltb (coord sp d' i) (s_add (s_mul delta s_half) (get (box_min bx) d'))
    = s_ltb (coord sp d' i0) (s_add (s_mul delta s_half) (get (box_min bx) d'))).
  { intros i Hi. pose proof (HG i i0 d' Hi I0 Hd) as Q.
    destruct (s_ltb (coord sp d' i) _) eqn:X, (s_ltb (coord sp d' i0) _) eqn:Y; auto; exfalso.
    - apply (ltb_val val EL) in X. apply (ltb_val_false val EL) in Y. lra.
    - apply (ltb_val val EL) in Y. apply (ltb_val_false val EL) in X. lra. }
  destruct (s_ltb (coord sp d' i0) (s_add (s_mul delta s_half) (get (box_min bx) d'))) eqn:X.
  - revert E. apply IH; auto; [|apply box_set_max_wf; auto].
    intros i Hi. specialize (IN' i Hi). apply in_app_iff in IN' as [|Ib]; auto.
    specialize (B i Ib). specialize (SAME i Hi). congruence.
  - match goal with X : create_node _ _ _ _ _ _ _ _ _ b _ = _ |- _ => revert X end. apply IH; auto; [|apply box_set_min_wf; auto].
    intros i Hi. specialize (IN' i Hi). apply in_app_iff in IN' as [Ia|]; auto.
    specialize (A i Ia). specialize (SAME i Hi). congruence.
Qed.

(** Different values are some distance apart. *)
Lemma apart (l : list Q) : exists delta, (0 < delta)%Q /\ forall x y, In x l -> In y l -> ~ (x == y)%Q -> (delta <= Qabs (x - y))%Q.
Proof.
  assert (A : forall (x : Q) l, exists delta, (0 < delta)%Q /\ forall y, In y l -> ~ (x == y)%Q -> (delta <= Qabs (x - y))%Q).
  { intros x. induction l0 as [|y l0 (de & P & IH)].
    - exists 1%Q. split; [lra|intros y []].
    - destruct (Qeq_dec x y) as [E|E].
      + exists de. split; auto. intros z [<-|Hz] NZ; [contradiction|auto].
      + exists (Qmin de (Qabs (x - y))). assert (0 < Qabs (x - y))%Q.
        { destruct (Qlt_le_dec (x - y) 0); [rewrite Qabs_neg by lra; lra|].
          rewrite Qabs_pos by lra. apply Qle_lteq in q as [|Z]; [lra|exfalso; apply E; lra]. }
        split; [apply Q.min_glb_lt; auto|]. intros z [<-|Hz] NZ.
        * apply Q.le_min_r.
        * eapply Qle_trans; [apply Q.le_min_l|auto]. }
  induction l as [|x l (d1 & P1 & IH)].
  - exists 1%Q. split; [lra|intros x y []].
  - destruct (A x l) as (d2 & P2 & H2). exists (Qmin d1 d2). split; [apply Q.min_glb_lt; auto|].
    intros y z [<-|Hy] [<-|Hz] NZ.
    + exfalso. apply NZ. reflexivity.
    + eapply Qle_trans; [apply Q.le_min_r|auto].
    + rewrite Qabs_Qminus. eapply Qle_trans; [apply Q.le_min_r|]. apply H2; auto. intros X. apply NZ. rewrite X. reflexivity.
    + eapply Qle_trans; [apply Q.le_min_l|auto].
Qed.

Lemma midpoint_iff :
  (exists fuel t, build c alg it fuel sp (max_leaf_size m) bnds midpoint_max_side = Ok t)
  <-> at_most sp (Z.to_nat m) (same_place val n).
Proof.
  split.
  - intros (fuel & t & E) g ND HI HG.
    destruct (Nat.le_gt_cases (length g) (Z.to_nat m)) as [|HL]; auto. exfalso.
    apply build_inv in E as (_ & _ & bx' & E & _). revert E.
    apply (midpoint_group g); auto.
    + intros i j d Hi Hj Hd. apply (HG i j Hi Hj d Hd).
    + intros i Hi. apply In_seq0. apply HI; auto.
    + apply box_from_bounds_wf.
  - intros CO.
    destruct (apart (map val (concat (sp_pts sp)))) as (delta & DP & AP).
    assert (CI : forall i d, i < npts sp -> d < n -> In (val (nth d (nth i (sp_pts sp) []) s_zero)) (map val (concat (sp_pts sp)))).
    { intros i d Hi Hd. apply in_map, in_concat. exists (nth i (sp_pts sp) []). split; [apply nth_In; auto|].
      apply nth_In. destruct WF as [_ W]. rewrite Forall_forall in W. rewrite W; [auto|apply nth_In; auto]. }
    assert (BIG : exists k, forall d, d < n -> extent_below val sp bnds d (delta * pow2 k)%Q).
    { assert (XX : exists x, forall d, d < n -> extent_below val sp bnds d x).
      { destruct bnds as [|mn mx]; cbn [extent_below].
        - assert (MX : forall l : list Q, exists z, forall x, In x l -> (Qabs x <= z)%Q).
          { induction l as [|y l (z & Hz)]; [exists 0%Q; intros ? []|].
            exists (Qmax z (Qabs y)). intros x [<-|Hx]; [apply Q.le_max_r|].
            eapply Qle_trans; [apply Hz; auto|apply Q.le_max_l]. }
          destruct (MX (map val (concat (sp_pts sp)))) as (z & Hz).
          exists (2 * z + 1)%Q. intros d Hd p q Hp Hq.
          assert (Ip : forall p0, In p0 (sp_pts sp) -> In (val (nth d p0 s_zero)) (map val (concat (sp_pts sp)))).
          { intros p0 Hp0. apply in_map, in_concat. exists p0. split; auto. apply nth_In.
            destruct WF as [_ W]. rewrite Forall_forall in W. rewrite W; auto. }
          pose proof (Hz _ (Ip p Hp)) as Z1. pose proof (Hz _ (Ip q Hq)) as Z2.
          apply Qabs_Qle_condition in Z1, Z2. lra.
        - assert (MX : forall k, exists z, forall d, d < k -> (Qabs (val (nth d mx s_zero) - val (nth d mn s_zero)) < z)%Q).
          { induction k as [|k (z & Hz)]; [exists 0%Q; intros; lia|].
            exists (Qmax z (Qabs (val (nth k mx s_zero) - val (nth k mn s_zero)) + 1))%Q. intros d Hd.
            destruct (Nat.eq_dec d k) as [->|].
            - eapply Qlt_le_trans; [|apply Q.le_max_r]. lra.
            - eapply Qlt_le_trans; [apply Hz; lia|apply Q.le_max_l]. }
          destruct (MX n) as (z & Hz). exists z. auto. }
      destruct XX as (x & Hx). destruct (pow2_big (x / delta)) as (k & Hk). exists k. intros d Hd.
      specialize (Hx d Hd).
      assert (XL : (x < delta * pow2 k)%Q).
      { apply (Qmult_lt_l _ _ delta) in Hk; auto. rewrite Qmult_div_r in Hk by lra. exact Hk. }
      destruct bnds as [|mn mx]; cbn [extent_below] in *; [|lra]. intros p q Hp Hq. specialize (Hx p q Hp Hq). lra. }
    destruct BIG as (k & Hk).
    destruct (exact_spread midpoint_max_side (Z.to_nat m) delta (fun _ => k)) as (t & E & _ & _); auto.
    + discriminate.
    + intros g ND HI HG. apply CO; auto. intros i j Hi Hj d Hd. specialize (HG i j Hi Hj d Hd).
      destruct (Qeq_dec (val (nth d (nth i (sp_pts sp) []) s_zero)) (val (nth d (nth j (sp_pts sp) []) s_zero))) as [|NQ]; auto.
      exfalso. pose proof (AP _ _ (CI i d (HI i Hi) Hd) (CI j d (HI j Hj) Hd) NQ). lra.
    + eexists _, t. apply E. apply Nat.lt_succ_diag_r.
Qed.
End Exact.

Section Corollaries.
Context {T : Type} {S : Scalar T} (val : T -> Q) (EL : exact_laws S val) (FL : field_laws S val).
Variables (sp : space T) (WF : wf_space sp) (GOODS : all_coords (no_overflow val) sp).
Variables (alg : std_algos) (SL : std_laws alg).
Variables (c : category) (it : index_type) (m : Z) (bnds : start_bounds T).
Hypotheses (Hit : index_type_ok it) (Hm : (0 < m <= it_max it)%Z) (NE : sp_pts sp <> [])
  (Hn : (Z.of_nat (npts sp) <= it_max it)%Z) (HC : bounds_coords (no_overflow val) sp bnds)
  (HE : bounds_enclose sp bnds).

Lemma c144_midpoint_depth (delta : Q) (ks : nat -> nat) : at_most sp (Z.to_nat m) (close val (sp_sdim sp) delta) ->
  (forall d, d < sp_sdim sp -> extent_below val sp bnds d (delta * inject_Z (2 ^ Z.of_nat (ks d)))%Q) ->
  exists t, (forall fuel, sum_dims (sp_sdim sp) ks < fuel ->
      build c alg it fuel sp (max_leaf_size m) bnds midpoint_max_side = Ok t)
    /\ height (kd_root t) <= sum_dims (sp_sdim sp) ks
    /\ Permutation (kd_indices t) (seq 0 (npts sp)).
Proof.
  intros A B.
  destruct (exact_spread val EL FL sp WF GOODS alg SL c it m bnds Hit Hm NE Hn HC HE midpoint_max_side (Z.to_nat m) delta ks
    ltac:(discriminate) ltac:(auto) A B) as (t & E & H & P).
  rewrite Nat.sub_diag, Nat.add_0_r in E, H. exists t. auto.
Qed.

Lemma c144_sliding_depth (M : nat) (delta : Q) (ks : nat -> nat) : at_most sp M (close val (sp_sdim sp) delta) ->
  (forall d, d < sp_sdim sp -> extent_below val sp bnds d (delta * inject_Z (2 ^ Z.of_nat (ks d)))%Q) ->
  exists t, (forall fuel, sum_dims (sp_sdim sp) ks + (M - Z.to_nat m) < fuel ->
      build c alg it fuel sp (max_leaf_size m) bnds sliding_midpoint_max_side = Ok t)
    /\ height (kd_root t) <= sum_dims (sp_sdim sp) ks + (M - Z.to_nat m)
    /\ Permutation (kd_indices t) (seq 0 (npts sp)).
Proof.
  intros A B.
  exact (exact_spread val EL FL sp WF GOODS alg SL c it m bnds Hit Hm NE Hn HC HE sliding_midpoint_max_side M delta ks
    ltac:(discriminate) ltac:(discriminate) A B).
Qed.
End Corollaries.
