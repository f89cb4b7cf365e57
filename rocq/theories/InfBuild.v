(** Construction of trees when the coordinates are sane in one dimension only,
    and what the boxes of the branches are when coordinates may lie beyond
    [s_lowest] and [s_max]. *)
From Coq Require Import List ZArith QArith Bool Arith Permutation Lia.
From Verif Require Import Base ModelBox ModelBuild ModelSearch Spec Lemmas
  BuildProofs BuildShape BuildThms ExtraThms.
Import ListNotations.
Local Open Scope nat_scope.

Section One.
Context {T : Type} {S : Scalar T} (ok : T -> Prop) (OL : ord_laws S ok).
Variables (good : T -> Prop) (RL : range_laws S good).
Variables (sp : space T) (WF : wf_space sp) (OKS : all_coords ok sp).
Let n := sp_sdim sp.
Variables (alg : std_algos) (SL : std_laws alg).
Variables (c : category) (ru : rule) (it : index_type) (stop : stop_condition).
Local Notation cn := (create_node c alg ru it stop sp).
Local Notation in_sp := (fun i => in_space sp i = true).
Variables (k0 : nat) (K0 : k0 < n).
Hypothesis GOODK : forall i, in_space sp i = true -> good (coord sp k0 i).

(** The box is sane in dimension [k0]. *)
Definition good_at (b : box T) : Prop := good (get (box_min b) k0) /\ good (get (box_max b) k0).

Lemma max_side_found1 b : box_wf n b -> good_at b -> exists d delta, box_max_side b = (Some d, delta).
Proof.
  intros [W _] [G1 G2]. unfold box_max_side.
  set (step := fun '(p_max_index, p_max_value) i =>
       let delta := s_sub (get (box_max b) i) (get (box_min b) i) in
       if s_ltb p_max_value delta then (Some i, delta) else (p_max_index, p_max_value)).
  assert (HK : forall l i v, exists d delta, fold_left step l (Some i, v) = (Some d, delta)).
  { induction l as [|j l IH]; simpl; intros i v; eauto. destruct (s_ltb v _); apply IH. }
  assert (HN : forall l, In k0 l -> exists d delta, fold_left step l (None, s_lowest) = (Some d, delta)).
  { induction l as [|j l IH]; intros Hin; [destruct Hin|]. cbn [fold_left].
    unfold step at 2. cbv zeta. destruct (s_ltb s_lowest _) eqn:E; [apply HK|].
    destruct Hin as [->|Hin]; [|auto]. rewrite (rl_side _ _ RL) in E by auto. discriminate. }
  apply HN. apply In_seq0. unfold box_size. rewrite W. exact K0.
Qed.

Lemma split_side_total1 seg b : box_wf n b -> good_at b -> Forall in_sp seg ->
  exists d delta, split_side sp seg b = Ok (d, delta).
Proof.
  intros W G F. destruct (max_side_found1 b W G) as (d & delta & E).
  unfold split_side. rewrite E. exists d, delta.
  destruct (max_side_some b n d delta W E) as [Hd _].
  rewrite guard_true; auto. apply andb_true_intro. split; [apply forallb_in_space; auto|].
  apply Nat.ltb_lt. exact Hd.
Qed.

Lemma splitter_total1 seg b : box_wf n b -> good_at b -> Forall in_sp seg ->
  ru <> midpoint_max_side -> 2 <= length seg ->
  exists l r d v, splitter alg ru sp seg b = Ok (l, r, d, v) /\ (d = k0 -> good v).
Proof.
  intros W G F NM H2. destruct (split_side_total1 seg b W G F) as (d & delta & E).
  pose proof (split_side_facts sp seg b d delta W E) as (Hd & _ & Hdelta). fold n in Hd.
  pose proof (nth_element_total ok OL sp WF OKS alg SL) as NT. cbn zeta in NT.
  destruct ru; simpl; [| congruence |].
  - unfold split_median. rewrite E. cbn [bind].
    destruct (NT d (length seg / 2) seg Hd F) as (i & Ei & Hi).
    { apply Nat.div_lt; lia. }
    rewrite Ei. cbn [bind]. rewrite guard_true by auto. cbn [bind].
    do 4 eexists. split; [reflexivity|]. intros ->. auto.
  - unfold split_sliding. rewrite E. cbn [bind].
    destruct (std_partition _ _ _) as [l r] eqn:Ep.
    apply (partition_facts alg SL) in Ep as (P & _ & _).
    pose proof (Permutation_length P) as PL.
    assert (F' : Forall in_sp (l ++ r)) by (eapply Permutation_Forall'; [symmetry|]; eauto).
    destruct r as [|r0 r].
    + destruct (length (l ++ [])) as [|h] eqn:L; [lia|].
      destruct (NT d h (l ++ []) Hd F' ltac:(lia)) as (i & Ei & Hi).
      rewrite Ei. cbn [bind]. rewrite guard_true by auto. cbn [bind].
      do 4 eexists. split; [reflexivity|]. intros ->. auto.
    + destruct l as [|l0 l].
      * destruct (NT d 1 ([] ++ r0 :: r) Hd F' ltac:(lia)) as (i & Ei & Hi).
        rewrite Ei. cbn [bind]. rewrite guard_true by auto. cbn [bind].
        do 4 eexists. split; [reflexivity|]. intros ->. auto.
      * do 4 eexists. split; [reflexivity|]. intros ->. destruct G. rewrite Hdelta. apply (rl_two _ _ RL); auto.
Qed.

Lemma good_at_max b d v : box_wf n b -> good_at b -> (d = k0 -> good v) -> good_at (box_set_max b d v).
Proof.
  intros [_ W] [A B] Hv. split; auto. cbn [box_set_max box_max].
  destruct (Nat.eq_dec d k0) as [->|Hne]; [rewrite get_set_same by lia; auto|rewrite get_set_other by auto; auto].
Qed.
Lemma good_at_min b d v : box_wf n b -> good_at b -> (d = k0 -> good v) -> good_at (box_set_min b d v).
Proof.
  intros [W _] [A B] Hv. split; auto. cbn [box_set_min box_min].
  destruct (Nat.eq_dec d k0) as [->|Hne]; [rewrite get_set_same by lia; auto|rewrite get_set_other by auto; auto].
Qed.

Lemma create_node_total1 : ru <> midpoint_max_side ->
  (forall depth, is_leaf it stop depth 1 = true) ->
  forall fuel depth off seg bx, box_wf n bx -> good_at bx -> Forall in_sp seg ->
  1 <= length seg <= fuel ->
  exists nd seg' bx', cn fuel depth off seg bx = Ok (nd, seg', bx').
Proof.
  intros Hru H1. induction fuel as [|fuel IH]; intros depth off seg bx W G F HL; [lia|].
  cbn [create_node]. destruct (is_leaf it stop depth (length seg)) eqn:EL.
  - rewrite guard_true by (apply forallb_in_space; auto). cbn [bind]. eauto.
  - assert (H2 : 2 <= length seg).
    { destruct (Nat.eq_dec (length seg) 1) as [E1|]; [|lia]. rewrite E1, H1 in EL. discriminate. }
    destruct (splitter_total1 seg bx W G F Hru H2) as (l & r & d & v & E & Gv).
    rewrite E. cbn [bind]. apply (splitter_facts ok OL sp WF OKS alg SL) in E; auto.
    pose proof (sf_perm _ _ _ _ _ _ _ _ _ E) as P.
    pose proof (Permutation_length P) as PL. rewrite app_length in PL.
    destruct (sf_nonempty _ _ _ _ _ _ _ _ _ E Hru H2) as [NL NR].
    assert (1 <= length l) by (destruct l; simpl; [congruence|lia]).
    assert (1 <= length r) by (destruct r; simpl; [congruence|lia]).
    assert (F' : Forall in_sp (l ++ r)) by (eapply Permutation_Forall'; [symmetry|]; eauto).
    apply Forall_app in F' as [Fl Fr].
    destruct (IH (depth + 1) off l (box_set_max bx d v)) as (nl & sl & lb & El); auto;
      [apply box_set_max_wf; auto | apply good_at_max; auto | lia |].
    rewrite El. cbn [bind].
    destruct (IH (depth + 1) (off + length l) r (box_set_min bx d v)) as (nr & sr & rb & Er); auto;
      [apply box_set_min_wf; auto | apply good_at_min; auto | lia |].
    rewrite Er. cbn [bind]. eauto.
Qed.

(** The root box. *)
Lemma fold_fit_good1 pts : forall b : box T, box_wf n b ->
  Forall (fun p => good (get p k0)) pts ->
  (good (get (box_min b) k0) \/ get (box_min b) k0 = s_max) ->
  (good (get (box_max b) k0) \/ get (box_max b) k0 = s_lowest) ->
  pts <> [] -> good_at (fold_left box_fit pts b).
Proof.
  intros b W F A B NE. revert b W F A B. destruct pts as [|p pts]; [congruence|]. clear NE.
  intros b W F A B. inversion F as [|? ? Fp Fr]; subst. cbn [fold_left].
  assert (W' := box_fit_wf _ b p W).
  assert (G : good_at (box_fit b p)).
  { split.
    - rewrite (get_fit_min n) by auto.
      destruct (s_ltb _ _) eqn:E; auto. destruct A as [|A]; auto. rewrite A in *.
      destruct (rl_max _ _ RL _ Fp); auto; congruence.
    - rewrite (get_fit_max n) by auto.
      destruct (s_ltb _ _) eqn:E; auto. destruct B as [|B]; auto. rewrite B in *.
      destruct (rl_lowest _ _ RL _ Fp); auto; congruence. }
  revert W' G Fr. generalize (box_fit b p). clear - K0. induction pts as [|p pts IH]; cbn [fold_left]; intros b W G F; auto.
  inversion F; subst. apply IH; auto; [apply box_fit_wf; auto|].
  destruct G as [G1 G2]. split.
  - rewrite (get_fit_min n) by auto. destruct (s_ltb _ _); auto.
  - rewrite (get_fit_max n) by auto. destruct (s_ltb _ _); auto.
Qed.

Lemma box_from_bounds_good1 bnds : sp_pts sp <> [] ->
  match bnds with bounds_from_space => True | bounds_user mn mx => good (get mn k0) /\ good (get mx k0) end ->
  good_at (box_from_bounds sp bnds).
Proof.
  intros NE HB.
  assert (I1 : get (box_min (box_inverse_max n)) k0 = s_max).
  { unfold get, box_inverse_max; simpl. rewrite nth_tab by exact K0. reflexivity. }
  assert (I2 : get (box_max (box_inverse_max n)) k0 = s_lowest).
  { unfold get, box_inverse_max; simpl. rewrite nth_tab by exact K0. reflexivity. }
  destruct bnds as [|mn mx]; simpl.
  - apply fold_fit_good1; auto.
    + apply inverse_max_wf.
    + apply Forall_forall. intros p Hp. apply (In_nth _ _ []) in Hp as (i & Hi & <-).
      apply (GOODK i). apply in_space_lt. exact Hi.
  - change (good_at (fold_left box_fit [mn; mx] (box_inverse_max n))). destruct HB.
    apply fold_fit_good1; auto; [apply inverse_max_wf|congruence].
Qed.

Lemma build_total1 bnds : ru <> midpoint_max_side -> index_type_ok it -> stop_fits it stop ->
  bounds_dim sp bnds = true ->
  match bnds with bounds_from_space => True | bounds_user mn mx => good (get mn k0) /\ good (get mx k0) end ->
  sp_pts sp <> [] -> (Z.of_nat (npts sp) <= it_max it)%Z ->
  exists t, forall fuel, npts sp <= fuel -> build c alg it fuel sp stop bnds ru = Ok t.
Proof.
  intros Hru Hi Hs BD HB NE Hsz.
  assert (0 < length (sp_pts sp)) by (destruct (sp_pts sp); simpl; [congruence|lia]).
  destruct (create_node_total1 Hru (stop_fits_leaf1 it stop Hi Hs) (npts sp) 0 0 (seq 0 (length (sp_pts sp))) (box_from_bounds sp bnds))
    as (nd & s & bx' & E).
  - apply box_from_bounds_wf.
  - apply box_from_bounds_good1; auto.
  - apply seq_in_space.
  - rewrite seq_length. unfold npts. lia.
  - exists (KdTreeData s (box_from_bounds sp bnds) nd). intros fuel Hf. eapply build_fuel; [exact Hf|].
    unfold build, sp_size. rewrite guard_true by (destruct stop; simpl in *; auto; apply Z.ltb_lt; lia).
    cbn [bind]. rewrite guard_true by (apply Nat.ltb_lt; auto). cbn [bind].
    rewrite guard_true by (apply Z.leb_le; auto). cbn [bind].
    rewrite guard_true by auto. cbn [bind]. rewrite E. reflexivity.
Qed.
End One.

(** The boxes of the branches. *)
Section Loose.
Context {T : Type} {S : Scalar T} (ok : T -> Prop) (OL : ord_laws S ok).
Hypothesis LT_OK : forall x v, s_ltb x v = true -> ok v.
Variables (sp : space T) (WF : wf_space sp) (OKS : all_coords ok sp).
Let n := sp_sdim sp.
Variables (alg : std_algos) (SL : std_laws alg).
Variables (ru : rule) (it : index_type) (stop : stop_condition).
Hypothesis NM : ru <> midpoint_max_side.
Local Notation cn := (create_node Euclidean alg ru it stop sp).
Local Notation in_sp := (fun i => in_space sp i = true).
Local Notation le := (fun a b => s_leb a b = true).

(** Each side of the box [b] touches one of the points [l], or is still where it
    was before the first point. *)
Definition touches_loose (b : box T) (l : list nat) : Prop :=
  forall k, k < n ->
    ((exists i, In i l /\ le (coord sp k i) (get (box_min b) k)) \/ get (box_min b) k = s_max)
    /\ ((exists i, In i l /\ le (get (box_max b) k) (coord sp k i)) \/ get (box_max b) k = s_lowest).

Record loose_facts (br : branch_single T) (l r : list nat) : Prop := {
  lo_dim : bs_split_dim br < n;
  lo_okl : ok (bs_left_max br);
  lo_okr : ok (bs_right_min br);
  lo_left : forall i, In i l -> le (coord sp (bs_split_dim br) i) (bs_left_max br);
  lo_right : forall i, In i r -> le (bs_right_min br) (coord sp (bs_split_dim br) i);
  lo_tl : (exists i, In i l /\ le (bs_left_max br) (coord sp (bs_split_dim br) i)) \/ bs_left_max br = s_lowest;
  lo_tr : (exists i, In i r /\ le (coord sp (bs_split_dim br) i) (bs_right_min br)) \/ bs_right_min br = s_max;
  lo_order : forall i j, In i l -> In j r -> le (coord sp (bs_split_dim br) i) (coord sp (bs_split_dim br) j)
}.
Definition R_loose (br : branch_data Euclidean T) (l r : list nat) : Prop := loose_facts br l r.

Lemma bbox_loose seg : Forall in_sp seg -> touches_loose (compute_bounding_box sp seg) seg.
Proof.
  intros F k Hk. unfold compute_bounding_box.
  assert (K : forall l b, box_wf n b -> ok_box ok n b -> Forall in_sp l ->
    let b' := fold_left (fun b i => box_fit b (sp_at sp i)) l b in
    (get (box_min b') k = get (box_min b) k \/ exists i, In i l /\ le (coord sp k i) (get (box_min b') k))
    /\ (get (box_max b') k = get (box_max b) k \/ exists i, In i l /\ le (get (box_max b') k) (coord sp k i))).
  { induction l as [|i l IH]; intros b W O Fl; cbn [fold_left]; [split; left; reflexivity|].
    inversion Fl; subst.
    assert (W' := box_fit_wf n b (sp_at sp i) W).
    assert (OP := ok_point_at ok sp WF OKS i H1).
    assert (O' := box_fit_ok ok n b (sp_at sp i) W O OP).
    destruct (IH _ W' O' H2) as [A B]. cbn zeta in *.
    rewrite (get_fit_min n) in A by auto. rewrite (get_fit_max n) in B by auto.
    assert (OI : ok (coord sp k i)) by (apply OP; auto).
    split; [clear B|clear A].
    - destruct A as [A|(j & Hj & Ej)]; [|right; exists j; split; [right; auto|auto]].
      destruct (s_ltb _ _) eqn:E; [|left; auto].
      right. exists i. split; [left; auto|]. rewrite A. apply (leb_refl ok OL); auto.
    - destruct B as [B|(j & Hj & Ej)]; [|right; exists j; split; [right; auto|auto]].
      destruct (s_ltb _ _) eqn:E; [|left; auto].
      right. exists i. split; [left; auto|]. rewrite B. apply (leb_refl ok OL); auto. }
  destruct (K seg (box_inverse_max (sp_sdim sp)) (inverse_max_wf n) (inverse_max_ok ok OL n) F) as [A B].
  cbn zeta in *. split; [destruct A as [A|A]|destruct B as [B|B]]; auto; right; [rewrite A|rewrite B];
    unfold box_inverse_max, get; cbn [box_min box_max]; rewrite nth_tab by exact Hk; reflexivity.
Qed.

Lemma fit_box_loose lb rb l r : box_wf n lb -> touches_loose lb l -> touches_loose rb r ->
  touches_loose (box_fit_box lb rb) (l ++ r).
Proof.
  intros W Hl Hr k Hk. destruct (Hl k Hk) as [A1 A2]. destruct (Hr k Hk) as [B1 B2].
  rewrite (get_fit_box_min n), (get_fit_box_max n) by auto.
  split; destruct (s_ltb _ _).
  - destruct B1 as [(i & Hi & Ei)|]; auto. left. exists i. split; auto. apply in_or_app; auto.
  - destruct A1 as [(i & Hi & Ei)|]; auto. left. exists i. split; auto. apply in_or_app; auto.
  - destruct B2 as [(i & Hi & Ei)|]; auto. left. exists i. split; auto. apply in_or_app; auto.
  - destruct A2 as [(i & Hi & Ei)|]; auto. left. exists i. split; auto. apply in_or_app; auto.
Qed.

(** The split value is a number: a point compared less than it, or it is a
    coordinate. *)
Lemma splitter_value seg bx l r d v : box_wf n bx ->
  splitter alg ru sp seg bx = Ok (l, r, d, v) -> ok v.
Proof.
  intros W H. pose proof H as H0. apply (splitter_facts ok OL sp WF OKS alg SL) in H0; auto.
  destruct ru; [| congruence |]; simpl in H.
  - destruct (sf_val _ _ _ _ _ _ _ _ _ H0) as [(A & _)|_]; auto.
    unfold split_median in H. okbind H. destruct a as [d' delta]. okbind H. okbind H.
    apply ok4_inj in H as (_ & _ & <- & <-).
    apply (split_side_facts sp) in E as (Hd & F & _); auto.
    apply (ok_coord ok sp WF OKS); auto. apply guard_ok in E1. exact E1.
  - unfold split_sliding in H. okbind H. destruct a as [d' delta].
    destruct (std_partition _ _ _) as [a b] eqn:Ep.
    apply (split_side_facts sp) in E as (Hd & F & _); auto.
    apply (partition_facts alg SL) in Ep as (P & A & B).
    destruct b as [|b0 b1].
    + destruct (length (a ++ [])) as [|h] eqn:L; [discriminate|].
      okbind H. okbind H. apply ok4_inj in H as (_ & _ & <- & <-).
      apply (ok_coord ok sp WF OKS); auto. apply guard_ok in E0. exact E0.
    + destruct a as [|a0 a1].
      * okbind H. okbind H. apply ok4_inj in H as (_ & _ & <- & <-).
        apply (ok_coord ok sp WF OKS); auto. apply guard_ok in E0. exact E0.
      * apply ok4_inj in H as (_ & _ & <- & <-).
        apply (LT_OK (coord sp d' a0)). apply (A a0). left; auto.
Qed.

Lemma create_node_loose fuel : forall depth off seg bx nd seg' bx',
  box_wf n bx -> cn fuel depth off seg bx = Ok (nd, seg', bx') ->
  touches_loose bx' seg' /\ node_spans R_loose nd off seg'.
Proof.
  induction fuel as [|fuel IH]; intros depth off seg bx nd seg' bx' W H; [discriminate|].
  cbn [create_node] in H. destruct (is_leaf it stop depth (length seg)) eqn:HL.
  - okbind H. apply guard_ok in E. apply forallb_in_space in E. injection H as <- <- <-.
    split; [|constructor].
    destruct ru; try congruence; apply bbox_loose; auto.
  - okbind H. destruct a as [[[l r] d] v].
    okbind H. destruct a as [[nl sl] lb]. okbind H. destruct a as [[nr sr] rb].
    injection H as <- <- <-.
    pose proof (splitter_value seg bx l r d v W E) as Ov.
    apply (splitter_facts ok OL sp WF OKS alg SL) in E; auto.
    pose proof (sf_dim _ _ _ _ _ _ _ _ _ E) as Hd. fold n in Hd.
    assert (WL := box_set_max_wf n bx d v W). assert (WR := box_set_min_wf n bx d v W).
    pose proof E0 as HA1. pose proof E1 as HA2.
    apply (create_node_holds ok OL sp WF OKS alg SL Euclidean ru it stop) in HA1; [|congruence|auto|congruence].
    apply (create_node_holds ok OL sp WF OKS alg SL Euclidean ru it stop) in HA2; [|congruence|auto|congruence].
    destruct HA1 as (P1 & F1 & W1 & O1 & Ho1 & _). destruct HA2 as (P2 & F2 & W2 & O2 & Ho2 & _).
    apply IH in E0 as (T1 & S1); auto. apply IH in E1 as (T2 & S2); auto.
    split; [apply fit_box_loose; auto|].
    constructor; auto.
    { rewrite (Permutation_length P1). exact S2. }
    unfold R_loose. constructor; cbn [set_branch bs_split_dim bs_left_max bs_right_min]; auto.
    + apply (O1 d Hd).
    + apply (O2 d Hd).
    + intros i Hi. apply (Ho1 i Hi d Hd).
    + intros i Hi. apply (Ho2 i Hi d Hd).
    + apply (T1 d Hd).
    + apply (T2 d Hd).
    + intros i j Hi Hj. apply (Permutation_in _ P1) in Hi. apply (Permutation_in _ P2) in Hj.
      rewrite Forall_forall in F1, F2.
      assert (Oi : ok (coord sp d i)) by (apply (ok_coord ok sp WF OKS); auto).
      assert (Oj : ok (coord sp d j)) by (apply (ok_coord ok sp WF OKS); auto).
      apply (leb_trans ok OL _ v _); auto.
      * apply (sf_left _ _ _ _ _ _ _ _ _ E Ov i Hi).
      * apply (sf_right _ _ _ _ _ _ _ _ _ E Ov j Hj).
Qed.

Lemma build_loose fuel bnds t : build Euclidean alg it fuel sp stop bnds ru = Ok t ->
  Permutation (kd_indices t) (seq 0 (length (sp_pts sp)))
  /\ node_spans R_loose (kd_root t) 0 (kd_indices t).
Proof.
  intros H. pose proof H as H0.
  apply (build_holds ok OL sp WF OKS alg SL) in H0 as [P _]; [|congruence].
  split; auto. apply build_inv in H as (_ & _ & bx' & H & _).
  eapply create_node_loose in H; [apply H|]. apply box_from_bounds_wf.
Qed.
End Loose.
