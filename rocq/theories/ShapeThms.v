(** Sizes of trees. *)
From Coq Require Import List ZArith Bool Arith Permutation Lia.
From Verif Require Import Base ModelBox ModelBuild ModelSearch ModelSerial Spec SpecSerial SpecHeap SpecShape Lemmas Instances
  BuildProofs BuildOrder BuildShape BuildThms SerialThms.
Import ListNotations.
Local Open Scope nat_scope.

(** * Any tree *)
Section Any.
Context {B : Type}.

Lemma leaves_branches (n : node B) : leaf_count n = branch_count n + 1.
Proof. induction n; cbn; lia. Qed.
Lemma count_leaves (n : node B) : node_count n = leaf_count n + branch_count n.
Proof. induction n; cbn; lia. Qed.
Lemma leaf_levels_count (n : node B) : forall h, length (leaf_levels h n) = leaf_count n.
Proof. induction n; intros h; cbn; auto. rewrite app_length, IHn1, IHn2. reflexivity. Qed.

Lemma height_levels (n : node B) : forall h k, Forall (fun '(lv, _) => lv <= h + k) (leaf_levels h n) -> height n <= k.
Proof.
  induction n as [b e|br l IHl r IHr]; intros h k F; cbn in *; [lia|].
  apply Forall_app in F as [Fl Fr]. destruct k as [|k].
  - exfalso. assert (X : forall (n : node B) h', Forall (fun '(lv, _) => lv <= h' - 1) (leaf_levels h' n) -> 1 <= h' -> False).
    { clear. induction n as [b e|br l IHl r IHr]; intros h' F H; cbn in F.
      - inversion F; subst. lia.
      - apply Forall_app in F as [Fl _]. apply (IHl (h' + 1)); [|lia].
        eapply Forall_impl; [|exact Fl]. intros [a b] K. lia. }
    apply (X l (h + 1)); [|lia]. eapply Forall_impl; [|exact Fl]. intros [a b] K. lia.
  - assert (height l <= k).
    { apply (IHl (h + 1)). eapply Forall_impl; [|exact Fl]. intros [a b] K. lia. }
    assert (height r <= k).
    { apply (IHr (h + 1)). eapply Forall_impl; [|exact Fr]. intros [a b] K. lia. }
    lia.
Qed.

Lemma height_reached (n : node B) : forall h, exists len, In (h + height n, len) (leaf_levels h n).
Proof.
  induction n as [b e|br l IHl r IHr]; intros h; cbn.
  - exists (e - b). left. f_equal. lia.
  - destruct (IHl (h + 1)) as [a Ha]. destruct (IHr (h + 1)) as [b Hb].
    destruct (Nat.max_spec (height l) (height r)) as [[_ ->]|[_ ->]]; [exists b|exists a]; apply in_or_app; [right|left].
    + replace (h + S (height r)) with (h + 1 + height r) by lia. auto.
    + replace (h + S (height l)) with (h + 1 + height l) by lia. auto.
Qed.

Lemma leaves_height (n : node B) : leaf_count n <= 2 ^ height n.
Proof.
  induction n as [b e|br l IHl r IHr]; cbn [leaf_count height]; [cbn; lia|].
  cbn [Nat.add Nat.pow].
  pose proof (Nat.pow_le_mono_r 2 (height l) (Nat.max (height l) (height r)) ltac:(lia) ltac:(lia)).
  pose proof (Nat.pow_le_mono_r 2 (height r) (Nat.max (height l) (height r)) ltac:(lia) ltac:(lia)). lia.
Qed.

Lemma work_height (n : node B) : split_work n <= node_points n * height n.
Proof.
  induction n as [b e|br l IHl r IHr]; cbn [split_work height node_points]; [lia|].
  set (h := Nat.max (height l) (height r)).
  assert (node_points l * height l <= node_points l * h) by (apply Nat.mul_le_mono_l; lia).
  assert (node_points r * height r <= node_points r * h) by (apply Nat.mul_le_mono_l; lia). lia.
Qed.

Lemma height_points m (n : node B) :
  every_branch (fun _ l r => (1 <= node_points l /\ 1 <= node_points r) /\ m < node_points l + node_points r) n ->
  height n <= node_points n - m.
Proof.
  induction n as [b e|br l IHl r IHr]; cbn [every_branch height node_points]; [lia|].
  intros (((H1 & H2) & H3) & Hl & Hr). specialize (IHl Hl). specialize (IHr Hr). lia.
Qed.
End Any.

(** * Built trees *)
Section Built.
Context {T : Type} {S : Scalar T} (ok : T -> Prop) (OL : ord_laws S ok).
Variables (sp : space T) (WF : wf_space sp) (OKS : all_coords ok sp).
Variables (alg : std_algos) (SL : std_laws alg).
Let n := sp_sdim sp.
Let N := length (sp_pts sp).

Lemma create_node_over c ru it m fuel : ru <> midpoint_max_side -> it_cast it m = m -> (1 <= m)%Z ->
  forall depth off seg bx nd seg' bx', box_wf n bx ->
  create_node c alg ru it (max_leaf_size m) sp fuel depth off seg bx = Ok (nd, seg', bx') ->
  node_points nd = length seg
  /\ every_branch (fun _ l r => (1 <= node_points l /\ 1 <= node_points r) /\ Z.to_nat m < node_points l + node_points r) nd.
Proof.
  intros Hru Hc Hm. induction fuel as [|fuel IH]; intros depth off seg bx nd seg' bx' W H; [discriminate|].
  cbn [create_node] in H. destruct (is_leaf it (max_leaf_size m) depth (length seg)) eqn:HL.
  - okbind H. injection H as <- <- <-. cbn [node_points every_branch]. split; [lia|exact I].
  - okbind H. destruct a as [[[l r] d] v].
    okbind H. destruct a as [[nl sl] lb]. okbind H. destruct a as [[nr sr] rb].
    injection H as <- <- <-. cbn [is_leaf] in HL. rewrite Hc in HL. apply Z.leb_gt in HL.
    apply (splitter_facts ok OL sp WF OKS alg SL) in E; auto.
    pose proof (Permutation_length (sf_perm _ _ _ _ _ _ _ _ _ E)) as PL. rewrite app_length in PL.
    destruct (sf_nonempty _ _ _ _ _ _ _ _ _ E Hru ltac:(lia)) as [NL NR].
    apply IH in E0 as (A1 & A2); [|apply box_set_max_wf; auto].
    apply IH in E1 as (B1 & B2); [|apply box_set_min_wf; auto].
    assert (1 <= length l) by (destruct l; cbn; [congruence|lia]).
    assert (1 <= length r) by (destruct r; cbn; [congruence|lia]).
    cbn [node_points every_branch]. rewrite A1, B1. split; [lia|]. split; [lia|]. auto.
Qed.

(** The recursion of create_node goes exactly as deep as the tree is high. *)
Lemma create_node_fuel c ru it stop fuel : forall depth off seg bx nd seg' bx',
  create_node c alg ru it stop sp fuel depth off seg bx = Ok (nd, seg', bx') ->
  height nd < fuel
  /\ forall fuel', create_node c alg ru it stop sp fuel' depth off seg bx
       = if height nd <? fuel' then Ok (nd, seg', bx') else OutOfFuel.
Proof.
  induction fuel as [|fuel IH]; intros depth off seg bx nd seg' bx' H; [discriminate|].
  cbn [create_node] in H. destruct (is_leaf it stop depth (length seg)) eqn:HL.
  - okbind H. injection H as <- <- <-. cbn [height]. split; [lia|].
    intros [|f']; [reflexivity|]. cbn [create_node]. rewrite HL, E. reflexivity.
  - okbind H. destruct a as [[[l r] d] v].
    okbind H. destruct a as [[nl sl] lb]. okbind H. destruct a as [[nr sr] rb].
    injection H as <- <- <-.
    apply IH in E0 as (A1 & A2). apply IH in E1 as (B1 & B2).
    cbn [height]. split; [lia|]. intros [|f']; [reflexivity|].
    cbn [create_node]. rewrite HL, E. cbn [bind]. rewrite A2.
    destruct (Nat.ltb_spec (height nl) f') as [X|X]; cbn [bind].
    + rewrite B2. destruct (Nat.ltb_spec (height nr) f') as [Y|Y]; cbn [bind].
      * destruct (Nat.ltb_spec (1 + Nat.max (height nl) (height nr)) (Datatypes.S f')); [reflexivity|lia].
      * destruct (Nat.ltb_spec (1 + Nat.max (height nl) (height nr)) (Datatypes.S f')); [lia|reflexivity].
    + destruct (Nat.ltb_spec (1 + Nat.max (height nl) (height nr)) (Datatypes.S f')); [lia|reflexivity].
Qed.

Section Stop.
Variables (c : category) (it : index_type) (fuel : nat) (stop : stop_condition) (bnds : start_bounds T) (ru : rule)
  (t : kd_tree_data c T).
Hypothesis HB : build c alg it fuel sp stop bnds ru = Ok t.

Lemma shape_count : ru <> midpoint_max_side ->
  leaf_count (kd_root t) <= N /\ node_count (kd_root t) <= 2 * N - 1.
Proof.
  intros Hru. destruct (build_nonempty ok OL sp WF OKS alg SL c it fuel stop bnds ru t Hru HB) as (H1 & H2 & _).
  assert (K : leaf_count (kd_root t) <= node_points (kd_root t)).
  { clear - H1. revert H1. generalize 0 at 2. induction (kd_root t) as [b e|br l IHl r IHr]; intros h F; cbn in *.
    - inversion F; subst. lia.
    - apply Forall_app in F as [Fl Fr]. specialize (IHl _ Fl). specialize (IHr _ Fr). lia. }
  rewrite H2 in K. fold N in K. split; auto. rewrite count_leaves. pose proof (leaves_branches (kd_root t)). lia.
Qed.

Lemma shape_recursion fuel' :
  build c alg it fuel' sp stop bnds ru = if height (kd_root t) <? fuel' then Ok t else OutOfFuel.
Proof.
  pose proof HB as H. unfold build in *. okbind H. okbind H. okbind H. okbind H.
  cbn [bind]. okbind H. destruct a3 as [[nd s0] b0]. injection H as <-. cbn [kd_root].
  apply create_node_fuel in E3 as (_ & ->). destruct (height nd <? fuel'); reflexivity.
Qed.

Lemma shape_nodes : ru <> midpoint_max_side ->
  length (leaf_levels 0 (kd_root t)) <= N
  /\ node_count (kd_root t) = 2 * length (leaf_levels 0 (kd_root t)) - 1
  /\ node_count (kd_root t) <= 2 * N - 1
  /\ chunks_needed (node_count (kd_root t)) <= (2 * N + 254) / 256.
Proof.
  intros Hru. destruct (shape_count Hru) as [L C]. rewrite leaf_levels_count.
  split; auto. split; [rewrite count_leaves, leaves_branches; lia|]. split; auto.
  unfold chunks_needed. apply Nat.div_le_mono; [lia|].
  assert (1 <= node_count (kd_root t)) by (destruct (kd_root t); cbn; lia). lia.
Qed.
End Stop.

Lemma shape_height c it fuel m bnds ru t : ru <> midpoint_max_side -> index_type_ok it -> (0 < m <= it_max it)%Z ->
  build c alg it fuel sp (max_leaf_size m) bnds ru = Ok t ->
  height (kd_root t) <= N - Z.to_nat m /\ split_work (kd_root t) <= N * (N - Z.to_nat m).
Proof.
  intros Hru Hi Hm HB. pose proof HB as H. apply build_inv in H as (_ & _ & bx' & H & _).
  apply create_node_over in H as (H1 & H2); [|auto|apply it_cast_fits; auto; lia|lia|apply box_from_bounds_wf].
  rewrite seq_length in H1. fold N in H1. apply height_points in H2. pose proof (work_height (kd_root t)) as W.
  rewrite H1 in *. split; auto. assert (N * height (kd_root t) <= N * (N - Z.to_nat m)) by (apply Nat.mul_le_mono_l; auto). lia.
Qed.

Lemma shape_height_depth c it fuel m bnds ru t : index_type_ok it -> (0 <= m <= it_max it)%Z ->
  build c alg it fuel sp (max_leaf_depth m) bnds ru = Ok t ->
  height (kd_root t) <= Z.to_nat m /\ node_count (kd_root t) <= 2 * 2 ^ Z.to_nat m - 1.
Proof.
  intros Hi Hm HB. pose proof (build_leaf_depth sp alg c it fuel m bnds ru t Hi Hm HB) as F.
  assert (HH : height (kd_root t) <= Z.to_nat m).
  { apply (height_levels (kd_root t) 0). eapply Forall_impl; [|exact F]. intros [a b] K. cbn. lia. }
  split; auto. rewrite count_leaves. pose proof (leaves_branches (kd_root t)). pose proof (leaves_height (kd_root t)).
  pose proof (Nat.pow_le_mono_r 2 _ _ ltac:(lia) HH). lia.
Qed.

Lemma shape_median c it fuel m bnds t h : index_type_ok it -> (0 < m <= it_max it)%Z ->
  build c alg it fuel sp (max_leaf_size m) bnds median_max_side = Ok t ->
  (Z.of_nat N <= m * 2 ^ Z.of_nat h)%Z ->
  height (kd_root t) <= h /\ split_work (kd_root t) <= N * h.
Proof.
  intros Hi Hm HB Hh.
  pose proof (build_median_levels ok OL sp WF OKS alg SL c it fuel m bnds t h Hi Hm HB Hh) as F.
  assert (HH : height (kd_root t) <= h) by (apply (height_levels (kd_root t) 0); auto).
  split; auto. pose proof (work_height (kd_root t)) as W.
  destruct (build_nonempty ok OL sp WF OKS alg SL c it fuel _ bnds median_max_side t ltac:(discriminate) HB) as (_ & H2 & _).
  rewrite H2 in W. fold N in W. assert (N * height (kd_root t) <= N * h) by (apply Nat.mul_le_mono_l; auto). lia.
Qed.

(** * Coincident points *)
Section Coincident.
Hypothesis CO : coincident sp.

Lemma same_coord d i j : in_space sp i = true -> in_space sp j = true -> coord sp d i = coord sp d j.
Proof.
  intros Hi Hj. apply in_space_lt in Hi, Hj. unfold coord, sp_at. f_equal. apply CO; apply nth_In; auto.
Qed.

Lemma split_one seg bx l r d v : box_wf n bx -> 2 <= length seg ->
  splitter alg sliding_midpoint_max_side sp seg bx = Ok (l, r, d, v) ->
  (length l = 1 /\ length r = length seg - 1) \/ (length l = length seg - 1 /\ length r = 1).
Proof.
  intros W L2 H. pose proof H as HF. apply (splitter_facts ok OL sp WF OKS alg SL) in HF; auto.
  pose proof (Permutation_length (sf_perm _ _ _ _ _ _ _ _ _ HF)) as PL. rewrite app_length in PL.
  pose proof (sf_in _ _ _ _ _ _ _ _ _ HF) as FI. rewrite Forall_forall in FI.
  cbn [splitter] in H. unfold split_sliding in H. okbind H. destruct a as [d' delta].
  destruct (std_partition _ _ _) as [a b] eqn:Ep.
  apply (partition_facts alg SL) in Ep as (P & A & B0).
  pose proof (Permutation_length P) as PLab.
  destruct b as [|b0 b1].
  - destruct (length (a ++ [])) as [|h] eqn:L; [discriminate|].
    okbind H. okbind H. injection H as <- <- <- <-. right. rewrite firstn_length, skipn_length in *. lia.
  - destruct a as [|a0 a1].
    + okbind H. okbind H. apply ok4_inj in H as (<- & <- & <- & <-). left. rewrite firstn_length, skipn_length in *. lia.
    + exfalso.
      assert (I1 : In a0 seg) by (eapply Permutation_in; [exact P|left; auto]).
      assert (I2 : In b0 seg) by (eapply Permutation_in; [exact P|apply in_or_app; right; left; auto]).
      specialize (A a0 (or_introl eq_refl)). specialize (B0 b0 (or_introl eq_refl)). cbn beta in A, B0.
      rewrite (same_coord d' a0 b0) in A by auto. congruence.
Qed.

Lemma create_node_coincident c it m fuel : it_cast it m = m -> (1 <= m)%Z ->
  forall depth off seg bx nd seg' bx', box_wf n bx ->
  create_node c alg sliding_midpoint_max_side it (max_leaf_size m) sp fuel depth off seg bx = Ok (nd, seg', bx') ->
  node_points nd = length seg /\ height nd = length seg - Z.to_nat m
  /\ leaf_count nd = 1 + (length seg - Z.to_nat m)
  /\ (Z.to_nat m <= length seg ->
      2 * split_work nd + Z.to_nat m * (Z.to_nat m + 1) = length seg * (length seg + 1)).
Proof.
  intros Hc Hm. induction fuel as [|fuel IH]; intros depth off seg bx nd seg' bx' W H; [discriminate|].
  cbn [create_node] in H. destruct (is_leaf it (max_leaf_size m) depth (length seg)) eqn:HL;
    cbn [is_leaf] in HL; rewrite Hc in HL.
  - okbind H. injection H as <- <- <-. apply Z.leb_le in HL. cbn [node_points height leaf_count split_work].
    split; [lia|]. split; [lia|]. split; [lia|]. intros K. replace (length seg) with (Z.to_nat m) by lia. lia.
  - okbind H. destruct a as [[[l r] d] v].
    okbind H. destruct a as [[nl sl] lb]. okbind H. destruct a as [[nr sr] rb].
    injection H as <- <- <-. apply Z.leb_gt in HL.
    apply split_one in E; [|auto|lia].
    apply IH in E0 as (A1 & A2 & A3 & A4); [|apply box_set_max_wf; auto].
    apply IH in E1 as (B1 & B2 & B3 & B4); [|apply box_set_min_wf; auto].
    cbn [node_points height leaf_count split_work].
    assert (Z1 : forall (x : node (branch_data c T)) k, node_points x = k -> k = 1 -> height x = k - Z.to_nat m -> split_work x = 0).
    { intros x k Hx -> HH. destruct x; cbn [height split_work node_points] in *; auto. lia. }
    destruct E as [[L1 L2]|[L1 L2]]; rewrite L1 in A1, A2, A3, A4; rewrite L2 in B1, B2, B3, B4.
    + rewrite (Z1 nl _ A1 eq_refl A2). split; [lia|]. split; [lia|]. split; [lia|]. intros K. specialize (B4 ltac:(lia)).
      set (k := length seg - 1) in *. replace (length seg) with (k + 1) by lia. nia.
    + rewrite (Z1 nr _ B1 eq_refl B2). split; [lia|]. split; [lia|]. split; [lia|]. intros K. specialize (A4 ltac:(lia)).
      set (k := length seg - 1) in *. replace (length seg) with (k + 1) by lia. nia.
Qed.

Lemma shape_coincident c it fuel m bnds t : index_type_ok it -> (0 < m <= it_max it)%Z -> (m <= Z.of_nat N)%Z ->
  build c alg it fuel sp (max_leaf_size m) bnds sliding_midpoint_max_side = Ok t ->
  height (kd_root t) = N - Z.to_nat m /\ leaf_count (kd_root t) = N - Z.to_nat m + 1
  /\ 2 * split_work (kd_root t) + Z.to_nat m * (Z.to_nat m + 1) = N * (N + 1).
Proof.
  intros Hi Hm HN HB. apply build_inv in HB as (_ & _ & bx' & H & _).
  apply create_node_coincident in H as (H1 & H2 & H3 & H4); [|apply it_cast_fits; auto; lia|lia|apply box_from_bounds_wf].
  rewrite seq_length in H1, H2, H3, H4. fold N in H1, H2, H3, H4. split; auto. split; [lia|]. apply H4. lia.
Qed.
End Coincident.

(** * A group of coincident points *)
Lemma group_remove (g l r : list nat) : NoDup g -> incl g (l ++ r) -> length r = 1 ->
  exists g', NoDup g' /\ incl g' g /\ incl g' l /\ length g <= length g' + 1.
Proof.
  intros ND I R. destruct r as [|x [|]]; try discriminate.
  destruct (in_dec Nat.eq_dec x g) as [X|X].
  - apply in_split in X as (g1 & g2 & ->). exists (g1 ++ g2).
    pose proof (NoDup_remove_1 _ _ _ ND) as N1. pose proof (NoDup_remove_2 _ _ _ ND) as N2.
    split; auto. split; [intros y Hy; apply in_app_or in Hy as [|]; apply in_or_app; cbn; auto|].
    split.
    + intros y Hy. assert (In y (l ++ [x])) as K by (apply I; apply in_app_or in Hy as [|]; apply in_or_app; cbn; auto).
      apply in_app_or in K as [|[<-|[]]]; auto. contradiction.
    + rewrite !app_length. cbn. lia.
  - exists g. split; auto. split; [apply incl_refl|]. split; [|lia].
    intros y Hy. specialize (I y Hy). apply in_app_or in I as [|[<-|[]]]; auto. contradiction.
Qed.

Lemma split_group seg bx l r d v g : box_wf n bx -> 2 <= length seg ->
  splitter alg sliding_midpoint_max_side sp seg bx = Ok (l, r, d, v) ->
  NoDup g -> incl g seg -> (forall i j, In i g -> In j g -> sp_at sp i = sp_at sp j) ->
  exists g', NoDup g' /\ incl g' g /\ (incl g' l \/ incl g' r) /\ length g <= length g' + 1.
Proof.
  intros W L2 H ND IN SA. pose proof H as HF. apply (splitter_facts ok OL sp WF OKS alg SL) in HF; auto.
  pose proof (sf_perm _ _ _ _ _ _ _ _ _ HF) as PM. pose proof (Permutation_length PM) as PL. rewrite app_length in PL.
  assert (INs : incl g (l ++ r)) by (intros y Hy; eapply Permutation_in; [symmetry; exact PM|auto]).
  cbn [splitter] in H. unfold split_sliding in H. okbind H. destruct a as [d' delta].
  destruct (std_partition _ _ _) as [a b] eqn:Ep.
  apply (partition_facts alg SL) in Ep as (P & A & B0).
  pose proof (Permutation_length P) as PLab.
  destruct b as [|b0 b1].
  - destruct (length (a ++ [])) as [|h] eqn:L; [discriminate|].
    okbind H. okbind H. injection H as <- <- <- <-.
    destruct (group_remove g _ _ ND INs) as (g' & G1 & G2 & G3 & G4); [rewrite firstn_length, skipn_length in *; lia|].
    exists g'; auto.
  - destruct a as [|a0 a1].
    + okbind H. okbind H. apply ok4_inj in H as (<- & <- & <- & <-).
      destruct (group_remove g (skipn 1 (std_nth_element alg (coord_lt sp d') 1 ([] ++ b0 :: b1)))
        (firstn 1 (std_nth_element alg (coord_lt sp d') 1 ([] ++ b0 :: b1))) ND) as (g' & G1 & G2 & G3 & G4).
      * intros y Hy. apply INs in Hy. apply in_app_or in Hy as [|]; apply in_or_app; auto.
      * rewrite firstn_length, skipn_length in *. lia.
      * exists g'; auto.
    + apply ok4_inj in H as (<- & <- & <- & <-). exists g. split; auto. split; [apply incl_refl|]. split; [|lia].
      destruct g as [|g0 g1]; [left; intros y []|].
      assert (K : forall x y, In x (g0 :: g1) -> In y (g0 :: g1) -> coord sp d' x = coord sp d' y)
        by (intros x y Hx Hy; unfold coord; rewrite (SA x y Hx Hy); reflexivity).
      assert (INab : incl (g0 :: g1) ((a0 :: a1) ++ b0 :: b1)) by (intros y Hy; eapply Permutation_in; [symmetry; exact P|auto]).
      destruct (in_app_or _ _ _ (INab g0 (or_introl eq_refl))) as [X|X]; [left|right]; intros y Hy;
        destruct (in_app_or _ _ _ (INab y Hy)) as [Y|Y]; auto; exfalso.
      * pose proof (A _ X) as Q1. pose proof (B0 _ Y) as Q2. cbn beta in Q1, Q2.
        rewrite (K g0 y) in Q1 by (cbn; auto). congruence.
      * pose proof (A _ Y) as Q1. pose proof (B0 _ X) as Q2. cbn beta in Q1, Q2.
        rewrite (K y g0) in Q1 by (cbn; auto). congruence.
Qed.

Lemma create_node_group c it m fuel : it_cast it m = m -> (1 <= m)%Z ->
  forall depth off seg bx nd seg' bx' g, box_wf n bx ->
  create_node c alg sliding_midpoint_max_side it (max_leaf_size m) sp fuel depth off seg bx = Ok (nd, seg', bx') ->
  NoDup g -> incl g seg -> (forall i j, In i g -> In j g -> sp_at sp i = sp_at sp j) ->
  length g <= Z.to_nat m + height nd.
Proof.
  intros Hc Hm. induction fuel as [|fuel IH]; intros depth off seg bx nd seg' bx' g W H ND IN SA; [discriminate|].
  pose proof (NoDup_incl_length ND IN) as LG.
  cbn [create_node] in H. destruct (is_leaf it (max_leaf_size m) depth (length seg)) eqn:HL;
    cbn [is_leaf] in HL; rewrite Hc in HL.
  - okbind H. injection H as <- <- <-. apply Z.leb_le in HL. lia.
  - okbind H. destruct a as [[[l r] d] v].
    okbind H. destruct a as [[nl sl] lb]. okbind H. destruct a as [[nr sr] rb].
    injection H as <- <- <-. apply Z.leb_gt in HL.
    destruct (split_group seg bx l r d v g W ltac:(lia) E ND IN SA) as (g' & G1 & G2 & G3 & G4).
    cbn [height]. destruct G3 as [G3|G3].
    + apply (IH _ _ _ _ _ _ _ g') in E0; auto; [lia|apply box_set_max_wf; auto].
    + apply (IH _ _ _ _ _ _ _ g') in E1; auto; [lia|apply box_set_min_wf; auto].
Qed.

Lemma shape_group c it fuel m bnds t (g : list nat) : index_type_ok it -> (0 < m <= it_max it)%Z ->
  build c alg it fuel sp (max_leaf_size m) bnds sliding_midpoint_max_side = Ok t ->
  NoDup g -> (forall i, In i g -> i < N) ->
  (forall i j, In i g -> In j g -> nth i (sp_pts sp) [] = nth j (sp_pts sp) []) ->
  length g - Z.to_nat m <= height (kd_root t).
Proof.
  intros Hi Hm HB ND IN SA. apply build_inv in HB as (_ & _ & bx' & H & _).
  apply (create_node_group c it m fuel) with (g := g) in H; auto.
  - lia.
  - apply it_cast_fits; auto; lia.
  - lia.
  - apply box_from_bounds_wf.
  - intros i Hg. apply in_seq. specialize (IN i Hg). fold N. lia.
Qed.
End Built.

(** * No logarithmic bound on the depth *)
Lemma pow_beats_log a : a * (1 + Nat.log2 (2 ^ (2 * a + 4))) < 2 ^ (2 * a + 4) - 1.
Proof.
  rewrite Nat.log2_pow2 by lia. replace (2 * a + 4) with (a + a + 4) by lia. rewrite !Nat.pow_add_r.
  assert (H : a + 1 <= 2 ^ a) by (pose proof (Nat.pow_gt_lin_r 2 a ltac:(lia)); lia).
  assert ((a + 1) * (a + 1) <= 2 ^ a * 2 ^ a) by (apply Nat.mul_le_mono; auto).
  change (2 ^ 4) with 16. nia.
Qed.

Lemma repeat_coincident {T} d (p : list T) k : coincident (Space d (repeat p k)).
Proof. intros x y Hx Hy. cbn in *. apply repeat_spec in Hx, Hy. congruence. Qed.

(** * Files *)
Section Files.
Context {T : Type} {SC : Scalar T}.
Variables (little : bool) (it : index_type) (tc : codec T) (fit : T -> Prop).
Hypotheses (H0 : (0 < it_bits it)%Z) (H8 : (it_bits it mod 8 = 0)%Z)
  (TC : codec_ok tc fit) (TA : c_align tc = c_size tc) (T48 : c_size tc = 4 \/ c_size tc = 8).
Let s := c_size tc.
Let isz := Z.to_nat (it_bits it / 8).

Lemma isz_pos : 1 <= isz.
Proof. unfold isz. apply Z.mod_divide in H8; [|lia]. destruct H8 as [q Hq]. rewrite Hq, Z.div_mul by lia. lia. Qed.

Lemma gap_aligned a k : 1 <= a -> gap a (k * a) = 0.
Proof. intros H. unfold gap. rewrite Nat.mod_mul, Nat.sub_0_r, Nat.mod_same by lia. reflexivity. Qed.

Lemma leaf_size : layout_size (leaf_layout little it) = 2 * isz.
Proof.
  pose proof isz_pos as P. unfold leaf_layout, field, layout_size.
  cbn [c_size c_align index_codec uint_codec layout_end layout_align fold_right snd]. fold isz.
  pose proof (gap_aligned isz 0 P) as G0. pose proof (gap_aligned isz 1 P) as G1. cbn [Nat.mul] in G0, G1.
  rewrite Nat.add_0_r in G1. rewrite G0. cbn [Nat.add]. rewrite G1.
  replace (Nat.max isz (Nat.max isz 1)) with isz by lia.
  replace (isz + 0 + isz) with (2 * isz) by lia. rewrite (gap_aligned isz 2 P). lia.
Qed.

Lemma branch_size c : layout_size (branch_layout little tc c)
  = int_and_scalars (match c with Euclidean => 2 | Topological => 4 end) s.
Proof.
  unfold s. destruct T48 as [K|K]; destruct c; unfold branch_layout, field, layout_size, int_and_scalars; rewrite TA, K; reflexivity.
Qed.

Lemma node_size pads c nd : forall pos, length (write_node little it tc pads c nd pos)
  = leaf_count nd * (1 + 2 * isz)
    + branch_count nd * (1 + int_and_scalars (match c with Euclidean => 2 | Topological => 4 end) s).
Proof.
  induction nd as [b e|br l IHl r IHr]; intros pos; cbn [write_node leaf_count branch_count].
  - rewrite app_length, leaf_len, leaf_size by auto. cbn [bool_enc length]. lia.
  - rewrite !app_length, IHl, IHr. rewrite (branch_len little tc fit TC), branch_size. cbn [bool_enc length]. lia.
Qed.

Variables (sp : space T) (alg : std_algos).
Hypotheses (OL : ord_laws SC fit) (WF : wf_space sp) (OKS : all_coords fit sp) (SL : std_laws alg).

Lemma data_size pads c fuel stop bnds ru (t : kd_tree_data c T) :
  (ru = midpoint_max_side -> mid_ok SC fit /\ bounds_coords fit sp bnds) ->
  build c alg it fuel sp stop bnds ru = Ok t ->
  length (save_data little it tc pads t)
  = 16 + length (sp_pts sp) * isz + 2 * sp_sdim sp * s
    + leaf_count (kd_root t) * (1 + 2 * isz)
    + branch_count (kd_root t) * (1 + int_and_scalars (match c with Euclidean => 2 | Topological => 4 end) s).
Proof.
  intros HM H. pose proof (build_holds fit OL sp WF OKS alg SL c it fuel stop bnds ru t HM H) as [HP _].
  apply build_inv in H as (_ & _ & bx & _ & EB). pose proof (box_from_bounds_wf sp bnds) as [W1 W2]. rewrite <- EB in *.
  assert (LI : length (kd_indices t) = length (sp_pts sp)) by (rewrite (Permutation_length HP); apply seq_length).
  unfold save_data. rewrite !app_length, !(ck_len _ _ (zc_ok little)), node_size.
  rewrite (write_array_len _ _ (ic_ok little it H0 H8)), !(write_array_len _ _ TC), W1, W2, LI.
  cbn [c_size size_codec uint_codec index_codec]. fold isz s. lia.
Qed.

Lemma tree_file_size pads m fuel stop bnds ru tree :
  (ru = midpoint_max_side -> mid_ok SC fit /\ bounds_coords fit sp bnds) ->
  kd_tree_make alg it m fuel sp stop bnds ru = Ok tree ->
  length (kd_tree_save little it tc pads tree)
  = 16 + length (sp_pts sp) * isz + 2 * sp_sdim sp * s
    + leaf_count (kd_root (kt_data tree)) * (1 + 2 * isz)
    + (leaf_count (kd_root (kt_data tree)) - 1)
      * (1 + int_and_scalars (match m_cat m with Euclidean => 2 | Topological => 4 end) s)
  /\ (ru <> midpoint_max_side ->
      length (kd_tree_save little it tc pads tree)
      <= 16 + length (sp_pts sp) * isz + 2 * sp_sdim sp * s
         + length (sp_pts sp) * (2 + 2 * isz + int_and_scalars (match m_cat m with Euclidean => 2 | Topological => 4 end) s)).
Proof.
  intros HM H. apply kd_tree_make_inv in H as (data & -> & H). unfold kd_tree_save. cbn [kt_data kt_metric].
  pose proof (data_size pads (m_cat m) fuel stop bnds ru data HM H) as E. rewrite E.
  pose proof (leaves_branches (kd_root data)) as LB. split; [nia|].
  intros Hru. destruct (shape_count fit OL sp WF OKS alg SL (m_cat m) it fuel stop bnds ru data H Hru) as [L _].
  set (w := int_and_scalars _ _) in *. replace (branch_count (kd_root data)) with (leaf_count (kd_root data) - 1) by lia.
  assert (leaf_count (kd_root data) * (2 + 2 * isz + w) <= length (sp_pts sp) * (2 + 2 * isz + w)) by (apply Nat.mul_le_mono_r; auto).
  nia.
Qed.
End Files.
