(** The number of leaves. *)
From Coq Require Import List ZArith QArith Bool Arith Permutation Lia.
From Verif Require Import Base ModelBox ModelBuild ModelSearch ModelSerial Spec SpecSerial SpecHeap SpecShape Lemmas Instances
  BuildProofs BuildOrder BuildShape BuildThms SerialThms ShapeThms ExtraThms Examples.
Import ListNotations.
Local Open Scope nat_scope.

Section Any.
Context {B : Type}.

Lemma levels_low (n : node B) : forall h, Forall (fun '(lv, _) => h <= lv) (leaf_levels h n).
Proof.
  induction n as [b e|br l IHl r IHr]; intros h; cbn; [constructor; auto|].
  apply Forall_app. split; (eapply Forall_impl; [|eauto]); intros [a b] K; cbn in K; lia.
Qed.
Lemma levels_some (n : node B) : forall h, leaf_levels h n <> [].
Proof.
  induction n as [b e|br l IHl r IHr]; intros h; cbn; [congruence|]. intros E.
  apply app_eq_nil in E as [E _]. apply (IHl _ E).
Qed.

Definition full (h d : nat) (p : nat * nat) : Prop :=
  let '(lv, len) := p in lv <= h + d /\ (lv < h + d -> len <= 1) /\ 1 <= len.

Lemma full_branch h d br (l r : node B) : Forall (full h d) (leaf_levels h (Branch br l r)) ->
  exists d', d = Datatypes.S d' /\ Forall (full (h + 1) d') (leaf_levels (h + 1) l)
    /\ Forall (full (h + 1) d') (leaf_levels (h + 1) r).
Proof.
  cbn. intros F. apply Forall_app in F as [Fl Fr]. destruct d as [|d].
  - exfalso. pose proof (levels_low l (h + 1)) as L. pose proof (levels_some l (h + 1)) as N.
    destruct (leaf_levels (h + 1) l) as [|[lv len] rest]; [congruence|].
    inversion L; inversion Fl; subst. unfold full in *. lia.
  - exists d. split; auto. split; (eapply Forall_impl; [|eassumption]); intros [a b]; unfold full; lia.
Qed.

Lemma full_points (n : node B) : forall h d, Forall (full h d) (leaf_levels h n) -> 1 <= node_points n.
Proof.
  induction n as [b e|br l IHl r IHr]; intros h d F.
  - cbn in *. inversion F; subst. unfold full in *. lia.
  - apply full_branch in F as (d' & -> & Fl & Fr). cbn. apply IHl in Fl. lia.
Qed.

Lemma leaves_ge (n : node B) : forall h d, Forall (full h d) (leaf_levels h n) ->
  Nat.min (d + 1) (node_points n) <= leaf_count n.
Proof.
  induction n as [b e|br l IHl r IHr]; intros h d F.
  - cbn in *. inversion F; subst. unfold full in *. destruct d; lia.
  - apply full_branch in F as (d' & -> & Fl & Fr). cbn [node_points leaf_count].
    pose proof (full_points _ _ _ Fl). pose proof (full_points _ _ _ Fr).
    apply IHl in Fl. apply IHr in Fr. lia.
Qed.

Lemma leaves_median (n : node B) : forall h d, Forall (full h d) (leaf_levels h n) ->
  every_branch (fun _ l r => node_points l <= node_points r <= node_points l + 1) n ->
  leaf_count n = Nat.min (2 ^ d) (node_points n).
Proof.
  induction n as [b e|br l IHl r IHr]; intros h d F E.
  - cbn in *. inversion F; subst. unfold full in *. destruct d; [change (2 ^ 0) with 1; lia|].
    pose proof (Nat.pow_nonzero 2 (Datatypes.S d) ltac:(lia)) as P. revert P. generalize (2 ^ Datatypes.S d). lia.
  - apply full_branch in F as (d' & -> & Fl & Fr). destruct E as (E0 & El & Er). cbn [node_points leaf_count].
    rewrite (IHl _ _ Fl El), (IHr _ _ Fr Er). cbn [Nat.pow]. generalize (2 ^ d'). lia.
Qed.
End Any.

Section Built.
Context {T : Type} {S : Scalar T} (ok : T -> Prop) (OL : ord_laws S ok).
Variables (sp : space T) (WF : wf_space sp) (OKS : all_coords ok sp).
Variables (alg : std_algos) (SL : std_laws alg).

Lemma depth_full c it fuel m bnds ru t : ru <> midpoint_max_side -> index_type_ok it -> (0 <= m <= it_max it)%Z ->
  build c alg it fuel sp (max_leaf_depth m) bnds ru = Ok t ->
  Forall (full 0 (Z.to_nat m)) (leaf_levels 0 (kd_root t)).
Proof.
  intros Hru Hi Hm HB. pose proof (build_leaf_depth sp alg c it fuel m bnds ru t Hi Hm HB) as F.
  apply (build_nonempty ok OL sp WF OKS alg SL) in HB as (NE & _); auto.
  rewrite Forall_forall in *. intros [lv len] I. apply F in I as K. apply NE in I. cbn. lia.
Qed.

Lemma ranges_leaves c it fuel stop bnds ru t : ru <> midpoint_max_side ->
  build c alg it fuel sp stop bnds ru = Ok t ->
  exists rs, leaf_ranges t = Ok rs /\ length rs = leaf_count (kd_root t).
Proof.
  intros Hru HB. apply (build_ranges_nonempty ok OL sp WF OKS alg SL) in HB as (rs & E & _ & _ & _ & M & _); auto.
  exists rs. split; auto. rewrite <- (leaf_levels_count (kd_root t) 0).
  rewrite <- (map_length (@length nat) rs), M. apply map_length.
Qed.

Lemma count_depth c it fuel m bnds ru t : ru <> midpoint_max_side -> index_type_ok it -> (0 <= m <= it_max it)%Z ->
  build c alg it fuel sp (max_leaf_depth m) bnds ru = Ok t ->
  exists rs, leaf_ranges t = Ok rs
    /\ Nat.min (Z.to_nat m + 1) (npts sp) <= length rs <= Nat.min (2 ^ Z.to_nat m) (npts sp)
    /\ (ru = median_max_side -> length rs = Nat.min (2 ^ Z.to_nat m) (npts sp)).
Proof.
  intros Hru Hi Hm HB. pose proof (depth_full _ _ _ _ _ _ _ Hru Hi Hm HB) as F.
  destruct (ranges_leaves _ _ _ _ _ _ _ Hru HB) as (rs & E & L). exists rs. split; auto. rewrite L.
  destruct (build_nonempty ok OL sp WF OKS alg SL _ _ _ _ _ _ _ Hru HB) as (_ & NP & _ & MB).
  change (length (sp_pts sp)) with (npts sp) in NP. rewrite <- NP.
  destruct (shape_height_depth sp alg _ _ _ _ _ _ _ Hi Hm HB) as [H1 _].
  pose proof (leaves_height (kd_root t)) as H2.
  pose proof (Nat.pow_le_mono_r 2 _ _ ltac:(lia) H1) as H3.
  destruct (shape_nodes ok OL sp WF OKS alg SL _ _ _ _ _ _ _ HB Hru) as (H4 & _).
  rewrite leaf_levels_count in H4. change (length (sp_pts sp)) with (npts sp) in H4; rewrite <- NP in H4.
  split; [split; [apply (leaves_ge _ 0); auto|]|].
  - apply Nat.min_glb; [lia|]. exact H4.
  - intros Hmed. apply (leaves_median _ 0); auto.
Qed.

Lemma count_size c it fuel m bnds ru t : ru <> midpoint_max_side -> index_type_ok it -> (0 < m <= it_max it)%Z ->
  build c alg it fuel sp (max_leaf_size m) bnds ru = Ok t ->
  exists rs, leaf_ranges t = Ok rs
    /\ (Z.of_nat (npts sp) <= m * Z.of_nat (length rs))%Z /\ length rs <= npts sp.
Proof.
  intros Hru Hi Hm HB.
  destruct (build_ranges_nonempty ok OL sp WF OKS alg SL _ _ _ _ _ _ _ Hru HB) as (rs & E & C & P & NE & _ & SZ).
  exists rs. split; auto. specialize (SZ m eq_refl Hi Hm).
  apply Permutation_length in P. rewrite seq_length, <- C in P. rewrite <- P. clear - NE SZ Hm.
  induction rs as [|r rs IH]; cbn [concat length]; [lia|].
  inversion NE as [|? ? N1 N2]; inversion SZ as [|? ? S1 S2]; subst. destruct (IH N2 S2) as [I1 I2].
  rewrite app_length. destruct r; [congruence|]. cbn [length] in *. split; [nia|lia].
Qed.
End Built.

(** Four points on a line; the last one is far from the others. *)
Definition leaf_sp : space Q := Space 1 [[0]; [1]; [2]; [100]]%Q.
Lemma leaf_sp_wf : wf_space leaf_sp.
Proof. split; [cbn; lia|repeat constructor]. Qed.
Lemma leaf_sp_ok : all_coords (fun _ => True) leaf_sp.
Proof. repeat constructor. Qed.
Lemma leaf_sp_good : all_coords (no_overflow qv) leaf_sp.
Proof.
  repeat (constructor; [repeat (constructor; [split; [split; vm_compute; discriminate|vm_compute; reflexivity]|]); constructor|]);
    constructor.
Qed.

(** What kd_tree_test.cpp:157-160 expects of the default rule (there for a depth of
    two and 100 points). *)
Definition full_tree_statement : Prop :=
  forall (T : Type) (S : Scalar T) (val : T -> Q), exact_laws S val ->
  forall sp : space T, wf_space sp -> all_coords (no_overflow val) sp ->
  forall alg : std_algos, std_laws alg ->
  forall (c : category) (it : index_type) (fuel : nat) (m : Z) (t : kd_tree_data c T) (rs : list (list nat)),
  index_type_ok it -> (0 <= m <= it_max it)%Z ->
  build c alg it fuel sp (max_leaf_depth m) bounds_from_space sliding_midpoint_max_side = Ok t ->
  2 ^ Z.to_nat m <= npts sp -> leaf_ranges t = Ok rs -> length rs = 2 ^ Z.to_nat m.

Lemma leaf_sp_it : index_type_ok it_int /\ (0 <= 2 <= it_max it_int)%Z.
Proof. split; [vm_compute; congruence|]. vm_compute. split; congruence. Qed.
Lemma leaf_sp_many : 2 ^ Z.to_nat 2 <= npts leaf_sp.
Proof. vm_compute. repeat constructor. Qed.
Lemma leaf_sp_tree : exists t : kd_tree_data Euclidean Q,
  build Euclidean std_example it_int 9 leaf_sp (max_leaf_depth 2) bounds_from_space sliding_midpoint_max_side = Ok t
  /\ leaf_ranges t = Ok [[0; 1]; [2]; [3]].
Proof. eexists. split; vm_compute; reflexivity. Qed.

Lemma full_tree_refuted : ~ full_tree_statement.
Proof.
  intros H. destruct leaf_sp_tree as (t & E & R). destruct leaf_sp_it as [I1 I2].
  pose proof (H Q QD qv QD_exact leaf_sp leaf_sp_wf leaf_sp_good std_example std_example_laws
    Euclidean it_int 9 2%Z t _ I1 I2 E leaf_sp_many R) as K.
  cbn in K. discriminate K.
Qed.
