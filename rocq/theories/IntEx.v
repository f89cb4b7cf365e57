(** Approximate searches with integers, and the examples and counterexamples
    about integer scalars. *)
From Coq Require Import List ZArith QArith Qabs Bool Arith Permutation Sorted Lia.
From Verif Require Import Base ModelBox ModelBuild ModelSearch ModelInt Spec SpecInt Lemmas Instances SearchThms SafeThms
  IntThms IntTop Examples.
Import ListNotations.
Local Open Scope nat_scope.

(** * Approximate searches *)
Section Approximate.
Variables (lo hi : Z) (ovf : Z -> Z).
Hypotheses (Hlo : (lo <= 0)%Z) (Hhi : (1 <= hi)%Z).
Local Notation ZM := (Int_scalar lo hi ovf).
Variables (sp : space Z) (WF : wf_space sp) (AC : all_coords (int_value lo hi) sp).
Variables (alg : std_algos) (SL : std_laws alg).
Variables (m : metric Z) (it : index_type) (fuel : nat) (stop : stop_condition) (bnds : start_bounds Z) (ru : rule)
  (tree : kd_tree Z).
Hypothesis HT : @kd_tree_make Z ZM alg it m fuel sp stop bnds ru = Ok tree.
Hypothesis HB : bounds_coords (int_value lo hi) sp bnds.
Hypothesis HC : m_cat m = Euclidean.
Variables (q : list Z) (LQ : length q = sp_sdim sp) (e : Z) (He : (2 <= e)%Z).

Lemma e_inv_zero : @s_div Z ZM (@s_one Z ZM) e = 0%Z.
Proof.
  cbn [s_div s_one Int_scalar]. rewrite Z.quot_small by lia. apply fit_in. lia.
Qed.

Lemma times_zero x : @s_mul Z ZM x 0%Z = 0%Z.
Proof. cbn [s_mul Int_scalar]. rewrite Z.mul_0_r. apply fit_in. lia. Qed.

Lemma visits V (vis : visitor Z V) v0 : exists tr rest, Permutation (tr ++ rest) (seq 0 (length (sp_pts sp)))
  /\ @search_nearest Z ZM V tree vis q v0
     = Ok (fold_left (fun st i => v_visit vis i (m_dist m q (nth i (sp_pts sp) [])) st) tr v0).
Proof.
  assert (H0 : (0 <= hi)%Z) by lia.
  apply (@search_nearest_total Z ZM (int_value lo hi) (int_ord lo hi ovf Hlo H0) sp WF AC alg SL m it fuel stop bnds ru tree HT); auto.
  - intros _. split; auto. apply int_mid_ok; lia.
  - rewrite HC. discriminate.
Qed.

Lemma approximate_radius_empty r sort : @search_radius_approx Z ZM alg tree q r e sort = Ok [].
Proof.
  unfold search_radius_approx.
  destruct (visits _ (@visitor_approximate_radius Z ZM e r) []) as (tr & rest & P & ->). cbn [bind].
  assert (G : forall l, fold_left (fun st i => v_visit (@visitor_approximate_radius Z ZM e r) i
      (m_dist m q (nth i (sp_pts sp) [])) st) l [] = []).
  { assert (ST : forall i d, v_visit (@visitor_approximate_radius Z ZM e r) i d [] = []).
    { intros i d. unfold visitor_approximate_radius. cbn [v_visit]. rewrite e_inv_zero, !times_zero.
      cbn [s_ltb Int_scalar]. rewrite Z.ltb_irrefl. reflexivity. }
    induction l as [|i l IH]; cbn [fold_left]; auto. rewrite ST. exact IH. }
  rewrite G. destruct sort; auto. f_equal.
  assert (X : Permutation (std_sort alg _ (@neighbor_lt Z ZM) []) []).
  { apply (sl_sort_perm _ SL). constructor; cbn; intros; contradiction. }
  symmetry in X. apply Permutation_nil in X. exact X.
Qed.

Lemma approximate_nn_zero nn0 : exists r, @search_nn_approx Z ZM tree q e nn0 = Ok r
  /\ (r = Neighbor (n_index nn0) hi \/ (n_index r < length (sp_pts sp) /\ n_distance r = 0%Z)).
Proof.
  unfold search_nn_approx.
  destruct (visits _ (@visitor_approximate_nn Z ZM e) (@visitor_nn_init Z ZM nn0)) as (tr & rest & P & ->).
  eexists. split; [reflexivity|].
  assert (Itr : forall i, In i tr -> i < length (sp_pts sp)).
  { intros i Hi. apply In_seq0. eapply Permutation_in; [exact P|]. apply in_or_app; auto. }
  clear P. revert Itr.
  assert (G : forall l s, (forall i, In i l -> i < length (sp_pts sp)) ->
    (s = Neighbor (n_index nn0) hi \/ (n_index s < length (sp_pts sp) /\ n_distance s = 0%Z)) ->
    let r := fold_left (fun st i => v_visit (@visitor_approximate_nn Z ZM e) i (m_dist m q (nth i (sp_pts sp) [])) st) l s in
    r = Neighbor (n_index nn0) hi \/ (n_index r < length (sp_pts sp) /\ n_distance r = 0%Z)).
  { induction l as [|i l IH]; intros s Hl Hs; cbn [fold_left]; auto.
    apply IH; [intros; apply Hl; right; auto|]. unfold visitor_approximate_nn. cbn [v_visit].
    rewrite e_inv_zero, times_zero. destruct (s_ltb _ _); [right|exact Hs]. cbn [n_index n_distance].
    split; [apply Hl; left|]; reflexivity. }
  intros Itr. apply G; [exact Itr|]. left. reflexivity.
Qed.
End Approximate.

(** * Examples *)

(** The examples use 32-bit integers; overflow wraps around. *)
Definition I32 : Scalar Z := Signed 32 (wrap_signed 32).
Definition U32 : Scalar Z := Unsigned 32.

Definition int_points : space Z := Space 2 [[-3; 4]; [0; 0]; [10; -7]; [2; 2]; [2; 2]; [100; -100]]%Z.

Lemma int_points_tree : int_tree (- 2 ^ 31) (2 ^ 31 - 1) 100 L2Squared int_points bounds_from_space.
Proof.
  constructor.
  - split; [cbn; lia|repeat constructor].
  - repeat constructor; unfold int_within; lia.
  - exact I.
  - vm_compute. repeat split; discriminate.
Qed.

(** The nearest neighbour is right for all values lo..hi. *)
Definition int_search_statement (S : Scalar Z) (lo hi : Z) : Prop :=
  forall (sp : space Z) (alg : std_algos), std_laws alg ->
  forall (it : index_type) (fuel : nat) (stop : stop_condition) (ru : rule) (tree : kd_tree Z) (q : list Z),
  wf_space sp -> all_coords (int_value lo hi) sp -> length q = sp_sdim sp -> Forall (int_value lo hi) q ->
  @kd_tree_make Z S alg it (@metric_l2_squared Z S) fuel sp stop bounds_from_space ru = Ok tree ->
  forall nn0, exists i d, @search_nn Z S tree q nn0 = Ok (Neighbor i d) /\ i < npts sp
    /\ forall j, j < npts sp -> (sq_dist q (nth i (sp_pts sp) []) <= sq_dist q (nth j (sp_pts sp) []))%Z.

Definition far_points : space Z := Space 1 [[1]; [65536]]%Z.

Lemma overflow_refuted : ~ int_search_statement I32 (- 2 ^ 31) (2 ^ 31 - 1).
Proof.
  intros H.
  destruct (@build Z I32 Euclidean std_example it_int 9 far_points (max_leaf_size 2) bounds_from_space median_max_side)
    as [data| |] eqn:E; try (vm_compute in E; discriminate).
  specialize (H far_points std_example std_example_laws it_int 9 (max_leaf_size 2) median_max_side
    (KdTree far_points (@metric_l2_squared Z I32) data) [0]%Z).
  destruct H with (nn0 := Neighbor 0 0%Z) as (i & d & R & _ & N).
  - split; [cbn; lia|repeat constructor].
  - repeat constructor; unfold int_value; lia.
  - reflexivity.
  - repeat constructor; unfold int_value; lia.
  - apply (make_ok (S := I32)). exact E.
  - vm_compute in E. injection E as <-. vm_compute in R. injection R as <- <-.
    specialize (N 0 ltac:(cbn; lia)). vm_compute in N. apply N. reflexivity.
Qed.

Definition unsigned_points : space Z := Space 2 [[0; 0]; [0; 28]; [24; 0]; [30; 20]; [30; 28]]%Z.

Lemma unsigned_refuted : ~ int_search_statement U32 0 1000.
Proof.
  intros H.
  destruct (@build Z U32 Euclidean std_example it_int 9 unsigned_points (max_leaf_size 1) bounds_from_space median_max_side)
    as [data| |] eqn:E; try (vm_compute in E; discriminate).
  specialize (H unsigned_points std_example std_example_laws it_int 9 (max_leaf_size 1) median_max_side
    (KdTree unsigned_points (@metric_l2_squared Z U32) data) [30; 25]%Z).
  destruct H with (nn0 := Neighbor 0 0%Z) as (i & d & R & _ & N).
  - split; [cbn; lia|repeat constructor].
  - repeat constructor; unfold int_value; lia.
  - reflexivity.
  - repeat constructor; unfold int_value; lia.
  - apply (make_ok (S := U32)). exact E.
  - vm_compute in E. injection E as <-. vm_compute in R. injection R as <- <-.
    specialize (N 4 ltac:(cbn; lia)). vm_compute in N. apply N. reflexivity.
Qed.

Definition line_points : space Z := Space 1 [[1]; [5]; [10]]%Z.

Lemma unsigned_radius_refuted : ~ (forall (sp : space Z) (alg : std_algos), std_laws alg ->
  forall (it : index_type) (fuel : nat) (stop : stop_condition) (ru : rule) (tree : kd_tree Z) (q : list Z),
  wf_space sp -> all_coords (int_value 0 1000) sp -> length q = sp_sdim sp -> Forall (int_value 0 1000) q ->
  @kd_tree_make Z U32 alg it (@metric_l2_squared Z U32) fuel sp stop bounds_from_space ru = Ok tree ->
  forall r, (0 < r <= 1000)%Z -> exists l, @search_radius Z U32 alg tree q r false = Ok l
    /\ forall j, j < npts sp -> (sq_dist q (nth j (sp_pts sp) []) < r)%Z -> In j (map n_index l)).
Proof.
  intros H.
  destruct (@build Z U32 Euclidean std_example it_int 9 line_points (max_leaf_size 1) bounds_from_space median_max_side)
    as [data| |] eqn:E; try (vm_compute in E; discriminate).
  specialize (H line_points std_example std_example_laws it_int 9 (max_leaf_size 1) median_max_side
    (KdTree line_points (@metric_l2_squared Z U32) data) [10]%Z).
  destruct H with (r := 4%Z) as (l & R & N).
  - split; [cbn; lia|repeat constructor].
  - repeat constructor; unfold int_value; lia.
  - reflexivity.
  - repeat constructor; unfold int_value; lia.
  - apply (make_ok (S := U32)). exact E.
  - lia.
  - vm_compute in E. injection E as <-. vm_compute in R. injection R as <-.
    exact (N 2 ltac:(cbn; lia) ltac:(vm_compute; reflexivity)).
Qed.

Lemma approximate_refuted : ~ (forall (B : Z) (sp : space Z) (bnds : start_bounds Z),
  int_tree (- 2 ^ 31) (2 ^ 31 - 1) B L2Squared sp bnds ->
  forall alg : std_algos, std_laws alg ->
  forall (it : index_type) (fuel : nat) (stop : stop_condition) (ru : rule) (tree : kd_tree Z) (q : list Z),
  @kd_tree_make Z I32 alg it (@metric_l2_squared Z I32) fuel sp stop bnds ru = Ok tree ->
  int_query B sp q ->
  forall (e : Z) nn0, (1 <= e < 2 ^ 31)%Z ->
  exists i d, @search_nn_approx Z I32 tree q e nn0 = Ok (Neighbor i d) /\ i < npts sp
    /\ forall j, j < npts sp -> (sq_dist q (nth i (sp_pts sp) []) <= e * sq_dist q (nth j (sp_pts sp) []))%Z).
Proof.
  intros H.
  destruct (@build Z I32 Euclidean std_example it_int 9 int_points (max_leaf_size 6) bounds_from_space
    sliding_midpoint_max_side) as [data| |] eqn:E; try (vm_compute in E; discriminate).
  specialize (H 100%Z int_points bounds_from_space int_points_tree std_example std_example_laws it_int 9 (max_leaf_size 6)
    sliding_midpoint_max_side (KdTree int_points (@metric_l2_squared Z I32) data) [2; 1]%Z).
  destruct H with (e := 2%Z) (nn0 := Neighbor 9 0%Z) as (i & d & R & _ & N).
  - apply (make_ok (S := I32)). exact E.
  - split; [reflexivity|repeat constructor; unfold int_within; lia].
  - lia.
  - vm_compute in E. injection E as <-. vm_compute in R. injection R as <- <-.
    specialize (N 3 ltac:(cbn; lia)). vm_compute in N. apply N. reflexivity.
Qed.

Lemma two_coincide : at_most_coincide 2 (Space 1 [[3]; [3]; [8]]%Z).
Proof.
  intros l ND Hl HL. exists 0, 2.
  assert (A : forall i, i < 3 -> In i l).
  { intros i Hi. assert (I3 : incl (seq 0 3) l).
    { apply NoDup_length_incl; [exact ND| |intros x Hx; apply in_seq; specialize (Hl x Hx); cbn in Hl; lia].
      rewrite seq_length. lia. }
    apply I3, in_seq. lia. }
  split; [apply A; lia|]. split; [apply A; lia|]. cbn. discriminate.
Qed.

(** * Unsigned types: what is reported *)
Section UnsignedGenuine.
Variable (bits : Z).
Hypothesis Hbits : (2 <= bits)%Z.
Local Notation U := (Unsigned bits).
Local Notation top := (2 ^ bits - 1)%Z.
Variables (sp : space Z) (WF : wf_space sp) (AC : all_coords (int_value 0 top) sp).
Variables (alg : std_algos) (SL : std_laws alg).
Variables (it : index_type) (fuel : nat) (stop : stop_condition) (bnds : start_bounds Z) (ru : rule) (tree : kd_tree Z).
Hypothesis HT : @kd_tree_make Z U alg it (@metric_l2_squared Z U) fuel sp stop bnds ru = Ok tree.
Hypothesis HB : bounds_coords (int_value 0 top) sp bnds.
Variables (q : list Z) (LQ : length q = sp_sdim sp).

Lemma unsigned_nn nn0 : exists r, @search_nn Z U tree q nn0 = Ok r
  /\ (r = Neighbor (n_index nn0) top
      \/ (n_index r < npts sp /\ n_distance r = (sq_dist q (nth (n_index r) (sp_pts sp) []) mod 2 ^ bits)%Z)).
Proof.
  pose proof (pow_bits bits ltac:(lia)).
  destruct (@genuine_nn Z U (int_value 0 top) (unsigned_ord bits ltac:(lia)) sp WF AC alg SL (@metric_l2_squared Z U)
    it fuel stop bnds ru tree HT) with (q := q) (nn0 := nn0) as (r & R & G); auto.
  - intros _. split; auto. apply int_mid_ok; lia.
  - discriminate.
  - exists r. split; auto. destruct G as [G|[G1 G2]]; auto. right. split; auto.
    rewrite G2. apply unsigned_dist. lia.
Qed.

Lemma unsigned_radius r : exists l kept, @search_radius Z U alg tree q r false = Ok l
  /\ NoDup kept
  /\ (forall i, In i kept -> i < npts sp /\ (sq_dist q (nth i (sp_pts sp) []) mod 2 ^ bits < r)%Z)
  /\ l = map (fun i => Neighbor i (sq_dist q (nth i (sp_pts sp) []) mod 2 ^ bits)%Z) kept.
Proof.
  pose proof (pow_bits bits ltac:(lia)).
  destruct (@genuine_radius Z U (int_value 0 top) (unsigned_ord bits ltac:(lia)) sp WF AC alg SL (@metric_l2_squared Z U)
    it fuel stop bnds ru tree HT) with (q := q) (r := r) as (l & kept & R & ND & K & L); auto.
  - intros _. split; auto. apply int_mid_ok; lia.
  - discriminate.
  - exists l, kept. split; auto. split; auto. split.
    + intros i Hi. destruct (K i Hi) as [K1 K2]. split; auto. rewrite unsigned_dist in K2 by lia.
      apply Z.ltb_lt. exact K2.
    + rewrite L. apply map_ext. intros i. rewrite unsigned_dist by lia. reflexivity.
Qed.
End UnsignedGenuine.
