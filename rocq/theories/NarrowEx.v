(** Distances modulo the width of a narrow type, and the examples about them. *)
From Coq Require Import List ZArith QArith Bool Arith Lia.
From Verif Require Import Base ModelBox ModelBuild ModelSearch ModelInt ModelNarrow Spec SpecInt SpecNarrow Lemmas
  Instances BuildThms IntThms IntEx NarrowThms Examples.
Import ListNotations.
Local Open Scope nat_scope.

Section Modulo.
Variables (sgn : bool) (bits : Z) (iovf : Z -> Z).
Hypothesis Hbits : (2 <= bits <= 16)%Z.
Local Notation lo := (narrow_lo sgn bits).
Local Notation hi := (narrow_hi sgn bits).
Local Notation conv := (narrow_conv sgn bits).
Local Notation M := (2 ^ bits)%Z.

Lemma pow_range : (4 <= M <= 65536 /\ M = 2 * 2 ^ (bits - 1))%Z.
Proof.
  split; [split|].
  - change 4%Z with (2 ^ 2)%Z. apply Z.pow_le_mono_r; lia.
  - change 65536%Z with (2 ^ 16)%Z. apply Z.pow_le_mono_r; lia.
  - replace bits with (Z.succ (bits - 1)) at 1 by lia. rewrite Z.pow_succ_r by lia. reflexivity.
Qed.

Lemma conv_range x : (lo <= conv x <= hi)%Z.
Proof.
  pose proof pow_range as (H1 & H2). unfold narrow_lo, narrow_hi, narrow_conv, wrap_signed.
  destruct sgn.
  - pose proof (Z.mod_pos_bound (x + 2 ^ (bits - 1)) M ltac:(lia)). lia.
  - pose proof (Z.mod_pos_bound x M ltac:(lia)). lia.
Qed.

Lemma value_range : (- 65536 <= lo <= 0 /\ 0 <= hi <= 65535)%Z.
Proof. pose proof pow_range. unfold narrow_lo, narrow_hi. destruct sgn; lia. Qed.

Lemma conv_mod x : (conv x mod M = x mod M)%Z.
Proof.
  pose proof pow_range as (H1 & H2). unfold narrow_conv, wrap_signed. destruct sgn.
  - rewrite Zminus_mod_idemp_l. f_equal. lia.
  - apply Z.mod_mod. lia.
Qed.

Lemma narrow_modulo q p : length q = length p ->
  (forall k, k < length q -> (- 46340 <= nth k q 0 - nth k p 0 <= 46340)%Z) ->
  (m_dist (narrow_metric_of sgn bits iovf L2Squared) q p mod M = sq_dist q p mod M)%Z
  /\ int_value lo hi (m_dist (narrow_metric_of sgn bits iovf L2Squared) q p).
Proof.
  intros L H. unfold narrow_metric_of. cbn [narrow_metric m_dist]. unfold narrow_sum.
  pose proof pow_range as (H1 & H2). pose proof value_range as V.
  assert (G : forall q p acc, length q = length p ->
    (forall k, k < length q -> (- 46340 <= nth k q 0 - nth k p 0 <= 46340)%Z) -> (lo <= acc <= hi)%Z ->
    let r := fold_left (fun d '(x, y) => conv (i_add iovf d (conv (i_mul iovf (i_sub iovf x y) (i_sub iovf x y)))))
               (combine q p) acc in
    (r mod M = (acc + sq_dist q p) mod M)%Z /\ (lo <= r <= hi)%Z).
  { clear q p L H. induction q as [|x q IH]; intros [|y p] acc L H A; try discriminate; cbv zeta.
    - cbn [combine fold_left sq_dist]. rewrite Z.add_0_r. split; [reflexivity|exact A].
    - cbn [combine fold_left sq_dist]. injection L as L.
      pose proof (H 0 ltac:(cbn; lia)) as H0. cbn [nth] in H0.
      assert (E : i_mul iovf (i_sub iovf x y) (i_sub iovf x y) = ((x - y) * (x - y))%Z).
      { pose proof (square_le (x - y) 46340 ltac:(lia)).
        unfold i_mul, i_sub. cbn [s_sub s_mul Signed Int_scalar].
        rewrite (fit_in _ _ iovf (x - y)) by (change (2 ^ (32 - 1))%Z with 2147483648%Z; lia).
        apply fit_in. change (2 ^ (32 - 1))%Z with 2147483648%Z. lia. }
      rewrite E. pose proof (conv_range ((x - y) * (x - y))%Z) as R.
      assert (E2 : i_add iovf acc (conv ((x - y) * (x - y))) = (acc + conv ((x - y) * (x - y)))%Z).
      { unfold i_add. cbn [s_add Signed Int_scalar]. apply fit_in. change (2 ^ (32 - 1))%Z with 2147483648%Z. lia. }
      rewrite E2. destruct (IH p (conv (acc + conv ((x - y) * (x - y))))%Z L) as [I1 I2].
      + intros k Hk. exact (H (S k) ltac:(cbn; lia)).
      + apply conv_range.
      + split; [|exact I2]. rewrite I1.
        rewrite <- Zplus_mod_idemp_l, conv_mod, Zplus_mod_idemp_l.
        rewrite <- Z.add_assoc, (Z.add_comm acc), <- !Z.add_assoc.
        rewrite <- Zplus_mod_idemp_l, conv_mod, Zplus_mod_idemp_l. f_equal. lia. }
  destruct (G q p 0%Z L H ltac:(lia)) as [A B]. split; [exact A|exact B].
Qed.
End Modulo.

(** 16-bit unsigned coordinates far apart: the square overflows an int. *)
Lemma narrow_undefined z : (0 <= z < 65536)%Z ->
  exists iovf, m_dist (narrow_metric_of false 16 iovf L2Squared) [0]%Z [65535]%Z = z.
Proof.
  intros Hz. exists (fun _ => z).
  unfold narrow_metric_of. cbn [narrow_metric m_dist]. unfold narrow_sum. cbn [combine fold_left].
  replace (i_sub (fun _ => z) 0 65535) with (-65535)%Z by reflexivity.
  replace (i_mul (fun _ => z) (-65535) (-65535)) with z by reflexivity.
  assert (C : narrow_conv false 16 z = z) by (unfold narrow_conv; apply Z.mod_small; change (2 ^ 16)%Z with 65536%Z; lia).
  rewrite C. replace (i_add (fun _ => z) 0 z) with z; [exact C|].
  unfold i_add. cbn [s_add Signed Int_scalar]. rewrite Z.add_0_l. symmetry. apply fit_in.
  change (2 ^ (32 - 1))%Z with 2147483648%Z. lia.
Qed.

(** ** Examples *)
Definition id_ovf (x : Z) : Z := x.
Definition U8 : Scalar Z := Narrow false 8.
Definition u8_l2 : metric Z := narrow_metric_of false 8 id_ovf L2Squared.
Definition i16_l1 : metric Z := narrow_metric_of true 16 id_ovf L1.

(** 8-bit points high in the range: sums of coordinates exceed the type. *)
Definition high_points : space Z := Space 1 [[241]; [245]; [250]; [255]]%Z.
Definition wide_points : space Z := Space 2 [[-8000; 7000]; [-7500; -8000]; [8000; 8000]; [12; -5]; [30; 6]]%Z.
Definition wrap_points : space Z := Space 1 [[0]; [17]]%Z.

Lemma high_input q : (241 <= q <= 255)%Z -> narrow_input false 8 241 255 L2Squared high_points bounds_from_space [q].
Proof.
  intros Hq. constructor; cbn; try lia.
  - split; cbn; [lia|repeat constructor].
  - unfold all_coords, high_points, int_value. cbn. repeat constructor; lia.
  - unfold int_value. repeat constructor; lia.
Qed.

Lemma wide_input : narrow_input true 16 (-8000) 8000 L1 wide_points bounds_from_space [-8000; 8000]%Z.
Proof.
  constructor; cbn; try lia.
  - split; cbn; [lia|repeat constructor].
  - unfold all_coords, wide_points, int_value. cbn. repeat constructor; lia.
  - unfold int_value. repeat constructor; lia.
Qed.

(** Squared distances of 256 are stored as 0. *)
Lemma narrow_refuted : ~ (forall (sp : space Z) (alg : std_algos), std_laws alg ->
  forall (it : index_type) (fuel : nat) (stop : stop_condition) (ru : rule) (t : kd_tree_data Euclidean Z) (q : list Z),
  wf_space sp -> all_coords (int_value 0 20) sp -> length q = sp_sdim sp -> Forall (int_value 0 20) q ->
  ru <> midpoint_max_side ->
  @kd_tree_make Z (Narrow false 8) alg it (narrow_metric_of false 8 id_ovf L2Squared) fuel sp stop bounds_from_space ru
    = Ok (KdTree sp (narrow_metric_of false 8 id_ovf L2Squared) t) ->
  forall nn0, exists i d,
    search_nn_narrow false 8 id_ovf (narrow_metric_of false 8 id_ovf L2Squared) sp t q nn0 = Ok (Neighbor i d)
    /\ forall j, j < npts sp -> (sq_dist q (nth i (sp_pts sp) []) <= sq_dist q (nth j (sp_pts sp) []))%Z).
Proof.
  intros H.
  destruct (@build Z U8 Euclidean std_example it_int 9 wrap_points (max_leaf_size 1) bounds_from_space median_max_side)
    as [data| |] eqn:E; try (vm_compute in E; discriminate).
  specialize (H wrap_points std_example std_example_laws it_int 9 (max_leaf_size 1) median_max_side data [16]%Z).
  destruct H with (nn0 := Neighbor 9 0%Z) as (i & d & R & X).
  - split; cbn; [lia|repeat constructor].
  - unfold all_coords, wrap_points, int_value. cbn. repeat constructor; lia.
  - reflexivity.
  - unfold int_value. repeat constructor; lia.
  - discriminate.
  - unfold kd_tree_make. change (m_cat (narrow_metric_of false 8 id_ovf L2Squared)) with Euclidean.
    unfold U8 in E. rewrite E. reflexivity.
  - vm_compute in E. injection E as <-. vm_compute in R. injection R as <- <-.
    specialize (X 1 ltac:(cbn; lia)). vm_compute in X. apply X. reflexivity.
Qed.
