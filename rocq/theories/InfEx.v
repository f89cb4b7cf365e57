(** Concrete points with infinite coordinates, and with NaN. *)
From Coq Require Import List ZArith Reals Bool Arith Permutation Lia Lra.
From Flocq Require Import Core.Core IEEE754.BinarySingleNaN.
From Verif Require Import Base ModelBox ModelBuild ModelSearch Spec Instances BuildThms
  Floats FloatThms FloatEx Examples SpecRound SpecInf.
Import ListNotations.
Local Open Scope R_scope.

Definition inf : double := B754_infinity false.
Definition ninf : double := B754_infinity true.
Definition nan : double := B754_nan.

(** Checks. *)
Definition number_b (x : double) : bool := negb (is_nan x).
Lemma numbers_check (ll : list (list double)) : forallb (forallb number_b) ll = true ->
  Forall (Forall (number 53 1024)) ll.
Proof.
  intros H. apply Forall_forall. intros p Hp. apply Forall_forall. intros x Hx.
  rewrite forallb_forall in H. specialize (H p Hp). rewrite forallb_forall in H. specialize (H x Hx).
  unfold number. unfold number_b in H. destruct (is_nan x); auto; discriminate.
Qed.
Definition below_or_inf_b (e : Z) (x : double) : bool :=
  (is_finite x && Bleb (Babs x) (f64 1 e)) || match x with B754_infinity _ => true | _ => false end.
Lemma below_or_inf_check e (ll : list (list double)) : (-1074 <= e <= 900)%Z ->
  forallb (forallb (below_or_inf_b e)) ll = true -> Forall (Forall (below_or_inf 53 1024 e)) ll.
Proof.
  intros He H. apply Forall_forall. intros p Hp. apply Forall_forall. intros x Hx.
  rewrite forallb_forall in H. specialize (H p Hp). rewrite forallb_forall in H. specialize (H x Hx).
  apply orb_true_iff in H as [H|H]; [left; apply below_f64; auto|].
  right. destruct x as [|s| |]; try discriminate. exists s. reflexivity.
Qed.

(** Five points in the plane, two of them with an infinite coordinate. *)
Definition ix_points : list (list double) :=
  [[f64 0 0; f64 0 0]; [inf; f64 2 0]; [f64 3 0; f64 1 0]; [f64 5 0; ninf]; [f64 6 0; f64 4 0]].
Definition ix_sp : space double := Space 2 ix_points.
Definition ix_q : list double := [f64 4 0; f64 1 0].

Lemma ix_input em : em = L1 \/ em = L2Squared -> inf_input 53 1024 em 4 ix_sp ix_q.
Proof.
  intros Hem. constructor; [auto|..].
  - split; [vm_compute; discriminate|reflexivity].
  - cbn; lia.
  - apply fit_small; auto; cbn; lia.
  - apply wf_space_check. reflexivity.
  - apply below_or_inf_check; [lia|]. vm_compute. reflexivity.
  - reflexivity.
  - assert (A : Forall (Forall (below 53 1024 4)) [ix_q]) by (apply below_all; [lia|vm_compute; reflexivity]).
    inversion A; auto.
Qed.
Lemma ix_finite : finite_points 53 1024 ix_sp = [0; 2; 4]%nat. Proof. vm_compute. reflexivity. Qed.
Lemma ix_numbers : all_coords (number 53 1024) ix_sp.
Proof. apply numbers_check. vm_compute. reflexivity. Qed.

(** Infinite in the second coordinate only. *)
Definition iy_sp : space double :=
  Space 2 [[f64 0 0; inf]; [f64 1 0; inf]; [f64 3 0; ninf]; [f64 5 0; f64 1 0]].
Lemma iy_numbers : all_coords (number 53 1024) iy_sp.
Proof. apply numbers_check. vm_compute. reflexivity. Qed.
Lemma iy_first : coords_at 53 1024 (below 53 1024 (1024 - 2)) 0 iy_sp bounds_from_space.
Proof.
  split; [|exact I].
  assert (K : Forall (Forall (below 53 1024 4)) [[f64 0 0; f64 1 0; f64 3 0; f64 5 0]])
    by (apply below_all; [lia|vm_compute; reflexivity]).
  inversion K as [|a l K1 _]; subst. rewrite Forall_forall in K1.
  assert (W : forall x, In x [f64 0 0; f64 1 0; f64 3 0; f64 5 0] -> below 53 1024 (1024 - 2) x).
  { intros x Hx. destruct (K1 x Hx) as [A B]. split; auto. eapply Rle_trans; [exact B|]. apply bpow_le. lia. }
  intros p Hp. cbn [iy_sp sp_pts] in Hp. destruct Hp as [<-|[<-|[<-|[<-|[]]]]]; cbn [nth]; apply W; cbn [In]; auto.
Qed.

(** Three points at infinity on a line. *)
Definition i3_sp : space double := Space 1 [[inf]; [inf]; [inf]].
Lemma i3_ub : @kd_tree_make double F64 std_example it_int (@metric_l2_squared double F64) 9 i3_sp (max_leaf_size 1)
  bounds_from_space sliding_midpoint_max_side = Ub UbUninit.
Proof. vm_compute. reflexivity. Qed.

(** Two points without a coordinate on a line. *)
Definition nan2_sp : space double := Space 1 [[nan]; [nan]].
Lemma nan2_ub alg fuel ru : (1 <= fuel)%nat ->
  @kd_tree_make double F64 alg it_int (@metric_l2_squared double F64) fuel nan2_sp (max_leaf_size 1) bounds_from_space ru
  = Ub UbUninit.
Proof. intros H. destruct fuel; [lia|]. destruct ru; vm_compute; reflexivity. Qed.

(** A point without a coordinate among others. *)
Definition nan5_sp : space double := Space 1 [[f64 1 0]; [f64 5 0]; [nan]; [f64 0 0]; [f64 5 (-1)]].
Definition nan5_q : list double := [f64 9 (-2)].

(** Statements that do not hold. *)
Lemma c143_build_refutation :
  ~ (forall sp : space double, wf_space sp -> sp_pts sp <> [] -> all_coords (number 53 1024) sp ->
     forall alg : std_algos, std_laws alg ->
     exists fuel tree, @kd_tree_make double F64 alg it_int (@metric_l2_squared double F64) fuel sp (max_leaf_size 1)
       bounds_from_space sliding_midpoint_max_side = Ok tree).
Proof.
  intros H. destruct (H i3_sp) with (alg := std_example) as (fuel & tree & E).
  - apply wf_space_check. reflexivity.
  - discriminate.
  - apply numbers_check. vm_compute. reflexivity.
  - exact std_example_laws.
  - destruct fuel as [|[|[|fuel]]]; vm_compute in E; discriminate.
Qed.

Lemma c143_nan_build_refutation :
  ~ (forall sp : space double, wf_space sp -> sp_pts sp <> [] ->
     forall alg : std_algos, std_laws alg -> forall ru : rule,
     exists fuel tree, @kd_tree_make double F64 alg it_int (@metric_l2_squared double F64) fuel sp (max_leaf_size 1)
       bounds_from_space ru = Ok tree).
Proof.
  intros H. destruct (H nan2_sp) with (alg := std_example) (ru := median_max_side) as (fuel & tree & E).
  - apply wf_space_check. reflexivity.
  - discriminate.
  - exact std_example_laws.
  - destruct fuel as [|fuel]; [vm_compute in E; discriminate|].
    rewrite nan2_ub in E by lia. discriminate.
Qed.

Definition nn_index_of (r : res (neighbor double)) : option nat :=
  match r with Ok x => Some (n_index x) | _ => None end.

Lemma c143_nan_refutation :
  ~ (forall (sp : space double) (q : list double), wf_space sp -> length q = sp_sdim sp -> Forall (below 53 1024 4) q ->
     (forall i, In i (finite_points 53 1024 sp) -> Forall (below 53 1024 4) (nth i (sp_pts sp) [])) ->
     forall alg : std_algos, std_laws alg ->
     forall (it : index_type) (fuel : nat) (stop : stop_condition) (ru : rule) (tree : kd_tree double),
     ru <> midpoint_max_side ->
     @kd_tree_make double F64 alg it (@metric_l1 double F64) fuel sp stop bounds_from_space ru = Ok tree ->
     forall (nn0 x : neighbor double), @search_nn double F64 tree q nn0 = Ok x ->
     nearest_among (finite_points 53 1024 sp) (computed 53 1024 prec_gt_53 prec_lt_1024 L1 sp q) 2 (n_index x)).
Proof.
  intros H.
  destruct (make_exists (@metric_l1 double F64) std_example it_int 9 nan5_sp (max_leaf_size 3) bounds_from_space
    median_max_side (fun d => match nn_index_of (@search_nn double F64 (KdTree nan5_sp (@metric_l1 double F64) d) nan5_q (Neighbor 9 (f64 0 0)))
      with Some 0%nat => true | _ => false end)) as (data & EM & K); [vm_compute; reflexivity|].
  destruct (@search_nn double F64 _ _ _) as [x| |] eqn:ES in K; try discriminate. cbn [nn_index_of] in K.
  destruct (n_index x) eqn:EX; [|discriminate].
  assert (HN : nearest_among (finite_points 53 1024 nan5_sp) (computed 53 1024 prec_gt_53 prec_lt_1024 L1 nan5_sp nan5_q) 2 (n_index x)).
  { apply (H nan5_sp nan5_q) with (alg := std_example) (it := it_int) (fuel := 9%nat) (stop := max_leaf_size 3)
      (ru := median_max_side) (tree := KdTree nan5_sp (@metric_l1 double F64) data) (nn0 := Neighbor 9%nat (f64 0 0)); auto.
    - apply wf_space_check. reflexivity.
    - assert (A : Forall (Forall (below 53 1024 4)) [nan5_q]) by (apply below_all; [lia|vm_compute; reflexivity]).
      inversion A; auto.
    - assert (A : Forall (Forall (below 53 1024 4)) [[f64 1 0]; [f64 5 0]; [f64 0 0]; [f64 5 (-1)]])
        by (apply below_all; [lia|vm_compute; reflexivity]).
      intros i Hi. rewrite Forall_forall in A.
      assert (EF : finite_points 53 1024 nan5_sp = [0; 1; 3; 4]%nat) by (vm_compute; reflexivity).
      rewrite EF in Hi. destruct Hi as [<-|[<-|[<-|[<-|[]]]]]; apply A; cbn [nth nan5_sp sp_pts In]; auto.
    - exact std_example_laws.
    - discriminate. }
  destruct HN as [_ HN]. rewrite EX in HN. specialize (HN 4%nat).
  assert (C0 : computed 53 1024 prec_gt_53 prec_lt_1024 L1 nan5_sp nan5_q 0 = B2R (f64 5 (-2))).
  { unfold computed. f_equal. apply B2SF_inj. vm_compute. reflexivity. }
  assert (C4 : computed 53 1024 prec_gt_53 prec_lt_1024 L1 nan5_sp nan5_q 4 = B2R (f64 1 (-2))).
  { unfold computed. f_equal. apply B2SF_inj. vm_compute. reflexivity. }
  rewrite C0, C4 in HN.
  destruct (f64_R 5 (-2)) as [_ E5]; [reflexivity|lia|lia|].
  destruct (f64_R 1 (-2)) as [_ E1]; [reflexivity|lia|lia|].
  rewrite E5, E1 in HN. pose proof (bpow_gt_0 radix2 (-2)).
  assert (HI : In 4%nat (finite_points 53 1024 nan5_sp)) by (vm_compute; tauto).
  specialize (HN HI). lra.
Qed.

(** One point at a finite place, two at infinity. *)
Definition i1_sp : space double := Space 2 [[f64 3 0; f64 1 0]; [inf; f64 2 0]; [f64 5 0; ninf]].

Definition neighbors_are (r : res (list (neighbor double))) (l : list (nat * double)) : bool :=
  match r with
  | Ok out => (length out =? length l)%nat
      && forallb (fun '(x, (i, d)) => (n_index x =? i)%nat && match B2SF (n_distance x), B2SF d with
           | SpecFloat.S754_zero a, SpecFloat.S754_zero b => Bool.eqb a b
           | SpecFloat.S754_finite a m z, SpecFloat.S754_finite a' m' z' =>
               Bool.eqb a a' && Pos.eqb m m' && Z.eqb z z'
           | _, _ => false end) (combine out l)
  | _ => false
  end.
Lemma neighbors_are_eq r l : neighbors_are r l = true -> r = Ok (map (fun '(i, d) => Neighbor i d) l).
Proof.
  destruct r as [out| |]; try discriminate. intros H. cbn [neighbors_are] in H. f_equal.
  apply andb_true_iff in H as [HL H]. apply Nat.eqb_eq in HL.
  revert l HL H. induction out as [|[j x] out IH]; intros [|[i d] l] HL H; cbn [length] in HL; try discriminate; auto.
  cbn [combine forallb] in H. apply andb_true_iff in H as [H1 H2]. apply andb_true_iff in H1 as [H0 H1].
  cbn [n_index n_distance] in *. cbn [map]. f_equal; [|apply IH; auto].
  apply Nat.eqb_eq in H0. subst j. f_equal. apply B2SF_inj.
  destruct (B2SF x), (B2SF d); try discriminate.
  - apply eqb_prop in H1. congruence.
  - apply andb_true_iff in H1 as [H1 A3]. apply andb_true_iff in H1 as [A1 A2].
    apply eqb_prop in A1. apply Pos.eqb_eq in A2. apply Z.eqb_eq in A3. congruence.
Qed.

Lemma c143_knn_refutation :
  ~ (forall em e (sp : space double) q, inf_input 53 1024 em e sp q ->
     forall alg : std_algos, std_laws alg ->
     forall (it : index_type) (fuel : nat) (stop : stop_condition) (ru : rule) (tree : kd_tree double),
     ru <> midpoint_max_side ->
     @kd_tree_make double F64 alg it (@metric_of double F64 em) fuel sp stop bounds_from_space ru = Ok tree ->
     forall (k : nat) (out : list (neighbor double)), (0 < k)%nat -> @search_knn double F64 tree q k [] = Ok out ->
     NoDup (map n_index out)
     /\ forall x, In x out -> @m_dist double (@metric_of double F64 em) q (nth (n_index x) (sp_pts sp) []) = n_distance x).
Proof.
  intros H.
  destruct (make_exists (@metric_l1 double F64) std_example it_int 9 i1_sp (max_leaf_size 1) bounds_from_space
    sliding_midpoint_max_side (fun d => neighbors_are
      (@search_knn double F64 (KdTree i1_sp (@metric_l1 double F64) d) ix_q 3 [])
      [(0%nat, f64 1 0); (0%nat, f64 0 0); (0%nat, @s_max double F64)])) as (data & EM & K); [vm_compute; reflexivity|].
  apply neighbors_are_eq in K. cbn [map] in K.
  destruct (H L1 4%Z i1_sp ix_q) with (alg := std_example) (it := it_int) (fuel := 9%nat) (stop := max_leaf_size 1)
    (ru := sliding_midpoint_max_side) (tree := KdTree i1_sp (@metric_l1 double F64) data) (k := 3%nat)
    (out := [Neighbor 0%nat (f64 1 0); Neighbor 0%nat (f64 0 0); Neighbor 0%nat (@s_max double F64)]) as [ND _]; auto.
  - constructor; [auto|..].
    + split; [vm_compute; discriminate|reflexivity].
    + cbn; lia.
    + apply fit_small; auto; cbn; lia.
    + apply wf_space_check. reflexivity.
    + apply below_or_inf_check; [lia|]. vm_compute. reflexivity.
    + reflexivity.
    + assert (A : Forall (Forall (below 53 1024 4)) [ix_q]) by (apply below_all; [lia|vm_compute; reflexivity]).
      inversion A; auto.
  - exact std_example_laws.
  - discriminate.
  - cbn [map n_index] in ND. inversion ND as [|a l X _]; subst. apply X. left. reflexivity.
Qed.
