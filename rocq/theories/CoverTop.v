(** The remaining statements about cover trees. *)
From Coq Require Import List ZArith QArith Qround Reals Bool Arith Permutation Sorted Lia Lqa Lra.
From Flocq Require Import IEEE754.BinarySingleNaN.
From Verif Require Import Base ModelBox ModelBuild ModelSearch Spec ModelCover SpecCover SpecReal Instances
  Floats Examples CoverThms CoverTerm CoverSearch CoverQuery CoverReal CoverEx.
Import ListNotations.
Local Open Scope nat_scope.

Lemma cover_every_point_once T (S : Scalar T) (cm : cmath T) alg shuffle :
  std_laws alg -> shuffles shuffle ->
  forall m fuel sp base t, cover_tree_make cm alg shuffle m fuel sp base = Ok t ->
  Permutation (stored (ct_root t)) (seq 0 (npts sp)).
Proof. intros SL SH m fuel sp base t HM. apply (cover_make_inv _ _ _ _ _ _ _ _ SL SH HM). Qed.

Lemma cover_no_ub T (S : Scalar T) (cm : cmath T) alg shuffle : std_laws alg -> shuffles shuffle ->
  forall (m : metric T) fuel sp base why, 0 < npts sp ->
  cover_tree_make cm alg shuffle m fuel sp base <> Ub why.
Proof. intros SL SH m fuel sp base why H0. apply cover_make_ok; auto. Qed.

Lemma cover_ends_exact T (S : Scalar T) val : exact_laws S val ->
  forall (cm : cmath T) alg shuffle, std_laws alg -> shuffles shuffle ->
  forall (m : metric T) sp base, 0 < npts sp ->
  exists fuel0 t, forall fuel, fuel0 <= fuel -> cover_tree_make cm alg shuffle m fuel sp base = Ok t.
Proof. intros EL cm alg shuffle SL SH m sp base H0. apply cover_make_ends; auto. apply (exact_counts_up val EL). Qed.

Lemma cover_ends_real mx (cm : cmath R) alg shuffle : std_laws alg -> shuffles shuffle ->
  forall (m : metric R) sp base, 0 < npts sp ->
  exists fuel0 t, forall fuel, fuel0 <= fuel -> @cover_tree_make R (R_scalar mx) cm alg shuffle m fuel sp base = Ok t.
Proof. intros SL SH m sp base H0. apply cover_make_ends; auto. apply R_counts_up. Qed.

Lemma c63_refutation : ~ (forall (cm : cmath double) alg shuffle,
  libm cm -> std_laws alg -> shuffles shuffle ->
  forall sp : space double, wf_space sp -> 0 < npts sp -> all_coords (finite 53 1024) sp ->
  exists fuel t,
    @cover_tree_make double F64 cm alg shuffle (@metric_l2 double F64 cm) fuel sp (f64 2 0) = Ok t).
Proof.
  intros H. destruct (H cx_libm std_example (fun l => l) cx_libm_ok std_example_laws id_shuffles cx_sp) as (fuel & t & E).
  - split; [cbn; lia|repeat constructor].
  - cbn. lia.
  - repeat constructor.
  - rewrite cx_diverges in E by exact cx_libm_ok. discriminate.
Qed.

Lemma c65_wrong : exists root, let t := CoverTree (Space 1 [[18]; [0]; [5]]%Q) metric_l2_squared root in
  cover_tree_make q_math std_example (fun l => l) metric_l2_squared 9 (Space 1 [[18]; [0]; [5]]%Q) 2%Q = Ok t
  /\ cover_search_nn std_example t [10]%Q (Neighbor 9 0%Q) = Ok (Neighbor 0 64%Q).
Proof.
  eexists. cbv zeta. split; [apply make_cover_ok; vm_compute; reflexivity|]. vm_compute. reflexivity.
Qed.

Lemma c65_refutation : ~ (forall (T : Type) (S : Scalar T) (val : T -> Q), exact_laws S val ->
  forall (cm : cmath T) alg shuffle, std_laws alg -> shuffles shuffle ->
  forall fuel sp base t (q : list T),
  cover_tree_make cm alg shuffle metric_l2_squared fuel sp base = Ok t ->
  usable val L2Squared sp bounds_from_space q -> distances_fit val L2Squared sp q ->
  forall nn0 : neighbor T,
  exists i d, cover_search_nn alg t q nn0 = Ok (Neighbor i d)
    /\ is_nearest (npts sp) (dist_to val L2Squared sp q) i).
Proof.
  intros H. destruct c65_wrong as (root & E & E2). cbv zeta in E, E2.
  destruct (H Q QD qv QD_exact q_math std_example (fun l => l) std_example_laws id_shuffles 9%nat _ _ _ [10%Q] E)
    with (nn0 := Neighbor 9 0%Q) as (i & d & E3 & I).
  - constructor; try exact Logic.I; try reflexivity.
    + split; [cbn; lia|repeat constructor].
    + repeat (constructor; [repeat (constructor; [split; vm_compute; discriminate|]); constructor|]); constructor.
    + repeat constructor.
  - apply fit_by_cases. vm_compute. reflexivity.
  - rewrite E2 in E3. injection E3 as <- <-. destruct I as [_ I]. specialize (I 2%nat ltac:(cbn; lia)).
    vm_compute in I. apply I. reflexivity.
Qed.

Lemma euclid_example :
  let cm := CMath Rpower ln (fun x => IZR (- Int_part (- x))) (fun x => IZR (Int_part x)) sqrt in
  let sp := Space 2 [[0; 0]; [3; 4]; [6; 8]]%R in
  (forall x, (0 <= x)%R -> c_sqrt cm x = sqrt x)
  /\ (exists fuel t, @cover_tree_make R (R_scalar 1000) cm std_example (@rev nat)
        (@metric_l2 R (R_scalar 1000) cm) fuel sp 2%R = Ok t)
  /\ wf_space sp
  /\ (forall j, j < npts sp -> (euclid_to sp [0; 8]%R j < 1000)%R)
  /\ euclid_to sp [0; 8]%R 1 = 5%R.
Proof.
  intros cm sp. split; [reflexivity|]. split.
  { destruct (cover_ends_real 1000 cm std_example (@rev nat) std_example_laws rev_shuffles
      (@metric_l2 R (R_scalar 1000) cm) sp 2%R) as (f & t & H); [cbn; lia|]. exists f, t. apply H. lia. }
  split; [split; [cbn; lia|repeat constructor]|].
  assert (B : forall x, (0 <= x < 1000000)%R -> (sqrt x < 1000)%R).
  { intros x Hx. rewrite <- (sqrt_square 1000) by lra. apply sqrt_lt_1; lra. }
  split.
  - intros j Hj. unfold euclid_to, euclid. apply B.
    do 3 (destruct j as [|j]; [cbn; lra|]). cbn in Hj. lia.
  - unfold euclid_to, euclid. cbn. rewrite <- (sqrt_square 5) by lra. f_equal. ring.
Qed.
