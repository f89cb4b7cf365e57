(** Data for the examples of C151, and a counterexample with ties. *)
From Coq Require Import Ascii String List ZArith QArith Bool Arith Lia.
From Verif Require Import Base ModelBox ModelBuild ModelSearch ModelSerial ModelCover ModelForest ModelFormat ModelPrecision
  Spec SpecSerial SpecForest Instances SearchProofs BuildThms Examples ForestEx FormatTop PrecisionThms.
Import ListNotations.
Local Open Scope nat_scope.

(** Neighbors with small integral distances in four bytes. *)
Definition nq_codec : codec (neighbor Q) := Codec 4 2
  (fun x => c_enc i16 (Z.of_nat (n_index x)) ++ c_enc i16 (Qnum (n_distance x)))
  (fun l => do i <- c_dec i16 (firstn 2 l); do d <- c_dec i16 (skipn 2 l); Ok (Neighbor (Z.to_nat i) (inject_Z d))).
Definition nq_fits (x : neighbor Q) : Prop :=
  (Z.of_nat (n_index x) < 2 ^ 15)%Z
  /\ exists z, n_distance x = inject_Z z /\ (- 2 ^ 15 <= z < 2 ^ 15)%Z.

Lemma nq_codec_ok : codec_ok nq_codec nq_fits.
Proof.
  assert (L : forall z, length (c_enc i16 z) = 2) by (intros; apply (ck_len _ _ i16_ok)).
  constructor.
  - intros x. cbn [c_enc c_size nq_codec]. rewrite app_length, !L. reflexivity.
  - intros [i d] [Hi (z & E & Hz)]. cbn [n_index n_distance] in *. subst d.
    cbn [c_enc c_dec nq_codec n_index n_distance]. 
    rewrite <- (L (Z.of_nat i)) at 1. rewrite firstn_app, firstn_all, Nat.sub_diag. cbn [firstn]. rewrite app_nil_r.
    rewrite (ck_dec _ _ i16_ok) by lia. cbn [bind].
    rewrite <- (L (Z.of_nat i)) at 1. rewrite skipn_app, skipn_all, Nat.sub_diag. cbn [skipn app].
    rewrite (ck_dec _ _ i16_ok) by auto. cbn [bind]. rewrite Nat2Z.id. reflexivity.
Qed.

Definition gt_name : list Z := chars "ex_nns_gt.bin".
Definition ex_run (test : list (list Q)) (fs : fsys) : io (nat * nat * fsys) :=
  run_dataset std_example it_int list_queue forest_math nq_codec (Neighbor 0 0%Q) 7 ex_gauss ex_sp test gt_name 1 3 1 7
    (Neighbor 0 0%Q) fs.

Lemma ex_unique q i0 : i0 < 7 ->
  forallb (fun j => (j =? i0) || negb (Qle_bool (dist_to qv L2Squared ex_sp q j) (dist_to qv L2Squared ex_sp q i0)))
    (seq 0 7) = true ->
  forall i j, is_nearest (npts ex_sp) (dist_to qv L2Squared ex_sp q) i ->
    is_nearest (npts ex_sp) (dist_to qv L2Squared ex_sp q) j -> i = j.
Proof.
  intros H0 H. rewrite forallb_forall in H.
  assert (K : forall i, is_nearest (npts ex_sp) (dist_to qv L2Squared ex_sp q) i -> i = i0).
  { intros i [Hi Hn]. change (npts ex_sp) with 7 in *. specialize (H i ltac:(apply in_seq; lia)).
    specialize (Hn i0 H0). apply Qle_bool_iff in Hn. rewrite Hn in H. cbn in H. rewrite orb_false_r in H.
    apply Nat.eqb_eq. auto. }
  intros i j Hi Hj. rewrite (K i Hi), (K j Hj). reflexivity.
Qed.

Definition ties_statement : Prop :=
  forall (sp : space Q) (test : list (list Q)) (tree : kd_tree Q) (f : kd_forest Q) (b : Q) (n budget : nat) (fs : fsys),
  wf_space sp ->
  kd_tree_make std_example it_int metric_l2_squared 7 sp (max_leaf_size 1) bounds_from_space sliding_midpoint_max_side
    = Ok tree ->
  kd_forest_make std_example it_int forest_math metric_l2_squared 7 ex_gauss sp 1 n = Ok f ->
  Forall (fun t => unit_vector (map qv (rk_rotation t))) (kf_data f) ->
  norms_le qv b sp -> (b <= s_max)%Q -> (b <= - s_lowest)%Q ->
  Forall (fun q => usable qv L2Squared sp bounds_from_space q /\ distances_fit qv L2Squared sp q) test ->
  npts sp <= budget -> test <> [] -> fs_bytes fs gt_name = None -> fs_writable fs gt_name = true ->
  exists fs', run_dataset std_example it_int list_queue forest_math nq_codec (Neighbor 0 0%Q) 7 ex_gauss sp test gt_name
      1 n 1 budget (Neighbor 0 0%Q) fs
    = Ok (inr (length test, length test, fs')).

Lemma ties_refuted : ~ ties_statement.
Proof.
  intros H.
  destruct (build Euclidean std_example it_int 7 ex_sp (max_leaf_size 1) bounds_from_space sliding_midpoint_max_side)
    as [data| |] eqn:E; [|vm_compute in E; discriminate..].
  pose proof (make_ok _ _ metric_l2_squared _ _ _ _ _ _ E) as EM.
  destruct (H ex_sp [[1; 1]%Q] _ ex_forest 8%Q 3 7 (files []) ex_wf EM ex_forest_ok ex_units ex_norms) as (fs' & K).
  - vm_compute. discriminate.
  - vm_compute. discriminate.
  - constructor; [|constructor]. split; [apply ex_usable_l2; reflexivity|apply fit_by_cases; vm_compute; reflexivity].
  - cbn. lia.
  - discriminate.
  - reflexivity.
  - reflexivity.
  - assert (R : match ex_run [[1; 1]%Q] (files []) with Ok (inr (a, _, _)) => a = 0 | _ => True end)
      by (vm_compute; reflexivity).
    unfold ex_run in R. rewrite K in R. discriminate.
Qed.
