(** Wrong results that pass the checks of the test suite. *)
From Coq Require Import List ZArith QArith Bool Arith Permutation Sorted Lia Lqa.
From Verif Require Import Base ModelBox ModelBuild ModelSearch ModelOracle Spec Instances Examples.
Import ListNotations.
Local Open Scope nat_scope.

Lemma box_duplicates : ~ (forall (sp : space Q) (mn mx : list Q) (idxs : list nat),
  wf_space sp -> length mn = sp_sdim sp -> length mx = sp_sdim sp ->
  box_expectations metric_l1 sp mn mx idxs = Ok true ->
  index_answer (npts sp) (fun i => inside mn mx (nth i (sp_pts sp) [])) idxs).
Proof.
  intros H. destruct (H ex_sp [1; 1]%Q [4; 3]%Q [3; 3; 3; 3] ex_wf eq_refl eq_refl) as [ND _]; [vm_compute; reflexivity|].
  inversion ND as [|? ? N1 _]. apply N1. left. reflexivity.
Qed.

Lemma radius_duplicates : ~ (forall (sp : space Q) (q : list Q) (r : Q) (ex : list (neighbor Q)),
  usable qv L2Squared sp bounds_from_space q ->
  radius_expectations Qeq_bool sp metric_l2_squared q r 1%Q ex [] = Ok true ->
  filter_answer (npts sp) (fun i => (dist_to qv L2Squared sp q i <= r)%Q) (dist_to qv L2Squared sp q) (answers qv ex)).
Proof.
  intros H. pose proof (H ex_sp [2; 2]%Q 2%Q [Neighbor 3 0%Q; Neighbor 3 0%Q; Neighbor 3 0%Q]
    (ex_usable_l2 [2; 2]%Q eq_refl)) as K.
  assert (E : radius_expectations Qeq_bool ex_sp metric_l2_squared [2; 2]%Q 2%Q 1%Q
    [Neighbor 3 0%Q; Neighbor 3 0%Q; Neighbor 3 0%Q] [] = Ok true) by (vm_compute; reflexivity).
  pose proof (fa_nodup _ _ _ _ (K E)) as ND.
  inversion ND as [|? ? N1 _]. apply N1. left. reflexivity.
Qed.

Lemma knn_indices : ~ (forall (sp : space Q) (q : list Q) (k : nat) (ex ap cm : list (neighbor Q)),
  usable qv L2Squared sp bounds_from_space q -> 0 < k ->
  brute_knn std_example q sp k metric_l2_squared = Ok cm ->
  knn_expectations Qeq_bool Qle_bool ex ap cm = Ok true ->
  knn_answer (npts sp) k (dist_to qv L2Squared sp q) (answers qv ex)).
Proof.
  intros H.
  destruct (brute_knn std_example [2; 2]%Q ex_sp 2 metric_l2_squared) as [cm| |] eqn:E; [|vm_compute in E; discriminate..].
  pose proof (H ex_sp [2; 2]%Q 2 [Neighbor 99 0%Q; Neighbor 99 0%Q] [Neighbor 99 0%Q; Neighbor 99 0%Q] cm
    (ex_usable_l2 [2; 2]%Q eq_refl) (Nat.lt_0_succ 1) E) as K.
  assert (E2 : knn_expectations Qeq_bool Qle_bool [Neighbor 99 0%Q; Neighbor 99 0%Q] [Neighbor 99 0%Q; Neighbor 99 0%Q] cm
    = Ok true).
  { vm_compute in E. injection E as <-. vm_compute. reflexivity. }
  pose proof (ka_nodup _ _ _ _ (K E2)) as ND.
  inversion ND as [|? ? N1 _]. apply N1. left. reflexivity.
Qed.
