(** Concrete data: forests of one and of two trees. *)
From Coq Require Import List ZArith QArith Qabs Bool Arith Permutation Lia Lqa.
From Verif Require Import Base ModelBox ModelBuild ModelSearch Spec ModelCover ModelForest SpecForest Lemmas Instances
  BuildOrder Visitors Examples Reflect ForestThms ForestEx.
Import ListNotations.
Local Open Scope Q_scope.

Definition ex_data_n (n : nat) : list (rkd_tree Q) :=
  match build_rkd_tree std_example it_int forest_math 7 ex_sp (max_leaf_size 1) bounds_from_space
    sliding_midpoint_max_side ex_gauss n with Ok d => d | _ => [] end.
Definition ex_forest_n (n : nat) : kd_forest Q := KdForest ex_sp metric_l2_squared (ex_data_n n).
Lemma ex_forest_1_ok :
  kd_forest_make std_example it_int forest_math metric_l2_squared 7 ex_gauss ex_sp 1 1 = Ok (ex_forest_n 1).
Proof. unfold ex_forest_n, ex_data_n. apply forest_ok. vm_compute. reflexivity. Qed.
Lemma ex_units_1 : Forall (fun t => unit_vector (map qv (rk_rotation t))) (kf_data (ex_forest_n 1)).
Proof. unfold ex_forest_n, ex_data_n. cbn [kf_data]. vm_compute. repeat constructor. Qed.

Lemma ex_radius_1 : forest_search_nearest list_queue (ex_forest_n 1) (visitor_radius 5) [4; 3] 7 [] = Ok [Neighbor 2%nat 4].
Proof. vm_compute. reflexivity. Qed.
Lemma ex_radius_3 : forest_search_nearest list_queue ex_forest (visitor_radius 5) [4; 3] 7 []
  = Ok [Neighbor 2%nat 4; Neighbor 2%nat 4; Neighbor 2%nat 4].
Proof. vm_compute. reflexivity. Qed.
Lemma ex_knn_1 : exists st0 st, visitor_knn_init [Neighbor 0%nat 0; Neighbor 0%nat 0; Neighbor 0%nat 0] = Ok st0
  /\ forest_search_nearest list_queue (ex_forest_n 1) visitor_knn [4; 3] 7 st0 = Ok st
  /\ fst st = [Neighbor 2%nat 4; Neighbor 5%nat 5; Neighbor 3%nat 5].
Proof. eexists. eexists. split; [reflexivity|]. split; vm_compute; reflexivity. Qed.
Lemma ex_nn_leaves : forest_search_nn list_queue (ex_forest_n 1) [3; 0] 1 (Neighbor 0%nat 0) = Ok (Neighbor 0%nat 9)
  /\ forest_search_nn list_queue (ex_forest_n 1) [3; 0] 2 (Neighbor 0%nat 0) = Ok (Neighbor 2%nat 2).
Proof. split; vm_compute; reflexivity. Qed.
Lemma ex_nn_trees : forest_search_nn list_queue (ex_forest_n 1) [3; 0] 1 (Neighbor 0%nat 0) = Ok (Neighbor 0%nat 9)
  /\ forest_search_nn list_queue ex_forest [3; 0] 1 (Neighbor 0%nat 0) = Ok (Neighbor 2%nat 2).
Proof. split; vm_compute; reflexivity. Qed.
