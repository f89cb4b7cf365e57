(** Properties of the program that measures the precision of the kd_forest, C151. *)
From Coq Require Import Ascii String List ZArith QArith Bool Arith Lia.
From Verif Require Import Base ModelBox ModelBuild ModelSearch ModelSerial ModelCover ModelForest ModelFormat ModelPrecision
  Spec SpecSerial SpecForest Instances SearchProofs BuildThms Examples ForestEx FormatTop PrecisionThms PrecisionEx.
Import ListNotations.
Local Open Scope nat_scope.

(** ** C151: the precision of the kd_forest *)

(** Without a file, the nearest neighbours are computed and written; later runs
    read them, whatever their data and parameters are. *)
Theorem C151_ground_truth :
  forall (T : Type) (S : Scalar T) (val : T -> Q), exact_laws S val ->
  forall alg : std_algos, std_laws alg ->
  forall (it : index_type) (c : codec (neighbor T)) (neighbor0 : neighbor T) (sp : space T) (fuel : nat) (leaf : Z)
    (tree : kd_tree T) (test : list (list T)) (name : list Z) (nns0 : list (neighbor T)) (fs : fsys),
  kd_tree_make alg it metric_l2_squared fuel sp (max_leaf_size leaf) bounds_from_space sliding_midpoint_max_side
    = Ok tree ->
  Forall (fun q => usable val L2Squared sp bounds_from_space q /\ distances_fit val L2Squared sp q) test ->
  test <> [] -> fs_bytes fs name = None -> fs_writable fs name = true ->
  exists nns fs', run_kd_tree alg it c neighbor0 fuel sp test name leaf nns0 fs = Ok (inr (nns, fs'))
    /\ Forall2 (fun q nn => (val (n_distance nn) == dist_to val L2Squared sp q (n_index nn))%Q
                  /\ is_nearest (npts sp) (dist_to val L2Squared sp q) (n_index nn)) test nns
    /\ (forall other, other <> name -> fs_bytes fs' other = fs_bytes fs other)
    /\ (forall P, codec_ok c P -> 0 < c_size c -> Forall P nns ->
        forall fuel' sp' test' leaf' nns0',
        run_kd_tree alg it c neighbor0 fuel' sp' test' name leaf' nns0' fs' = Ok (inr (nns, fs'))).
Proof. exact @run_kd_tree_first. Qed.
Print Assumptions C151_ground_truth.

Example C151_ground_truth_example :
  codec_ok nq_codec nq_fits
  /\ (exists data, kd_tree_make std_example it_int metric_l2_squared 7 ex_sp (max_leaf_size 1) bounds_from_space
        sliding_midpoint_max_side = Ok (KdTree ex_sp metric_l2_squared data))
  /\ usable qv L2Squared ex_sp bounds_from_space [4; 3]%Q /\ distances_fit qv L2Squared ex_sp [4; 3]%Q
  /\ exists fs', run_kd_tree std_example it_int nq_codec (Neighbor 0 0%Q) 7 ex_sp [[4; 3]; [0; 1]]%Q gt_name 1 [] (files [])
       = Ok (inr ([Neighbor 2 4; Neighbor 0 1]%Q, fs'))
     /\ fs_bytes fs' gt_name = Some [2; 0; 4; 0; 0; 0; 1; 0]%Z
     /\ Forall nq_fits [Neighbor 2 4; Neighbor 0 1]%Q
     /\ run_kd_tree std_example it_int nq_codec (Neighbor 0 0%Q) 7 ex_sp [[7; 7]]%Q gt_name 1 [] fs'
       = Ok (inr ([Neighbor 2 4; Neighbor 0 1]%Q, fs')).
Proof.
  split; [exact nq_codec_ok|]. split; [eexists; apply make_ok; vm_compute; reflexivity|].
  split; [apply ex_usable_l2; reflexivity|]. split; [exact ex_forest_fit|].
  eexists. split; [vm_compute; reflexivity|]. split; [vm_compute; reflexivity|]. split; [|vm_compute; reflexivity].
  constructor; [|constructor; [|constructor]]; (split; [cbn; lia|]).
  - exists 4%Z. split; [reflexivity|lia].
  - exists 1%Z. split; [reflexivity|lia].
Qed.

(** A file with more entries than there are queries is read past the end of the
    queries; otherwise the precision is at most one. *)
Theorem C151_stale_file :
  forall (T : Type) (S : Scalar T) (val : T -> Q), exact_laws S val -> field_laws S val ->
  forall pq : pqueue T, queue_laws S pq ->
  forall alg : std_algos, std_laws alg ->
  forall (it : index_type) (cm : cmath T) (fuel : nat) (gauss : nat -> nat -> T) (sp : space T)
    (leaf_size : Z) (n : nat) (f : kd_forest T) (b : Q),
  wf_space sp -> index_type_ok it -> (0 < leaf_size <= it_max it)%Z ->
  kd_forest_make alg it cm metric_l2_squared fuel gauss sp leaf_size n = Ok f ->
  Forall (fun t => unit_vector (map val (rk_rotation t))) (kf_data f) ->
  norms_le val b sp -> (b <= val s_max)%Q -> (b <= - val s_lowest)%Q ->
  forall (max_leaves_visited : nat) (nn0 : neighbor T) (test : list (list T)) (nns : list (neighbor T)),
  0 < max_leaves_visited ->
  Forall (fun q => length q = sp_sdim sp /\ distances_fit val L2Squared sp q) test ->
  (length nns <= length test ->
     exists equal, run_kd_forest alg it pq cm fuel gauss sp test nns n leaf_size max_leaves_visited nn0 = Ok equal
       /\ equal <= length nns)
  /\ (length test < length nns ->
     run_kd_forest alg it pq cm fuel gauss sp test nns n leaf_size max_leaves_visited nn0 = Ub UbIndex).
Proof. exact @forest_any. Qed.
Print Assumptions C151_stale_file.

Example C151_stale_file_example :
  kd_forest_make std_example it_int forest_math metric_l2_squared 7 ex_gauss ex_sp 1 3 = Ok ex_forest
  /\ Forall (fun t => unit_vector (map qv (rk_rotation t))) (kf_data ex_forest)
  /\ norms_le qv 8 ex_sp /\ distances_fit qv L2Squared ex_sp [4; 3]%Q
  /\ run_kd_forest std_example it_int list_queue forest_math 7 ex_gauss ex_sp [[4; 3]; [0; 1]]%Q
       [Neighbor 2 4%Q; Neighbor 0 1%Q] 3 1 1 (Neighbor 0 0%Q) = Ok 1
  /\ run_kd_forest std_example it_int list_queue forest_math 7 ex_gauss ex_sp [[4; 3]]%Q
       [Neighbor 2 4%Q; Neighbor 0 1%Q] 3 1 1 (Neighbor 0 0%Q) = Ub UbIndex.
Proof.
  split; [exact ex_forest_ok|]. split; [exact ex_units|]. split; [exact ex_norms|]. split; [exact ex_forest_fit|].
  split; vm_compute; reflexivity.
Qed.

(** The numerator is the number of queries for which the index in the file is the
    one that the forest returns. *)
Theorem C151_counts :
  forall (T : Type) (S : Scalar T) (pq : pqueue T) (alg : std_algos) (it : index_type) (cm : cmath T) (fuel : nat)
    (gauss : nat -> nat -> T) (sp : space T) (leaf_size : Z) (n : nat) (f : kd_forest T) (test : list (list T))
    (nns : list (neighbor T)) (max_leaves_visited : nat) (nn0 : neighbor T) (equal : nat),
  kd_forest_make alg it cm metric_l2_squared fuel gauss sp leaf_size n = Ok f ->
  run_kd_forest alg it pq cm fuel gauss sp test nns n leaf_size max_leaves_visited nn0 = Ok equal ->
  exists answers, length answers = length nns
    /\ (forall i q a, nth_error test i = Some q -> nth_error answers i = Some a ->
          exists nn, forest_search_nn pq f q max_leaves_visited nn = Ok a)
    /\ equal = length (filter (fun p => n_index (fst p) =? n_index (snd p)) (combine nns answers)).
Proof. exact @forest_counts. Qed.
Print Assumptions C151_counts.

Example C151_counts_example :
  forest_search_nn list_queue ex_forest [0; 1]%Q 1 (Neighbor 0 0%Q) = Ok (Neighbor 0 1%Q)
  /\ run_kd_forest std_example it_int list_queue forest_math 7 ex_gauss ex_sp [[0; 1]; [0; 1]]%Q
       [Neighbor 5 4%Q; Neighbor 0 1%Q] 3 1 1 (Neighbor 0 0%Q) = Ok 1.
Proof. split; vm_compute; reflexivity. Qed.

(** If all leaves may be visited and nearest neighbours are unique, the precision is one. *)
Theorem C151_precision_one :
  forall (T : Type) (S : Scalar T) (val : T -> Q), exact_laws S val -> field_laws S val ->
  forall pq : pqueue T, queue_laws S pq ->
  forall alg : std_algos, std_laws alg ->
  forall (it : index_type) (cm : cmath T) (c : codec (neighbor T)) (neighbor0 : neighbor T) (fuel : nat)
    (gauss : nat -> nat -> T) (sp : space T) (test : list (list T)) (name : list Z) (tree_leaf_size : Z)
    (tree : kd_tree T) (n : nat) (leaf_size : Z) (f : kd_forest T) (b : Q) (max_leaves_visited : nat)
    (nn0 : neighbor T) (fs : fsys),
  wf_space sp -> index_type_ok it -> (0 < leaf_size <= it_max it)%Z ->
  kd_tree_make alg it metric_l2_squared fuel sp (max_leaf_size tree_leaf_size) bounds_from_space
    sliding_midpoint_max_side = Ok tree ->
  kd_forest_make alg it cm metric_l2_squared fuel gauss sp leaf_size n = Ok f ->
  Forall (fun t => unit_vector (map val (rk_rotation t))) (kf_data f) ->
  norms_le val b sp -> (b <= val s_max)%Q -> (b <= - val s_lowest)%Q ->
  Forall (fun q => usable val L2Squared sp bounds_from_space q /\ distances_fit val L2Squared sp q
    /\ forall i j, is_nearest (npts sp) (dist_to val L2Squared sp q) i ->
         is_nearest (npts sp) (dist_to val L2Squared sp q) j -> i = j) test ->
  npts sp <= max_leaves_visited -> test <> [] -> fs_bytes fs name = None -> fs_writable fs name = true ->
  exists fs',
    run_dataset alg it pq cm c neighbor0 fuel gauss sp test name tree_leaf_size n leaf_size max_leaves_visited nn0 fs
    = Ok (inr (length test, length test, fs')).
Proof. exact @dataset_one. Qed.
Print Assumptions C151_precision_one.

Example C151_precision_one_example :
  (forall i j, is_nearest (npts ex_sp) (dist_to qv L2Squared ex_sp [4; 3]%Q) i ->
     is_nearest (npts ex_sp) (dist_to qv L2Squared ex_sp [4; 3]%Q) j -> i = j)
  /\ (forall i j, is_nearest (npts ex_sp) (dist_to qv L2Squared ex_sp [0; 1]%Q) i ->
     is_nearest (npts ex_sp) (dist_to qv L2Squared ex_sp [0; 1]%Q) j -> i = j)
  /\ exists fs', ex_run [[4; 3]; [0; 1]]%Q (files []) = Ok (inr (2, 2, fs')).
Proof.
  split; [apply (ex_unique _ 2); [lia|vm_compute; reflexivity]|].
  split; [apply (ex_unique _ 0); [lia|vm_compute; reflexivity]|].
  eexists. vm_compute. reflexivity.
Qed.

(** Not so with ties ([ties_statement]: as above, without uniqueness): the forest
    returns a nearest neighbour, but another one than the kd_tree. *)
Theorem C151_ties_refuted : ~ ties_statement.
Proof. exact ties_refuted. Qed.
Print Assumptions C151_ties_refuted.

Example C151_ties_example :
  (exists fs', ex_run [[1; 1]]%Q (files []) = Ok (inr (0, 1, fs')))
  /\ (dist_to qv L2Squared ex_sp [1; 1] 3 == 2 /\ dist_to qv L2Squared ex_sp [1; 1] 0 == 2)%Q
  /\ forest_search_nn list_queue ex_forest [1; 1]%Q 7 (Neighbor 0 0%Q) = Ok (Neighbor 0 2%Q).
Proof.
  split; [eexists; vm_compute; reflexivity|]. split; [split; vm_compute; reflexivity|vm_compute; reflexivity].
Qed.
