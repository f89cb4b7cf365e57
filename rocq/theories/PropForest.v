(** Properties of the kd_forest of the examples, C66-C70. *)
From Coq Require Import List ZArith QArith Bool Arith Permutation Lia.
From Verif Require Import Base ModelBox ModelBuild ModelSearch Spec ModelCover ModelForest SpecForest Instances
  Examples ForestThms ForestTop ForestEx.
Import ListNotations.
Local Open Scope nat_scope.

(** ** C66: construction *)
Theorem C66_construction :
  forall (T : Type) (S : Scalar T) (val : T -> Q), exact_laws S val -> field_laws S val ->
  forall alg : std_algos, std_laws alg ->
  forall (it : index_type) (cm : cmath T) (fuel : nat) (gauss : nat -> nat -> T) (sp : space T)
    (leaf_size : Z) (n : nat),
  wf_space sp -> index_type_ok it -> (0 < leaf_size <= it_max it)%Z ->
  forall b : Q, norms_le val b sp ->
  forall m : metric T,
  0 < n -> sp_pts sp <> [] -> (Z.of_nat (npts sp) <= it_max it)%Z -> npts sp <= fuel ->
  (b <= val s_max)%Q -> (2 * b < - val s_lowest)%Q ->
  (forall i, i < n -> draw_ok val (c_sqrt cm) (tab (sp_sdim sp) (gauss i))) ->
  exists f, kd_forest_make alg it cm m fuel gauss sp leaf_size n = Ok f
    /\ kf_space f = sp /\ length (kf_data f) = n /\ Forall (reflected_tree val sp) (kf_data f).
Proof. exact @forest_builds. Qed.
Print Assumptions C66_construction.

Theorem C66_at_least_one_tree :
  forall (T : Type) (S : Scalar T) (alg : std_algos) (it : index_type) (cm : cmath T) (m : metric T) (fuel : nat)
    (gauss : nat -> nat -> T) (sp : space T) (leaf_size : Z),
  kd_forest_make alg it cm m fuel gauss sp leaf_size 0 = Ub UbAssert.
Proof. exact @top_no_trees. Qed.
Print Assumptions C66_at_least_one_tree.

(** Squared distances do not change. *)
Theorem C66_reflections_keep_distances :
  forall r x y : list Q, unit_vector r -> length x = length r -> length y = length r ->
  (sum_dist sq_diff (reflect r x) (reflect r y) == sum_dist sq_diff x y)%Q.
Proof. exact Reflect.reflect_dist. Qed.
Print Assumptions C66_reflections_keep_distances.

Example C66_example :
  kd_forest_make std_example it_int forest_math metric_l2_squared 7 ex_gauss ex_sp 1 3 = Ok ex_forest
  /\ wf_space ex_sp /\ norms_le qv 8 ex_sp
  /\ (forall i, i < 3 -> draw_ok qv (c_sqrt forest_math) (tab 2 (ex_gauss i)))
  /\ map (fun t => map Qred (rk_rotation t)) (kf_data ex_forest)
     = [[3 # 5; 4 # 5]; [5 # 13; - (12 # 13)]; [- (4 # 5); 3 # 5]]%Q
  /\ map (fun t => kd_indices (rk_tree t)) (kf_data ex_forest)
     = [[5; 6; 2; 3; 4; 1; 0]; [0; 3; 1; 4; 2; 5; 6]; [0; 1; 3; 4; 2; 6; 5]].
Proof.
  split; [exact ex_forest_ok|]. split; [exact ex_wf|]. split; [exact ex_norms|]. split; [exact ex_draws|].
  split; vm_compute; reflexivity.
Qed.

(** ** C67: as many leaves as points make the search exact *)
Theorem C67_nearest_neighbour :
  forall (T : Type) (S : Scalar T) (val : T -> Q), exact_laws S val -> field_laws S val ->
  forall pq : pqueue T, queue_laws S pq ->
  forall alg : std_algos, std_laws alg ->
  forall (it : index_type) (cm : cmath T) (fuel : nat) (gauss : nat -> nat -> T) (sp : space T)
    (leaf_size : Z) (n : nat) (f : kd_forest T) (b : Q) (q : list T) (max_leaves_visited : nat),
  wf_space sp -> index_type_ok it -> (0 < leaf_size <= it_max it)%Z ->
  kd_forest_make alg it cm metric_l2_squared fuel gauss sp leaf_size n = Ok f ->
  Forall (fun t => unit_vector (map val (rk_rotation t))) (kf_data f) ->
  norms_le val b sp -> (b <= val s_max)%Q -> (b <= - val s_lowest)%Q ->
  length q = sp_sdim sp -> distances_fit val L2Squared sp q ->
  forall nn0 : neighbor T, npts sp <= max_leaves_visited -> 0 < npts sp ->
  exists i d, forest_search_nn pq f q max_leaves_visited nn0 = Ok (Neighbor i d)
    /\ (val d == dist_to val L2Squared sp q i)%Q
    /\ is_nearest (npts sp) (dist_to val L2Squared sp q) i.
Proof. exact @top_exhaustive. Qed.
Print Assumptions C67_nearest_neighbour.

Example C67_example :
  kd_forest_make std_example it_int forest_math metric_l2_squared 7 ex_gauss ex_sp 1 3 = Ok ex_forest
  /\ queue_laws QD list_queue /\ std_laws std_example
  /\ Forall (fun t => unit_vector (map qv (rk_rotation t))) (kf_data ex_forest)
  /\ distances_fit qv L2Squared ex_sp [4; 3]%Q
  /\ forest_search_nn list_queue ex_forest [4; 3]%Q 7 (Neighbor 0 0%Q) = Ok (Neighbor 2 4%Q).
Proof.
  split; [exact ex_forest_ok|]. split; [exact (list_queue_laws qv QD_exact)|]. split; [exact std_example_laws|].
  split; [exact ex_units|]. split; [exact ex_forest_fit|exact (proj1 ex_forest_nn)].
Qed.

(** ** C68: fewer leaves *)
Theorem C68_genuine_neighbour :
  forall (T : Type) (S : Scalar T) (val : T -> Q), exact_laws S val -> field_laws S val ->
  forall pq : pqueue T, queue_laws S pq ->
  forall alg : std_algos, std_laws alg ->
  forall (it : index_type) (cm : cmath T) (fuel : nat) (gauss : nat -> nat -> T) (sp : space T)
    (leaf_size : Z) (n : nat) (f : kd_forest T) (b : Q) (q : list T) (max_leaves_visited : nat),
  wf_space sp -> index_type_ok it -> (0 < leaf_size <= it_max it)%Z ->
  kd_forest_make alg it cm metric_l2_squared fuel gauss sp leaf_size n = Ok f ->
  Forall (fun t => unit_vector (map val (rk_rotation t))) (kf_data f) ->
  norms_le val b sp -> (b <= val s_max)%Q -> (b <= - val s_lowest)%Q ->
  length q = sp_sdim sp -> distances_fit val L2Squared sp q ->
  forall nn0 : neighbor T, 0 < max_leaves_visited ->
  exists i d, forest_search_nn pq f q max_leaves_visited nn0 = Ok (Neighbor i d)
    /\ i < npts sp /\ (val d == dist_to val L2Squared sp q i)%Q.
Proof. exact @top_any_budget. Qed.
Print Assumptions C68_genuine_neighbour.

(** Any scalar type and any metric: no undefined behaviour, and each tree shows
    at most the points of that many leaves, each once, and at least one point
    unless the bound is negative by then. *)
Theorem C68_work_per_tree :
  forall (T : Type) (S : Scalar T) (ok : T -> Prop), ord_laws S ok ->
  forall pq : pqueue T, queue_laws S pq ->
  forall alg : std_algos, std_laws alg ->
  forall (it : index_type) (cm : cmath T) (m : metric T) (fuel : nat) (gauss : nat -> nat -> T) (sp : space T)
    (leaf_size : Z) (n : nat) (f : kd_forest T) (q : list T) (max_leaves_visited : nat),
  wf_space sp -> index_type_ok it -> (0 < leaf_size <= it_max it)%Z ->
  kd_forest_make alg it cm m fuel gauss sp leaf_size n = Ok f ->
  Forall (fun t => all_coords ok (rk_space t)) (kf_data f) ->
  length q = sp_sdim sp ->
  forall (V : Type) (vis : visitor T V) (v0 : V),
  exists ss : list (list (nat * T)),
    forest_search_nearest pq f vis q max_leaves_visited v0 = Ok (shown_to vis (concat ss) v0)
    /\ Forall2 (fun (t : rkd_tree T) s =>
         NoDup (map fst s) /\ length s <= max_leaves_visited * Z.to_nat leaf_size
         /\ exists p, rotate_point (rk_rotation t) q = Ok p
            /\ Forall (fun x => fst x < npts sp
                 /\ snd x = m_dist m p (nth (fst x) (sp_pts (rk_space t)) [])) s) (kf_data f) ss
    /\ (forall ss1 s ss2, ss = ss1 ++ s :: ss2 -> 0 < max_leaves_visited ->
         s_ltb (v_max vis (shown_to vis (concat ss1) v0)) s_zero = false -> s <> []).
Proof. exact @forest_any. Qed.
Print Assumptions C68_work_per_tree.

(** What any visitor with a non-increasing bound gets to see. *)
Theorem C68_any_visitor :
  forall (T : Type) (S : Scalar T) (val : T -> Q), exact_laws S val -> field_laws S val ->
  forall pq : pqueue T, queue_laws S pq ->
  forall alg : std_algos, std_laws alg ->
  forall (it : index_type) (cm : cmath T) (fuel : nat) (gauss : nat -> nat -> T) (sp : space T)
    (leaf_size : Z) (n : nat),
  wf_space sp -> index_type_ok it -> (0 < leaf_size <= it_max it)%Z ->
  forall b : Q, norms_le val b sp ->
  forall (f : kd_forest T) (q : list T) (max_leaves_visited : nat),
  kd_forest_make alg it cm metric_l2_squared fuel gauss sp leaf_size n = Ok f ->
  Forall (fun t => unit_vector (map val (rk_rotation t))) (kf_data f) ->
  (b <= val s_max)%Q -> (b <= - val s_lowest)%Q -> length q = sp_sdim sp ->
  forall (V : Type) (vis : visitor T V) (Inv : V -> Prop),
  (forall st i d, i < npts sp -> (val d == dist_to val L2Squared sp q i)%Q -> Inv st ->
     Inv (v_visit vis i d st) /\ (val (v_max vis (v_visit vis i d st)) <= val (v_max vis st))%Q) ->
  forall v0 : V, Inv v0 ->
  exists ss : list (list (nat * T)),
    forest_search_nearest pq f vis q max_leaves_visited v0 = Ok (shown_to vis (concat ss) v0)
    /\ length ss = n
    /\ Forall (fun s => NoDup (map fst s) /\ length s <= max_leaves_visited * Z.to_nat leaf_size
         /\ Forall (fun x => fst x < npts sp /\ (val (snd x) == dist_to val L2Squared sp q (fst x))%Q) s) ss
    /\ (0 < max_leaves_visited -> (0 <= val (v_max vis v0))%Q -> concat ss <> [])
    /\ (npts sp <= max_leaves_visited ->
        Forall (fun s => forall j, j < npts sp -> In j (map fst s)
          \/ (val (v_max vis (shown_to vis (concat ss) v0)) <= dist_to val L2Squared sp q j)%Q) ss).
Proof. exact @forest_exact. Qed.
Print Assumptions C68_any_visitor.

Theorem C68_no_leaves :
  forall (T : Type) (S : Scalar T) (pq : pqueue T) (alg : std_algos) (it : index_type) (cm : cmath T)
    (m : metric T) (fuel : nat) (gauss : nat -> nat -> T) (sp : space T) (leaf_size : Z) (n : nat)
    (f : kd_forest T) (q : list T) (nn0 : neighbor T),
  kd_forest_make alg it cm m fuel gauss sp leaf_size n = Ok f -> length q = sp_sdim sp ->
  forest_search_nn pq f q 0 nn0 = Ok (Neighbor (n_index nn0) s_max).
Proof. exact @top_zero. Qed.
Print Assumptions C68_no_leaves.

Example C68_example :
  kd_forest_make std_example it_int forest_math metric_l2_squared 7 ex_gauss ex_sp 1 3 = Ok ex_forest
  /\ Forall (fun t => unit_vector (map qv (rk_rotation t))) (kf_data ex_forest)
  /\ norms_le qv 8 ex_sp /\ distances_fit qv L2Squared ex_sp [4; 3]%Q
  /\ forest_search_nn list_queue ex_forest [4; 3]%Q 1 (Neighbor 0 0%Q) = Ok (Neighbor 5 5%Q).
Proof.
  split; [exact ex_forest_ok|]. split; [exact ex_units|]. split; [exact ex_norms|].
  split; [exact ex_forest_fit|exact (proj2 ex_forest_nn)].
Qed.

(** ** C69: other metrics *)
Definition C69_statement : Prop :=
  forall (pq : pqueue Q), queue_laws QD pq ->
  forall (alg : std_algos), std_laws alg ->
  forall (it : index_type) (cm : cmath Q) (fuel : nat) (gauss : nat -> nat -> Q) (sp : space Q)
    (leaf_size : Z) (n : nat) (f : kd_forest Q) (q : list Q) (max_leaves_visited : nat) (nn0 : neighbor Q),
  wf_space sp -> kd_forest_make alg it cm metric_l1 fuel gauss sp leaf_size n = Ok f ->
  Forall (fun t => unit_vector (map qv (rk_rotation t))) (kf_data f) ->
  norms_le qv 8 sp -> length q = sp_sdim sp -> distances_fit qv L1 sp q ->
  npts sp <= max_leaves_visited ->
  exists i d, forest_search_nn pq f q max_leaves_visited nn0 = Ok (Neighbor i d)
    /\ (qv d == dist_to qv L1 sp q i)%Q /\ is_nearest (npts sp) (dist_to qv L1 sp q) i.

Theorem C69_refuted : ~ C69_statement.
Proof. exact l1_refutation. Qed.
Print Assumptions C69_refuted.

(** The neighbour found is not the nearest, nor is its distance right: the
    distances to the two points are 5 and 6. *)
Example C69_example :
  kd_forest_make std_example it_int forest_math metric_l1 7 ex_gauss (Space 2 [[5; 0]; [3; 3]]%Q) 1 1 = Ok l1_forest
  /\ forest_search_nn list_queue l1_forest [0; 0]%Q 2 (Neighbor 0 0%Q) = Ok (Neighbor 1 (144 # 25)%Q).
Proof. split; [exact l1_forest_ok|exact l1_nn]. Qed.

(** ** C70: several neighbours *)
Definition C70_statement : Prop :=
  forall (pq : pqueue Q), queue_laws QD pq ->
  forall (alg : std_algos), std_laws alg ->
  forall (it : index_type) (cm : cmath Q) (fuel : nat) (gauss : nat -> nat -> Q) (sp : space Q)
    (leaf_size : Z) (n : nat) (f : kd_forest Q) (q : list Q) (max_leaves_visited : nat)
    (range : list (neighbor Q)) st0 st,
  wf_space sp -> kd_forest_make alg it cm metric_l2_squared fuel gauss sp leaf_size n = Ok f ->
  Forall (fun t => unit_vector (map qv (rk_rotation t))) (kf_data f) ->
  norms_le qv 8 sp -> length q = sp_sdim sp -> npts sp <= max_leaves_visited ->
  length range <= npts sp -> visitor_knn_init range = Ok st0 ->
  forest_search_nearest pq f visitor_knn q max_leaves_visited st0 = Ok st ->
  knn_answer (npts sp) (length range) (dist_to qv L2Squared sp q) (answers qv (fst st)).

Theorem C70_refuted : ~ C70_statement.
Proof. exact once_refutation. Qed.
Print Assumptions C70_refuted.

(** Both neighbours are the same point. *)
Example C70_example : exists st0 st, visitor_knn_init [Neighbor 0 0%Q; Neighbor 0 0%Q] = Ok st0
  /\ forest_search_nearest list_queue ex_forest visitor_knn [6; 4]%Q 7 st0 = Ok st
  /\ fst st = [Neighbor 5 2%Q; Neighbor 5 2%Q].
Proof. exact ex_forest_knn. Qed.
