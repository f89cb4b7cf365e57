(** Properties of the cover tree of the examples, C62-C65. *)
From Coq Require Import List ZArith QArith Qround Reals Bool Arith Permutation Sorted Lia.
From Flocq Require Import IEEE754.BinarySingleNaN.
From Verif Require Import Base ModelBox ModelBuild ModelSearch Spec ModelCover SpecCover SpecReal Instances
  Floats Examples CoverSearch CoverTerm CoverQuery CoverReal CoverEx CoverTop.
Import ListNotations.
Local Open Scope nat_scope.

(** ** C62: every point once, and correct bounds *)
Theorem C62_every_point_once :
  forall (T : Type) (S : Scalar T) (cm : cmath T) (alg : std_algos) (shuffle : list nat -> list nat),
  std_laws alg -> shuffles shuffle ->
  forall (m : metric T) (fuel : nat) (sp : space T) (base : T) (t : cover_tree T),
  cover_tree_make cm alg shuffle m fuel sp base = Ok t ->
  Permutation (stored (ct_root t)) (seq 0 (npts sp)).
Proof. exact @cover_every_point_once. Qed.
Print Assumptions C62_every_point_once.

Theorem C62_no_undefined_behaviour :
  forall (T : Type) (S : Scalar T) (cm : cmath T) (alg : std_algos) (shuffle : list nat -> list nat),
  std_laws alg -> shuffles shuffle ->
  forall (m : metric T) (fuel : nat) (sp : space T) (base : T) (why : ub_reason),
  0 < npts sp ->
  cover_tree_make cm alg shuffle m fuel sp base <> Ub why.
Proof. exact @cover_no_ub. Qed.
Print Assumptions C62_no_undefined_behaviour.

(** Every point below a node is within the maximum distance stored there. *)
Theorem C62_max_distance :
  forall (T : Type) (S : Scalar T) (ok : T -> Prop), ord_laws S ok ->
  forall (cm : cmath T) (alg : std_algos), std_laws alg ->
  forall shuffle : list nat -> list nat, shuffles shuffle ->
  forall (m : metric T) (fuel : nat) (sp : space T) (base : T) (t : cover_tree T),
  (forall x y, In x (sp_pts sp) -> In y (sp_pts sp) -> ok (m_dist m x y)) ->
  cover_tree_make cm alg shuffle m fuel sp base = Ok t ->
  forall n j, node_of n (ct_root t) -> In j (stored n) ->
    s_leb (m_dist m (nth (cn_index n) (sp_pts sp) []) (nth j (sp_pts sp) [])) (cn_max_distance n) = true.
Proof. exact @cover_make_bounds. Qed.
Print Assumptions C62_max_distance.

Example C62_example : exists root, let t := CoverTree ex_sp metric_l1 root in
  cover_tree_make q_math std_example (@rev nat) metric_l1 40 ex_sp 2%Q = Ok t
  /\ std_laws std_example /\ shuffles (@rev nat)
  /\ stored root = [4; 5; 2; 0; 6; 1; 3]
  /\ map cn_max_distance (cn_children root) = [5; 7]%Q
  /\ Forall (fun n => node_of n root) (cn_children root).
Proof.
  eexists. cbv zeta. split; [apply make_cover_ok; vm_compute; reflexivity|].
  split; [exact std_example_laws|]. split; [exact rev_shuffles|]. split; [reflexivity|]. split; [reflexivity|].
  repeat constructor; eapply node_below; try apply node_here; simpl; auto.
Qed.

(** ** C63: construction ends *)
Theorem C63_construction_ends :
  forall (T : Type) (S : Scalar T) (val : T -> Q), exact_laws S val ->
  forall (cm : cmath T) (alg : std_algos) (shuffle : list nat -> list nat),
  std_laws alg -> shuffles shuffle ->
  forall (m : metric T) (sp : space T) (base : T), 0 < npts sp ->
  exists fuel0 t, forall fuel, fuel0 <= fuel ->
    cover_tree_make cm alg shuffle m fuel sp base = Ok t.
Proof. exact @cover_ends_exact. Qed.
Print Assumptions C63_construction_ends.

Theorem C63_construction_ends_real :
  forall (mx : R) (cm : cmath R) (alg : std_algos) (shuffle : list nat -> list nat),
  std_laws alg -> shuffles shuffle ->
  forall (m : metric R) (sp : space R) (base : R), 0 < npts sp ->
  exists fuel0 t, forall fuel, fuel0 <= fuel ->
    @cover_tree_make R (R_scalar mx) cm alg shuffle m fuel sp base = Ok t.
Proof. exact cover_ends_real. Qed.
Print Assumptions C63_construction_ends_real.

Example C63_example : exists root,
  cover_tree_make q_math std_example (fun l => l) metric_l1 9 ex_sp (3 # 2)%Q = Ok (CoverTree ex_sp metric_l1 root)
  /\ length (stored root) = 7.
Proof. eexists. split; [apply make_cover_ok; vm_compute; reflexivity|reflexivity]. Qed.

(** The full statement for double. *)
Definition C63_statement : Prop :=
  forall (cm : cmath double) (alg : std_algos) (shuffle : list nat -> list nat),
  libm cm -> std_laws alg -> shuffles shuffle ->
  forall sp : space double, wf_space sp -> 0 < npts sp -> all_coords (finite 53 1024) sp ->
  exists fuel t,
    @cover_tree_make double F64 cm alg shuffle (@metric_l2 double F64 cm) fuel sp (f64 2 0) = Ok t.

Theorem C63_refuted : ~ C63_statement.
Proof. exact c63_refutation. Qed.
Print Assumptions C63_refuted.

(** When the first two points of the shuffled sequence coincide, the level of
    the root is minus infinity and the loop that raises it never ends. *)
Theorem C63_coincident_points_diverge :
  forall (cm : cmath double) (alg : std_algos) (fuel : nat), libm cm ->
  @cover_tree_make double F64 cm alg (fun l => l) (@metric_l2 double F64 cm) fuel
    (Space 1 [[B754_zero false]; [B754_zero false]; [f64 1 0]]) (f64 2 0) = OutOfFuel.
Proof. exact cx_diverges. Qed.
Print Assumptions C63_coincident_points_diverge.

Example C63_libm_example : libm cx_libm.
Proof. exact cx_libm_ok. Qed.

(** ** C64: searches are exact for metrics with a triangle inequality *)
Theorem C64_nearest_neighbour :
  forall (T : Type) (S : Scalar T) (val : T -> Q), exact_laws S val ->
  forall (cm : cmath T) (alg : std_algos), std_laws alg ->
  forall shuffle : list nat -> list nat, shuffles shuffle ->
  forall (m : metric T) (fuel : nat) (sp : space T) (base : T) (t : cover_tree T) (q : list T),
  cover_tree_make cm alg shuffle m fuel sp base = Ok t ->
  length q = sp_sdim sp -> triangle val m sp q ->
  (forall j, j < npts sp -> (metric_to val m sp q j < val s_max)%Q) ->
  forall nn0 : neighbor T,
  exists i d, cover_search_nn alg t q nn0 = Ok (Neighbor i d)
    /\ (val d == metric_to val m sp q i)%Q
    /\ is_nearest (npts sp) (metric_to val m sp q) i.
Proof. exact @cover_nn_answer. Qed.
Print Assumptions C64_nearest_neighbour.

Theorem C64_k_nearest_neighbours :
  forall (T : Type) (S : Scalar T) (val : T -> Q), exact_laws S val ->
  forall (cm : cmath T) (alg : std_algos), std_laws alg ->
  forall shuffle : list nat -> list nat, shuffles shuffle ->
  forall (m : metric T) (fuel : nat) (sp : space T) (base : T) (t : cover_tree T) (q : list T),
  cover_tree_make cm alg shuffle m fuel sp base = Ok t ->
  length q = sp_sdim sp -> triangle val m sp q ->
  (forall j, j < npts sp -> (metric_to val m sp q j < val s_max)%Q) ->
  forall (k : nat) (knn0 : list (neighbor T)), 0 < k ->
  exists out, cover_search_knn alg t q k knn0 = Ok out
    /\ knn_answer (npts sp) k (metric_to val m sp q) (answers val out).
Proof. exact @cover_knn_answer. Qed.
Print Assumptions C64_k_nearest_neighbours.

Theorem C64_knn_range :
  forall (T : Type) (S : Scalar T) (val : T -> Q), exact_laws S val ->
  forall (cm : cmath T) (alg : std_algos), std_laws alg ->
  forall shuffle : list nat -> list nat, shuffles shuffle ->
  forall (m : metric T) (fuel : nat) (sp : space T) (base : T) (t : cover_tree T) (q : list T),
  cover_tree_make cm alg shuffle m fuel sp base = Ok t ->
  length q = sp_sdim sp -> triangle val m sp q ->
  (forall j, j < npts sp -> (metric_to val m sp q j < val s_max)%Q) ->
  forall range : list (neighbor T), 0 < length range ->
  exists out, cover_search_knn_range alg t q range = Ok out
    /\ length out = length range
    /\ knn_answer (npts sp) (length range) (metric_to val m sp q) (answers val (firstn (npts sp) out))
    /\ (forall p, npts sp <= p -> p < length range - 1 -> nth_error out p = nth_error range p)
    /\ (npts sp < length range -> forall old, nth_error range (length range - 1) = Some old ->
          nth_error out (length range - 1) = Some (Neighbor (n_index old) s_max)).
Proof. exact @cover_knn_range_answer. Qed.
Print Assumptions C64_knn_range.

Theorem C64_radius :
  forall (T : Type) (S : Scalar T) (val : T -> Q), exact_laws S val ->
  forall (cm : cmath T) (alg : std_algos), std_laws alg ->
  forall shuffle : list nat -> list nat, shuffles shuffle ->
  forall (m : metric T) (fuel : nat) (sp : space T) (base : T) (t : cover_tree T) (q : list T),
  cover_tree_make cm alg shuffle m fuel sp base = Ok t ->
  length q = sp_sdim sp -> triangle val m sp q ->
  forall (r : T) (sort : bool),
  exists l, cover_search_radius alg t q r sort = Ok l
    /\ filter_answer (npts sp) (fun i => (metric_to val m sp q i < val r)%Q) (metric_to val m sp q) (answers val l)
    /\ (sort = true -> StronglySorted Qle (map (fun x => val (n_distance x)) l)).
Proof. exact @cover_radius_answer. Qed.
Print Assumptions C64_radius.

Theorem C64_approximate_nn :
  forall (T : Type) (S : Scalar T) (val : T -> Q), exact_laws S val ->
  forall (cm : cmath T) (alg : std_algos), std_laws alg ->
  forall shuffle : list nat -> list nat, shuffles shuffle ->
  forall (m : metric T) (fuel : nat) (sp : space T) (base : T) (t : cover_tree T) (q : list T),
  cover_tree_make cm alg shuffle m fuel sp base = Ok t ->
  length q = sp_sdim sp -> triangle val m sp q ->
  (forall j, j < npts sp -> (metric_to val m sp q j < val s_max)%Q) ->
  forall (e : T) (nn0 : neighbor T), field_laws S val -> (1 <= val e)%Q ->
  (forall j, j < npts sp -> (0 <= metric_to val m sp q j)%Q) ->
  exists i d, cover_search_nn_approx alg t q e nn0 = Ok (Neighbor i d)
    /\ i < npts sp
    /\ (val d == metric_to val m sp q i / val e)%Q
    /\ (forall j, j < npts sp -> (metric_to val m sp q i <= val e * metric_to val m sp q j)%Q).
Proof. exact @cover_nn_approx_answer. Qed.
Print Assumptions C64_approximate_nn.

Theorem C64_approximate_knn :
  forall (T : Type) (S : Scalar T) (val : T -> Q), exact_laws S val ->
  forall (cm : cmath T) (alg : std_algos), std_laws alg ->
  forall shuffle : list nat -> list nat, shuffles shuffle ->
  forall (m : metric T) (fuel : nat) (sp : space T) (base : T) (t : cover_tree T) (q : list T),
  cover_tree_make cm alg shuffle m fuel sp base = Ok t ->
  length q = sp_sdim sp -> triangle val m sp q ->
  (forall j, j < npts sp -> (metric_to val m sp q j < val s_max)%Q) ->
  forall (e : T) (k : nat) (knn0 : list (neighbor T)), field_laws S val -> (1 <= val e)%Q ->
  (forall j, j < npts sp -> (0 <= metric_to val m sp q j)%Q) -> 0 < k ->
  exists l, cover_search_knn_approx alg t q k e knn0 = Ok l
    /\ length l = Nat.min k (npts sp)
    /\ NoDup (map n_index l)
    /\ StronglySorted Qle (map (fun x => val (n_distance x)) l)
    /\ (forall x, In x l -> n_index x < npts sp
          /\ (val (n_distance x) == metric_to val m sp q (n_index x) / val e)%Q)
    /\ (forall ds p x, sorted_distances (npts sp) (metric_to val m sp q) ds -> nth_error l p = Some x ->
          (metric_to val m sp q (n_index x) <= val e * nth p ds 0)%Q).
Proof. exact @cover_knn_approx_answer. Qed.
Print Assumptions C64_approximate_knn.

Theorem C64_approximate_radius :
  forall (T : Type) (S : Scalar T) (val : T -> Q), exact_laws S val ->
  forall (cm : cmath T) (alg : std_algos), std_laws alg ->
  forall shuffle : list nat -> list nat, shuffles shuffle ->
  forall (m : metric T) (fuel : nat) (sp : space T) (base : T) (t : cover_tree T) (q : list T),
  cover_tree_make cm alg shuffle m fuel sp base = Ok t ->
  length q = sp_sdim sp -> triangle val m sp q ->
  forall (e r : T) (sort : bool), field_laws S val -> (1 <= val e)%Q ->
  (forall j, j < npts sp -> (0 <= metric_to val m sp q j)%Q) ->
  exists l, cover_search_radius_approx alg t q r e sort = Ok l
    /\ NoDup (map n_index l)
    /\ (forall x, In x l -> n_index x < npts sp
          /\ (metric_to val m sp q (n_index x) < val r)%Q
          /\ (val (n_distance x) == metric_to val m sp q (n_index x) / val e)%Q)
    /\ (forall i, i < npts sp -> (metric_to val m sp q i < val r / val e)%Q -> In i (map n_index l))
    /\ (sort = true -> StronglySorted Qle (map (fun x => val (n_distance x)) l)).
Proof. exact @cover_radius_approx_answer. Qed.
Print Assumptions C64_approximate_radius.

(** The metrics of the library that qualify. *)
Theorem C64_metrics :
  forall (T : Type) (S : Scalar T) (val : T -> Q), exact_laws S val ->
  forall (em : exact_metric) (sp : space T) (q : list T),
  em = L1 \/ em = SO2 ->
  wf_space sp -> Forall (fun p => valid_for em (map val p)) (sp_pts sp) ->
  length q = sp_sdim sp -> valid_for em (map val q) ->
  triangle val (metric_of em) sp q
  /\ (forall p, In p (sp_pts sp) -> (0 <= val (m_dist (metric_of em) q p))%Q).
Proof. exact @triangle_exact. Qed.
Print Assumptions C64_metrics.

Theorem C64_lpinf :
  forall (T : Type) (S : Scalar T) (val : T -> Q), exact_laws S val ->
  forall (sp : space T) (q : list T), wf_space sp -> length q = sp_sdim sp ->
  triangle val metric_lpinf sp q
  /\ (forall p, In p (sp_pts sp) -> (0 <= val (m_dist metric_lpinf q p))%Q).
Proof. exact @triangle_lpinf. Qed.
Print Assumptions C64_lpinf.

Example C64_example : exists root, let t := CoverTree ex_sp metric_l1 root in
  cover_tree_make q_math std_example (@rev nat) metric_l1 40 ex_sp 2%Q = Ok t
  /\ shuffles (@rev nat)
  /\ length [1; 1]%Q = sp_sdim ex_sp
  /\ triangle qv metric_l1 ex_sp [1; 1]%Q
  /\ (forall j, j < npts ex_sp -> (0 <= metric_to qv metric_l1 ex_sp [1; 1] j < qv s_max)%Q)
  /\ cover_search_nn std_example t [4; 2]%Q (Neighbor 9 0%Q) = Ok (Neighbor 2 1%Q)
  /\ cover_search_radius std_example t [1; 1]%Q 4%Q true
     = Ok [Neighbor 4 2%Q; Neighbor 0 2%Q; Neighbor 1 2%Q; Neighbor 3 2%Q; Neighbor 2 3%Q]
  /\ cover_search_knn std_example t [4; 2]%Q 3 [] = Ok [Neighbor 2 1%Q; Neighbor 4 2%Q; Neighbor 3 2%Q]
  /\ cover_search_radius_approx std_example t [1; 1]%Q 4%Q (3 # 2)%Q false
     = Ok [Neighbor 4 (4 # 3)%Q; Neighbor 0 (4 # 3)%Q; Neighbor 1 (4 # 3)%Q; Neighbor 3 (4 # 3)%Q].
Proof.
  eexists. cbv zeta. split; [apply make_cover_ok; vm_compute; reflexivity|].
  split; [exact rev_shuffles|]. split; [reflexivity|].
  split; [apply (triangle_exact qv QD_exact L1); auto using ex_wf; repeat constructor|].
  split; [|repeat (split; [vm_compute; reflexivity|]); vm_compute; reflexivity].
  intros j Hj. do 7 (destruct j as [|j]; [split; vm_compute; congruence|]). cbn in Hj. lia.
Qed.

(** ** The Euclidean distance, over real numbers *)
Theorem C64_euclidean_nearest_neighbour :
  forall (mx : R) (cm : cmath R), (forall x, (0 <= x)%R -> c_sqrt cm x = sqrt x) ->
  forall alg : std_algos, std_laws alg ->
  forall shuffle : list nat -> list nat, shuffles shuffle ->
  forall (fuel : nat) (sp : space R) (base : R) (t : cover_tree R) (q : list R),
  @cover_tree_make R (R_scalar mx) cm alg shuffle (@metric_l2 R (R_scalar mx) cm) fuel sp base = Ok t ->
  wf_space sp -> length q = sp_sdim sp ->
  (forall j, j < npts sp -> (euclid_to sp q j < mx)%R) ->
  forall nn0 : neighbor R,
  exists i, @cover_search_nn R (R_scalar mx) alg t q nn0 = Ok (Neighbor i (euclid_to sp q i))
    /\ i < npts sp
    /\ forall j, j < npts sp -> (euclid_to sp q i <= euclid_to sp q j)%R.
Proof. exact real_nn. Qed.
Print Assumptions C64_euclidean_nearest_neighbour.

Theorem C64_euclidean_k_nearest_neighbours :
  forall (mx : R) (cm : cmath R), (forall x, (0 <= x)%R -> c_sqrt cm x = sqrt x) ->
  forall alg : std_algos, std_laws alg ->
  forall shuffle : list nat -> list nat, shuffles shuffle ->
  forall (fuel : nat) (sp : space R) (base : R) (t : cover_tree R) (q : list R),
  @cover_tree_make R (R_scalar mx) cm alg shuffle (@metric_l2 R (R_scalar mx) cm) fuel sp base = Ok t ->
  wf_space sp -> length q = sp_sdim sp ->
  (forall j, j < npts sp -> (euclid_to sp q j < mx)%R) ->
  forall (k : nat) (knn0 : list (neighbor R)), 0 < k ->
  exists out, @cover_search_knn R (R_scalar mx) alg t q k knn0 = Ok out
    /\ length out = Nat.min k (npts sp)
    /\ NoDup (map n_index out)
    /\ (forall x, In x out -> n_index x < npts sp /\ n_distance x = euclid_to sp q (n_index x))
    /\ StronglySorted Rle (map n_distance out)
    /\ (forall x j, In x out -> j < npts sp -> ~ In j (map n_index out) -> (n_distance x <= euclid_to sp q j)%R).
Proof. exact real_knn. Qed.
Print Assumptions C64_euclidean_k_nearest_neighbours.

Theorem C64_euclidean_radius :
  forall (mx : R) (cm : cmath R), (forall x, (0 <= x)%R -> c_sqrt cm x = sqrt x) ->
  forall alg : std_algos, std_laws alg ->
  forall shuffle : list nat -> list nat, shuffles shuffle ->
  forall (fuel : nat) (sp : space R) (base : R) (t : cover_tree R) (q : list R),
  @cover_tree_make R (R_scalar mx) cm alg shuffle (@metric_l2 R (R_scalar mx) cm) fuel sp base = Ok t ->
  wf_space sp -> length q = sp_sdim sp ->
  forall (r : R) (sort : bool),
  exists l, @cover_search_radius R (R_scalar mx) alg t q r sort = Ok l
    /\ NoDup (map n_index l)
    /\ (forall x, In x l -> n_index x < npts sp /\ n_distance x = euclid_to sp q (n_index x)
          /\ (euclid_to sp q (n_index x) < r)%R)
    /\ (forall i, i < npts sp -> (euclid_to sp q i < r)%R -> In i (map n_index l))
    /\ (sort = true -> StronglySorted Rle (map n_distance l)).
Proof. exact real_radius. Qed.
Print Assumptions C64_euclidean_radius.

(** The hypotheses hold for the points (0, 0), (3, 4), (6, 8) and the query
    (0, 8); with the actual logarithms and powers as C library. *)
Example C64_euclidean_example :
  let cm := CMath Rpower ln (fun x => IZR (- Int_part (- x))) (fun x => IZR (Int_part x)) sqrt in
  let sp := Space 2 [[0; 0]; [3; 4]; [6; 8]]%R in
  (forall x, (0 <= x)%R -> c_sqrt cm x = sqrt x)
  /\ (exists fuel t, @cover_tree_make R (R_scalar 1000) cm std_example (@rev nat)
        (@metric_l2 R (R_scalar 1000) cm) fuel sp 2%R = Ok t)
  /\ wf_space sp
  /\ (forall j, j < npts sp -> (euclid_to sp [0; 8]%R j < 1000)%R)
  /\ euclid_to sp [0; 8]%R 1 = 5%R.
Proof. exact euclid_example. Qed.

(** ** C65: and only for those *)
(** The full statement. *)
Definition C65_statement : Prop :=
  forall (T : Type) (S : Scalar T) (val : T -> Q), exact_laws S val ->
  forall (cm : cmath T) (alg : std_algos) (shuffle : list nat -> list nat),
  std_laws alg -> shuffles shuffle ->
  forall (fuel : nat) (sp : space T) (base : T) (t : cover_tree T) (q : list T),
  cover_tree_make cm alg shuffle metric_l2_squared fuel sp base = Ok t ->
  usable val L2Squared sp bounds_from_space q -> distances_fit val L2Squared sp q ->
  forall nn0 : neighbor T,
  exists i d, cover_search_nn alg t q nn0 = Ok (Neighbor i d)
    /\ is_nearest (npts sp) (dist_to val L2Squared sp q) i.

Theorem C65_refuted : ~ C65_statement.
Proof. exact c65_refutation. Qed.
Print Assumptions C65_refuted.

(** The points 18, 0 and 5 and the query 10: the answer is 18, not 5. *)
Theorem C65_wrong_neighbour : exists root, let t := CoverTree (Space 1 [[18]; [0]; [5]]%Q) metric_l2_squared root in
  cover_tree_make q_math std_example (fun l => l) metric_l2_squared 9 (Space 1 [[18]; [0]; [5]]%Q) 2%Q = Ok t
  /\ cover_search_nn std_example t [10]%Q (Neighbor 9 0%Q) = Ok (Neighbor 0 64%Q).
Proof. exact c65_wrong. Qed.
Print Assumptions C65_wrong_neighbour.
