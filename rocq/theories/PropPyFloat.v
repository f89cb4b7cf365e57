(** Properties of the Python searches on floating point arrays: C142. *)
From Coq Require Import List ZArith Reals Bool Arith Sorted Lia Lra.
From Flocq Require Import Core.Core IEEE754.BinarySingleNaN.
From Verif Require Import Base ModelBox ModelBuild ModelSearch ModelSerial ModelPython Spec SpecPython SpecRound SpecApprox
  SpecPyFloat Instances Examples PyExamples Floats FloatThms FloatEx PyFloat PyFloatEx SpecRound.
Import ListNotations.
Local Open Scope nat_scope.

(** ** C142: KdTree(pts, metric, leaf) and its searches, for arrays of floating point numbers *)
(** The full statement: search_knn(queries, 1) gives every query the point with the least of
    the computed distances. *)
Definition C142_statement : Prop :=
  forall alg : std_algos, std_laws alg ->
  forall (pts : ndarray double) (sp : space double) (m : metric_t) (em : exact_metric) (leaf : Z),
  tree_args pts sp leaf -> exact_for m em ->
  forall (queries : ndarray double) (qs : space double) (e : Z), query_args pts sp queries qs ->
  (forall q, In q (sp_pts qs) -> float_input 53 1024 em e sp bounds_from_space q) ->
  forall fuel sched t out, @py_kd_tree double F64 alg fuel pts m leaf = ret t ->
  @py_search_knn double F64 sched t queries 1 None = ret out ->
  forall i q, nth_error (sp_pts qs) i = Some q -> exists x, nd_get out [i] = Some x
    /\ nearest_within (npts sp) (computed 53 1024 prec_gt_53 prec_lt_1024 em sp q) 1 (n_index x).

Theorem C142_refuted : ~ C142_statement.
Proof. exact c142_refutation. Qed.
Print Assumptions C142_refuted.

(** It holds up to a factor that only depends on the number of points and dimensions. *)
Theorem C142_search_knn :
  forall (prec emax : Z) (Hprec : Prec_gt_0 prec) (Hmax : Prec_lt_emax prec emax), (2 <= prec)%Z ->
  forall alg : std_algos, std_laws alg ->
  forall (pts : ndarray (binary_float prec emax)) (sp : space (binary_float prec emax)) (m : metric_t) (em : exact_metric)
    (leaf : Z),
  tree_args pts sp leaf -> all_coords (below prec emax (emax - 2)) sp -> exact_for m em ->
  few_steps prec (sp_sdim sp) (length (sp_pts sp) - Z.to_nat leaf) ->
  forall (queries : ndarray (binary_float prec emax)) (qs : space (binary_float prec emax)), query_args pts sp queries qs ->
  forall (e : Z) (k : nat),
  (forall q, In q (sp_pts qs) -> float_input prec emax em e sp bounds_from_space q) -> 0 < k ->
  exists t, (forall fuel, length (sp_pts sp) <= fuel ->
      @py_kd_tree _ (Float_scalar prec emax Hprec Hmax) alg fuel pts m leaf = ret t)
  /\ exists out, returns (length (sp_pts qs))
       (fun sched => @py_search_knn _ (Float_scalar prec emax Hprec Hmax) sched t queries k None) out
  /\ forall i q, nth_error (sp_pts qs) i = Some q -> exists row, answer_row queries (length (sp_pts qs)) k i out row
     /\ knn_within (length (sp_pts sp)) k (computed prec emax Hprec Hmax em sp q)
          (slack prec (sp_sdim sp) (length (sp_pts sp) - Z.to_nat leaf))
          (real_answers prec emax (firstn (length (sp_pts sp)) row))
     /\ @row_padding _ (Float_scalar prec emax Hprec Hmax) (length (sp_pts sp)) k row.
Proof. exact float_session_knn. Qed.
Print Assumptions C142_search_knn.

Theorem C142_search_knn_approx :
  forall (prec emax : Z) (Hprec : Prec_gt_0 prec) (Hmax : Prec_lt_emax prec emax), (2 <= prec)%Z ->
  forall alg : std_algos, std_laws alg ->
  forall (pts : ndarray (binary_float prec emax)) (sp : space (binary_float prec emax)) (m : metric_t) (em : exact_metric)
    (leaf : Z),
  tree_args pts sp leaf -> all_coords (below prec emax (emax - 2)) sp -> exact_for m em ->
  few_steps prec (sp_sdim sp) (length (sp_pts sp) - Z.to_nat leaf) ->
  forall (queries : ndarray (binary_float prec emax)) (qs : space (binary_float prec emax)), query_args pts sp queries qs ->
  forall (e : Z) (k : nat) (ea : binary_float prec emax),
  (forall q, In q (sp_pts qs) -> float_input prec emax em e sp bounds_from_space q) -> 0 < k -> factor_ok prec emax ea ->
  exists t, (forall fuel, length (sp_pts sp) <= fuel ->
      @py_kd_tree _ (Float_scalar prec emax Hprec Hmax) alg fuel pts m leaf = ret t)
  /\ exists out, returns (length (sp_pts qs))
       (fun sched => @py_search_knn _ (Float_scalar prec emax Hprec Hmax) sched t queries k (Some ea)) out
  /\ forall i q, nth_error (sp_pts qs) i = Some q -> exists row, answer_row queries (length (sp_pts qs)) k i out row
     /\ knn_tolerated (length (sp_pts sp)) k (computed prec emax Hprec Hmax em sp q) (scaled prec emax ea)
          (tolerated prec emax ea (slack prec (sp_sdim sp) (length (sp_pts sp) - Z.to_nat leaf)))
          (real_answers prec emax (firstn (length (sp_pts sp)) row)).
Proof. exact float_session_knn_approx. Qed.
Print Assumptions C142_search_knn_approx.

Theorem C142_search_radius :
  forall (prec emax : Z) (Hprec : Prec_gt_0 prec) (Hmax : Prec_lt_emax prec emax), (2 <= prec)%Z ->
  forall alg : std_algos, std_laws alg ->
  forall (pts : ndarray (binary_float prec emax)) (sp : space (binary_float prec emax)) (m : metric_t) (em : exact_metric)
    (leaf : Z),
  tree_args pts sp leaf -> all_coords (below prec emax (emax - 2)) sp -> exact_for m em ->
  few_steps prec (sp_sdim sp) (length (sp_pts sp) - Z.to_nat leaf) ->
  forall (queries : ndarray (binary_float prec emax)) (qs : space (binary_float prec emax)), query_args pts sp queries qs ->
  forall (e : Z) (r : binary_float prec emax) (sort : bool),
  (forall q, In q (sp_pts qs) -> float_input prec emax em e sp bounds_from_space q) -> finite prec emax r ->
  exists t, (forall fuel, length (sp_pts sp) <= fuel ->
      @py_kd_tree _ (Float_scalar prec emax Hprec Hmax) alg fuel pts m leaf = ret t)
  /\ exists out, returns (length (sp_pts qs))
       (fun sched => @py_search_radius _ (Float_scalar prec emax Hprec Hmax) alg sched t queries r None sort) out
  /\ length out = length (sp_pts qs)
  /\ forall i q, nth_error (sp_pts qs) i = Some q -> exists l, nth_error out i = Some l
     /\ radius_within (length (sp_pts sp)) (computed prec emax Hprec Hmax em sp q)
          (slack prec (sp_sdim sp) (length (sp_pts sp) - Z.to_nat leaf)) (B2R r) (real_answers prec emax l)
     /\ (sort = true -> StronglySorted Rle (map snd (real_answers prec emax l))).
Proof. exact float_session_radius. Qed.
Print Assumptions C142_search_radius.

Theorem C142_search_radius_approx :
  forall (prec emax : Z) (Hprec : Prec_gt_0 prec) (Hmax : Prec_lt_emax prec emax), (2 <= prec)%Z ->
  forall alg : std_algos, std_laws alg ->
  forall (pts : ndarray (binary_float prec emax)) (sp : space (binary_float prec emax)) (m : metric_t) (em : exact_metric)
    (leaf : Z),
  tree_args pts sp leaf -> all_coords (below prec emax (emax - 2)) sp -> exact_for m em ->
  few_steps prec (sp_sdim sp) (length (sp_pts sp) - Z.to_nat leaf) ->
  forall (queries : ndarray (binary_float prec emax)) (qs : space (binary_float prec emax)), query_args pts sp queries qs ->
  forall (e : Z) (r : binary_float prec emax) (sort : bool) (ea : binary_float prec emax),
  (forall q, In q (sp_pts qs) -> float_input prec emax em e sp bounds_from_space q) ->
  factor_ok prec emax ea -> finite prec emax r -> (0 <= B2R r)%R ->
  exists t, (forall fuel, length (sp_pts sp) <= fuel ->
      @py_kd_tree _ (Float_scalar prec emax Hprec Hmax) alg fuel pts m leaf = ret t)
  /\ exists out, returns (length (sp_pts qs))
       (fun sched => @py_search_radius _ (Float_scalar prec emax Hprec Hmax) alg sched t queries r (Some ea) sort) out
  /\ length out = length (sp_pts qs)
  /\ forall i q, nth_error (sp_pts qs) i = Some q -> exists l, nth_error out i = Some l
     /\ radius_tolerated (length (sp_pts sp)) (computed prec emax Hprec Hmax em sp q) (scaled prec emax ea) (B2R r)
          (within_inner prec emax ea (slack prec (sp_sdim sp) (length (sp_pts sp) - Z.to_nat leaf)) (B2R r))
          (real_answers prec emax l)
     /\ (sort = true -> StronglySorted Rle (map snd (real_answers prec emax l))).
Proof. exact float_session_radius_approx. Qed.
Print Assumptions C142_search_radius_approx.

Example C142_example :
  tree_args pf_pts fx_sp 1 /\ all_coords (below 53 1024 (1024 - 2)) fx_sp /\ exact_for MetricL2Squared L2Squared
  /\ few_steps 53 2 (4 - 1) /\ query_args pf_pts fx_sp pf_queries pf_qs
  /\ (forall q, In q (sp_pts pf_qs) -> float_input 53 1024 L2Squared 0 fx_sp bounds_from_space q)
  /\ knn_call 4 pf_pts pf_queries 1 None = Some ([2], [[0]; [0]])
  /\ factor_ok 53 1024 (f64 4 0) /\ finite 53 1024 (f64 41 0)
  /\ knn_call 5 pg_pts pg_queries 3 (Some (f64 4 0)) = Some ([2; 3], [[4; 1; 0]; [4; 1; 0]])
  /\ radius_call 5 pg_pts pg_queries (f64 41 0) (Some (f64 4 0)) false = Some [[1]; [1]].
Proof.
  split; [exact pf_tree_args|]. split; [exact pf_coords|]. split; [reflexivity|]. split; [apply few_small; cbn; lia|].
  split; [exact pf_query_args|]. split; [apply pf_input; auto|]. split; [vm_compute; reflexivity|].
  split; [|split; [reflexivity|split; vm_compute; reflexivity]].
  destruct (f64_R 4 0) as [A B]; [reflexivity|lia|lia|]. split; [exact A|]. rewrite B, Rmult_1_r. split; [lra|].
  apply Rle_trans with (bpow radix2 2); [cbn; lra|]. apply bpow_le. lia.
Qed.

(** On a grid, for instance of whole numbers, the answers are exact. *)
Theorem C142_search_knn_grid :
  forall (prec emax : Z) (Hprec : Prec_gt_0 prec) (Hmax : Prec_lt_emax prec emax), (2 <= prec)%Z ->
  forall alg : std_algos, std_laws alg ->
  forall (pts : ndarray (binary_float prec emax)) (sp : space (binary_float prec emax)) (m : metric_t) (em : exact_metric)
    (leaf : Z),
  tree_args pts sp leaf -> all_coords (below prec emax (emax - 2)) sp -> exact_for m em ->
  few_steps prec (sp_sdim sp) (length (sp_pts sp) - Z.to_nat leaf) ->
  forall (queries : ndarray (binary_float prec emax)) (qs : space (binary_float prec emax)), query_args pts sp queries qs ->
  forall (e g : Z) (k : nat),
  (forall q, In q (sp_pts qs) -> float_input prec emax em e sp bounds_from_space q /\ grid_input prec emax em g e sp q) ->
  0 < k ->
  exists t, (forall fuel, length (sp_pts sp) <= fuel ->
      @py_kd_tree _ (Float_scalar prec emax Hprec Hmax) alg fuel pts m leaf = ret t)
  /\ exists out, returns (length (sp_pts qs))
       (fun sched => @py_search_knn _ (Float_scalar prec emax Hprec Hmax) sched t queries k None) out
  /\ forall i q, nth_error (sp_pts qs) i = Some q -> exists row, answer_row queries (length (sp_pts qs)) k i out row
     /\ knn_within (length (sp_pts sp)) k (true_dist prec emax em sp q) 1
          (real_answers prec emax (firstn (length (sp_pts sp)) row))
     /\ @row_padding _ (Float_scalar prec emax Hprec Hmax) (length (sp_pts sp)) k row.
Proof. exact float_session_knn_grid. Qed.
Print Assumptions C142_search_knn_grid.

Theorem C142_search_radius_grid :
  forall (prec emax : Z) (Hprec : Prec_gt_0 prec) (Hmax : Prec_lt_emax prec emax), (2 <= prec)%Z ->
  forall alg : std_algos, std_laws alg ->
  forall (pts : ndarray (binary_float prec emax)) (sp : space (binary_float prec emax)) (m : metric_t) (em : exact_metric)
    (leaf : Z),
  tree_args pts sp leaf -> all_coords (below prec emax (emax - 2)) sp -> exact_for m em ->
  few_steps prec (sp_sdim sp) (length (sp_pts sp) - Z.to_nat leaf) ->
  forall (queries : ndarray (binary_float prec emax)) (qs : space (binary_float prec emax)), query_args pts sp queries qs ->
  forall (e g : Z) (r : binary_float prec emax) (sort : bool),
  (forall q, In q (sp_pts qs) -> float_input prec emax em e sp bounds_from_space q /\ grid_input prec emax em g e sp q) ->
  finite prec emax r ->
  exists t, (forall fuel, length (sp_pts sp) <= fuel ->
      @py_kd_tree _ (Float_scalar prec emax Hprec Hmax) alg fuel pts m leaf = ret t)
  /\ exists out, returns (length (sp_pts qs))
       (fun sched => @py_search_radius _ (Float_scalar prec emax Hprec Hmax) alg sched t queries r None sort) out
  /\ length out = length (sp_pts qs)
  /\ forall i q, nth_error (sp_pts qs) i = Some q -> exists l, nth_error out i = Some l
     /\ radius_within (length (sp_pts sp)) (true_dist prec emax em sp q) 1 (B2R r) (real_answers prec emax l)
     /\ (sort = true -> StronglySorted Rle (map snd (real_answers prec emax l))).
Proof. exact float_session_radius_grid. Qed.
Print Assumptions C142_search_radius_grid.

Example C142_grid_example :
  tree_args pg_pts fg_sp 1 /\ all_coords (below 53 1024 (1024 - 2)) fg_sp
  /\ few_steps 53 2 (5 - 1) /\ query_args pg_pts fg_sp pg_queries pg_qs
  /\ (forall q, In q (sp_pts pg_qs) ->
        float_input 53 1024 L2Squared 4 fg_sp bounds_from_space q /\ grid_input 53 1024 L2Squared 0 4 fg_sp q)
  /\ knn_call 5 pg_pts pg_queries 3 None = Some ([2; 3], [[4; 1; 3]; [4; 1; 3]])
  /\ knn_call 5 pg_pts pg_queries 7 None = Some ([2; 7], [[4; 1; 3; 0; 2; 0; 0]; [4; 1; 3; 0; 2; 0; 0]])
  /\ radius_call 5 pg_pts pg_queries (f64 41 0) None true = Some [[4; 1]; [4; 1]].
Proof.
  split; [exact pg_tree_args|]. split; [exact pg_coords|]. split; [apply few_small; cbn; lia|].
  split; [exact pg_query_args|]. split; [apply pg_input; auto|]. repeat split; vm_compute; reflexivity.
Qed.

(** search_box only compares coordinates: it is exact. *)
Theorem C142_search_box :
  forall (prec emax : Z) (Hprec : Prec_gt_0 prec) (Hmax : Prec_lt_emax prec emax), (2 <= prec)%Z ->
  forall alg : std_algos, std_laws alg ->
  forall (pts : ndarray (binary_float prec emax)) (sp : space (binary_float prec emax)) (m : metric_t) (leaf : Z),
  tree_args pts sp leaf -> all_coords (below prec emax (emax - 2)) sp ->
  forall (boxes : ndarray (binary_float prec emax)) (qs : space (binary_float prec emax)), query_args pts sp boxes qs ->
  all_coords (finite prec emax) qs -> Nat.even (length (sp_pts qs)) = true ->
  exists t, (forall fuel, length (sp_pts sp) <= fuel ->
      @py_kd_tree _ (Float_scalar prec emax Hprec Hmax) alg fuel pts m leaf = ret t)
  /\ exists out, returns (length out) (fun sched => @py_search_box _ (Float_scalar prec emax Hprec Hmax) sched t boxes) out
  /\ length (sp_pts qs) = 2 * length out
  /\ forall i mn mx, nth_error (sp_pts qs) (2 * i) = Some mn -> nth_error (sp_pts qs) (2 * i + 1) = Some mx ->
       exists l, nth_error out i = Some l
       /\ index_answer (length (sp_pts sp)) (fun p => float_inside prec emax mn mx (nth p (sp_pts sp) [])) l.
Proof. exact float_session_box. Qed.
Print Assumptions C142_search_box.

Example C142_box_example :
  tree_args pg_pts fg_sp 1 /\ all_coords (below 53 1024 (1024 - 2)) fg_sp
  /\ box_call 5 pg_pts (c_array (Space 2 [[f64 (-5) 0; f64 0 0]; [f64 2 0; f64 2 0]])) = Some [[0; 2; 3]].
Proof. split; [exact pg_tree_args|]. split; [exact pg_coords|]. vm_compute. reflexivity. Qed.
