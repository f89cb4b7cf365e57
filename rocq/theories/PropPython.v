(** C37 to C40 and C46 to C56: the Python bindings. *)
From Coq Require Import List ZArith QArith Bool Arith Sorted Lia.
From Verif Require Import Base ModelBox ModelBuild ModelSearch ModelSerial ModelPython Spec SpecSerial SpecPython
  Instances SerialThms PythonThms PyArrayThms PyTopThms PyLpThms Examples PyExamples.
Import ListNotations.
Local Open Scope nat_scope.

(** ** C37: the header of .pkd files *)
Theorem C37_header :
  forall (little : bool) (file : list Z), bytes file ->
  (exists m rest, file = header_write little m ++ rest /\ header_read little (Some file) = ret (m, Some rest))
  \/ ((forall m rest, file <> header_write little m ++ rest)
      /\ (header_read little (Some file) = throw ExnRuntimeError
          \/ (length file < 16 /\ header_read little (Some file) = Ub UbShortRead))).
Proof. exact header_read_spec. Qed.
Print Assumptions C37_header.

Theorem C37_round_trip :
  forall (little : bool) (m : metric_t) (rest : list Z),
  header_read little (Some (header_write little m ++ rest)) = ret (m, Some rest).
Proof. exact header_read_write. Qed.
Print Assumptions C37_round_trip.

Example C37_example :
  bytes (header_write true MetricLPInf)
  /\ header_read true (Some (pkd_signature ++ [1; 0; 0; 0] ++ [2; 0; 0; 0; 0; 0; 0; 0] ++ [76; 49] ++ [7])%Z)
     = ret (MetricL1, Some [7%Z])
  /\ header_read true (Some (pkd_signature ++ [2; 0; 0; 0] ++ [2; 0; 0; 0; 0; 0; 0; 0] ++ [76; 49] ++ [7])%Z)
     = throw ExnRuntimeError
  /\ header_read true (Some (pkd_signature ++ [1; 0; 0; 0] ++ [2; 0; 0; 0; 0; 0; 0; 0] ++ [76; 50] ++ [7])%Z)
     = throw ExnRuntimeError.
Proof.
  split; [|vm_compute; auto].
  unfold bytes. apply Forall_forall. intros x H. vm_compute in H.
  repeat (destruct H as [<-|H]; [lia|]). destruct H.
Qed.

(** A file that ends within the first 16 bytes is not always rejected with an
    error: the bytes missing are indeterminate. *)
Theorem C37_short_file_refuted :
  exists file, bytes file /\ length file < 16 /\ header_read true (Some file) <> throw ExnRuntimeError.
Proof.
  exists pkd_signature. split; [repeat constructor; lia|]. split; [cbn; lia|]. vm_compute. discriminate.
Qed.
Print Assumptions C37_short_file_refuted.

(** ** C38: batches do not depend on the schedule *)
Theorem C38_search_knn :
  forall (T : Type) (SC : Scalar T) (t : py_tree T), bindings_tree t ->
  forall (pts : ndarray T) (qs : space T) (k : nat) (e : option T) (nns : ndarray (neighbor T)),
  nd_ok pts -> denotes pts qs ->
  forall (sched : list nat) (out : ndarray (neighbor T)),
  (nd_size nns = length (sp_pts qs) * k -> nd_off nns + nd_size nns <= length (nd_buf nns)) ->
  py_search_knn_into sched t pts k e nns = ret out ->
  exists nns', ensure_size (PyArrayMap qs (is_row_major pts)) k nns = ret nns'
  /\ nd_off out = nd_off nns' /\ nd_shape out = nd_shape nns' /\ nd_strides out = nd_strides nns'
  /\ length (nd_buf out) = length (nd_buf nns')
  /\ (forall i q, nth_error (sp_pts qs) i = Some q ->
        range_search (pt_tree t) e q (cells (nd_off out + i * k) k (nd_buf nns'))
        = Ok (cells (nd_off out + i * k) k (nd_buf out)))
  /\ (forall a, ~ (nd_off out <= a < nd_off out + length (sp_pts qs) * k) ->
        nth_error (nd_buf out) a = nth_error (nd_buf nns') a)
  /\ (forall s, py_search_knn_into s t pts k e nns = OutOfFuel \/ py_search_knn_into s t pts k e nns = ret out)
  /\ exists N, forall s, fair (length (sp_pts qs)) N s -> py_search_knn_into s t pts k e nns = ret out.
Proof. exact @knn_into_spec. Qed.
Print Assumptions C38_search_knn.

Theorem C38_search_knn_new :
  forall (T : Type) (SC : Scalar T) (t : py_tree T) (pts : ndarray T) (qs : space T) (k : nat) (e : option T)
    (sched : list nat) (out : ndarray (neighbor T)),
  bindings_tree t -> nd_ok pts -> denotes pts qs ->
  py_search_knn sched t pts k e = ret out ->
  length (nd_buf out) = length (sp_pts qs) * k /\ nd_off out = 0
  /\ (0 < length (sp_pts qs) * k ->
        nd_shape out = (if k =? 1 then [length (sp_pts qs)]
                        else if is_row_major pts then [length (sp_pts qs); k] else [k; length (sp_pts qs)])
        /\ nd_strides out = c_strides (nd_shape out))
  /\ (forall i q, nth_error (sp_pts qs) i = Some q ->
        range_search (pt_tree t) e q (repeat (Neighbor 0 s_zero) k) = Ok (cells (i * k) k (nd_buf out)))
  /\ (forall s, py_search_knn s t pts k e = OutOfFuel \/ py_search_knn s t pts k e = ret out)
  /\ exists N, forall s, fair (length (sp_pts qs)) N s -> py_search_knn s t pts k e = ret out.
Proof. exact @knn_spec. Qed.
Print Assumptions C38_search_knn_new.

Theorem C38_search_radius :
  forall (T : Type) (SC : Scalar T) (alg : std_algos) (t : py_tree T) (pts : ndarray T) (qs : space T)
    (r : T) (e : option T) (nns : list (list (neighbor T))) (sort : bool) (sched : list nat)
    (out : list (list (neighbor T))),
  bindings_tree t -> nd_ok pts -> denotes pts qs ->
  py_search_radius_into alg sched t pts r e nns sort = ret out ->
  length out = length (sp_pts qs)
  /\ (forall i q, nth_error (sp_pts qs) i = Some q ->
        exists l, nth_error out i = Some l /\ radius_search alg (pt_tree t) r e sort q = Ok l)
  /\ (forall s, py_search_radius_into alg s t pts r e nns sort = OutOfFuel
        \/ py_search_radius_into alg s t pts r e nns sort = ret out)
  /\ exists N, forall s, fair (length (sp_pts qs)) N s -> py_search_radius_into alg s t pts r e nns sort = ret out.
Proof. exact @radius_into_spec. Qed.
Print Assumptions C38_search_radius.

Theorem C38_search_box :
  forall (T : Type) (SC : Scalar T) (t : py_tree T) (boxes : ndarray T) (qs : space T) (idx : list (list nat))
    (sched : list nat) (out : list (list nat)),
  bindings_tree t -> nd_ok boxes -> denotes boxes qs ->
  py_search_box_into sched t boxes idx = ret out ->
  length (sp_pts qs) = 2 * length out
  /\ (forall i mn mx, nth_error (sp_pts qs) (2 * i) = Some mn -> nth_error (sp_pts qs) (2 * i + 1) = Some mx ->
        exists l, nth_error out i = Some l /\ search_box (pt_tree t) mn mx = Ok l)
  /\ (forall s, py_search_box_into s t boxes idx = OutOfFuel \/ py_search_box_into s t boxes idx = ret out)
  /\ exists N, forall s, fair (length out) N s -> py_search_box_into s t boxes idx = ret out.
Proof. exact @box_into_spec. Qed.
Print Assumptions C38_search_box.

(** Two very different interleavings of two queries. *)
Example C38_example :
  match py_kd_tree std_example 20 py_pts MetricL2Squared 1 with
  | Ok (inr t) =>
      match py_search_knn (rounds 2 60) t py_queries 3 None,
            py_search_knn (repeat 1 60 ++ repeat 0 60) t py_queries 3 None with
      | Ok (inr a), Ok (inr b) =>
          nd_buf a = [Neighbor 3 2; Neighbor 4 2; Neighbor 0 2; Neighbor 5 2; Neighbor 2 13; Neighbor 6 17]%Q
          /\ nd_buf b = nd_buf a /\ nd_shape a = [2; 3] /\ pt_metric t = MetricL2Squared
      | _, _ => False
      end
      /\ py_search_radius_into std_example (rounds 2 60) t py_queries 7%Q None [[Neighbor 9 9%Q]] true
         = ret [[Neighbor 3 2; Neighbor 4 2; Neighbor 0 2; Neighbor 1 4]; [Neighbor 5 2]]%Q
      /\ py_search_box_into (rounds 1 60) t py_queries [] = ret [[3; 4; 1; 2]]
      /\ (forall s, py_search_knn (0 :: s) t py_queries 0 None = Ub UbIndex)
  | _ => False
  end.
Proof. vm_compute. repeat split. Qed.

(** ** C39: DArray *)
Theorem C39_item :
  forall (A : Type) (a : list A) (i : Z), (Z.of_nat (length a) < 2 ^ 63)%Z -> (- 2 ^ 63 <= i < 2 ^ 63)%Z ->
  darray_get a i = match python_item a i with Some x => ret x | None => throw ExnIndexError end.
Proof. exact @darray_get_spec. Qed.
Print Assumptions C39_item.

Theorem C39_slice :
  forall (A : Type) (a : list A) (start stop step : option Z), (Z.of_nat (length a) < 2 ^ 63)%Z ->
  let k := match step with Some s => s | None => 1%Z end in
  (k = 0%Z -> darray_slice a start stop step = throw ExnValueError)
  /\ (k <> 0%Z -> exists r, darray_slice a start stop step = ret r /\ python_slice a start stop k r).
Proof. exact @darray_slice_spec. Qed.
Print Assumptions C39_slice.

Example C39_example :
  darray_get [10; 11; 12] (-3)%Z = ret 10 /\ darray_get [10; 11; 12] (-4)%Z = throw ExnIndexError
  /\ darray_get [10; 11; 12] 3%Z = throw ExnIndexError
  /\ darray_slice [10; 11; 12; 13] None None (Some (-2))%Z = ret [13; 11]
  /\ darray_slice [10; 11; 12; 13] (Some (-3))%Z (Some 99)%Z None = ret [11; 12; 13]
  /\ darray_slice [10; 11; 12; 13] None None (Some 0)%Z = throw ExnValueError.
Proof. vm_compute. repeat split. Qed.

(** ** C40: arrays as points *)
Theorem C40_tree_points :
  forall (T : Type) (SC : Scalar T) (alg : std_algos) (fuel : nat) (pts : ndarray T) (m : metric_t) (leaf : Z)
    (t : py_tree T),
  nd_ok pts -> py_kd_tree alg fuel pts m leaf = ret t ->
  points_array pts (kt_space (pt_tree t)) /\ pt_row_major t = is_row_major pts.
Proof. exact @tree_points. Qed.
Print Assumptions C40_tree_points.

Theorem C40_map :
  forall (T : Type) (dim : option nat) (a : ndarray T), nd_ok a ->
  if (length (nd_shape a) =? 2) && is_contiguous a
     && match dim with Some d => d =? nth (if is_row_major a then 1 else 0) (nd_shape a) 0 | None => true end
  then exists sp, make_map dim a = ret (PyArrayMap sp (is_row_major a)) /\ denotes a sp
  else make_map dim a = throw ExnInvalidArgument.
Proof. exact @make_map_spec. Qed.
Print Assumptions C40_map.

Theorem C40_unique :
  forall (T : Type) (a : ndarray T) (sp sp' : space T), denotes a sp -> denotes a sp' -> sp = sp'.
Proof. exact @denotes_unique. Qed.
Print Assumptions C40_unique.

Example C40_example :
  points_array py_pts ex_sp
  /\ make_map None py_queries_f = ret (PyArrayMap py_qs false)
  /\ make_map None (NdArray [1; 2; 3; 4; 5; 6; 7; 8] 0 [2; 2] [4; 2]%Z false DtFloat64) = throw ExnInvalidArgument
  /\ make_map (Some 3) py_queries_f = throw ExnInvalidArgument.
Proof. split; [apply py_tree_args|vm_compute; repeat split]. Qed.

(** An array in F order that holds a single point as a column is C contiguous
    too: it is read as two points with one coordinate each. *)
Theorem C40_single_column_refuted :
  exists a : ndarray Z, nd_ok a /\ is_col_major a = true /\ nd_shape a = [2; 1]
  /\ exists sp, make_map None a = ret (PyArrayMap sp true) /\ sp_pts sp = [[5]; [6]]%Z.
Proof.
  exists (NdArray [5; 6]%Z 0 [2; 1] [1; 2]%Z true DtFloat64). split.
  - split; [reflexivity|]. split; [cbn; lia|]. intros idx H. cbn in H.
    inversion H as [|i ? ? ? Hi H1]; subst. inversion H1 as [|j ? ? ? Hj H2]; subst. inversion H2; subst.
    destruct i as [|[|i]]; [..|lia]; (destruct j as [|j]; [|lia]); vm_compute; eauto.
  - split; [reflexivity|]. split; [reflexivity|]. eexists. vm_compute. split; reflexivity.
Qed.
Print Assumptions C40_single_column_refuted.

(** ** C46: save_kd_tree and load_kd_tree *)
Theorem C46_load_after_save :
  forall (T : Type) (SC : Scalar T) (alg : std_algos) (fit : T -> Prop) (little : bool) (tc : codec T)
    (pads : nat -> nat -> Z) (fuel : nat) (pts : ndarray T) (sp : space T) (m : metric_t) (leaf : Z)
    (t : py_tree T) (rest : list Z),
  codec_ok tc fit -> ord_laws SC fit -> std_laws alg ->
  tree_args pts sp leaf -> all_coords fit sp -> (Z.of_nat (sp_sdim sp) < 2 ^ 31)%Z ->
  py_kd_tree alg fuel pts m leaf = ret t ->
  py_load little tc pts (py_save little tc pads t ++ rest) = ret t.
Proof. exact @py_load_saved. Qed.
Print Assumptions C46_load_after_save.

Example C46_example :
  tree_args (c_array ex_int) ex_int 2 /\ codec_ok (int_codec true 4) int_fit /\ ord_laws Z32 int_fit
  /\ all_coords int_fit ex_int
  /\ match py_kd_tree (SC := Z32) std_example 20 (c_array ex_int) MetricL1 2 with
     | Ok (inr t) =>
         match py_load (SC := Z32) true (int_codec true 4) (c_array ex_int)
                 (py_save true (int_codec true 4) (fun _ _ => 99%Z) t) with
         | Ok (inr t') => py_save true (int_codec true 4) (fun _ _ => 0%Z) t' = py_save true (int_codec true 4) (fun _ _ => 0%Z) t
                          /\ pt_metric t' = MetricL1
         | _ => False
         end
     | _ => False
     end.
Proof.
  split. { constructor; try (cbn; lia); try (right; reflexivity); try discriminate. apply c_array_points. apply ex_int_wf. }
  split; [apply (int_codec_ok true 4); lia|]. split; [exact Z32_ord|]. split; [exact ex_int_fit|].
  vm_compute. split; reflexivity.
Qed.

(** ** C47: KdTree(pts, metric, leaf).search_knn(queries, k) *)
Theorem C47_search_knn :
  forall (T : Type) (SC : Scalar T) (alg : std_algos) (val : T -> Q), exact_laws SC val -> std_laws alg ->
  forall (pts : ndarray T) (sp : space T) (m : metric_t) (em : exact_metric) (leaf : Z),
  tree_args pts sp leaf -> all_coords (no_overflow val) sp -> exact_for m em ->
  forall (queries : ndarray T) (qs : space T), query_args pts sp queries qs ->
  forall k : nat, 0 < k -> (forall q, In q (sp_pts qs) -> distances_fit val em sp q) ->
  exists t, (forall fuel, length (sp_pts sp) <= fuel -> py_kd_tree alg fuel pts m leaf = ret t)
  /\ exists out N, (forall sched, fair (length (sp_pts qs)) N sched -> py_search_knn sched t queries k None = ret out)
  /\ (forall sched, py_search_knn sched t queries k None = OutOfFuel \/ py_search_knn sched t queries k None = ret out)
  /\ forall i q, nth_error (sp_pts qs) i = Some q -> exists row,
       length row = k
       /\ knn_answer (length (sp_pts sp)) k (dist_to val em sp q) (answers val (firstn (length (sp_pts sp)) row))
       /\ (k = 1 -> nd_shape out = [length (sp_pts qs)]
            /\ forall j, j < k -> nd_get out [i] = nth_error row j)
       /\ (k <> 1 -> is_row_major queries = true -> nd_shape out = [length (sp_pts qs); k]
            /\ forall j, j < k -> nd_get out [i; j] = nth_error row j)
       /\ (forall j, length (sp_pts sp) <= j -> j < k - 1 -> nth_error row j = Some (Neighbor 0 s_zero))
       /\ (length (sp_pts sp) < k -> nth_error row (k - 1) = Some (Neighbor 0 s_max)).
Proof. exact @session_knn. Qed.
Print Assumptions C47_search_knn.

Example C47_example :
  tree_args py_pts ex_sp 1 /\ all_coords (no_overflow qv) ex_sp /\ exact_for MetricL2Squared L2Squared
  /\ query_args py_pts ex_sp py_queries py_qs
  /\ (forall q, In q (sp_pts py_qs) -> distances_fit qv L2Squared ex_sp q).
Proof.
  split; [exact py_tree_args|]. split; [exact ex_good|]. split; [reflexivity|]. split; [exact py_query_args|].
  intros q [<-|[<-|[]]] i Hi; cbn in Hi; do 7 (destruct i as [|i]; [vm_compute; reflexivity|]); lia.
Qed.

(** ** C48: search_radius(queries, radius, sort) *)
Theorem C48_search_radius :
  forall (T : Type) (SC : Scalar T) (alg : std_algos) (val : T -> Q), exact_laws SC val -> std_laws alg ->
  forall (pts : ndarray T) (sp : space T) (m : metric_t) (em : exact_metric) (leaf : Z),
  tree_args pts sp leaf -> all_coords (no_overflow val) sp -> exact_for m em ->
  forall (queries : ndarray T) (qs : space T), query_args pts sp queries qs ->
  forall (r : T) (sort : bool),
  exists t, (forall fuel, length (sp_pts sp) <= fuel -> py_kd_tree alg fuel pts m leaf = ret t)
  /\ exists out N,
     (forall sched, fair (length (sp_pts qs)) N sched -> py_search_radius alg sched t queries r None sort = ret out)
  /\ (forall sched, py_search_radius alg sched t queries r None sort = OutOfFuel
        \/ py_search_radius alg sched t queries r None sort = ret out)
  /\ length out = length (sp_pts qs)
  /\ forall i q, nth_error (sp_pts qs) i = Some q -> exists l, nth_error out i = Some l
       /\ filter_answer (length (sp_pts sp)) (fun p => (dist_to val em sp q p < val r)%Q) (dist_to val em sp q) (answers val l)
       /\ (sort = true -> StronglySorted Qle (map (fun x => val (n_distance x)) l)).
Proof. exact @session_radius. Qed.
Print Assumptions C48_search_radius.

(** The metric LPInf: see C24 for what its searches can miss. *)
Theorem C48_search_radius_lpinf :
  forall (T : Type) (SC : Scalar T) (alg : std_algos) (val : T -> Q), exact_laws SC val -> std_laws alg ->
  forall (pts : ndarray T) (sp : space T) (leaf : Z) (queries : ndarray T) (qs : space T) (r : T) (sort : bool),
  tree_args pts sp leaf -> all_coords (no_overflow val) sp -> query_args pts sp queries qs ->
  exists t, (forall fuel, length (sp_pts sp) <= fuel -> py_kd_tree alg fuel pts MetricLPInf leaf = ret t)
  /\ exists out N,
     (forall sched, fair (length (sp_pts qs)) N sched -> py_search_radius alg sched t queries r None sort = ret out)
  /\ (forall sched, py_search_radius alg sched t queries r None sort = OutOfFuel
        \/ py_search_radius alg sched t queries r None sort = ret out)
  /\ length out = length (sp_pts qs)
  /\ forall i q, nth_error (sp_pts qs) i = Some q -> exists l, nth_error out i = Some l
       /\ NoDup (map n_index l)
       /\ (forall x, In x l -> n_index x < npts sp
            /\ (val (n_distance x) == linf_dist (map val q) (map val (nth (n_index x) (sp_pts sp) [])))%Q
            /\ (linf_dist (map val q) (map val (nth (n_index x) (sp_pts sp) [])) < val r)%Q)
       /\ (forall i, i < npts sp -> (linf_dist (map val q) (map val (nth i (sp_pts sp) [])) < val r)%Q ->
            (inject_Z (Z.of_nat (sp_sdim sp)) * linf_dist (map val q) (map val (nth i (sp_pts sp) [])) <= val r)%Q ->
            In i (map n_index l)).
Proof. exact @session_radius_lpinf. Qed.
Print Assumptions C48_search_radius_lpinf.

Example C48_example_lpinf :
  match py_kd_tree std_example 7 py_pts MetricLPInf 1 with
  | Ok (inr t) => py_search_radius std_example (rounds 2 60) t py_queries 2%Q None false
                  = ret [[Neighbor 3 1; Neighbor 4 1; Neighbor 0 1]; [Neighbor 5 1]]%Q
  | _ => False
  end.
Proof. vm_compute. reflexivity. Qed.

(** The hypotheses hold for the data of C47_example. *)
Example C48_example :
  match py_kd_tree std_example 7 py_pts MetricL1 1 with
  | Ok (inr t) => py_search_radius std_example (rounds 2 60) t py_queries 3%Q None false
                  = ret [[Neighbor 3 2; Neighbor 4 2; Neighbor 0 2; Neighbor 1 2]; [Neighbor 5 2]]%Q
  | _ => False
  end.
Proof. vm_compute. reflexivity. Qed.

(** ** C49: search_box(boxes) *)
Theorem C49_search_box :
  forall (T : Type) (SC : Scalar T) (alg : std_algos) (ok good : T -> Prop) (pts : ndarray T) (sp : space T)
    (m : metric_t) (leaf : Z) (boxes : ndarray T) (qs : space T),
  ord_laws SC ok -> std_laws alg -> range_laws SC good ->
  tree_args pts sp leaf -> all_coords ok sp -> all_coords good sp ->
  query_args pts sp boxes qs -> all_coords ok qs -> Nat.even (length (sp_pts qs)) = true ->
  exists t, (forall fuel, length (sp_pts sp) <= fuel -> py_kd_tree alg fuel pts m leaf = ret t)
  /\ exists out N, (forall sched, fair (length out) N sched -> py_search_box sched t boxes = ret out)
  /\ (forall sched, py_search_box sched t boxes = OutOfFuel \/ py_search_box sched t boxes = ret out)
  /\ length (sp_pts qs) = 2 * length out
  /\ forall i mn mx, nth_error (sp_pts qs) (2 * i) = Some mn -> nth_error (sp_pts qs) (2 * i + 1) = Some mx ->
       exists l, nth_error out i = Some l
       /\ index_answer (length (sp_pts sp)) (fun p => inside mn mx (nth p (sp_pts sp) [])) l.
Proof. exact @session_box. Qed.
Print Assumptions C49_search_box.

Example C49_example :
  ord_laws QD (fun _ => True) /\ range_laws QD (no_overflow qv) /\ tree_args py_pts ex_sp 1
  /\ all_coords (no_overflow qv) ex_sp /\ query_args py_pts ex_sp py_queries py_qs
  /\ match py_kd_tree std_example 7 py_pts MetricLPInf 1 with
     | Ok (inr t) => py_search_box (rounds 1 60) t py_queries = ret [[3; 4; 1; 2]]
     | _ => False
     end.
Proof.
  split; [exact QD_ord|]. split; [exact QD_range|]. split; [exact py_tree_args|]. split; [exact ex_good|].
  split; [exact py_query_args|]. vm_compute. reflexivity.
Qed.

(** ** C50: more neighbours than points *)
(** That every entry of the answer is a point of the tree with its distance is
    false for k > npts: C47 proves that the entries after the first npts have
    index 0 and distance 0, the last one distance max. *)
Theorem C50_too_many_refuted :
  exists (pts queries : ndarray Q) (sp qs : space Q) (k : nat),
  tree_args pts sp 1 /\ query_args pts sp queries qs
  /\ match py_kd_tree std_example (npts sp) pts MetricL1 1 with
     | Ok (inr t) =>
         match py_search_knn (rounds 1 60) t queries k None with
         | Ok (inr out) =>
             nd_get out [0; 2] = Some (Neighbor 0 0%Q) /\ ~ (dist_to qv L1 sp (nth 0 (sp_pts qs) []) 0 == 0)%Q
             /\ nd_get out [0; 3] = Some (Neighbor 0 s_max)
         | _ => False
         end
     | _ => False
     end.
Proof.
  exists (c_array (Space 1 [[1]; [5]]%Q)), (c_array (Space 1 [[2]]%Q)), (Space 1 [[1]; [5]]%Q), (Space 1 [[2]]%Q), 4.
  split. { constructor; try (cbn; lia); try (right; reflexivity); try discriminate. apply c_array_points. repeat constructor. }
  split. { constructor; try reflexivity. apply c_array_points. repeat constructor. }
  vm_compute. split; [reflexivity|]. split; [discriminate|reflexivity].
Qed.
Print Assumptions C50_too_many_refuted.

(** ** C51: the layout of the answer *)
(** "The memory layout of the output will be the same as that of the input":
    for queries given as columns, column i of the answer should be the
    neighbours of query i.  The shape is (k, npts), but the memory is in C
    order: here the nearest neighbour of the second query is point 5, and the
    answer has point 4, a neighbour of the first query, in its place. *)
Theorem C51_columns_refuted :
  points_array py_queries_f py_qs
  /\ match py_kd_tree std_example 7 py_pts MetricL2Squared 1 with
     | Ok (inr t) =>
         match py_search_knn (rounds 2 60) t py_queries_f 3 None with
         | Ok (inr out) =>
             nd_shape out = [3; 2] /\ search_nn (pt_tree t) (nth 1 (sp_pts py_qs) []) (Neighbor 0 0%Q) = Ok (Neighbor 5 2%Q)
             /\ nd_get out [0; 1] = Some (Neighbor 4 2%Q)
             /\ is_row_major py_queries_f = false /\ is_row_major out = true
         | _ => False
         end
     | _ => False
     end.
Proof.
  split; [|vm_compute; repeat split].
  assert (M : make_map None py_queries_f = ret (PyArrayMap py_qs false)) by (vm_compute; reflexivity).
  constructor.
  - split; [reflexivity|]. split; [cbn; lia|]. intros idx H. cbn in H.
    inversion H as [|i ? ? ? Hi H1]; subst. inversion H1 as [|j ? ? ? Hj H2]; subst. inversion H2; subst.
    destruct i as [|[|i]]; [..|lia]; (destruct j as [|[|j]]; [..|lia]); vm_compute; eauto.
  - reflexivity.
  - exists 2, 2. split; [reflexivity|]. split; [repeat constructor|]. change (is_row_major py_queries_f) with false.
    split; [reflexivity|]. split; [reflexivity|]. intros i j Hi Hj.
    destruct i as [|[|i]]; [..|lia]; (destruct j as [|[|j]]; [..|lia]); vm_compute; reflexivity.
Qed.
Print Assumptions C51_columns_refuted.

(** ** C52: the array supplied for the answer *)
(** "The output will be resized when its shape is not (npts, k)": only the
    number of elements is compared. *)
Theorem C52_resized_refuted :
  exists nns : ndarray (neighbor Q), nd_ok nns /\ nd_shape nns = [3; 2]
  /\ match py_kd_tree std_example 7 py_pts MetricL2Squared 1 with
     | Ok (inr t) =>
         match py_search_knn_into (rounds 2 60) t py_queries 3 None nns with
         | Ok (inr out) => length (sp_pts py_qs) = 2 /\ nd_shape out = [3; 2]
         | _ => False
         end
     | _ => False
     end.
Proof.
  exists (NdArray (repeat (Neighbor 9 9%Q) 6) 0 [3; 2] [2; 1]%Z true DtNeighbor64). split.
  - split; [reflexivity|]. split; [cbn; lia|]. intros idx H. cbn in H.
    inversion H as [|i ? ? ? Hi H1]; subst. inversion H1 as [|j ? ? ? Hj H2]; subst. inversion H2; subst.
    destruct i as [|[|[|i]]]; [..|lia]; (destruct j as [|[|j]]; [..|lia]); vm_compute; eauto.
  - split; [reflexivity|]. vm_compute. split; reflexivity.
Qed.
Print Assumptions C52_resized_refuted.

(** A call should only write the elements of the array it was given.  A
    non-contiguous array is accepted and written as if it were contiguous: here
    [nns] is every second element of a block of four, the call writes the first
    two of the block. *)
Theorem C52_view_refuted :
  exists nns : ndarray (neighbor Q), nd_ok nns /\ nd_shape nns = [2]
  /\ (forall i, nd_addr nns [i] <> 1%Z)
  /\ match py_kd_tree std_example 7 py_pts MetricL2Squared 1 with
     | Ok (inr t) =>
         match py_search_knn_into (rounds 2 60) t py_queries 1 None nns with
         | Ok (inr out) =>
             search_nn (pt_tree t) (nth 1 (sp_pts py_qs) []) (Neighbor 0 0%Q) = Ok (Neighbor 5 2%Q)
             /\ nd_get out [1] = Some (Neighbor 9 9%Q)
             /\ nth_error (nd_buf nns) 1 = Some (Neighbor 9 9%Q) /\ nth_error (nd_buf out) 1 = Some (Neighbor 5 2%Q)
         | _ => False
         end
     | _ => False
     end.
Proof.
  exists (NdArray (repeat (Neighbor 9 9%Q) 4) 0 [2] [2]%Z false DtNeighbor64). split; [|split; [|split]].
  - split; [reflexivity|]. split; [cbn; lia|]. intros idx H. cbn in H.
    inversion H as [|i ? ? ? Hi H1]; subst. inversion H1; subst.
    destruct i as [|[|i]]; [..|lia]; vm_compute; eauto.
  - reflexivity.
  - intros i. unfold nd_addr. cbn [nd_off nd_strides map combine fold_right fst snd]. lia.
  - vm_compute. repeat split.
Qed.
Print Assumptions C52_view_refuted.

(** ** C53: arguments are checked *)
Theorem C53_dtype :
  forall (T : Type) (SC : Scalar T) (alg : std_algos) (t : py_tree T) (pts : ndarray T) (sched : list nat) (k : nat)
    (e : option T) (nns : ndarray (neighbor T)) (r : T) (sort : bool) (vecs : list (list (neighbor T)))
    (idx : list (list nat)),
  (nd_dtype pts <> pt_dtype t ->
    py_search_knn_into sched t pts k e nns = throw ExnInvalidArgument
    /\ py_search_radius_into alg sched t pts r e vecs sort = throw ExnInvalidArgument
    /\ py_search_box_into sched t pts idx = throw ExnInvalidArgument)
  /\ (pt_dtype t = DtFloat32 -> nd_dtype nns <> DtNeighbor32 ->
        py_search_knn_into sched t pts k e nns = throw ExnInvalidArgument)
  /\ (pt_dtype t = DtFloat64 -> nd_dtype nns <> DtNeighbor64 ->
        py_search_knn_into sched t pts k e nns = throw ExnInvalidArgument).
Proof. exact @dtype_checks. Qed.
Print Assumptions C53_dtype.

Theorem C53_dim_two_or_three :
  forall (T : Type) (SC : Scalar T) (alg : std_algos) (t : py_tree T) (d : nat) (pts : ndarray T) (sched : list nat)
    (k : nat) (e : option T) (nns : ndarray (neighbor T)) (r : T) (sort : bool) (vecs : list (list (neighbor T)))
    (idx : list (list nat)),
  nd_ok pts -> pt_dim t = Some d ->
  ~ (length (nd_shape pts) = 2 /\ is_contiguous pts = true
     /\ nth (if is_row_major pts then 1 else 0) (nd_shape pts) 0 = d) ->
  py_search_knn_into sched t pts k e nns = throw ExnInvalidArgument
  /\ py_search_radius_into alg sched t pts r e vecs sort = throw ExnInvalidArgument
  /\ py_search_box_into sched t pts idx = throw ExnInvalidArgument.
Proof. exact @dim_checks. Qed.
Print Assumptions C53_dim_two_or_three.

Theorem C53_odd_boxes :
  forall (T : Type) (SC : Scalar T) (t : py_tree T) (boxes : ndarray T) (qs : space T) (sched : list nat)
    (idx : list (list nat)),
  nd_ok boxes -> denotes boxes qs -> Nat.odd (length (sp_pts qs)) = true ->
  py_search_box_into sched t boxes idx = throw ExnInvalidArgument.
Proof. exact @odd_boxes. Qed.
Print Assumptions C53_odd_boxes.

Example C53_example :
  match py_kd_tree std_example 7 py_pts MetricL2Squared 1 with
  | Ok (inr t) =>
      pt_dim t = Some 2 /\ pt_dtype t = DtFloat64
      /\ py_search_box [] t (c_array (Space 2 [[1; 1]]%Q)) = throw ExnInvalidArgument
      /\ py_search_box [] t (c_array (Space 3 [[1; 1; 1]; [2; 2; 2]]%Q)) = throw ExnInvalidArgument
  | _ => False
  end
  /\ nd_ok (c_array (Space 3 [[1; 1; 1]; [2; 2; 2]]%Q)) /\ denotes (c_array (Space 2 [[1; 1]]%Q)) (Space 2 [[1; 1]]%Q).
Proof. split; [vm_compute; repeat split|]. split; apply c_array_points; repeat constructor. Qed.

(** Queries of another dimension are not rejected by a tree whose dimension is
    not two or three: the searches read outside of the points. *)
Theorem C53_dim_refuted :
  exists pts queries : ndarray Q, nd_ok pts /\ nd_ok queries
  /\ nd_shape pts = [2; 4] /\ nd_shape queries = [1; 5]
  /\ match py_kd_tree std_example 7 pts MetricL2Squared 1 with
     | Ok (inr t) => py_search_knn (rounds 1 60) t queries 1 None = Ub UbDim
                     /\ py_search_radius std_example (rounds 1 60) t queries 1%Q None true = Ub UbDim
     | _ => False
     end.
Proof.
  exists (c_array (Space 4 [[1; 2; 3; 4]; [5; 6; 7; 8]]%Q)), (c_array (Space 5 [[1; 2; 3; 4; 5]]%Q)).
  split; [apply c_array_points; repeat constructor|]. split; [apply c_array_points; repeat constructor|].
  vm_compute. repeat split.
Qed.
Print Assumptions C53_dim_refuted.

(** ** C54: arrays that are not two-dimensional *)
Theorem C54_many_axes :
  forall (T : Type) (SC : Scalar T) (alg : std_algos) (pts : ndarray T) (m : metric_t) (leaf : Z) (fuel : nat),
  is_scalar_dtype (nd_dtype pts) = true -> 2 < length (nd_shape pts) ->
  py_kd_tree alg fuel pts m leaf = throw ExnInvalidArgument.
Proof. exact @many_axes. Qed.
Print Assumptions C54_many_axes.

Theorem C54_not_contiguous :
  forall (T : Type) (SC : Scalar T) (alg : std_algos) (pts : ndarray T) (m : metric_t) (leaf : Z) (fuel : nat),
  nd_ok pts -> is_scalar_dtype (nd_dtype pts) = true -> length (nd_shape pts) = 2 -> is_contiguous pts = false ->
  py_kd_tree alg fuel pts m leaf = throw ExnInvalidArgument.
Proof. exact @tree_points_total. Qed.
Print Assumptions C54_not_contiguous.

(** A one-dimensional contiguous array is never rejected: the length of its
    second axis is read before the number of axes is checked. *)
Theorem C54_one_axis_undefined :
  forall (T : Type) (SC : Scalar T) (alg : std_algos) (pts : ndarray T) (m : metric_t) (leaf : Z) (fuel n : nat) (s : Z),
  is_scalar_dtype (nd_dtype pts) = true -> nd_shape pts = [n] -> nd_strides pts = [s] -> is_contiguous pts = true ->
  py_kd_tree alg fuel pts m leaf = Ub UbIndex.
Proof. exact @one_axis. Qed.
Print Assumptions C54_one_axis_undefined.

Theorem C54_one_axis_refuted :
  exists pts : ndarray Q, nd_ok pts /\ length (nd_shape pts) <> 2
  /\ py_kd_tree std_example 9 pts MetricL1 1 <> throw ExnInvalidArgument.
Proof.
  exists (NdArray [1; 2]%Q 0 [2] [1]%Z true DtFloat32). split; [|split; [discriminate|vm_compute; discriminate]].
  split; [reflexivity|]. split; [cbn; lia|]. intros idx H. cbn in H.
  inversion H as [|i ? ? ? Hi H1]; subst. inversion H1; subst.
  destruct i as [|[|i]]; [..|lia]; vm_compute; eauto.
Qed.
Print Assumptions C54_one_axis_refuted.

Example C54_example :
  py_kd_tree std_example 9 (NdArray [1; 2]%Q 0 [1; 1; 2] [2; 2; 1]%Z true DtFloat32) MetricL1 1 = throw ExnInvalidArgument
  /\ py_kd_tree std_example 9 (NdArray [1; 2; 3; 4; 5; 6; 7; 8]%Q 0 [2; 2] [4; 2]%Z true DtFloat32) MetricL1 1
     = throw ExnInvalidArgument.
Proof. vm_compute. split; reflexivity. Qed.

(** ** C55: loading with other points *)
(** That load_kd_tree rejects points that are not those the tree was made from
    (or at least as many of the same dimension) is false: the tree is returned,
    and searching it reads outside of the points. *)
Theorem C55_other_points_refuted :
  exists pts other queries : ndarray Z, nd_ok pts /\ nd_ok other /\ nd_ok queries
  /\ nd_shape pts = [7; 2] /\ nd_shape other = [1; 2]
  /\ match py_kd_tree (SC := Z32) std_example 20 pts MetricL1 2 with
     | Ok (inr t) =>
         match py_load (SC := Z32) true (int_codec true 4) other (py_save true (int_codec true 4) (fun _ _ => 0%Z) t) with
         | Ok (inr t') => py_search_knn (SC := Z32) (rounds 1 60) t' queries 1 None = Ub UbIndex
         | _ => False
         end
     | _ => False
     end.
Proof.
  exists (c_array ex_int), (c_array (Space 2 [[0; 0]]%Z)), (c_array (Space 2 [[5; 5]]%Z)).
  split; [apply c_array_points; apply ex_int_wf|].
  split; [apply c_array_points; repeat constructor|]. split; [apply c_array_points; repeat constructor|].
  vm_compute. repeat split.
Qed.
Print Assumptions C55_other_points_refuted.

(** ** C56: the tree as a buffer *)
Theorem C56_buffer :
  forall (T : Type) (SC : Scalar T) (alg : std_algos) (fuel : nat) (pts : ndarray T) (m : metric_t) (leaf : Z)
    (t : py_tree T),
  nd_ok pts -> py_kd_tree alg fuel pts m leaf = ret t ->
  nd_shape (tree_view t pts) = nd_shape pts
  /\ forall idx, Forall2 lt idx (nd_shape pts) -> nd_get (tree_view t pts) idx = nd_get pts idx.
Proof. exact @request_spec. Qed.
Print Assumptions C56_buffer.

Example C56_example :
  match py_kd_tree std_example 7 py_pts MetricL2Squared 1, py_kd_tree std_example 7 py_queries_f MetricL2Squared 1 with
  | Ok (inr t), Ok (inr u) =>
      py_request t = ([7; 2], [2; 1]%Z) /\ nd_get (tree_view t py_pts) [1; 1] = Some 3%Q
      /\ py_request u = ([2; 2], [1; 2]%Z) /\ nd_get (tree_view u py_queries_f) [0; 1] = Some 6%Q
  | _, _ => False
  end.
Proof. vm_compute. repeat split. Qed.
