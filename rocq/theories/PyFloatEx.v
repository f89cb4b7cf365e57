(** Concrete arrays of doubles for the examples about the Python bindings. *)
From Coq Require Import List ZArith Reals Bool Arith Sorted Lia Lra.
From Flocq Require Import Core.Core IEEE754.BinarySingleNaN.
From Verif Require Import Base ModelBox ModelBuild ModelSearch ModelSerial ModelPython Spec SpecPython SpecRound SpecPyFloat
  Instances Lemmas Examples PyExamples Floats FloatThms FloatEx.
Import ListNotations.
Local Open Scope nat_scope.
Local Existing Instance F64.

(** The four points of C41 and the query twice. *)
Definition pf_pts : ndarray double := c_array fx_sp.
Definition pf_qs : space double := Space 2 [fx_q; fx_q].
Definition pf_queries : ndarray double := c_array pf_qs.
Lemma pf_tree_args : tree_args pf_pts fx_sp 1.
Proof.
  constructor; [apply c_array_points; repeat constructor|right; reflexivity|discriminate|apply le_S, le_n|reflexivity|].
  split; reflexivity.
Qed.
Lemma pf_query_args : query_args pf_pts fx_sp pf_queries pf_qs.
Proof. constructor; try reflexivity. apply c_array_points. repeat constructor. Qed.
Lemma pf_coords : all_coords (below 53 1024 (1024 - 2)) fx_sp.
Proof.
  destruct (fx_input L1 (or_introl eq_refl)) as [_ _ _ _ _ C _ _ _]. eapply Forall_impl; [|exact C].
  intros p Hp. eapply Forall_impl; [|exact Hp]. intros x [A B]. split; [exact A|].
  eapply Rle_trans; [exact B|]. apply bpow_le. lia.
Qed.
Lemma pf_input em : em = L1 \/ em = L2Squared ->
  forall q, In q (sp_pts pf_qs) -> float_input 53 1024 em 0 fx_sp bounds_from_space q.
Proof. intros He q [<-|[<-|[]]]; apply fx_input; auto. Qed.

(** Whole numbers. *)
Definition pg_pts : ndarray double := c_array fg_sp.
Definition pg_qs : space double := Space 2 [fg_q; fg_q].
Definition pg_queries : ndarray double := c_array pg_qs.
Lemma pg_tree_args : tree_args pg_pts fg_sp 1.
Proof.
  constructor; [apply c_array_points; repeat constructor|right; reflexivity|discriminate|apply le_S, le_n|reflexivity|].
  split; reflexivity.
Qed.
Lemma pg_query_args : query_args pg_pts fg_sp pg_queries pg_qs.
Proof. constructor; try reflexivity. apply c_array_points. repeat constructor. Qed.
Lemma pg_coords : all_coords (below 53 1024 (1024 - 2)) fg_sp.
Proof.
  destruct (fg_input L1 (or_introl eq_refl)) as [_ _ _ _ _ C _ _ _]. eapply Forall_impl; [|exact C].
  intros p Hp. eapply Forall_impl; [|exact Hp]. intros x [A B]. split; [exact A|].
  eapply Rle_trans; [exact B|]. apply bpow_le. lia.
Qed.
Lemma pg_input em : em = L1 \/ em = L2Squared -> forall q, In q (sp_pts pg_qs) ->
  float_input 53 1024 em 4 fg_sp bounds_from_space q /\ grid_input 53 1024 em 0 4 fg_sp q.
Proof. intros He q [<-|[<-|[]]]; (split; [apply fg_input; auto|apply fg_grid; auto]). Qed.

(** What a call computes. *)
Definition knn_call (n : nat) (pts queries : ndarray double) (k : nat) (e : option double) : option (list nat * list (list nat)) :=
  match py_kd_tree std_example n pts MetricL2Squared 1 with
  | Ok (inr t) =>
      match py_search_knn (rounds 2 200) t queries k e with
      | Ok (inr out) => Some (nd_shape out,
          map (fun i => map (fun j => match nd_get out (if k =? 1 then [i] else [i; j]) with
                                      Some x => n_index x | None => 99 end) (seq 0 k)) [0; 1])
      | _ => None
      end
  | _ => None
  end.
Definition radius_call (n : nat) (pts queries : ndarray double) (r : double) (e : option double) (sort : bool)
  : option (list (list nat)) :=
  match py_kd_tree std_example n pts MetricL2Squared 1 with
  | Ok (inr t) =>
      match py_search_radius std_example (rounds 2 200) t queries r e sort with
      | Ok (inr out) => Some (map (map n_index) out)
      | _ => None
      end
  | _ => None
  end.
Definition box_call (n : nat) (pts queries : ndarray double) : option (list (list nat)) :=
  match py_kd_tree std_example n pts MetricL2Squared 1 with
  | Ok (inr t) => match py_search_box (rounds 1 200) t queries with Ok (inr out) => Some out | _ => None end
  | _ => None
  end.

(** The second query finds point 0, and point 1 is nearer. *)
Lemma c142_refutation : ~ (
  forall alg : std_algos, std_laws alg ->
  forall (pts : ndarray double) (sp : space double) (m : metric_t) (em : exact_metric) (leaf : Z),
  tree_args pts sp leaf -> exact_for m em ->
  forall (queries : ndarray double) (qs : space double) (e : Z), query_args pts sp queries qs ->
  (forall q, In q (sp_pts qs) -> float_input 53 1024 em e sp bounds_from_space q) ->
  forall fuel sched t out, py_kd_tree alg fuel pts m leaf = ret t -> py_search_knn sched t queries 1 None = ret out ->
  forall i q, nth_error (sp_pts qs) i = Some q -> exists x, nd_get out [i] = Some x
    /\ nearest_within (npts sp) (computed 53 1024 prec_gt_53 prec_lt_1024 em sp q) 1 (n_index x)).
Proof.
  intros H. assert (C : knn_call 4 pf_pts pf_queries 1 None = Some ([2], [[0]; [0]])) by (vm_compute; reflexivity).
  unfold knn_call in C.
  destruct (py_kd_tree std_example 4 pf_pts MetricL2Squared 1) as [[w|t]| |] eqn:ET; [discriminate C| |discriminate C..].
  destruct (py_search_knn (rounds 2 200) t pf_queries 1 None) as [[w|out]| |] eqn:EK; [discriminate C| |discriminate C..].
  destruct (H std_example std_example_laws pf_pts fx_sp MetricL2Squared L2Squared 1%Z pf_tree_args eq_refl pf_queries pf_qs 0%Z
    pf_query_args (pf_input L2Squared (or_intror eq_refl)) 4 (rounds 2 200) t out ET EK 1 fx_q eq_refl) as (x & Ex & _ & HN).
  cbn [map seq Nat.eqb] in C. rewrite Ex in C. injection C as _ _ C.
  specialize (HN 1 ltac:(cbn; lia)). rewrite Rmult_1_l, C in HN. unfold computed in HN.
  apply (leb_R 53 1024 prec_gt_53 prec_lt_1024) in HN; [|vm_compute; reflexivity..].
  vm_compute in HN. discriminate.
Qed.
