(** Concrete data for the kd_forest. *)
From Coq Require Import List ZArith QArith Qabs Bool Arith Permutation Lia Lqa.
From Verif Require Import Base ModelBox ModelBuild ModelSearch Spec ModelCover ModelForest SpecForest Lemmas Instances
  BuildOrder Visitors Examples Reflect ForestThms.
Import ListNotations.
Local Open Scope nat_scope.

(** * A priority queue *)
Section Queue.
Context {T : Type} {S : Scalar T}.
Fixpoint extract_min (x : queue_pair T) (l : list (queue_pair T)) : queue_pair T * list (queue_pair T) :=
  match l with
  | [] => (x, [])
  | y :: r =>
      if s_ltb (fst y) (fst x) then let '(z, r') := extract_min y r in (z, x :: r')
      else let '(z, r') := extract_min x r in (z, y :: r')
  end.
Definition list_queue : pqueue T :=
  PQueue (fun l => match l with [] => None | x :: r => Some (extract_min x r) end).

Lemma extract_perm l : forall x, Permutation (fst (extract_min x l) :: snd (extract_min x l)) (x :: l).
Proof.
  induction l as [|y l IH]; intros x; cbn [extract_min]; auto.
  destruct (s_ltb (fst y) (fst x)).
  - specialize (IH y). destruct (extract_min y l) as [z r]. cbn [fst snd] in *.
    rewrite perm_swap. constructor. exact IH.
  - specialize (IH x). destruct (extract_min x l) as [z r]. cbn [fst snd] in *.
    rewrite perm_swap. rewrite IH. apply perm_swap.
Qed.

Context (val : T -> Q) (EL : exact_laws S val).
Lemma extract_le l : forall x, (val (fst (fst (extract_min x l))) <= val (fst x))%Q
  /\ forall y, In y (snd (extract_min x l)) -> (val (fst (fst (extract_min x l))) <= val (fst y))%Q.
Proof.
  induction l as [|y l IH]; intros x; cbn [extract_min].
  - split; [apply Qle_refl|intros ? []].
  - destruct (s_ltb (fst y) (fst x)) eqn:E.
    + apply (ltb_val val EL) in E. destruct (IH y) as [A B]. destruct (extract_min y l) as [z r]. cbn [fst snd] in *.
      split; [lra|]. intros w [<-|Hw]; [lra|auto].
    + apply (ltb_val_false val EL) in E. destruct (IH x) as [A B]. destruct (extract_min x l) as [z r]. cbn [fst snd] in *.
      split; [lra|]. intros w [<-|Hw]; [lra|auto].
Qed.

Lemma list_queue_laws : queue_laws S list_queue.
Proof.
  constructor.
  - intros [|x l] H; [congruence|discriminate].
  - intros [|x l] y r E; [discriminate|]. injection E as E. pose proof (extract_perm l x) as P. rewrite E in P. exact P.
  - intros [|x l] y r E _ w Hw; [discriminate|]. injection E as E. apply (ltb_val_false val EL).
    destruct (extract_le l x) as [_ A]. rewrite E in A. cbn in A. auto.
Qed.
End Queue.

(** * Three reflections with rational coordinates *)
Local Open Scope Q_scope.
Definition root_table (x : Q) : Q :=
  if Qeq_bool x 25 then 5 else if Qeq_bool x 169 then 13 else 1.
Definition forest_math : cmath Q := CMath (fun x _ => x) (fun x => x) (fun x => x) (fun x => x) root_table.
Definition ex_gauss (tree i : nat) : Q :=
  nth i (nth tree [[3; 4]; [5; -12]; [-4; 3]] []) 0.

Lemma root_25 : forall x, x == 25 -> root_table x * root_table x == x.
Proof. intros x E. unfold root_table. apply Qeq_bool_iff in E as E'. rewrite E', E. reflexivity. Qed.
Lemma root_169 : forall x, x == 169 -> root_table x * root_table x == x.
Proof.
  intros x E. unfold root_table. destruct (Qeq_bool x 25) eqn:E1.
  - apply Qeq_bool_iff in E1. rewrite E in E1. discriminate.
  - apply Qeq_bool_iff in E as E'. rewrite E', E. reflexivity.
Qed.
Lemma ex_draws i : (i < 3)%nat -> draw_ok qv root_table (tab 2 (ex_gauss i)).
Proof.
  intros H. destruct i as [|[|[|i]]]; try lia; (split; [intros E; vm_compute in E; discriminate|]); intros x E; unfold qv in *.
  - apply root_25. rewrite E. reflexivity.
  - apply root_169. rewrite E. reflexivity.
  - apply root_25. rewrite E. reflexivity.
Qed.
Lemma ex_norms : norms_le qv 8 ex_sp.
Proof.
  split; [vm_compute; discriminate|]. repeat (constructor; [vm_compute; discriminate|]). constructor.
Qed.

Lemma forest_ok {T} {S : Scalar T} alg it cm m fuel gauss (sp : space T) leaf n data :
  build_rkd_tree alg it cm fuel sp (max_leaf_size leaf) bounds_from_space sliding_midpoint_max_side gauss n = Ok data ->
  kd_forest_make alg it cm m fuel gauss sp leaf n = Ok (KdForest sp m data).
Proof. intros E. unfold kd_forest_make. rewrite E. reflexivity. Qed.

(** The seven points in three reflected trees. *)
Definition ex_data : list (rkd_tree Q) :=
  match build_rkd_tree std_example it_int forest_math 7 ex_sp (max_leaf_size 1) bounds_from_space
    sliding_midpoint_max_side ex_gauss 3 with Ok d => d | _ => [] end.
Definition ex_forest : kd_forest Q := KdForest ex_sp metric_l2_squared ex_data.
Lemma ex_forest_ok : kd_forest_make std_example it_int forest_math metric_l2_squared 7 ex_gauss ex_sp 1 3 = Ok ex_forest.
Proof. unfold ex_forest, ex_data. apply forest_ok. vm_compute. reflexivity. Qed.
Lemma ex_units : Forall (fun t => unit_vector (map qv (rk_rotation t))) (kf_data ex_forest).
Proof. unfold ex_forest, ex_data. cbn [kf_data]. vm_compute. repeat constructor. Qed.


(** * The metric must be the Euclidean one *)
Definition l1_sp : space Q := Space 2 [[5; 0]; [3; 3]].
Definition l1_forest : kd_forest Q := KdForest l1_sp metric_l1
  (match build_rkd_tree std_example it_int forest_math 7 l1_sp (max_leaf_size 1) bounds_from_space
    sliding_midpoint_max_side ex_gauss 1 with Ok d => d | _ => [] end).
Lemma l1_forest_ok : kd_forest_make std_example it_int forest_math metric_l1 7 ex_gauss l1_sp 1 1 = Ok l1_forest.
Proof. unfold l1_forest. apply forest_ok. vm_compute. reflexivity. Qed.


Lemma ex_forest_nn : forest_search_nn list_queue ex_forest [4; 3] 7 (Neighbor 0%nat 0) = Ok (Neighbor 2%nat 4)
  /\ forest_search_nn list_queue ex_forest [4; 3] 1 (Neighbor 0%nat 0) = Ok (Neighbor 5%nat 5).
Proof. split; vm_compute; reflexivity. Qed.
Lemma ex_forest_fit : distances_fit qv L2Squared ex_sp [4; 3].
Proof. apply fit_by_cases. vm_compute. reflexivity. Qed.

Lemma l1_wf : wf_space l1_sp.
Proof. split; [cbn; lia|repeat constructor]. Qed.
Lemma l1_units : Forall (fun t => unit_vector (map qv (rk_rotation t))) (kf_data l1_forest).
Proof. unfold l1_forest. cbn [kf_data]. vm_compute. repeat constructor. Qed.
Lemma l1_norms : norms_le qv 8 l1_sp.
Proof.
  split; [vm_compute; discriminate|]. repeat (constructor; [vm_compute; discriminate|]). constructor.
Qed.
Lemma l1_fit : distances_fit qv L1 l1_sp [0; 0].
Proof. apply fit_by_cases. vm_compute. reflexivity. Qed.
Lemma l1_nn : forest_search_nn list_queue l1_forest [0; 0] 2 (Neighbor 0%nat 0) = Ok (Neighbor 1%nat (144 # 25)).
Proof. vm_compute. reflexivity. Qed.

Lemma ex_forest_knn : exists st0 st, visitor_knn_init [Neighbor 0%nat 0; Neighbor 0%nat 0] = Ok st0
  /\ forest_search_nearest list_queue ex_forest visitor_knn [6; 4] 7 st0 = Ok st
  /\ fst st = [Neighbor 5%nat 2; Neighbor 5%nat 2].
Proof. eexists. eexists. split; [vm_compute; reflexivity|]. split; vm_compute; reflexivity. Qed.

(** * Refutations *)
Definition l1_statement : Prop :=
  forall (pq : pqueue Q), queue_laws QD pq ->
  forall (alg : std_algos), std_laws alg ->
  forall (it : index_type) (cm : cmath Q) (fuel : nat) (gauss : nat -> nat -> Q) (sp : space Q)
    (leaf_size : Z) (n : nat) (f : kd_forest Q) (q : list Q) (budget : nat) (nn0 : neighbor Q),
  wf_space sp -> kd_forest_make alg it cm metric_l1 fuel gauss sp leaf_size n = Ok f ->
  Forall (fun t => unit_vector (map qv (rk_rotation t))) (kf_data f) ->
  norms_le qv 8 sp -> length q = sp_sdim sp -> distances_fit qv L1 sp q ->
  (npts sp <= budget)%nat ->
  exists i d, forest_search_nn pq f q budget nn0 = Ok (Neighbor i d)
    /\ qv d == dist_to qv L1 sp q i /\ is_nearest (npts sp) (dist_to qv L1 sp q) i.
Lemma l1_refutation : ~ l1_statement.
Proof.
  intros H. destruct (H list_queue (list_queue_laws qv QD_exact) std_example std_example_laws it_int forest_math 7%nat
    ex_gauss l1_sp 1%Z 1%nat l1_forest [0; 0] 2%nat (Neighbor 0%nat 0) l1_wf l1_forest_ok l1_units l1_norms eq_refl l1_fit
    ltac:(cbn; lia)) as (i & d & E & _ & [_ N]).
  rewrite l1_nn in E. injection E as <- <-. specialize (N 0%nat ltac:(cbn; lia)). vm_compute in N. apply N. reflexivity.
Qed.

Definition once_statement : Prop :=
  forall (pq : pqueue Q), queue_laws QD pq ->
  forall (alg : std_algos), std_laws alg ->
  forall (it : index_type) (cm : cmath Q) (fuel : nat) (gauss : nat -> nat -> Q) (sp : space Q)
    (leaf_size : Z) (n : nat) (f : kd_forest Q) (q : list Q) (budget : nat) (range : list (neighbor Q)) st0 st,
  wf_space sp -> kd_forest_make alg it cm metric_l2_squared fuel gauss sp leaf_size n = Ok f ->
  Forall (fun t => unit_vector (map qv (rk_rotation t))) (kf_data f) ->
  norms_le qv 8 sp -> length q = sp_sdim sp -> (npts sp <= budget)%nat ->
  (length range <= npts sp)%nat -> visitor_knn_init range = Ok st0 ->
  forest_search_nearest pq f visitor_knn q budget st0 = Ok st ->
  knn_answer (npts sp) (length range) (dist_to qv L2Squared sp q) (answers qv (fst st)).
Lemma once_refutation : ~ once_statement.
Proof.
  intros H. destruct ex_forest_knn as (st0 & st & E0 & E1 & E2).
  specialize (H list_queue (list_queue_laws qv QD_exact) std_example std_example_laws it_int forest_math 7%nat
    ex_gauss ex_sp 1%Z 3%nat ex_forest [6; 4] 7%nat [Neighbor 0%nat 0; Neighbor 0%nat 0] st0 st ex_wf ex_forest_ok ex_units
    ex_norms eq_refl ltac:(cbn; lia) ltac:(cbn; lia) E0 E1).
  destruct H as [_ ND _ _ _]. rewrite E2 in ND. cbn in ND. inversion ND as [|? ? A _]. apply A. simpl. auto.
Qed.
