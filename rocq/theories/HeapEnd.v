(** From the code with pointers to the answers: what a query returns at the end of
    any program that builds, moves, assigns and destroys trees. *)
From Coq Require Import List ZArith QArith Bool Arith Permutation Sorted Lia.
From Verif Require Import Base ModelBox ModelBuild ModelSearch ModelSerial ModelMemory ModelHeap Spec SpecHeap
  TopThms BoxThms HeapTop.
Import ListNotations.
Local Open Scope nat_scope.

Section End_to_end.
Context {T : Type} {SC : Scalar T}.
Variables (val : T -> Q).
Hypothesis EL : exact_laws SC val.
Variables (em : exact_metric) (alg : std_algos).
Hypotheses (SL : std_laws alg) (SI : std_in_place alg).
Variables (little : bool) (it : index_type) (tc : codec T) (mp : moved_parts T) (fuel : nat).
Local Notation m := (metric_of em).
Local Notation run := (tree_run alg little it tc m mp fuel (tree_start m)).
Local Notation step := (tree_step alg little it tc m mp fuel).
Variables (ops : list (tree_op T)) (w : world m) (l : list (option (answer T))) (x : nat) (sp : space T).
Hypotheses (NL : Forall no_load ops) (RUN : run ops = Ok (w, l)) (PT : points_of ops x = Some (Some sp)).
Variable q : list T.
Hypothesis US : forall y stop bnds ru, In (TBuild y sp stop bnds ru) ops -> usable val em sp bnds q.

Lemma end_nn nn0 : distances_fit val em sp q ->
  exists i d, step w (TQuery x (QNn q nn0)) = Ok (w, Some (ANeighbor (Neighbor i d)))
    /\ (val d == dist_to val em sp q i)%Q
    /\ is_nearest (npts sp) (dist_to val em sp q) i.
Proof.
  intros DF. destruct (program_query alg little it tc m mp fuel SI ops w l x sp NL RUN PT) as (x0 & stop & bnds & ru & tree & HI & HM & HQ).
  destruct (top_nn _ EL em sp alg SL it fuel stop bnds ru tree q HM (US _ _ _ _ HI) DF nn0) as (i & d & E & A).
  exists i, d. split; [|exact A]. rewrite HQ. cbn [answer_of]. rewrite E. reflexivity.
Qed.

Lemma end_knn k knn0 : distances_fit val em sp q -> 0 < k ->
  exists out, step w (TQuery x (QKnn q k knn0)) = Ok (w, Some (ANeighbors out))
    /\ knn_answer (npts sp) k (dist_to val em sp q) (answers val out).
Proof.
  intros DF K. destruct (program_query alg little it tc m mp fuel SI ops w l x sp NL RUN PT) as (x0 & stop & bnds & ru & tree & HI & HM & HQ).
  destruct (top_knn _ EL em sp alg SL it fuel stop bnds ru tree q HM (US _ _ _ _ HI) DF k knn0 K) as (out & E & A).
  exists out. split; [|exact A]. rewrite HQ. cbn [answer_of]. rewrite E. reflexivity.
Qed.

Lemma end_radius r sort :
  exists out, step w (TQuery x (QRadius q r sort)) = Ok (w, Some (ANeighbors out))
    /\ filter_answer (npts sp) (fun i => (dist_to val em sp q i < val r)%Q) (dist_to val em sp q) (answers val out)
    /\ (sort = true -> StronglySorted Qle (map (fun x => val (n_distance x)) out)).
Proof.
  destruct (program_query alg little it tc m mp fuel SI ops w l x sp NL RUN PT) as (x0 & stop & bnds & ru & tree & HI & HM & HQ).
  destruct (top_radius _ EL em sp alg SL it fuel stop bnds ru tree q HM (US _ _ _ _ HI) r sort) as (out & E & A).
  exists out. split; [|exact A]. rewrite HQ. cbn [answer_of]. rewrite E. reflexivity.
Qed.
End End_to_end.

Theorem end_to_end {T} {SC : Scalar T} (val : T -> Q) : exact_laws SC val ->
  forall (em : exact_metric) (alg : std_algos), std_laws alg -> std_in_place alg ->
  forall (little : bool) (it : index_type) (tc : codec T) (mp : moved_parts T) (fuel : nat)
    (ops : list (tree_op T)) (w : world (metric_of em)) (l : list (option (answer T))) (x : nat) (sp : space T) (q : list T),
  Forall no_load ops ->
  tree_run alg little it tc (metric_of em) mp fuel (tree_start (metric_of em)) ops = Ok (w, l) ->
  points_of ops x = Some (Some sp) ->
  (forall y stop bnds ru, In (TBuild y sp stop bnds ru) ops -> usable val em sp bnds q) ->
  let ask qu := tree_step alg little it tc (metric_of em) mp fuel w (TQuery x qu) in
  (forall nn0, distances_fit val em sp q ->
    exists i d, ask (QNn q nn0) = Ok (w, Some (ANeighbor (Neighbor i d)))
      /\ (val d == dist_to val em sp q i)%Q
      /\ is_nearest (npts sp) (dist_to val em sp q) i)
  /\ (forall k knn0, distances_fit val em sp q -> 0 < k ->
    exists out, ask (QKnn q k knn0) = Ok (w, Some (ANeighbors out))
      /\ knn_answer (npts sp) k (dist_to val em sp q) (answers val out))
  /\ (forall r sort,
    exists out, ask (QRadius q r sort) = Ok (w, Some (ANeighbors out))
      /\ filter_answer (npts sp) (fun i => (dist_to val em sp q i < val r)%Q) (dist_to val em sp q) (answers val out)
      /\ (sort = true -> StronglySorted Qle (map (fun x => val (n_distance x)) out))).
Proof.
  intros EL em alg SL SI little it tc mp fuel ops w l x sp q NL RUN PT US. cbv zeta. repeat split.
  - intros nn0 DF. eapply end_nn; eauto.
  - intros k knn0 DF K. eapply end_knn; eauto.
  - intros r sort. eapply end_radius; eauto.
Qed.
