(** Programs with tree objects for the examples of PropHeap.v. *)
From Coq Require Import List ZArith QArith Bool Arith Permutation Lia.
From Verif Require Import Base ModelBox ModelBuild ModelSearch ModelSerial ModelMemory ModelHeap Spec SpecHeap
  Instances BuildThms Examples HeapTop.
Import ListNotations.
Local Open Scope nat_scope.

Lemma std_example_in_place : std_in_place std_example.
Proof.
  split.
  - intros p l. rewrite <- app_length. apply Permutation_length, (sl_partition_perm _ std_example_laws).
  - intros lt n l. cbn. apply Permutation_length, isort_perm.
Qed.

(** What vectors look like after their contents were moved out, and objects whose
    members are copied by a move. *)
Definition emptied {T} : moved_parts T := MovedParts (fun s => s) (fun _ => []) (fun b => b).
Definition copied {T} : moved_parts T := MovedParts (fun s => s) (fun l => l) (fun b => b).

Notation ex_m := (@metric_l1 Z Z32).
Definition ex_codec : codec Z := int_codec true 4.
Definition ex_build (x : nat) (sp : space Z) (n : Z) : tree_op Z :=
  TBuild x sp (max_leaf_size n) bounds_from_space sliding_midpoint_max_side.
Definition ex_near (x : nat) (q : list Z) : tree_op Z := TQuery x (QNn q (Neighbor 9 0%Z)).
Definition ex_run (mp : moved_parts Z) (ops : list (tree_op Z)) :=
  @tree_run Z Z32 std_example true it_int ex_codec ex_m mp 500 (tree_start ex_m) ops.
Definition ex_values (ops : list (tree_op Z)) :=
  @value_run Z Z32 std_example true it_int ex_codec ex_m 500 (no_objects ex_m) ops.

(** Of a run: the answers, and the number of chunks in use. *)
Definition told {A B} (r : res (A * B)) : res B := do x <- r; Ok (snd x).
Definition in_use {B} (r : res (world ex_m * B)) : res nat := do x <- r; Ok (length (h_live (w_heap (fst x)))).

(** The bytes of a saved tree over [ex_int]. *)
Definition ex_saved : list Z :=
  match @build Z Z32 Euclidean std_example it_int 9 ex_int (max_leaf_size 2) bounds_from_space sliding_midpoint_max_side with
  | Ok d => kd_tree_save true it_int ex_codec (fun _ _ => 0%Z) (KdTree ex_int ex_m d)
  | _ => []
  end.

Definition ex_other : space Z := Space 2 [[3; 3]; [-8; 1]; [100; 7]]%Z.

(** Two trees; one is moved into a third object, a saved one is loaded, and the
    tree of an object that was moved from is replaced. *)
Definition ex_prog : list (tree_op Z) :=
  [ex_build 0 ex_int 2; ex_build 1 ex_other 1; TMove 2 0; ex_near 2 [6; 1]%Z; TLoad 3 ex_int ex_saved;
   ex_near 3 [6; 1]%Z; TAssign 0 1; ex_near 0 [6; 1]%Z; TDestroy 1; TDestroy 2;
   TQuery 0 (QRadius [0; 0]%Z 10%Z true); TQuery 3 (QBox [1; 1]%Z [4; 5]%Z)].
Definition ex_ends : list (tree_op Z) := [TDestroy 0; TDestroy 3].

(** 200 points on a line. *)
Definition ex_line : space Z := Space 1 (map (fun i => [(Z.of_nat i * 7) mod 1000]%Z) (seq 0 200)).

Definition ex_q : query Z := QNn [6; 1]%Z (Neighbor 9 0%Z).
Lemma moved_from_refuted :
  ~ (forall (T : Type) (S : Scalar T) (alg : std_algos) (little : bool) (it : index_type) (tc : codec T) (m : metric T)
       (mp : moved_parts T) (fuel : nat), std_in_place alg ->
     forall (x y : nat) (sp : space T) (stop : stop_condition) (bnds : start_bounds T) (ru : rule) (q : query T) (a : answer T) w,
     tree_run alg little it tc m mp fuel (tree_start m) [TBuild y sp stop bnds ru; TQuery y q] = Ok (w, [None; Some a]) ->
     exists w' l, tree_run alg little it tc m mp fuel (tree_start m) [TBuild y sp stop bnds ru; TMove x y; TQuery y q] = Ok (w', l))
  /\ ~ (forall (T : Type) (S : Scalar T) (alg : std_algos) (little : bool) (it : index_type) (tc : codec T) (m : metric T)
       (fuel : nat), std_in_place alg ->
     forall (x y : nat) (sp : space T) (stop : stop_condition) (bnds : start_bounds T) (ru : rule) (q : query T) (a : answer T) w,
     tree_run alg little it tc m copied fuel (tree_start m) [TBuild y sp stop bnds ru; TMove x y; TQuery y q] = Ok (w, [None; None; Some a]) ->
     exists w' l, tree_run alg little it tc m copied fuel (tree_start m) [TBuild y sp stop bnds ru; TMove x y; TDestroy x; TQuery y q] = Ok (w', l)).
Proof.
  split; intros H.
  - specialize (H Z Z32 std_example true it_int ex_codec ex_m emptied 500 std_example_in_place 1 0 ex_int (max_leaf_size 2)
      bounds_from_space sliding_midpoint_max_side ex_q).
    edestruct H as (w' & l & E); [vm_compute; reflexivity|]. vm_compute in E. discriminate.
  - specialize (H Z Z32 std_example true it_int ex_codec ex_m 500 std_example_in_place 1 0 ex_int (max_leaf_size 2)
      bounds_from_space sliding_midpoint_max_side ex_q).
    edestruct H as (w' & l & E); [vm_compute; reflexivity|]. vm_compute in E. discriminate.
Qed.
