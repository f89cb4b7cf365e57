(** What is claimed about the lifetimes of the objects of the Python module. *)
From Coq Require Import List Bool Arith.
From Verif Require Import Base ModelLife.
Import ListNotations.
Local Open Scope nat_scope.

(** The memory an object points to. *)
Definition data_of (o : object) : option nat :=
  match o_kind o with
  | KArray b _ _ => Some b
  | KTree b => Some b
  | KBuffer b => Some b
  | _ => None
  end.

(** The results of a search fit into the vectors of a DArray: there are not fewer
    queries than vectors, and no vector has to grow. *)
Definition results_fit (vs : list vec) (results : list (nat * nat)) : Prop :=
  length vs <= length results
  /\ forall i v r, nth_error vs i = Some v -> nth_error results i = Some r -> fst r <= v_cap v.

(** Searches that write into an existing output do not move memory other objects
    look at: an array that is resized, and a DArray whose results do not fit, has
    no views; and such a DArray has no iterators. *)
Definition careful (h : pyheap) (p : op) : Prop :=
  match p with
  | SearchKnnInto _ _ nns false =>
      forall b base refs, get h nns = Some (Obj (KArray b true base) refs) ->
      forall x o, x <> nns -> nth x (h_objs h) None = Some o -> data_of o <> Some b
  | SearchDArrayInto _ _ d results =>
      forall vs refs, get h d = Some (Obj (KDArray vs) refs) ->
      results_fit vs results
      \/ (forall x o b, nth x (h_objs h) None = Some o -> data_of o = Some b -> ~ In b (vec_blocks vs))
         /\ (forall x i e refs', nth x (h_objs h) None <> Some (Obj (KIter d i e) refs'))
  | _ => True
  end.
Fixpoint careful_run (h : pyheap) (l : list op) : Prop :=
  match l with
  | [] => True
  | p :: r => careful h p /\ forall h', step h p = Ok h' -> careful_run h' r
  end.

(** What the module does not keep alive, the program does: after [load_kd_tree] it
    never lets go of the points, and after [next] not of the DArray. *)
Definition kept (h : pyheap) (p : op) (rest : list op) : Prop :=
  match p with
  | LoadTree a => ~ In (Drop a) rest
  | Next it => forall d i e refs, get h it = Some (Obj (KIter d i e) refs) -> In d (h_vars h) /\ ~ In (Drop d) rest
  | _ => True
  end.
Fixpoint kept_run (h : pyheap) (l : list op) : Prop :=
  match l with
  | [] => True
  | p :: r => kept h p r /\ forall h', step h p = Ok h' -> kept_run h' r
  end.

(** Operations that hand out pointers which keep nothing alive. *)
Definition unkept (p : op) : Prop :=
  match p with LoadTree _ | Next _ => True | _ => False end.

(** Operations that write into an existing output. *)
Definition into (p : op) : Prop :=
  match p with SearchKnnInto _ _ _ _ | SearchDArrayInto _ _ _ _ => True | _ => False end.

(** Dropping all references and deleting all objects, the newest first. *)
Definition end_of_program (h : pyheap) : list op :=
  map Drop (h_vars h) ++ map Collect (rev (seq 0 (length (h_objs h)))).
