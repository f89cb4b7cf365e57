(** What programs that use tree objects are supposed to do: an object holds the
    tree it was given, a move hands it over, destruction ends it, and a query is
    answered from the tree alone, without any memory. *)
From Coq Require Import List ZArith Bool Arith.
From Verif Require Import Base ModelBox ModelBuild ModelSearch ModelSerial ModelMemory ModelHeap.
Import ListNotations.

(** The standard algorithms rearrange the range they are given: its length stays. *)
Definition std_in_place (alg : std_algos) : Prop :=
  (forall p l, length (fst (std_partition alg p l)) + length (snd (std_partition alg p l)) = length l)
  /\ (forall lt n l, length (std_nth_element alg lt n l) = length l).

Section Spec.
Context {T : Type} {SC : Scalar T}.
Variables (alg : std_algos) (little : bool) (it : index_type) (tc : codec T) (m : metric T).
Variable fuel : nat.

(** The answer to a query, from the tree as a value. *)
Definition answer_of (t : kd_tree T) (qu : query T) : res (answer T) :=
  match qu with
  | QNearest V vis x v0 => do v <- search_nearest t vis x v0; Ok (AVisitor V v)
  | QNn x nn => do n <- search_nn t x nn; Ok (ANeighbor n)
  | QNnApprox x e nn => do n <- search_nn_approx t x e nn; Ok (ANeighbor n)
  | QKnn x k knn => do l <- search_knn t x k knn; Ok (ANeighbors l)
  | QKnnApprox x k e knn => do l <- search_knn_approx t x k e knn; Ok (ANeighbors l)
  | QRadius x radius sort => do l <- search_radius alg t x radius sort; Ok (ANeighbors l)
  | QRadiusApprox x radius e sort => do l <- search_radius_approx alg t x radius e sort; Ok (ANeighbors l)
  | QBox mn mx => do l <- search_box t mn mx; Ok (AIndices l)
  | QLeaves => do l <- leaf_ranges (kt_data t); Ok (ARanges l)
  | QSave pads => Ok (ABytes (kd_tree_save little it tc pads t))
  end.

(** The objects: not there, moved from ([Some None]), or holding a tree. *)
Definition holdings : Type := nat -> option (option (space T * kd_tree_data (m_cat m) T)).

Definition value_step (st : holdings) (op : tree_op T) : res (holdings * option (answer T)) :=
  match op with
  | TBuild x sp stop bnds ru =>
      match st x with
      | Some _ => Ok (st, None)
      | None =>
          do d <- build (m_cat m) alg it fuel sp stop bnds ru;
          Ok (set_var st x (Some (Some (sp, d))), None)
      end
  | TLoad x sp bytes =>
      match st x with
      | Some _ => Ok (st, None)
      | None =>
          do (d, _) <- load_data little it tc (m_cat m) (Some bytes);
          Ok (set_var st x (Some (Some (sp, d))), None)
      end
  | TMove x y =>
      match st x, st y with
      | None, Some t => Ok (set_var (set_var st y (Some None)) x (Some t), None)
      | _, _ => Ok (st, None)
      end
  | TAssign x y =>
      match st x, st y with
      | Some _, Some t =>
          if x =? y then Ok (set_var st x (Some None), None)
          else Ok (set_var (set_var st y (Some None)) x (Some t), None)
      | _, _ => Ok (st, None)
      end
  | TDestroy x => Ok (set_var st x None, None)
  | TQuery x q =>
      match st x with
      | None => Ok (st, None)
      | Some None => Ub UbDangling   (* excluded by [no_moved_query] *)
      | Some (Some (sp, d)) => do a <- answer_of (KdTree sp m d) q; Ok (st, Some a)
      end
  end.

Fixpoint value_run (st : holdings) (ops : list (tree_op T)) : res (holdings * list (option (answer T))) :=
  match ops with
  | [] => Ok (st, [])
  | op :: r =>
      do (st1, a) <- value_step st op;
      do (st2, l) <- value_run st1 r;
      Ok (st2, a :: l)
  end.
Definition no_objects : holdings := fun _ => None.
End Spec.

Section Scope.
Context {T : Type}.
(** Which objects exist, and whether they hold a tree ([Some true]) or were
    moved from. *)
Definition object_scope : Type := nat -> option bool.

Definition object_step (sc : object_scope) (op : tree_op T) : object_scope :=
  match op with
  | TBuild x _ _ _ _ | TLoad x _ _ => match sc x with None => set_var sc x (Some true) | Some _ => sc end
  | TMove x y =>
      match sc x, sc y with
      | None, Some b => set_var (set_var sc y (Some false)) x (Some b)
      | _, _ => sc
      end
  | TAssign x y =>
      match sc x, sc y with
      | Some _, Some b =>
          if x =? y then set_var sc x (Some false)
          else set_var (set_var sc y (Some false)) x (Some b)
      | _, _ => sc
      end
  | TDestroy x => set_var sc x None
  | TQuery _ _ => sc
  end.

(** No object that was moved from is queried. *)
Fixpoint no_moved_query (sc : object_scope) (ops : list (tree_op T)) : Prop :=
  match ops with
  | [] => True
  | op :: r =>
      match op with TQuery x _ => sc x <> Some false | _ => True end
      /\ no_moved_query (object_step sc op) r
  end.

(** No tree is assigned to an object that still holds one. *)
Fixpoint no_tree_overwritten (sc : object_scope) (ops : list (tree_op T)) : Prop :=
  match ops with
  | [] => True
  | op :: r =>
      match op with TAssign x y => sc x <> Some true \/ sc y = None | _ => True end
      /\ no_tree_overwritten (object_step sc op) r
  end.
Definition empty_scope : object_scope := fun _ => None.

(** The points over which the tree of each object was built ([Some None]: moved
    from). *)
Definition points_step (pt : nat -> option (option (space T))) (op : tree_op T) : nat -> option (option (space T)) :=
  match op with
  | TBuild x sp _ _ _ | TLoad x sp _ =>
      match pt x with None => set_var pt x (Some (Some sp)) | Some _ => pt end
  | TMove x y =>
      match pt x, pt y with
      | None, Some v => set_var (set_var pt y (Some None)) x (Some v)
      | _, _ => pt
      end
  | TAssign x y =>
      match pt x, pt y with
      | Some _, Some v =>
          if x =? y then set_var pt x (Some None) else set_var (set_var pt y (Some None)) x (Some v)
      | _, _ => pt
      end
  | TDestroy x => set_var pt x None
  | TQuery _ _ => pt
  end.
Definition points_of (ops : list (tree_op T)) : nat -> option (option (space T)) :=
  fold_left points_step ops (fun _ => None).

(** Trees are built, not loaded from bytes that could be anything. *)
Definition no_load (op : tree_op T) : Prop := match op with TLoad _ _ _ => False | _ => True end.
End Scope.

(** Memory is handed out in chunks of 256 nodes: the least number of chunks. *)
Fixpoint node_count {B} (n : node B) : nat :=
  match n with Leaf _ _ => 1 | Branch _ l r => 1 + node_count l + node_count r end.
Definition chunks_needed (nodes : nat) : nat := (nodes + 255) / 256.
