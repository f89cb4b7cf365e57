(** What histories of allocators are supposed to mean: every allocator owns the
    objects it handed out, a move hands them over, destruction ends them. *)
From Coq Require Import List Bool Arith.
From Verif Require Import Base ModelMemory.
Import ListNotations.
Local Open Scope nat_scope.

(** The objects that belong to each existing allocator, and whether its content
    was moved away. *)
Record pool : Type := Pool { p_objs : list ptr; p_moved : bool }.
Definition pools : Type := nat -> option pool.

Definition pool_step (ps : pools) (o : mem_op) (returned : option ptr) : pools :=
  match o with
  | OpNew x => match ps x with None => set_var ps x (Some (Pool [] false)) | Some _ => ps end
  | OpAlloc x =>
      match ps x, returned with
      | Some pl, Some p => set_var ps x (Some (Pool (p :: p_objs pl) (p_moved pl)))
      | _, _ => ps
      end
  | OpMove x y =>
      match ps x, ps y with
      | None, Some src => set_var (set_var ps y (Some (Pool [] true))) x (Some src)
      | _, _ => ps
      end
  | OpAssign x y =>
      match ps x, ps y with
      | Some _, Some src =>
          if x =? y then set_var ps x (Some (Pool [] true))
          else set_var (set_var ps y (Some (Pool [] true))) x (Some src)
      | _, _ => ps
      end
  | OpDestroy x => match ps x with Some _ => set_var ps x None | None => ps end
  end.

Fixpoint pool_run (ps : pools) (ops : list mem_op) (returned : list (option ptr)) : pools :=
  match ops, returned with
  | o :: r, p :: rs => pool_run (pool_step ps o p) r rs
  | _, _ => ps
  end.
Definition no_pools : pools := fun _ => None.

(** No allocator whose content was moved away is asked for an object ([mv]: the
    names of such allocators and of the others in existence). *)
Definition scope_step (mv : nat -> option bool) (o : mem_op) : nat -> option bool :=
  match o with
  | OpNew x => match mv x with None => set_var mv x (Some false) | Some _ => mv end
  | OpAlloc x => mv
  | OpMove x y =>
      match mv x, mv y with
      | None, Some b => set_var (set_var mv y (Some true)) x (Some b)
      | _, _ => mv
      end
  | OpAssign x y =>
      match mv x, mv y with
      | Some _, Some b =>
          if x =? y then set_var mv x (Some true) else set_var (set_var mv y (Some true)) x (Some b)
      | _, _ => mv
      end
  | OpDestroy x => set_var mv x None
  end.
Fixpoint no_moved_use (mv : nat -> option bool) (ops : list mem_op) : Prop :=
  match ops with
  | [] => True
  | o :: r =>
      match o with OpAlloc x => mv x <> Some true | _ => True end /\ no_moved_use (scope_step mv o) r
  end.

(** No object is assigned to itself, and none is assigned to that (possibly)
    holds objects: [full] tells which allocators exist and may hold some. *)
Fixpoint no_overwrite (full : nat -> option bool) (ops : list mem_op) : Prop :=
  match ops with
  | [] => True
  | o :: r =>
      match o with
      | OpAssign x y => full x = None \/ full y = None \/ (x <> y /\ full x = Some false)
      | _ => True
      end
      /\ no_overwrite
           (match o with
            | OpNew x => match full x with None => set_var full x (Some false) | Some _ => full end
            | OpAlloc x => match full x with Some _ => set_var full x (Some true) | None => full end
            | OpMove x y =>
                match full x, full y with
                | None, Some b => set_var (set_var full y (Some false)) x (Some b)
                | _, _ => full
                end
            | OpAssign x y =>
                match full x, full y with
                | Some _, Some b => set_var (set_var full y (Some false)) x (Some b)
                | _, _ => full
                end
            | OpDestroy x => set_var full x None
            end) r
  end.

(** The object lies in a chunk that is still allocated, inside its bounds. *)
Definition valid_ptr (chunk_size : nat) (h : heap) (p : ptr) : Prop :=
  In (fst p) (map fst (h_live h)) /\ snd p < chunk_size.

(** No two objects of any existing allocators are the same. *)
Definition no_alias (ps : pools) : Prop :=
  (forall x pl, ps x = Some pl -> NoDup (p_objs pl))
  /\ (forall x y pl pl' p, ps x = Some pl -> ps y = Some pl' ->
        In p (p_objs pl) -> In p (p_objs pl') -> x = y).
