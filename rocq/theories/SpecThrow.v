(** What programs that catch exceptions of constructors are supposed to do: a
    construction that throws leaves nothing behind. *)
From Coq Require Import List ZArith Bool Arith.
From Verif Require Import Base ModelBox ModelBuild ModelSearch ModelSerial ModelMemory ModelHeap ModelThrow.
Import ListNotations.

(** Nothing goes wrong. *)
Definition faultless (ft : faults) : Prop :=
  (forall k, ft_vector ft k = false) /\ (forall a, ft_chunk ft a = false)
  /\ (forall d b e, ft_copy ft d b e = false) /\ ft_stream ft = false.

(** Only [n] more chunks can be had than the [next] that were handed out before,
    and nothing else goes wrong. *)
Definition memory_for (next n : nat) : faults :=
  Faults (fun _ => false) (fun a => next + n <=? a) (fun _ _ _ => false) false.

(** The stream throws, and nothing else goes wrong. *)
Definition throwing_stream : faults :=
  Faults (fun _ => false) (fun _ => false) (fun _ _ _ => false) true.

(** The operations of a program that did not throw, and their answers. *)
Fixpoint kept {T A} (ops : list (tree_op T * faults)) (l : list (A * bool)) : list (tree_op T) :=
  match ops, l with
  | (op, _) :: r, (_, t) :: l' => if t then kept r l' else op :: kept r l'
  | _, _ => []
  end.
Definition kept_answers {A} (l : list (A * bool)) : list A := map fst (filter (fun x => negb (snd x)) l).

(** The objects, the memory that is in use and the nodes in it are the same. *)
Definition unharmed {T} {m : metric T} (w w' : world m) : Prop :=
  (forall x, w_obj w' x = w_obj w x)
  /\ h_live (w_heap w') = h_live (w_heap w)
  /\ forall p, live_ptr (w_heap w) p = true -> w_cells w' p = w_cells w p.

(** No object representation is read as the end of a stream. *)
Definition decodes {T} (tc : codec T) : Prop := forall b, c_dec tc b <> Ub UbShortRead.
