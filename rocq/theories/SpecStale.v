(** What is expected of a tree whose points were modified after it was made. *)
From Coq Require Import List ZArith QArith Bool Arith.
From Verif Require Import Base ModelBox ModelBuild ModelSearch Spec.
Import ListNotations.
Local Open Scope Q_scope.

(** The same tree object when its point set has become [sp].  The tree refers to
    the points of the user (std::reference_wrapper, spans, Python arrays) and
    stores none of them. *)
Definition with_points {T} (tree : kd_tree T) (sp : space T) : kd_tree T :=
  KdTree sp (kt_metric tree) (kt_data tree).

(** Points were modified or appended. *)
Record modified {T} (sp sp' : space T) : Prop := {
  mo_dim : sp_sdim sp' = sp_sdim sp;
  mo_wf : wf_space sp';
  mo_size : (length (sp_pts sp) <= length (sp_pts sp'))%nat
}.

(** The farther one of the two distances. *)
Definition dist_both {T} {S : Scalar T} (val : T -> Q) (em : exact_metric) (sp sp' : space T) (q : list T)
    (i : nat) : Q :=
  let a := dist_to val em sp q i in let b := dist_to val em sp' q i in if Qle_bool a b then b else a.

(** [k] nearest of [n] points at their present distances [D], as far as [DB], the
    farther of the former and the present distances, can tell. *)
Record stale_knn (n k : nat) (D DB : nat -> Q) (ans : list (nat * Q)) : Prop := {
  sk_length : length ans = Nat.min k n;
  sk_nodup : NoDup (map fst ans);
  sk_genuine : forall i d, In (i, d) ans -> (i < n)%nat /\ d == D i;
  sk_sorted : Sorted.StronglySorted Qle (map snd ans);
  sk_nearest : forall i d j, In (i, d) ans -> (j < n)%nat -> ~ In j (map fst ans) -> d <= DB j
}.

(** The points reported for a radius [r]. *)
Record stale_radius (n : nat) (D DB : nat -> Q) (r : Q) (ans : list (nat * Q)) : Prop := {
  sr_nodup : NoDup (map fst ans);
  sr_genuine : forall i d, In (i, d) ans -> (i < n)%nat /\ d == D i /\ D i < r;
  sr_complete : forall i, (i < n)%nat -> DB i < r -> In i (map fst ans)
}.
