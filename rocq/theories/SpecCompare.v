(** Trees over point sets, however they were made. *)
From Coq Require Import List ZArith QArith.
From Verif Require Import Base ModelBox ModelBuild ModelSearch Spec.
Import ListNotations.

(** [tree] is a tree over [sp], made with any index type, stop condition, start bounds
    and rule, that may be queried at [q]. *)
Definition tree_over {T} {S : Scalar T} (val : T -> Q) (em : exact_metric) (alg : std_algos) (sp : space T) (q : list T)
    (tree : kd_tree T) : Prop :=
  std_laws alg /\ exists it fuel stop bnds ru,
    kd_tree_make alg it (metric_of em) fuel sp stop bnds ru = Ok tree /\ usable val em sp bnds q.

(** The distances of an answer, and the points themselves. *)
Definition distances {T} (val : T -> Q) (l : list (neighbor T)) : list Q := map (fun x => val (n_distance x)) l.
Definition points_at {T} (sp : space T) (idxs : list nat) : list (list T) := map (fun i => nth i (sp_pts sp) []) idxs.
Definition points_of {T} (sp : space T) (l : list (neighbor T)) : list (list T) := points_at sp (map n_index l).
