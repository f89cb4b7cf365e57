(** Specification of the answers of a cover tree whose distances are rounded. *)
From Coq Require Import List ZArith Reals Bool Arith Sorted.
From Flocq Require Import Core.Core IEEE754.BinarySingleNaN.
From Verif Require Import Base ModelBox ModelBuild ModelSearch Spec SpecRound ModelCover Floats.
Import ListNotations.
Local Open Scope R_scope.

(** No point is nearer than [i] by more than what the limits [L] of the points
    allow. *)
Definition nearest_upto (n : nat) (D L : nat -> R) (i : nat) : Prop :=
  (i < n)%nat /\ forall j, (j < n)%nat -> D i <= L j.

Record knn_upto (n k : nat) (D L : nat -> R) (ans : list (nat * R)) : Prop := {
  ku_length : length ans = Nat.min k n;
  ku_nodup : NoDup (map fst ans);
  ku_genuine : forall i d, In (i, d) ans -> (i < n)%nat /\ d = D i;
  ku_sorted : StronglySorted Rle (map snd ans);
  ku_nearest : forall i d j, In (i, d) ans -> (j < n)%nat -> ~ In j (map fst ans) -> d <= L j
}.

Record radius_upto (n : nat) (D L : nat -> R) (r : R) (ans : list (nat * R)) : Prop := {
  ru_nodup : NoDup (map fst ans);
  ru_genuine : forall i d, In (i, d) ans -> (i < n)%nat /\ d = D i /\ d < r;
  ru_complete : forall i, (i < n)%nat -> L i < r -> In i (map fst ans)
}.

Section Format.
Variables (prec emax : Z).
Context (Hprec : Prec_gt_0 prec) (Hmax : Prec_lt_emax prec emax).
Local Notation F := (binary_float prec emax).
Local Instance SF_ : Scalar F := Float_scalar prec emax Hprec Hmax.

(** The three searches of a cover tree, for the computed distances [D]. *)
Definition cover_searches_upto (alg : std_algos) (t : cover_tree F) (n : nat) (q : list F) (D L : nat -> R) : Prop :=
  (forall nn0, exists i d, cover_search_nn alg t q nn0 = Ok (Neighbor i d)
     /\ B2R d = D i /\ nearest_upto n D L i)
  /\ (forall k knn0, (0 < k)%nat ->
      exists out, cover_search_knn alg t q k knn0 = Ok out /\ knn_upto n k D L (real_answers prec emax out))
  /\ (forall r sort, finite prec emax r ->
      exists l, cover_search_radius alg t q r sort = Ok l
        /\ radius_upto n D L (B2R r) (real_answers prec emax l)
        /\ (sort = true -> StronglySorted Rle (map snd (real_answers prec emax l)))).

(** std::sqrt rounds correctly. *)
Definition rounds_sqrt (cm : cmath F) : Prop :=
  forall x, finite prec emax x -> 0 <= B2R x ->
    finite prec emax (c_sqrt cm x)
    /\ B2R (c_sqrt cm x) = round radix2 (SpecFloat.fexp prec emax) ZnearestE (sqrt (B2R x)).

(** The Euclidean distance of point [i] as metric_l2 computes it, and in exact
    arithmetic. *)
Definition computed_l2 (cm : cmath F) (sp : space F) (q : list F) (i : nat) : R :=
  B2R (m_dist (metric_l2 cm) q (sp_at sp i)).
Definition true_l2 (sp : space F) (q : list F) (i : nat) : R :=
  sqrt (true_dist prec emax L2Squared sp q i).

(** No two points are farther apart than [w]. *)
Definition spread (D : list F -> nat -> R) (sp : space F) (w : R) : Prop :=
  forall i j, (i < npts sp)%nat -> (j < npts sp)%nat -> D (nth i (sp_pts sp) []) j <= w.
End Format.

(** How far a point may be and yet be preferred to one at the distance [t]: the
    relative error of distances is [eps], the absolute one [eta], and points are
    at most [w] apart. *)
Definition limit (eps eta w t : R) : R := (1 + 3 * eps) * t + 3 * eps * w + 3 * eta.
