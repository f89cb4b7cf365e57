(** Specification of searches whose distances are rounded. *)
From Coq Require Import List ZArith Reals Bool Arith Sorted.
From Flocq Require Import Core.Core IEEE754.BinarySingleNaN.
From Verif Require Import Base ModelBox ModelBuild ModelSearch Spec Floats.
Import ListNotations.
Local Open Scope R_scope.

(** Nearest up to a factor [f]. *)
Definition nearest_within (n : nat) (D : nat -> R) (f : R) (i : nat) : Prop :=
  (i < n)%nat /\ forall j, (j < n)%nat -> D i <= f * D j.

(** [k] of [n] points in order of distance, none of which is farther than any
    other point by more than the factor [f]. *)
Record knn_within (n k : nat) (D : nat -> R) (f : R) (ans : list (nat * R)) : Prop := {
  kw_length : length ans = Nat.min k n;
  kw_nodup : NoDup (map fst ans);
  kw_genuine : forall i d, In (i, d) ans -> (i < n)%nat /\ d = D i;
  kw_sorted : StronglySorted Rle (map snd ans);
  kw_nearest : forall i d j, In (i, d) ans -> (j < n)%nat -> ~ In j (map fst ans) -> d <= f * D j
}.

(** Points nearer than [r], each once; all those nearer than [r] by the factor
    [f]. *)
Record radius_within (n : nat) (D : nat -> R) (f r : R) (ans : list (nat * R)) : Prop := {
  rw_nodup : NoDup (map fst ans);
  rw_genuine : forall i d, In (i, d) ans -> (i < n)%nat /\ d = D i /\ d < r;
  rw_complete : forall i, (i < n)%nat -> f * D i < r -> In i (map fst ans)
}.

Section Format.
Variables (prec emax : Z).
Context (Hprec : Prec_gt_0 prec) (Hmax : Prec_lt_emax prec emax).
Local Notation F := (binary_float prec emax).

(** Neighbours as pairs of an index and a real number. *)
Definition real_answers (l : list (neighbor F)) : list (nat * R) :=
  map (fun x => (n_index x, B2R (n_distance x))) l.

(** Inside a closed box. *)
Definition float_inside (mn mx p : list F) : Prop :=
  forall d, (d < length mn)%nat ->
    B2R (nth d mn (B754_zero false)) <= B2R (nth d p (B754_zero false)) <= B2R (nth d mx (B754_zero false)).

Local Instance SF_ : Scalar F := Float_scalar prec emax Hprec Hmax.

(** The distance of point [i] as operator() of the metric computes it. *)
Definition computed (em : exact_metric) (sp : space F) (q : list F) (i : nat) : R :=
  B2R (m_dist (metric_of em) q (sp_at sp i)).

(** The distance of point [i] in exact arithmetic. *)
Definition true_dist (em : exact_metric) (sp : space F) (q : list F) (i : nat) : R :=
  fold_right Rplus 0
    (map (fun k =>
            let x := B2R (nth k q (B754_zero false)) - B2R (nth k (sp_at sp i) (B754_zero false)) in
            match em with L1 => Rabs x | _ => x * x end)
         (seq 0 (sp_sdim sp))).

(** Largest number of terms of a distance times the largest term. *)
Definition distance_bound (em : exact_metric) (e : Z) (n : nat) : R :=
  INR n * match em with L1 => bpow radix2 (e + 1) | _ => bpow radix2 (2 * e + 2) end.

(** Finite coordinates of absolute value at most 2^e (2^e is not tiny), for
    which no distance overflows; user bounds of at most a quarter of the range. *)
Record float_input (em : exact_metric) (e : Z) (sp : space F) (bnds : start_bounds F) (q : list F) : Prop := {
  fi_metric : em = L1 \/ em = L2Squared;
  fi_exp : (SpecFloat.emin prec emax <= 2 * e + 2)%Z /\ (e + 3 < emax)%Z;
  fi_dim : (0 < sp_sdim sp)%nat;
  fi_fit : distance_bound em e (sp_sdim sp) <= bpow radix2 (emax - 3);
  fi_space : wf_space sp;
  fi_coords : all_coords (below prec emax e) sp;
  fi_bounds : bounds_coords (below prec emax (emax - 2)) sp bnds;
  fi_length : length q = sp_sdim sp;
  fi_query : Forall (below prec emax e) q
}.

(** The rounding errors of a search in [n] dimensions, down [h] levels. *)
Definition slack (n h : nat) : R := 1 + 2 * INR (2 * h + n) * bpow radix2 (- prec).
Definition few_steps (n h : nat) : Prop := INR (2 * h + n) * bpow radix2 (- prec) <= / 2.

(** How far a computed distance [d] may be from the exact one [t]: a relative
    error and, for squares, what products lose by underflow. *)
Definition accurate (em : exact_metric) (n : nat) (t d : R) : Prop :=
  Rabs (d - t) <= 2 * INR (n + 3) * bpow radix2 (- prec) * t
                  + match em with L1 => 0 | _ => INR n * bpow radix2 (SpecFloat.emin prec emax) end.

(** All coordinates are whole multiples of 2^g. *)
Definition on_grid (g : Z) (x : F) : Prop := exists z : Z, B2R x = IZR z * bpow radix2 g.
(** ... and coarse enough for differences and sums to be exact. *)
Record grid_input (em : exact_metric) (g e : Z) (sp : space F) (q : list F) : Prop := {
  gi_coords : all_coords (on_grid g) sp;
  gi_query : Forall (on_grid g) q;
  gi_min : (SpecFloat.emin prec emax <= match em with L1 => g | _ => 2 * g end)%Z;
  gi_room : distance_bound em e (sp_sdim sp)
            < bpow radix2 (match em with L1 => g | _ => 2 * g end + prec)
}.
End Format.
