(** Specification of searches on circles whose distances are rounded. *)
From Coq Require Import List ZArith Reals Bool Arith Sorted.
From Flocq Require Import Core.Core IEEE754.BinarySingleNaN.
From Verif Require Import Base ModelBox ModelBuild ModelSearch Spec SpecRound Floats.
Import ListNotations.
Local Open Scope R_scope.

(** The metrics with circular dimensions: metric_so2, metric_se2_squared and the
    torus of examples/kd_tree/kd_tree_custom_metric.cpp. *)
Inductive circle_metric : Type := OnCircle | OnPlane | OnTorus.
Definition circle_of {T} {S : Scalar T} (cm : circle_metric) : metric T :=
  match cm with
  | OnCircle => metric_so2
  | OnPlane => metric_se2_squared
  | OnTorus => metric_t2_squared
  end.

(** Number of dimensions. *)
Definition circle_dims (cm : circle_metric) (n : nat) : Prop :=
  match cm with OnCircle => n = 1%nat | OnPlane => n = 3%nat | OnTorus => (0 < n)%nat end.
(** Which dimensions are circles. *)
Definition circular (cm : circle_metric) (k : nat) : bool :=
  match cm with OnPlane => (2 <=? k)%nat | _ => true end.

(** Distance of two numbers of [0, 1] on a circle of length one. *)
Definition arcR (x y : R) : R := Rmin (Rabs (x - y)) (1 - Rabs (x - y)).

Section Format.
Variables (prec emax : Z).
Context (Hprec : Prec_gt_0 prec) (Hmax : Prec_lt_emax prec emax).
Local Notation F := (binary_float prec emax).
Local Instance SFc : Scalar F := Float_scalar prec emax Hprec Hmax.

(** Coordinates of circles are in [0, 1]; others at most 2^e. *)
Definition circle_coord (cm : circle_metric) (e : Z) (k : nat) (x : F) : Prop :=
  finite prec emax x
  /\ if circular cm k then 0 <= B2R x <= 1 else Rabs (B2R x) <= bpow radix2 e.

(** The largest term of a distance. *)
Definition circle_bound (cm : circle_metric) (e : Z) : R :=
  match cm with OnPlane => bpow radix2 (2 * e + 2) | _ => 1 end.

Record circle_input (cm : circle_metric) (e : Z) (sp : space F) (bnds : start_bounds F) (q : list F) : Prop := {
  ci_dims : circle_dims cm (sp_sdim sp);
  ci_exp : (0 <= e)%Z /\ (2 * e + 2 < emax)%Z;
  ci_fit : INR (sp_sdim sp) * circle_bound cm e <= bpow radix2 (emax - 3);
  ci_space : wf_space sp;
  ci_coords : forall p k, In p (sp_pts sp) -> (k < sp_sdim sp)%nat ->
    circle_coord cm e k (nth k p (B754_zero false));
  ci_bounds : bounds_coords (below prec emax (emax - 2)) sp bnds;
  ci_length : length q = sp_sdim sp;
  ci_query : forall k, (k < sp_sdim sp)%nat -> circle_coord cm e k (nth k q (B754_zero false))
}.

(** The distance of point [i] as operator() of the metric computes it. *)
Definition computed_on (cm : circle_metric) (sp : space F) (q : list F) (i : nat) : R :=
  B2R (m_dist (circle_of cm) q (sp_at sp i)).

(** The distance of point [i] in exact arithmetic. *)
Definition true_on (cm : circle_metric) (sp : space F) (q : list F) (i : nat) : R :=
  fold_right Rplus 0
    (map (fun k =>
            let x := B2R (nth k q (B754_zero false)) in
            let y := B2R (nth k (nth i (sp_pts sp) []) (B754_zero false)) in
            match cm with
            | OnCircle => arcR x y
            | _ => if circular cm k then arcR x y * arcR x y else (x - y) * (x - y)
            end)
         (seq 0 (sp_sdim sp))).

(** All coordinates are whole multiples of 2^g, coarse enough for squares and
    sums to be exact. *)
Record circle_grid (cm : circle_metric) (g e : Z) (sp : space F) (q : list F) : Prop := {
  cg_exp : (g <= 0)%Z;
  cg_coords : forall p, In p (sp_pts sp) -> Forall (fun x => exists z : Z, B2R x = IZR z * bpow radix2 g) p;
  cg_query : Forall (fun x => exists z : Z, B2R x = IZR z * bpow radix2 g) q;
  cg_min : (SpecFloat.emin prec emax <= 2 * g)%Z;
  cg_room : INR (sp_sdim sp) * circle_bound cm e < bpow radix2 (2 * g + prec)
}.

(** The three nearest searches answer correctly up to the factor [f], for the
    distances [D]. *)
Definition searches_within (alg : std_algos) (tree : kd_tree F) (n : nat) (q : list F) (D : nat -> R) (f : R) : Prop :=
  (forall nn0, exists i d, search_nn tree q nn0 = Ok (Neighbor i d)
     /\ B2R d = D i /\ nearest_within n D f i)
  /\ (forall k knn0, (0 < k)%nat ->
      exists out, search_knn tree q k knn0 = Ok out /\ knn_within n k D f (real_answers prec emax out))
  /\ (forall r sort, finite prec emax r ->
      exists l, search_radius alg tree q r sort = Ok l
        /\ radius_within n D f (B2R r) (real_answers prec emax l)
        /\ (sort = true -> StronglySorted Rle (map snd (real_answers prec emax l)))).
End Format.
