(** What the properties about integer scalars speak of.  Nothing here refers to
    the algorithms of the model. *)
From Coq Require Import List ZArith QArith Bool Arith.
From Verif Require Import Base ModelBox ModelBuild ModelSearch ModelInt Spec.
Import ListNotations.

(** A coordinate between -B and B. *)
Definition int_within (B x : Z) : Prop := (- B <= x <= B)%Z.

(** In a type with the values lo..hi, nothing computed from coordinates between
    -B and B in [n] dimensions overflows: four coordinates can be added, and a
    distance stays below the largest value. *)
Definition no_int_overflow (lo hi B : Z) (em : exact_metric) (n : nat) : Prop :=
  (0 <= B /\ lo < 0 /\ lo <= - (4 * B) /\ 4 * B <= hi)%Z
  /\ match em with
     | L1 => (Z.of_nat n * (2 * B) < hi)%Z
     | L2Squared => (Z.of_nat n * (2 * B * (2 * B)) < hi)%Z
     | _ => False
     end.

(** A tree over integer points with coordinates between -B and B. *)
Record int_tree (lo hi B : Z) (em : exact_metric) (sp : space Z) (bnds : start_bounds Z) : Prop := {
  itr_space : wf_space sp;
  itr_coords : all_coords (int_within B) sp;
  itr_bounds : bounds_coords (int_within B) sp bnds;
  itr_room : no_int_overflow lo hi B em (sp_sdim sp)
}.

(** ... that is queried at a point of the same kind. *)
Definition int_query (B : Z) (sp : space Z) (q : list Z) : Prop :=
  length q = sp_sdim sp /\ Forall (int_within B) q.

(** A value of an integer type with the values lo..hi. *)
Definition int_value (lo hi x : Z) : Prop := (lo <= x <= hi)%Z.

(** Squared Euclidean distance, in whole numbers. *)
Fixpoint sq_dist (x y : list Z) : Z :=
  match x, y with
  | a :: x', b :: y' => ((a - b) * (a - b) + sq_dist x' y')%Z
  | _, _ => 0%Z
  end.

(** Any more than [m] points of the space contain two different ones. *)
Definition at_most_coincide (m : Z) (sp : space Z) : Prop :=
  forall l : list nat, NoDup l -> (forall i, In i l -> (i < npts sp)%nat) -> (m < Z.of_nat (length l))%Z ->
  exists i j, In i l /\ In j l /\ nth i (sp_pts sp) [] <> nth j (sp_pts sp) [].

(** y is the value of a signed type with the given width that is congruent to x. *)
Definition wraps_to (bits x y : Z) : Prop :=
  (- 2 ^ (bits - 1) <= y <= 2 ^ (bits - 1) - 1)%Z /\ exists k : Z, (y = x + k * 2 ^ bits)%Z.
