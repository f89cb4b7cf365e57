(** What the properties about narrow integers speak of.  Nothing here refers to
    the algorithms of the model. *)
From Coq Require Import List ZArith QArith Bool Arith.
From Verif Require Import Base ModelBox ModelBuild ModelSearch ModelInt ModelNarrow Spec SpecInt.
Import ListNotations.

(** Points of a type of at most 16 bits, and a query, with coordinates from a to
    b, such that distances in that range stay below the largest value of the type;
    bounds may be any values of the type. *)
Record narrow_input (sgn : bool) (bits a b : Z) (em : exact_metric) (sp : space Z) (bnds : start_bounds Z)
    (q : list Z) : Prop := {
  na_bits : (2 <= bits <= 16)%Z;
  na_space : wf_space sp;
  na_range : (narrow_lo sgn bits <= a /\ b <= narrow_hi sgn bits)%Z;
  na_coords : all_coords (int_value a b) sp;
  na_bounds : bounds_coords (int_value (narrow_lo sgn bits) (narrow_hi sgn bits)) sp bnds;
  na_length : length q = sp_sdim sp;
  na_query : Forall (int_value a b) q;
  na_room : match em with
            | L1 => (Z.of_nat (sp_sdim sp) * (b - a) < narrow_hi sgn bits)%Z
            | L2Squared => (Z.of_nat (sp_sdim sp) * ((b - a) * (b - a)) < narrow_hi sgn bits)%Z
            | _ => False
            end
}.

(** The metric for a name. *)
Definition narrow_metric_of (sgn : bool) (bits : Z) (iovf : Z -> Z) (em : exact_metric) : metric Z :=
  narrow_metric sgn bits iovf (match em with L2Squared => true | _ => false end).
