(** C141: cover trees with floating point coordinates. *)
From Coq Require Import List ZArith Reals Bool Arith Permutation Sorted Lia Lra.
From Flocq Require Import Core.Core IEEE754.BinarySingleNaN.
From Verif Require Import Base ModelBox ModelBuild ModelSearch Spec SpecRound Instances Examples ModelCover SpecCover
  SpecCoverFloat Floats FloatThms FloatEx CoverEx CoverInvEx CoverFloatThms CoverFloatTop CoverFloatEx.
Import ListNotations.
Local Open Scope R_scope.

(** ** C141: what rounding does to the answers of a cover tree *)
(** The full statement: the answer is a nearest point of the computed distances. *)
Definition C141_statement : Prop :=
  forall (e : Z) (sp : space double) (q : list double),
  float_input 53 1024 L1 e sp bounds_from_space q ->
  forall (cm : cmath double) (alg : std_algos) (shuffle : list nat -> list nat), std_laws alg -> shuffles shuffle ->
  forall (fuel : nat) (base : double) (t : cover_tree double),
  @cover_tree_make _ F64 cm alg shuffle (@metric_l1 _ F64) fuel sp base = Ok t ->
  forall nn0, exists i d, @cover_search_nn _ F64 alg t q nn0 = Ok (Neighbor i d)
    /\ (i < npts sp)%nat
    /\ forall j, (j < npts sp)%nat ->
         computed 53 1024 prec_gt_53 prec_lt_1024 L1 sp q i <= computed 53 1024 prec_gt_53 prec_lt_1024 L1 sp q j.

Theorem C141_refuted : ~ C141_statement.
Proof. exact c141_refutation. Qed.
Print Assumptions C141_refuted.

(** A point at the distance 2^-51 is not found by a search of radius one. *)
Example C141_missed_point :
  float_input 53 1024 L1 55 cf_sp bounds_from_space cf_q
  /\ @cover_tree_make _ F64 f_levels std_example (fun l => l) (@metric_l1 _ F64) 60 cf_sp (f64 2 0) = Ok cf_tree
  /\ computed 53 1024 prec_gt_53 prec_lt_1024 L1 cf_sp cf_q 3 = bpow radix2 (-51)
  /\ @cover_search_radius _ F64 std_example cf_tree cf_q (f64 1 0) false = Ok [].
Proof. exact c141_missed. Qed.

(** What holds: the three searches are right up to a small relative error of the
    distances and of the extent [w] of the points. *)
Theorem C141_l1 :
  forall (prec emax : Z) (Hprec : Prec_gt_0 prec) (Hmax : Prec_lt_emax prec emax), (2 <= prec)%Z ->
  forall (e : Z) (sp : space (binary_float prec emax)) (q : list (binary_float prec emax)),
  float_input prec emax L1 e sp bounds_from_space q ->
  forall (cm : cmath (binary_float prec emax)) (alg : std_algos), std_laws alg ->
  forall shuffle : list nat -> list nat, shuffles shuffle ->
  forall (fuel : nat) (base : binary_float prec emax) (t : cover_tree (binary_float prec emax)),
  @cover_tree_make _ (Float_scalar prec emax Hprec Hmax) cm alg shuffle
    (@metric_l1 _ (Float_scalar prec emax Hprec Hmax)) fuel sp base = Ok t ->
  INR (sp_sdim sp + 3) * bpow radix2 (- prec) <= / 16 ->
  forall w : R, spread prec emax (true_dist prec emax L1 sp) sp w ->
  cover_searches_upto prec emax Hprec Hmax alg t (npts sp) q (computed prec emax Hprec Hmax L1 sp q)
    (fun j => limit (2 * INR (sp_sdim sp + 3) * bpow radix2 (- prec)) 0 w (true_dist prec emax L1 sp q j)).
Proof. exact l1_searches. Qed.
Print Assumptions C141_l1.

(** In exact distances. *)
Theorem C141_l1_exact :
  forall (prec emax : Z) (Hprec : Prec_gt_0 prec) (Hmax : Prec_lt_emax prec emax), (2 <= prec)%Z ->
  forall (e : Z) (sp : space (binary_float prec emax)) (q : list (binary_float prec emax)),
  float_input prec emax L1 e sp bounds_from_space q ->
  forall (cm : cmath (binary_float prec emax)) (alg : std_algos), std_laws alg ->
  forall shuffle : list nat -> list nat, shuffles shuffle ->
  forall (fuel : nat) (base : binary_float prec emax) (t : cover_tree (binary_float prec emax)),
  @cover_tree_make _ (Float_scalar prec emax Hprec Hmax) cm alg shuffle
    (@metric_l1 _ (Float_scalar prec emax Hprec Hmax)) fuel sp base = Ok t ->
  INR (sp_sdim sp + 3) * bpow radix2 (- prec) <= / 16 ->
  forall w : R, spread prec emax (true_dist prec emax L1 sp) sp w ->
  forall nn0, exists i d,
    @cover_search_nn _ (Float_scalar prec emax Hprec Hmax) alg t q nn0 = Ok (Neighbor i d)
    /\ (i < npts sp)%nat
    /\ forall j, (j < npts sp)%nat ->
         true_dist prec emax L1 sp q i
         <= (1 + 5 * (2 * INR (sp_sdim sp + 3) * bpow radix2 (- prec))) * true_dist prec emax L1 sp q j
            + 4 * (2 * INR (sp_sdim sp + 3) * bpow radix2 (- prec)) * w.
Proof. exact l1_true. Qed.
Print Assumptions C141_l1_exact.

Example C141_l1_example :
  float_input 53 1024 L1 0 fx_sp bounds_from_space fx_q
  /\ @cover_tree_make _ F64 f_math std_example (fun l => l) (@metric_l1 _ F64) 60 fx_sp (f64 2 0) = Ok fx_l1
  /\ INR (sp_sdim fx_sp + 3) * bpow radix2 (- 53) <= / 16
  /\ spread 53 1024 (true_dist 53 1024 L1 fx_sp) fx_sp 4.
Proof. exact c141_l1_example. Qed.

(** The Euclidean metric, with std::sqrt rounding correctly. *)
Theorem C141_l2 :
  forall (prec emax : Z) (Hprec : Prec_gt_0 prec) (Hmax : Prec_lt_emax prec emax), (4 <= prec)%Z ->
  forall (e : Z) (sp : space (binary_float prec emax)) (q : list (binary_float prec emax)),
  float_input prec emax L2Squared e sp bounds_from_space q ->
  forall (cm : cmath (binary_float prec emax)) (alg : std_algos), std_laws alg ->
  forall shuffle : list nat -> list nat, shuffles shuffle ->
  rounds_sqrt prec emax cm ->
  forall (fuel : nat) (base : binary_float prec emax) (t : cover_tree (binary_float prec emax)),
  @cover_tree_make _ (Float_scalar prec emax Hprec Hmax) cm alg shuffle
    (@metric_l2 _ (Float_scalar prec emax Hprec Hmax) cm) fuel sp base = Ok t ->
  INR (sp_sdim sp + 3) * bpow radix2 (- prec) <= / 32 ->
  forall w : R, spread prec emax (true_l2 prec emax sp) sp w ->
  cover_searches_upto prec emax Hprec Hmax alg t (npts sp) q (computed_l2 prec emax Hprec Hmax cm sp q)
    (fun j => limit (4 * INR (sp_sdim sp + 3) * bpow radix2 (- prec))
                    (2 * sqrt (INR (sp_sdim sp) * bpow radix2 (SpecFloat.emin prec emax))) w
                    (true_l2 prec emax sp q j)).
Proof. exact c141_l2. Qed.
Print Assumptions C141_l2.

Theorem C141_l2_exact :
  forall (prec emax : Z) (Hprec : Prec_gt_0 prec) (Hmax : Prec_lt_emax prec emax), (4 <= prec)%Z ->
  forall (e : Z) (sp : space (binary_float prec emax)) (q : list (binary_float prec emax)),
  float_input prec emax L2Squared e sp bounds_from_space q ->
  forall (cm : cmath (binary_float prec emax)) (alg : std_algos), std_laws alg ->
  forall shuffle : list nat -> list nat, shuffles shuffle ->
  rounds_sqrt prec emax cm ->
  forall (fuel : nat) (base : binary_float prec emax) (t : cover_tree (binary_float prec emax)),
  @cover_tree_make _ (Float_scalar prec emax Hprec Hmax) cm alg shuffle
    (@metric_l2 _ (Float_scalar prec emax Hprec Hmax) cm) fuel sp base = Ok t ->
  INR (sp_sdim sp + 3) * bpow radix2 (- prec) <= / 32 ->
  forall w : R, spread prec emax (true_l2 prec emax sp) sp w ->
  forall nn0, exists i d,
    @cover_search_nn _ (Float_scalar prec emax Hprec Hmax) alg t q nn0 = Ok (Neighbor i d)
    /\ (i < npts sp)%nat
    /\ forall j, (j < npts sp)%nat ->
         true_l2 prec emax sp q i
         <= (1 + 5 * (4 * INR (sp_sdim sp + 3) * bpow radix2 (- prec))) * true_l2 prec emax sp q j
            + 4 * (4 * INR (sp_sdim sp + 3) * bpow radix2 (- prec)) * w
            + 5 * (2 * sqrt (INR (sp_sdim sp) * bpow radix2 (SpecFloat.emin prec emax))).
Proof. exact c141_l2_exact. Qed.
Print Assumptions C141_l2_exact.

Example C141_l2_example :
  float_input 53 1024 L2Squared 0 fx_sp bounds_from_space fx_q
  /\ rounds_sqrt 53 1024 f_math
  /\ @cover_tree_make _ F64 f_math std_example (fun l => l) (@metric_l2 _ F64 f_math) 60 fx_sp (f64 2 0) = Ok fx_l2
  /\ INR (sp_sdim fx_sp + 3) * bpow radix2 (- 53) <= / 32
  /\ spread 53 1024 (true_l2 53 1024 fx_sp) fx_sp 4.
Proof. exact c141_l2_example. Qed.

(** On coordinates that are multiples of a power of two, with no more digits than
    the format has, nothing is lost. *)
Theorem C141_grid :
  forall (prec emax : Z) (Hprec : Prec_gt_0 prec) (Hmax : Prec_lt_emax prec emax), (2 <= prec)%Z ->
  forall (g e : Z) (sp : space (binary_float prec emax)) (q : list (binary_float prec emax)),
  float_input prec emax L1 e sp bounds_from_space q -> grid_input prec emax L1 g e sp q ->
  forall (cm : cmath (binary_float prec emax)) (alg : std_algos), std_laws alg ->
  forall shuffle : list nat -> list nat, shuffles shuffle ->
  forall (fuel : nat) (base : binary_float prec emax) (t : cover_tree (binary_float prec emax)),
  @cover_tree_make _ (Float_scalar prec emax Hprec Hmax) cm alg shuffle
    (@metric_l1 _ (Float_scalar prec emax Hprec Hmax)) fuel sp base = Ok t ->
  INR (sp_sdim sp + 3) * bpow radix2 (- prec) <= / 2 ->
  cover_searches_upto prec emax Hprec Hmax alg t (npts sp) q (true_dist prec emax L1 sp q) (true_dist prec emax L1 sp q).
Proof. exact l1_grid. Qed.
Print Assumptions C141_grid.

Example C141_grid_example :
  float_input 53 1024 L1 4 fg_sp bounds_from_space fg_q /\ grid_input 53 1024 L1 0 4 fg_sp fg_q
  /\ @cover_tree_make _ F64 f_math std_example (fun l => l) (@metric_l1 _ F64) 60 fg_sp (f64 2 0) = Ok fg_l1
  /\ INR (sp_sdim fg_sp + 3) * bpow radix2 (- 53) <= / 2.
Proof. exact c141_grid_example. Qed.
