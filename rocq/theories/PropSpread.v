(** C144: when the midpoint rule ends, and how deep trees are by how far the points are
    spread.  [binary_float prec emax] is any IEEE 754 binary format; 53, 1024 is [double]. *)
From Coq Require Import List ZArith QArith Reals Bool Arith Permutation Lia.
From Flocq Require Import Core.Core IEEE754.BinarySingleNaN.
From Verif Require Import Base ModelBox ModelBuild Spec Instances Floats FloatEx Examples SpecShape SpecSpread
  SpreadExact SpreadFloat SpreadEx.
Import ListNotations.
Local Open Scope nat_scope.

(** ** Exact numbers *)
(** The midpoint rule with a maximum leaf size ends exactly when no more points than that
    are at one place. *)
Theorem C144_midpoint_ends_iff :
  forall (T : Type) (S : Scalar T) (val : T -> Q), exact_laws S val -> field_laws S val ->
  forall sp : space T, wf_space sp -> all_coords (no_overflow val) sp ->
  forall alg : std_algos, std_laws alg ->
  forall (c : category) (it : index_type) (m : Z) (bnds : start_bounds T),
  index_type_ok it -> (0 < m <= it_max it)%Z -> sp_pts sp <> [] ->
  (Z.of_nat (npts sp) <= it_max it)%Z -> bounds_coords (no_overflow val) sp bnds -> bounds_enclose sp bnds ->
  (exists fuel t, build c alg it fuel sp (max_leaf_size m) bnds midpoint_max_side = Ok t)
  <-> at_most sp (Z.to_nat m) (same_place val (sp_sdim sp)).
Proof. exact @midpoint_iff. Qed.
Print Assumptions C144_midpoint_ends_iff.

(** Four different numbers are fine with leaves of one point; of three points at one place
    and one elsewhere, leaves must have room for three. *)
Example C144_ends_example :
  (exists fuel t, build Euclidean std_example it_int fuel sx_sp (max_leaf_size 1) bounds_from_space midpoint_max_side = Ok t)
  /\ ~ (exists fuel t, build Euclidean std_example it_int fuel sy_sp (max_leaf_size 2) bounds_from_space midpoint_max_side = Ok t)
  /\ (exists fuel t, build Euclidean std_example it_int fuel sy_sp (max_leaf_size 3) bounds_from_space midpoint_max_side = Ok t).
Proof.
  split; [|split].
  - apply (C144_midpoint_ends_iff Q QD qv QD_exact QD_field sx_sp sx_wf sx_good std_example std_example_laws);
      try solve [exact I | discriminate | vm_compute; congruence | vm_compute; split; congruence].
    intros g ND HI HR. apply sx_close; auto. intros i j Hi Hj d Hd. rewrite (HR i j Hi Hj d Hd).
    unfold Qminus. rewrite Qplus_opp_r. reflexivity.
  - rewrite (C144_midpoint_ends_iff Q QD qv QD_exact QD_field sy_sp sy_wf sy_good std_example std_example_laws);
      try solve [exact I | discriminate | vm_compute; congruence | vm_compute; split; congruence].
    intros H. specialize (H [0; 1; 2] ltac:(repeat constructor; cbn; intuition discriminate)).
    enough (3 <= 2) by lia. apply H.
    + intros i Hi. cbn in Hi. unfold npts. cbn. lia.
    + intros i j Hi Hj d Hd. cbn in Hi, Hj, Hd. destruct d; [|lia].
      destruct Hi as [<-|[<-|[<-|[]]]], Hj as [<-|[<-|[<-|[]]]]; reflexivity.
  - apply (C144_midpoint_ends_iff Q QD qv QD_exact QD_field sy_sp sy_wf sy_good std_example std_example_laws);
      try solve [exact I | discriminate | vm_compute; congruence | vm_compute; split; congruence].
    intros g ND HI HR. apply sy_close; auto. intros i j Hi Hj d Hd. rewrite (HR i j Hi Hj d Hd).
    unfold Qminus. rewrite Qplus_opp_r. reflexivity.
Qed.

(** The depth of the tree then follows from how far the points are apart: if no more than
    the leaf size are within [delta] of each other, and the box to start with is shorter
    than [delta] times a power of two in each dimension, it is at most the sum of those
    exponents. *)
Theorem C144_midpoint_depth :
  forall (T : Type) (S : Scalar T) (val : T -> Q), exact_laws S val -> field_laws S val ->
  forall sp : space T, wf_space sp -> all_coords (no_overflow val) sp ->
  forall alg : std_algos, std_laws alg ->
  forall (c : category) (it : index_type) (m : Z) (bnds : start_bounds T),
  index_type_ok it -> (0 < m <= it_max it)%Z -> sp_pts sp <> [] ->
  (Z.of_nat (npts sp) <= it_max it)%Z -> bounds_coords (no_overflow val) sp bnds -> bounds_enclose sp bnds ->
  forall (delta : Q) (ks : nat -> nat), at_most sp (Z.to_nat m) (close val (sp_sdim sp) delta) ->
  (forall d, d < sp_sdim sp -> extent_below val sp bnds d (delta * inject_Z (2 ^ Z.of_nat (ks d)))%Q) ->
  exists t, (forall fuel, sum_dims (sp_sdim sp) ks < fuel ->
      build c alg it fuel sp (max_leaf_size m) bnds midpoint_max_side = Ok t)
    /\ height (kd_root t) <= sum_dims (sp_sdim sp) ks
    /\ Permutation (kd_indices t) (seq 0 (npts sp)).
Proof. exact @c144_midpoint_depth. Qed.
Print Assumptions C144_midpoint_depth.

(** Numbers 0, 1, 3 and 7: apart by 1, spread over less than 2^3.  The depth is 3. *)
Example C144_midpoint_example : exists t,
  build Euclidean std_example it_int 4 sx_sp (max_leaf_size 1) bounds_from_space midpoint_max_side = Ok t
  /\ height (kd_root t) <= 3.
Proof.
  destruct (C144_midpoint_depth Q QD qv QD_exact QD_field sx_sp sx_wf sx_good std_example std_example_laws
    Euclidean it_int 1%Z bounds_from_space ltac:(vm_compute; congruence) ltac:(vm_compute; split; congruence)
    ltac:(discriminate) ltac:(vm_compute; discriminate) I I 1%Q (fun _ => 3) sx_close sx_extent) as (t & E & H & _).
  exists t. split; [apply E, Nat.ltb_lt; reflexivity|exact H].
Qed.
Example C144_midpoint_tight :
  height_is 3 (build Euclidean std_example it_int 9 sx_sp (max_leaf_size 1) bounds_from_space midpoint_max_side).
Proof. exact sx_height. Qed.

(** With the default rule each further point within [delta] may add a level. *)
Theorem C144_sliding_depth :
  forall (T : Type) (S : Scalar T) (val : T -> Q), exact_laws S val -> field_laws S val ->
  forall sp : space T, wf_space sp -> all_coords (no_overflow val) sp ->
  forall alg : std_algos, std_laws alg ->
  forall (c : category) (it : index_type) (m : Z) (bnds : start_bounds T),
  index_type_ok it -> (0 < m <= it_max it)%Z -> sp_pts sp <> [] ->
  (Z.of_nat (npts sp) <= it_max it)%Z -> bounds_coords (no_overflow val) sp bnds -> bounds_enclose sp bnds ->
  forall (M : nat) (delta : Q) (ks : nat -> nat), at_most sp M (close val (sp_sdim sp) delta) ->
  (forall d, d < sp_sdim sp -> extent_below val sp bnds d (delta * inject_Z (2 ^ Z.of_nat (ks d)))%Q) ->
  exists t, (forall fuel, sum_dims (sp_sdim sp) ks + (M - Z.to_nat m) < fuel ->
      build c alg it fuel sp (max_leaf_size m) bnds sliding_midpoint_max_side = Ok t)
    /\ height (kd_root t) <= sum_dims (sp_sdim sp) ks + (M - Z.to_nat m)
    /\ Permutation (kd_indices t) (seq 0 (npts sp)).
Proof. exact @c144_sliding_depth. Qed.
Print Assumptions C144_sliding_depth.

(** Three points at 0 and one at 5: one level for the distance, two for the group. *)
Example C144_sliding_example : exists t,
  build Euclidean std_example it_int 4 sy_sp (max_leaf_size 1) bounds_from_space sliding_midpoint_max_side = Ok t
  /\ height (kd_root t) <= 3.
Proof.
  destruct (C144_sliding_depth Q QD qv QD_exact QD_field sy_sp sy_wf sy_good std_example std_example_laws
    Euclidean it_int 1%Z bounds_from_space ltac:(vm_compute; congruence) ltac:(vm_compute; split; congruence)
    ltac:(discriminate) ltac:(vm_compute; discriminate) I I 3 5%Q (fun _ => 1) sy_close sy_extent) as (t & E & H & _).
  exists t. split; [apply E, Nat.ltb_lt; reflexivity|exact H].
Qed.
Example C144_sliding_tight :
  height_is 3 (build Euclidean std_example it_int 9 sy_sp (max_leaf_size 1) bounds_from_space sliding_midpoint_max_side).
Proof. exact sy_height. Qed.

(** ** Floating point numbers *)
(** Points at different places are not enough: the middle of two neighbouring numbers
    rounds to one of them, and the box is never split. *)
Theorem C144_float_refuted :
  ~ (forall sp : space double, wf_space sp -> sp_pts sp <> [] -> all_coords (below 53 1024 (1024 - 2)) sp ->
     forall (alg : std_algos) (m : Z), std_laws alg -> (0 < m <= it_max it_int)%Z ->
     (Z.of_nat (npts sp) <= it_max it_int)%Z ->
     at_most sp (Z.to_nat m) (fun p q => forall d, d < sp_sdim sp ->
       B2R (nth d p (B754_zero false)) = B2R (nth d q (B754_zero false))) ->
     exists fuel t, @build double F64 Euclidean alg it_int fuel sp (max_leaf_size m) bounds_from_space
       midpoint_max_side = Ok t).
Proof. exact c144_float_refutation. Qed.
Print Assumptions C144_float_refuted.

(** It is enough that no more of the points than the leaf size are within [delta] of each
    other, [delta] being 64 times the distance between the largest numbers: with all
    coordinates at most 2^e that is 2^(e + 6 - prec). *)
Theorem C144_float_midpoint_depth :
  forall (prec emax : Z) (Hprec : Prec_gt_0 prec) (Hmax : Prec_lt_emax prec emax), (2 <= prec)%Z ->
  forall e : Z, (SpecFloat.emin prec emax + prec <= e + 2)%Z -> (e <= emax - 2)%Z ->
  forall sp : space (binary_float prec emax), wf_space sp -> all_coords (below prec emax e) sp ->
  forall alg : std_algos, std_laws alg ->
  forall (c : category) (it : index_type) (m : Z) (bnds : start_bounds (binary_float prec emax)),
  index_type_ok it -> (0 < m <= it_max it)%Z -> sp_pts sp <> [] ->
  (Z.of_nat (npts sp) <= it_max it)%Z -> bounds_coords (below prec emax e) sp bnds ->
  @bounds_enclose _ (Float_scalar prec emax Hprec Hmax) sp bnds ->
  forall (delta : R) (ks : nat -> nat), (bpow radix2 (e + 6 - prec) <= delta)%R ->
  at_most sp (Z.to_nat m) (close_float prec emax (sp_sdim sp) delta) ->
  (forall d, d < sp_sdim sp -> extent_below_float prec emax sp bnds d (delta / 2 * 2 ^ ks d)%R) ->
  exists t, (forall fuel, sum_dims (sp_sdim sp) ks < fuel ->
      @build _ (Float_scalar prec emax Hprec Hmax) c alg it fuel sp (max_leaf_size m) bnds midpoint_max_side = Ok t)
    /\ height (kd_root t) <= sum_dims (sp_sdim sp) ks
    /\ Permutation (kd_indices t) (seq 0 (npts sp)).
Proof. exact c144_float_midpoint. Qed.
Print Assumptions C144_float_midpoint_depth.

Example C144_float_midpoint_example : exists t,
  @build double F64 Euclidean std_example it_int 5 sw_sp (max_leaf_size 1) bounds_from_space midpoint_max_side = Ok t
  /\ height (kd_root t) <= 4.
Proof.
  destruct (C144_float_midpoint_depth 53 1024 prec_gt_53 prec_lt_1024 ltac:(lia) 3%Z ltac:(vm_compute; discriminate)
    ltac:(lia) sw_sp sw_wf sw_good std_example std_example_laws
    Euclidean it_int 1%Z bounds_from_space ltac:(vm_compute; congruence) ltac:(vm_compute; split; congruence)
    ltac:(discriminate) ltac:(vm_compute; discriminate) I I 1%R (fun _ => 4) sw_delta sw_close sw_extent) as (t & E & H & _).
  exists t. split; [apply E, Nat.ltb_lt; reflexivity|exact H].
Qed.
Example C144_float_midpoint_near :
  height_is 3 (@build double F64 Euclidean std_example it_int 9 sw_sp (max_leaf_size 1) bounds_from_space midpoint_max_side).
Proof. exact sw_height. Qed.

Theorem C144_float_sliding_depth :
  forall (prec emax : Z) (Hprec : Prec_gt_0 prec) (Hmax : Prec_lt_emax prec emax), (2 <= prec)%Z ->
  forall e : Z, (SpecFloat.emin prec emax + prec <= e + 2)%Z -> (e <= emax - 2)%Z ->
  forall sp : space (binary_float prec emax), wf_space sp -> all_coords (below prec emax e) sp ->
  forall alg : std_algos, std_laws alg ->
  forall (c : category) (it : index_type) (m : Z) (bnds : start_bounds (binary_float prec emax)),
  index_type_ok it -> (0 < m <= it_max it)%Z -> sp_pts sp <> [] ->
  (Z.of_nat (npts sp) <= it_max it)%Z -> bounds_coords (below prec emax e) sp bnds ->
  @bounds_enclose _ (Float_scalar prec emax Hprec Hmax) sp bnds ->
  forall (M : nat) (delta : R) (ks : nat -> nat), (bpow radix2 (e + 6 - prec) <= delta)%R ->
  at_most sp M (close_float prec emax (sp_sdim sp) delta) ->
  (forall d, d < sp_sdim sp -> extent_below_float prec emax sp bnds d (delta / 2 * 2 ^ ks d)%R) ->
  exists t, (forall fuel, sum_dims (sp_sdim sp) ks + (M - Z.to_nat m) < fuel ->
      @build _ (Float_scalar prec emax Hprec Hmax) c alg it fuel sp (max_leaf_size m) bnds sliding_midpoint_max_side = Ok t)
    /\ height (kd_root t) <= sum_dims (sp_sdim sp) ks + (M - Z.to_nat m)
    /\ Permutation (kd_indices t) (seq 0 (npts sp)).
Proof. exact c144_float_sliding. Qed.
Print Assumptions C144_float_sliding_depth.

Example C144_float_sliding_example : exists t,
  @build double F64 Euclidean std_example it_int 5 sw_sp (max_leaf_size 1) bounds_from_space sliding_midpoint_max_side = Ok t
  /\ height (kd_root t) <= 4.
Proof.
  destruct (C144_float_sliding_depth 53 1024 prec_gt_53 prec_lt_1024 ltac:(lia) 3%Z ltac:(vm_compute; discriminate)
    ltac:(lia) sw_sp sw_wf sw_good std_example std_example_laws
    Euclidean it_int 1%Z bounds_from_space ltac:(vm_compute; congruence) ltac:(vm_compute; split; congruence)
    ltac:(discriminate) ltac:(vm_compute; discriminate) I I 1 1%R (fun _ => 4) sw_delta sw_close sw_extent) as (t & E & H & _).
  exists t. split; [apply E, Nat.ltb_lt; reflexivity|exact H].
Qed.
