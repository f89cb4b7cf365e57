(** C139: the bytes of a saved tree. *)
From Coq Require Import List ZArith Bool Arith.
From Flocq Require Import IEEE754.BinarySingleNaN.
From Verif Require Import Base ModelBox ModelBuild ModelSearch ModelSerial ModelFloatFile Spec Instances
  Floats FloatThms FloatEx Examples SpecFile FileThms FileEx.
Import ListNotations.
Local Open Scope nat_scope.

(** ** C139: what the bytes of a file are *)
(** The format, for scalars of four and eight bytes (float, double, integers) on machines
    with a four byte int and an eight byte size_t. *)
Theorem C139_format :
  forall (T : Type) (little : bool) (it : index_type) (tc : codec T),
  (0 < it_bits it)%Z -> (it_bits it mod 8 = 0)%Z -> c_align tc = c_size tc -> c_size tc = 4 \/ c_size tc = 8 ->
  forall (pads : nat -> nat -> Z) (tree : kd_tree T),
  file_text little (Z.to_nat (it_bits it / 8)) tc (kt_data tree) (kd_tree_save little it tc pads tree).
Proof. exact @tree_text. Qed.
Print Assumptions C139_format.

(** The full statement: saving a tree gives the same file every time. *)
Definition C139_statement : Prop :=
  forall (little : bool) (it : index_type) (alg : std_algos) (m : metric double) (fuel : nat) (sp : space double)
    (stop : stop_condition) (bnds : start_bounds double) (ru : rule) (tree : kd_tree double),
  @kd_tree_make double F64 alg it m fuel sp stop bnds ru = Ok tree ->
  forall pads pads' : nat -> nat -> Z,
  kd_tree_save little it (float64_codec little) pads tree = kd_tree_save little it (float64_codec little) pads' tree.

(** Every branch of a tree of doubles takes four bytes of whatever was in memory along. *)
Theorem C139_refuted : ~ C139_statement.
Proof. exact doubles_not_reproducible. Qed.
Print Assumptions C139_refuted.

(** It holds for float and other scalars of four bytes. *)
Theorem C139_four_bytes :
  forall (T : Type) (little : bool) (it : index_type) (tc : codec T),
  (0 < it_bits it)%Z -> (it_bits it mod 8 = 0)%Z -> c_align tc = c_size tc -> c_size tc = 4 ->
  forall (pads pads' : nat -> nat -> Z) (tree : kd_tree T),
  kd_tree_save little it tc pads tree = kd_tree_save little it tc pads' tree.
Proof. exact @same_file. Qed.
Print Assumptions C139_four_bytes.

(** For scalars of eight bytes four bytes per branch may differ, no others. *)
Theorem C139_holes :
  forall (T : Type) (little : bool) (it : index_type) (tc : codec T),
  (0 < it_bits it)%Z -> (it_bits it mod 8 = 0)%Z -> c_align tc = c_size tc -> c_size tc = 4 \/ c_size tc = 8 ->
  forall (pads pads' : nat -> nat -> Z) (tree : kd_tree T),
  length (kd_tree_save little it tc pads tree) = length (kd_tree_save little it tc pads' tree)
  /\ differences (kd_tree_save little it tc pads tree) (kd_tree_save little it tc pads' tree)
     <= 4 * branches (kd_root (kt_data tree)).
Proof. exact @similar_file. Qed.
Print Assumptions C139_holes.

(** Two branches, eight different bytes. *)
Example C139_example : exists tree,
  @kd_tree_make double F64 std_example it_int (@metric_l2_squared double F64) 9 fx_sp (max_leaf_size 2) bounds_from_space
    sliding_midpoint_max_side = Ok tree
  /\ branches (kd_root (kt_data tree)) = 2
  /\ differences (kd_tree_save true it_int (float64_codec true) (fun _ _ => 0%Z) tree)
       (kd_tree_save true it_int (float64_codec true) (fun _ _ => 1%Z) tree) = 8.
Proof. exact holes_show. Qed.

(** Numbers in both byte orders, and the codecs of the theorems. *)
Example C139_numbers : number true 4 513 = [1; 2; 0; 0]%Z /\ number false 4 513 = [0; 0; 2; 1]%Z
  /\ (it_bits it_int = 32)%Z /\ c_size (float32_codec true) = 4 /\ c_align (float64_codec true) = 8.
Proof. repeat split; vm_compute; reflexivity. Qed.
