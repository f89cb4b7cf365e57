(** The bytes of saved trees: witnesses. *)
From Coq Require Import List ZArith Bool Arith Lia.
From Flocq Require Import IEEE754.BinarySingleNaN.
From Verif Require Import Base ModelBox ModelBuild ModelSearch ModelSerial ModelFloatFile Spec Instances
  Floats FloatThms FloatEx Examples SpecFile FileThms.
Import ListNotations.
Local Open Scope nat_scope.

Lemma holes_show : exists tree,
  @kd_tree_make double F64 std_example it_int (@metric_l2_squared double F64) 9 fx_sp (max_leaf_size 2) bounds_from_space
    sliding_midpoint_max_side = Ok tree
  /\ branches (kd_root (kt_data tree)) = 2
  /\ differences (kd_tree_save true it_int (float64_codec true) (fun _ _ => 0%Z) tree)
       (kd_tree_save true it_int (float64_codec true) (fun _ _ => 1%Z) tree) = 8.
Proof.
  destruct (make_exists (@metric_l2_squared double F64) std_example it_int 9 fx_sp (max_leaf_size 2) bounds_from_space
    sliding_midpoint_max_side
    (fun d => (branches (kd_root d) =? 2) &&
      (differences (save_data true it_int (float64_codec true) (fun _ _ => 0%Z) d)
         (save_data true it_int (float64_codec true) (fun _ _ => 1%Z) d) =? 8))) as (data & HM & C).
  { vm_compute. reflexivity. }
  apply andb_true_iff in C as [C1 C2]. apply Nat.eqb_eq in C1, C2.
  exists (KdTree fx_sp (@metric_l2_squared double F64) data). repeat split; assumption.
Qed.

Lemma doubles_not_reproducible :
  ~ (forall (little : bool) (it : index_type) (alg : std_algos) (m : metric double) (fuel : nat) (sp : space double)
       (stop : stop_condition) (bnds : start_bounds double) (ru : rule) (tree : kd_tree double),
     @kd_tree_make double F64 alg it m fuel sp stop bnds ru = Ok tree ->
     forall pads pads' : nat -> nat -> Z,
     kd_tree_save little it (float64_codec little) pads tree = kd_tree_save little it (float64_codec little) pads' tree).
Proof.
  intros H. destruct holes_show as (tree & HM & _ & D).
  rewrite (H true _ _ _ _ _ _ _ _ _ HM (fun _ _ => 0%Z) (fun _ _ => 1%Z)), diff_same in D. discriminate.
Qed.
