(** Files for the examples. *)
From Coq Require Import List ZArith Bool Arith Lia.
From Verif Require Import Base ModelBox ModelBuild ModelSearch ModelSerial Spec Instances SerialThms LoadInv Examples.
Import ListNotations.
Local Open Scope nat_scope.

(** The file of the seven integer points. *)
Definition int_tree : res (kd_tree Z) :=
  @kd_tree_make Z Z32 std_example it_int (@metric_l2_squared Z Z32) 9 ex_int (max_leaf_size 2) bounds_from_space
    sliding_midpoint_max_side.
Definition int_file : list Z :=
  Eval vm_compute in
  match int_tree with Ok t => @kd_tree_save Z true it_int (int_codec true 4) (fun _ _ => 0%Z) t | _ => [] end.
(** Its first index is that of no point. *)
Definition int_file' : list Z := Eval vm_compute in set_nth int_file 16 7%Z.

Definition loaded (bs : list Z) : res (kd_tree Z * stream) :=
  @kd_tree_load Z Z32 true it_int (int_codec true 4) (@metric_l2_squared Z Z32) ex_int bs.

Lemma altered_file :
  exists (file file' : list Z) (at_ : nat) (t t' : kd_tree Z),
  let m := @metric_l2_squared Z Z32 in
  @kd_tree_load Z Z32 true it_int (int_codec true 4) m ex_int file = Ok (t, Some [])
  /\ (forall j, j <> at_ -> nth_error file' j = nth_error file j) /\ length file' = length file
  /\ Forall (fun b => (0 <= b < 256)%Z) file'
  /\ @kd_tree_load Z Z32 true it_int (int_codec true 4) m ex_int file' = Ok (t', Some [])
  /\ (exists a, @search_nn Z Z32 t [1; 1]%Z (Neighbor 0 0%Z) = Ok a)
  /\ @search_nn Z Z32 t' [1; 1]%Z (Neighbor 0 0%Z) = Ub UbIndex.
Proof.
  exists int_file, int_file', 16. eexists. eexists. cbv zeta.
  split; [vm_compute; reflexivity|]. split.
  { intros j Hj. do 16 (destruct j as [|j]; [reflexivity|]). destruct j as [|j]; [congruence|]. reflexivity. }
  split; [reflexivity|]. split; [apply bytes_check; vm_compute; reflexivity|].
  split; [vm_compute; reflexivity|]. split; [eexists; vm_compute; reflexivity|]. vm_compute. reflexivity.
Qed.
