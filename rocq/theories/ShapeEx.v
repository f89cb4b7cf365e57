(** No bound on the depth of trees that is logarithmic in the number of points. *)
From Coq Require Import List ZArith QArith Bool Arith Lia.
From Verif Require Import Base ModelBox ModelBuild ModelSearch Spec SpecShape Instances BuildShape BuildThms ExtraThms Examples ShapeThms.
Import ListNotations.
Local Open Scope nat_scope.

Lemma no_log_height : ~ exists a : nat, forall (sp : space Q) (it : index_type) (fuel : nat) (m : Z) (t : kd_tree_data Euclidean Q),
  wf_space sp -> all_coords (no_overflow qv) sp -> index_type_ok it -> (0 < m <= it_max it)%Z ->
  build Euclidean std_example it fuel sp (max_leaf_size m) bounds_from_space sliding_midpoint_max_side = Ok t ->
  height (kd_root t) <= a * (1 + Nat.log2 (length (sp_pts sp))).
Proof.
  intros [a H]. pose proof (pow_beats_log a) as PB. set (k := 2 * a + 4) in *.
  set (sp := Space 1 (repeat [0%Q] (2 ^ k))).
  set (it := {| it_bits := Z.of_nat k + 8; it_signed := true |}).
  assert (LN : length (sp_pts sp) = 2 ^ k) by apply repeat_length.
  assert (P1 : 1 <= 2 ^ k) by (pose proof (Nat.pow_nonzero 2 k); lia).
  assert (IM : (Z.of_nat (2 ^ k) <= it_max it)%Z).
  { unfold it_max, it. cbn [it_bits it_signed]. rewrite Nat2Z.inj_pow.
    replace (Z.of_nat k + 8 - 1)%Z with (Z.of_nat k + 7)%Z by lia. rewrite Z.pow_add_r by lia. change (2 ^ 7)%Z with 128%Z.
    pose proof (Z.pow_pos_nonneg 2 (Z.of_nat k) ltac:(lia) ltac:(lia)). change (Z.of_nat 2) with 2%Z. lia. }
  assert (IO : index_type_ok it) by (unfold index_type_ok, it; cbn [it_bits it_signed]; lia).
  assert (WF : wf_space sp).
  { split; [cbn; lia|]. cbn [sp_pts sp_sdim sp]. apply Forall_forall. intros p Hp. apply repeat_spec in Hp. subst. reflexivity. }
  assert (GC : all_coords (no_overflow qv) sp).
  { apply Forall_forall. intros p Hp. apply repeat_spec in Hp. subst. constructor; [|constructor].
    split; [split; vm_compute; discriminate|vm_compute; reflexivity]. }
  assert (OK : all_coords (fun _ => True) sp).
  { apply Forall_forall. intros p Hp. apply Forall_forall. auto. }
  destruct (build_total_any (fun _ => True) QD_ord sp WF OK std_example std_example_laws (no_overflow qv) Euclidean it
    (max_leaf_size 1) bounds_from_space sliding_midpoint_max_side QD_range GC) as [t Ht]; auto.
  - exact I.
  - discriminate.
  - cbn [stop_fits]. lia.
  - unfold sp. cbn [sp_pts]. destruct (2 ^ k); [lia|discriminate].
  - unfold npts. rewrite LN. auto.
  - specialize (Ht (2 ^ k)). unfold npts in Ht; rewrite LN in Ht. specialize (Ht ltac:(lia)).
    destruct (shape_coincident (fun _ => True) QD_ord sp WF OK std_example std_example_laws (repeat_coincident 1 [0%Q] (2 ^ k))
      Euclidean it (2 ^ k) 1 bounds_from_space t IO ltac:(lia) ltac:(lia) Ht) as [HH _].
    specialize (H sp it (2 ^ k) 1%Z t WF GC IO ltac:(lia) Ht). rewrite HH, LN in H. change (Z.to_nat 1) with 1 in H. lia.
Qed.
