(** C33, C34: saving and loading. *)
From Coq Require Import List ZArith Bool Arith Permutation Lia.
From Verif Require Import Base ModelBox ModelBuild ModelSearch ModelSerial Spec SpecSerial Instances
  SerialThms Examples.
Import ListNotations.
Local Open Scope nat_scope.

(** C33.  The bytes [save] writes, followed by anything, load as the very same
    tree, and exactly these bytes are consumed.  [pads] is the arbitrary content
    of struct padding, [tc] the object representation of the scalar type, which
    has to represent all coordinates and bounds faithfully. *)
Theorem C33_load_after_save :
  forall (T : Type) (SC : Scalar T) (little : bool) (it : index_type) (tc : codec T) (fit : T -> Prop)
         (sp : space T) (alg : std_algos) (pads : nat -> nat -> Z) (m : metric T) (fuel : nat)
         (stop : stop_condition) (bnds : start_bounds T) (ru : rule) (tree : kd_tree T) (rest : list Z),
  (0 < it_bits it <= 64)%Z -> (it_bits it mod 8 = 0)%Z -> codec_ok tc fit ->
  ord_laws SC fit -> wf_space sp -> all_coords fit sp -> std_laws alg ->
  (ru = midpoint_max_side -> mid_ok SC fit) -> bounds_coords fit sp bnds ->
  (Z.of_nat (sp_sdim sp) < 2 ^ 31)%Z -> (Z.of_nat (length (sp_pts sp)) <= it_max it)%Z ->
  kd_tree_make alg it m fuel sp stop bnds ru = Ok tree ->
  kd_tree_load little it tc m sp (kd_tree_save little it tc pads tree ++ rest) = Ok (tree, Some rest).
Proof.
  intros T SC little it tc fit sp alg pads m fuel stop bnds ru tree rest [H0 H64] H8 HT OL WF OKS SL HM HB HS HL H.
  exact (tree_load_save little it tc fit H0 H8 HT sp alg OL WF OKS SL pads m fuel stop bnds ru tree rest HM HB HS HL H64 H).
Qed.
Print Assumptions C33_load_after_save.

(** Seven integer points, little-endian int32, int indices; the file has 135 bytes. *)
Example C33_load_after_save_ex :
  exists data, let t := KdTree ex_int (metric_l2_squared (S := Z32)) data in
  (codec_ok (int_codec true 4) int_fit /\ ord_laws Z32 int_fit /\ wf_space ex_int
   /\ all_coords int_fit ex_int /\ std_laws std_example)
  /\ kd_tree_make (S := Z32) std_example it_int (metric_l2_squared (S := Z32)) 10 ex_int (max_leaf_size 2)
       bounds_from_space sliding_midpoint_max_side = Ok t
  /\ length (save_data true it_int (int_codec true 4) (fun _ _ => 99%Z) data) = 135
  /\ load_data (SC := Z32) true it_int (int_codec true 4) Euclidean
       (Some (save_data true it_int (int_codec true 4) (fun _ _ => 99%Z) data)) = Ok (data, Some []).
Proof.
  eexists. cbv zeta. split; [|split; [apply (make_ok (S := Z32)); vm_compute; reflexivity|]].
  - split; [apply (int_codec_ok true 4); lia|]. split; [exact Z32_ord|]. split; [exact ex_int_wf|].
    split; [exact ex_int_fit|exact std_example_laws].
  - split; vm_compute; reflexivity.
Qed.

(** The same for any tree data at all, built or not, all of whose numbers fit
    their types. *)
Theorem C33_any_tree :
  forall (T : Type) (SC : Scalar T) (little : bool) (it : index_type) (tc : codec T) (fit : T -> Prop)
         (pads : nat -> nat -> Z) (c : category) (data : kd_tree_data c T) (rest : list Z),
  (0 < it_bits it)%Z -> (it_bits it mod 8 = 0)%Z -> codec_ok tc fit -> data_fits it fit data ->
  load_data little it tc c (Some (save_data little it tc pads data ++ rest)) = Ok (data, Some rest).
Proof.
  intros T SC little it tc fit pads c data rest H0 H8 HT F.
  exact (load_save little it tc fit H0 H8 HT pads c data rest F).
Qed.
Print Assumptions C33_any_tree.

(** Big-endian 64-bit indices, topological nodes, 16-bit scalars. *)
Example C33_any_tree_ex :
  let data : kd_tree_data Topological Z :=
    @KdTreeData Topological Z [2; 0; 1] (Box [(-5)%Z] [300%Z])
      (@Branch (branch_data Topological Z) (BranchDouble 0 (-5) 7 8 300)%Z (Leaf 0 2) (Leaf 2 3)) in
  codec_ok (int_codec false 2) (fun v => -32768 <= v < 32768)%Z
  /\ data_fits it_size_t (fun v => -32768 <= v < 32768)%Z data
  /\ save_data false it_size_t (int_codec false 2) (fun p q => 200 + Z.of_nat p)%Z data
     = [0;0;0;0;0;0;0;1; 0;0;0;0;0;0;0;3; 0;0;0;0;0;0;0;2; 0;0;0;0;0;0;0;0; 0;0;0;0;0;0;0;1;
        255;251; 1;44;
        0; 0;0;0;0; 255;251; 0;7; 0;8; 1;44;
        1; 0;0;0;0;0;0;0;0; 0;0;0;0;0;0;0;2;
        1; 0;0;0;0;0;0;0;2; 0;0;0;0;0;0;0;3]%Z.
Proof.
  cbv zeta. split; [apply (int_codec_ok false 2); lia|]. split; [|vm_compute; reflexivity].
  unfold data_fits. cbn [kd_indices kd_root_box kd_root box_min box_max length node_fits branch_fits
    bd_split_dim bd_left_min bd_left_max bd_right_min bd_right_max].
  split; [reflexivity|]. split; [lia|]. split; [lia|].
  unfold it_max, it_size_t; cbn [it_bits it_signed].
  split; [repeat constructor; vm_compute; discriminate|].
  split; [repeat constructor; vm_compute; discriminate|].
  split; [repeat constructor; vm_compute; discriminate|].
  repeat split; vm_compute; try discriminate.
Qed.

(** C34 is false: no read is checked.  Whatever proper prefix of a saved tree is
    loaded - cut anywhere, even right at the start - load neither reports an
    error nor returns a tree: it runs on with indeterminate values. *)
Theorem C34_truncated_load_refuted :
  forall (T : Type) (SC : Scalar T) (little : bool) (it : index_type) (tc : codec T) (fit : T -> Prop)
         (sp : space T) (alg : std_algos) (pads : nat -> nat -> Z) (m : metric T) (fuel : nat)
         (stop : stop_condition) (bnds : start_bounds T) (ru : rule) (tree : kd_tree T) (p lost : list Z),
  (0 < it_bits it <= 64)%Z -> (it_bits it mod 8 = 0)%Z -> codec_ok tc fit ->
  ord_laws SC fit -> wf_space sp -> all_coords fit sp -> std_laws alg ->
  (ru = midpoint_max_side -> mid_ok SC fit) -> bounds_coords fit sp bnds ->
  (Z.of_nat (sp_sdim sp) < 2 ^ 31)%Z -> (Z.of_nat (length (sp_pts sp)) <= it_max it)%Z ->
  kd_tree_make alg it m fuel sp stop bnds ru = Ok tree ->
  p ++ lost = kd_tree_save little it tc pads tree -> lost <> [] ->
  kd_tree_load little it tc m sp p = Ub UbShortRead.
Proof.
  intros T SC little it tc fit sp alg pads m fuel stop bnds ru tree p lost [H0 H64] H8 HT OL WF OKS SL HM HB HS HL H E N.
  exact (tree_load_prefix little it tc fit H0 H8 HT sp alg OL WF OKS SL pads m fuel stop bnds ru tree p lost
           HM HB HS HL H64 H E N).
Qed.
Print Assumptions C34_truncated_load_refuted.

(** The file of the example above without its last byte, and one cut inside the indices. *)
Example C34_truncated_load_ex :
  exists data, let t := KdTree ex_int (metric_l2_squared (S := Z32)) data in
  let file := save_data true it_int (int_codec true 4) (fun _ _ => 0%Z) data in
  kd_tree_make (S := Z32) std_example it_int (metric_l2_squared (S := Z32)) 10 ex_int (max_leaf_size 2)
    bounds_from_space sliding_midpoint_max_side = Ok t
  /\ firstn 134 file ++ skipn 134 file = file /\ skipn 134 file <> []
  /\ load_data (SC := Z32) true it_int (int_codec true 4) Euclidean (Some (firstn 134 file)) = Ub UbShortRead
  /\ load_data (SC := Z32) true it_int (int_codec true 4) Euclidean (Some (firstn 22 file)) = Ub UbShortRead.
Proof.
  eexists. cbv zeta. split; [apply (make_ok (S := Z32)); vm_compute; reflexivity|].
  split; [apply firstn_skipn|]. split; [vm_compute; discriminate|]. split; vm_compute; reflexivity.
Qed.
