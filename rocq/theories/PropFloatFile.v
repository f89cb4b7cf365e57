(** C134: files of floating point trees. *)
From Coq Require Import List ZArith Bool Arith Lia.
From Flocq Require Import IEEE754.BinarySingleNaN.
From Verif Require Import Base ModelBox ModelBuild ModelSearch ModelSerial ModelFloatFile Spec SpecSerial SpecLoad Instances
  SerialThms LoadInv Floats FloatThms FloatEx FloatFile Examples.
Import ListNotations.
Local Open Scope nat_scope.

(** C134.  Trees of finite double coordinates come back from their files: same indices,
    same nodes, same box, to the bit. *)
Theorem C134_double :
  forall (little : bool) (it : index_type) (sp : space double) (alg : std_algos) (pads : nat -> nat -> Z)
    (m : metric double) (fuel : nat) (stop : stop_condition) (bnds : start_bounds double) (ru : rule)
    (tree : kd_tree double) (rest : list Z),
  (0 < it_bits it <= 64)%Z -> (it_bits it mod 8 = 0)%Z ->
  wf_space sp -> all_coords (finite 53 1024) sp -> std_laws alg ->
  ru <> midpoint_max_side -> bounds_coords (finite 53 1024) sp bnds ->
  (Z.of_nat (sp_sdim sp) < 2 ^ 31)%Z -> (Z.of_nat (length (sp_pts sp)) <= it_max it)%Z ->
  @kd_tree_make double F64 alg it m fuel sp stop bnds ru = Ok tree ->
  @kd_tree_load double F64 little it (float64_codec little) m sp
    (kd_tree_save little it (float64_codec little) pads tree ++ rest) = Ok (tree, Some rest).
Proof.
  intros little. exact (float_load_save 53 1024 prec_gt_53 prec_lt_1024 little (float64_codec little) (float64_codec_ok little)).
Qed.
Print Assumptions C134_double.

(** The same for float. *)
Theorem C134_float :
  forall (Hp : FLX.Prec_gt_0 24) (Hm : Prec_lt_emax 24 128)
    (little : bool) (it : index_type) (sp : space (binary_float 24 128)) (alg : std_algos) (pads : nat -> nat -> Z)
    (m : metric (binary_float 24 128)) (fuel : nat) (stop : stop_condition) (bnds : start_bounds (binary_float 24 128))
    (ru : rule) (tree : kd_tree (binary_float 24 128)) (rest : list Z),
  (0 < it_bits it <= 64)%Z -> (it_bits it mod 8 = 0)%Z ->
  wf_space sp -> all_coords (finite 24 128) sp -> std_laws alg ->
  ru <> midpoint_max_side -> bounds_coords (finite 24 128) sp bnds ->
  (Z.of_nat (sp_sdim sp) < 2 ^ 31)%Z -> (Z.of_nat (length (sp_pts sp)) <= it_max it)%Z ->
  @kd_tree_make _ (Float_scalar 24 128 Hp Hm) alg it m fuel sp stop bnds ru = Ok tree ->
  @kd_tree_load _ (Float_scalar 24 128 Hp Hm) little it (float32_codec little) m sp
    (kd_tree_save little it (float32_codec little) pads tree ++ rest) = Ok (tree, Some rest).
Proof.
  intros Hp Hm little. exact (float_load_save 24 128 Hp Hm little (float32_codec little) (float32_codec_ok little)).
Qed.
Print Assumptions C134_float.

(** Any tree data of doubles, however it came about, even with infinities and NaN. *)
Theorem C134_any_tree :
  forall (little : bool) (it : index_type) (pads : nat -> nat -> Z) (c : category) (data : kd_tree_data c double)
    (rest : list Z),
  (0 < it_bits it)%Z -> (it_bits it mod 8 = 0)%Z -> data_fits it (fun _ => True) data ->
  @load_data double F64 little it (float64_codec little) c
    (Some (save_data little it (float64_codec little) pads data ++ rest)) = Ok (data, Some rest).
Proof.
  intros little it pads c data rest H0 H8 F.
  exact (load_save little it (float64_codec little) (fun _ => True) H0 H8 (float64_codec_ok little) pads c data rest F).
Qed.
Print Assumptions C134_any_tree.

(** And the other way round (see C132): without NaN, a file that loads is what [save]
    writes. *)
Theorem C134_canonical :
  forall (little : bool) (it : index_type) (c : category) (bytes : list Z) (data : kd_tree_data c double) (s : stream),
  @load_data double F64 little it (float64_codec little) c (Some bytes) = Ok (data, s) ->
  Forall (fun b => (0 <= b < 256)%Z) bytes -> Forall (fun x => is_nan x = false) (tree_scalars data) ->
  exists rest pads, s = Some rest /\ bytes = save_data little it (float64_codec little) pads data ++ rest.
Proof.
  intros little it. exact (load_canonical little it (float64_codec little) _ (float64_codec_exact little)).
Qed.
Print Assumptions C134_canonical.

(** 1.0 and -0.1 as doubles, in both byte orders; 5 x 2^-149, a subnormal float. *)
Example C134_bytes :
  c_enc (float64_codec false) (f64 1 0) = [63; 240; 0; 0; 0; 0; 0; 0]%Z
  /\ c_enc (float64_codec true) (f64 (-0x1999999999999a) (-56)) = [154; 153; 153; 153; 153; 153; 185; 191]%Z
  /\ c_dec (float32_codec false) [0; 0; 0; 5]%Z = Ok (@B754_finite 24 128 false 5 (-149) eq_refl)
  /\ c_enc (float64_codec false) (B754_infinity true) = [255; 240; 0; 0; 0; 0; 0; 0]%Z.
Proof.
  split; [vm_compute; reflexivity|]. split; [vm_compute; reflexivity|]. split; [|vm_compute; reflexivity].
  refine (f_equal Ok _). apply B2SF_inj. vm_compute. reflexivity.
Qed.

(** Four points, saved and loaded: the file has 141 bytes. *)
Example C134_example : exists tree,
  @kd_tree_make double F64 std_example it_int (@metric_l2_squared double F64) 9 fx_sp (max_leaf_size 2) bounds_from_space
    sliding_midpoint_max_side = Ok tree
  /\ wf_space fx_sp /\ all_coords (finite 53 1024) fx_sp
  /\ length (kd_tree_save true it_int (float64_codec true) (fun _ _ => 0%Z) tree) = 141
  /\ @kd_tree_load double F64 true it_int (float64_codec true) (@metric_l2_squared double F64) fx_sp
       (kd_tree_save true it_int (float64_codec true) (fun _ _ => 0%Z) tree ++ [5%Z]) = Ok (tree, Some [5%Z]).
Proof. exact fx_file. Qed.
