(** Proofs about files of floating point trees. *)
From Coq Require Import List ZArith Bool Arith Lia.
From Flocq Require Import IEEE754.BinarySingleNaN IEEE754.Bits.
From Flocq Require IEEE754.Binary.
From Verif Require Import Base ModelBox ModelBuild ModelSearch ModelSerial ModelFloatFile Spec SpecSerial SpecLoad
  SerialThms LoadInv Floats FloatThms Instances Examples FloatEx.
Import ListNotations.
Local Open Scope nat_scope.

Section Fmt.
Variables (little : bool) (w : nat) (mw ew : Z).
Hypotheses (Hmw : (0 < mw)%Z) (Hew : (0 < ew)%Z) (Hmax : (mw + 1 < 2 ^ (ew - 1))%Z).
Variable nan : {x : Binary.binary_float (mw + 1) (2 ^ (ew - 1)) | Binary.is_nan _ _ x = true}.
Hypothesis HW : (mw + ew + 1 = 8 * Z.of_nat w)%Z.
Let fc := float_codec little w mw ew Hmw Hew Hmax nan.

Lemma float_codec_ok : codec_ok fc (fun _ => True).
Proof.
  constructor; intros x; unfold fc, float_codec; cbn [c_enc c_size c_dec].
  - destruct little; rewrite ?rev_length; apply bytes_le_len.
  - intros _. pose proof (bits_of_binary_float_range mw ew Hmw Hew (Binary.BSN2B _ _ nan x)) as R. rewrite HW in R.
    assert (E : value_le (if little then
        (if little then bytes_le w (bits_of_binary_float mw ew (Binary.BSN2B _ _ nan x)) else rev (bytes_le w (bits_of_binary_float mw ew (Binary.BSN2B _ _ nan x))))
        else rev (if little then bytes_le w (bits_of_binary_float mw ew (Binary.BSN2B _ _ nan x)) else rev (bytes_le w (bits_of_binary_float mw ew (Binary.BSN2B _ _ nan x)))))
      = bits_of_binary_float mw ew (Binary.BSN2B _ _ nan x)).
    { destruct little; rewrite ?rev_involutive; apply value_bytes; auto. }
    f_equal. etransitivity; [|apply (Binary.B2BSN_BSN2B _ _ nan)]. f_equal.
    etransitivity; [|apply (binary_float_of_bits_of_binary_float mw ew Hmw Hew Hmax)]. f_equal. exact E.
Qed.

Lemma BSN2B_B2BSN (x : Binary.binary_float (mw + 1) (2 ^ (ew - 1))) :
  is_nan (Binary.B2BSN _ _ x) = false -> Binary.BSN2B _ _ nan (Binary.B2BSN _ _ x) = x.
Proof. destruct x; cbn; auto. discriminate. Qed.

Lemma float_codec_exact : codec_exact fc (fun x => is_nan x = false).
Proof.
  intros bs v L F D N. unfold fc, float_codec in *. cbn [c_enc c_size c_dec] in *.
  apply (f_equal (fun r => match r with Ok x => x | _ => v end)) in D. cbv beta iota zeta in D. subst v.
  rewrite BSN2B_B2BSN by auto.
  assert (F' : Forall byte (rev bs)) by (apply Forall_rev; auto).
  pose proof (value_range bs F) as R1. pose proof (value_range _ F') as R2. rewrite rev_length in R2.
  rewrite L, <- HW in R1, R2. cbv zeta.
  destruct little; rewrite bits_of_binary_float_of_bits by auto.
  - rewrite <- L. apply bytes_value; auto.
  - rewrite <- L, <- (rev_length bs), bytes_value by auto. apply rev_involutive.
Qed.
Lemma float_codec_ends bs : c_dec fc bs <> OutOfFuel.
Proof. discriminate. Qed.
End Fmt.

Lemma float32_codec_ok little : codec_ok (float32_codec little) (fun _ => True).
Proof. exact (float_codec_ok little 4 23 8 eq_refl eq_refl eq_refl default_nan_pl32 eq_refl). Qed.
Lemma float32_codec_exact little : codec_exact (float32_codec little) (fun x => is_nan x = false).
Proof. exact (float_codec_exact little 4 23 8 eq_refl eq_refl eq_refl default_nan_pl32 eq_refl). Qed.
Lemma float64_codec_ok little : codec_ok (float64_codec little) (fun _ => True).
Proof. exact (float_codec_ok little 8 52 11 eq_refl eq_refl eq_refl default_nan_pl64 eq_refl). Qed.
Lemma float64_codec_exact little : codec_exact (float64_codec little) (fun x => is_nan x = false).
Proof. exact (float_codec_exact little 8 52 11 eq_refl eq_refl eq_refl default_nan_pl64 eq_refl). Qed.

Lemma codec_weaken {A} (c : codec A) (P P' : A -> Prop) : (forall x, P' x -> P x) -> codec_ok c P -> codec_ok c P'.
Proof. intros H [A1 A2]. constructor; auto. Qed.

Section Save.
Variables (prec emax : Z) (Hprec : FLX.Prec_gt_0 prec) (Hmax : Prec_lt_emax prec emax).
Local Notation F := (binary_float prec emax).
Local Notation SF := (Float_scalar prec emax Hprec Hmax).
Variables (little : bool) (tc : codec F) (TC : codec_ok tc (fun _ => True)).

Lemma float_load_save it (sp : space F) alg pads (m : metric F) fuel stop bnds ru tree rest :
  (0 < it_bits it <= 64)%Z -> (it_bits it mod 8 = 0)%Z ->
  wf_space sp -> all_coords (finite prec emax) sp -> std_laws alg ->
  ru <> midpoint_max_side -> bounds_coords (finite prec emax) sp bnds ->
  (Z.of_nat (sp_sdim sp) < 2 ^ 31)%Z -> (Z.of_nat (length (sp_pts sp)) <= it_max it)%Z ->
  @kd_tree_make F SF alg it m fuel sp stop bnds ru = Ok tree ->
  @kd_tree_load F SF little it tc m sp (kd_tree_save little it tc pads tree ++ rest) = Ok (tree, Some rest).
Proof.
  intros [H0 H64] H8 WF FI SL RU FB HS HL H.
  assert (TC' : codec_ok tc (finite prec emax)) by (exact (codec_weaken tc (fun _ => True) _ (fun _ _ => I) TC)).
  exact (tree_load_save little it tc (finite prec emax) H0 H8 TC' sp alg (float_ord prec emax Hprec Hmax) WF FI SL pads m
    fuel stop bnds ru tree rest (fun E => False_ind _ (RU E)) FB HS HL H64 H).
Qed.
End Save.

Lemma fx_file : exists tree,
  @kd_tree_make double F64 std_example it_int (@metric_l2_squared double F64) 9 fx_sp (max_leaf_size 2) bounds_from_space
    sliding_midpoint_max_side = Ok tree
  /\ wf_space fx_sp /\ all_coords (finite 53 1024) fx_sp
  /\ length (kd_tree_save true it_int (float64_codec true) (fun _ _ => 0%Z) tree) = 141
  /\ @kd_tree_load double F64 true it_int (float64_codec true) (@metric_l2_squared double F64) fx_sp
       (kd_tree_save true it_int (float64_codec true) (fun _ _ => 0%Z) tree ++ [5%Z]) = Ok (tree, Some [5%Z]).
Proof.
  destruct (make_exists (@metric_l2_squared double F64) std_example it_int 9 fx_sp (max_leaf_size 2) bounds_from_space
    sliding_midpoint_max_side
    (fun d => length (save_data true it_int (float64_codec true) (fun _ _ => 0%Z) d) =? 141)) as (data & HM & C).
  { vm_compute. reflexivity. }
  assert (W : wf_space fx_sp) by (apply wf_space_check; reflexivity).
  assert (FA : all_coords (finite 53 1024) fx_sp).
  { apply Forall_forall. intros p Hp. apply Forall_forall. intros x Hx. unfold finite.
    assert (K : forallb (forallb is_finite) (sp_pts fx_sp) = true) by (vm_compute; reflexivity).
    rewrite forallb_forall in K. specialize (K p Hp). rewrite forallb_forall in K. apply K; auto. }
  assert (L : @kd_tree_load double F64 true it_int (float64_codec true) (@metric_l2_squared double F64) fx_sp
       (kd_tree_save true it_int (float64_codec true) (fun _ _ => 0%Z) (KdTree fx_sp (@metric_l2_squared double F64) data) ++ [5%Z])
     = Ok (KdTree fx_sp (@metric_l2_squared double F64) data, Some [5%Z])).
  { refine (float_load_save 53 1024 prec_gt_53 prec_lt_1024 true (float64_codec true) (float64_codec_ok true) it_int fx_sp
      std_example (fun _ _ => 0%Z) _ 9 (max_leaf_size 2) bounds_from_space sliding_midpoint_max_side _ [5%Z] _ _ W FA std_example_laws _ _ _ _ HM).
    - split; [reflexivity|discriminate].
    - reflexivity.
    - discriminate.
    - exact I.
    - reflexivity.
    - discriminate. }
  exists (KdTree fx_sp (@metric_l2_squared double F64) data).
  split; [exact HM|]. split; [exact W|]. split; [exact FA|]. split; [apply Nat.eqb_eq; exact C|exact L].
Qed.
