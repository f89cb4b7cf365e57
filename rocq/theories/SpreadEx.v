(** Concrete spreads of points, and close points that make the midpoint rule run forever. *)
From Coq Require Import List ZArith QArith Qabs Reals Bool Arith Permutation Lia Lra Lqa.
From Flocq Require Import Core.Core IEEE754.BinarySingleNaN.
From Verif Require Import Base ModelBox ModelBuild ModelSearch Spec Instances BuildThms
  Floats FloatThms FloatEx Examples Lemmas BuildProofs SpecShape SpecSpread.
Import ListNotations.
Local Open Scope nat_scope.

Lemma at_most_1 {T} (sp : space T) (R : list T -> list T -> Prop) :
  (forall i j, i < npts sp -> j < npts sp -> i <> j -> ~ R (nth i (sp_pts sp) []) (nth j (sp_pts sp) [])) -> at_most sp 1 R.
Proof.
  intros H g ND HI HR. destruct g as [|i [|j g]]; cbn; try lia. exfalso.
  apply (H i j); try (apply HI; cbn; auto); try (apply HR; cbn; auto).
  intros ->. inversion ND as [|? ? X _]; subst. apply X. left. auto.
Qed.

(** Four numbers. *)
Definition sx_sp : space Q := Space 1 [[0]; [1]; [3]; [7]]%Q.
Lemma sx_close : at_most sx_sp 1 (close qv 1 1).
Proof.
  apply at_most_1. intros i j Hi Hj NE R. specialize (R 0 ltac:(lia)). revert R. unfold npts in *. cbn in Hi, Hj.
  destruct i as [|[|[|[|]]]], j as [|[|[|[|]]]]; try lia; vm_compute; discriminate.
Qed.
Lemma sx_wf : wf_space sx_sp. Proof. split; [cbn; lia|repeat constructor]. Qed.
Lemma sx_good : all_coords (no_overflow qv) sx_sp.
Proof. repeat (constructor; [repeat (constructor; [split; [split; vm_compute; discriminate|vm_compute; reflexivity]|]); constructor|]); constructor. Qed.
Lemma sx_extent d : d < 1 -> extent_below qv sx_sp bounds_from_space d (1 * inject_Z (2 ^ Z.of_nat 3))%Q.
Proof.
  intros Hd. destruct d; [|lia]. intros p q Hp Hq. cbn in Hp, Hq.
  destruct Hp as [<-|[<-|[<-|[<-|[]]]]], Hq as [<-|[<-|[<-|[<-|[]]]]]; vm_compute; reflexivity.
Qed.

(** Three points at one place, and one elsewhere. *)
Definition sy_sp : space Q := Space 1 [[0]; [0]; [0]; [5]]%Q.
Lemma sy_close : at_most sy_sp 3 (close qv 1 5).
Proof.
  intros g ND HI HR.
  assert (HI' : forall i, In i g -> i = 0 \/ i = 1 \/ i = 2 \/ i = 3).
  { intros i Hi. specialize (HI i Hi). unfold npts in HI. cbn in HI. lia. }
  destruct (in_dec Nat.eq_dec 3 g) as [I3|N3].
  - assert (L : length g <= length [3]); [|cbn in L; lia].
    apply NoDup_incl_length; auto. intros i Hi. destruct (HI' i Hi) as [->|[->|[->| ->]]]; cbn; auto;
      specialize (HR _ _ Hi I3 0 ltac:(lia)); vm_compute in HR; discriminate.
  - assert (L : length g <= length [0; 1; 2]); [|cbn in L; lia].
    apply NoDup_incl_length; auto. intros i Hi. destruct (HI' i Hi) as [->|[->|[->| ->]]]; cbn; tauto.
Qed.
Lemma sy_wf : wf_space sy_sp. Proof. split; [cbn; lia|repeat constructor]. Qed.
Lemma sy_good : all_coords (no_overflow qv) sy_sp.
Proof. repeat (constructor; [repeat (constructor; [split; [split; vm_compute; discriminate|vm_compute; reflexivity]|]); constructor|]); constructor. Qed.
Lemma sy_extent d : d < 1 -> extent_below qv sy_sp bounds_from_space d (5 * inject_Z (2 ^ Z.of_nat 1))%Q.
Proof.
  intros Hd. destruct d; [|lia]. intros p q Hp Hq. cbn in Hp, Hq.
  destruct Hp as [<-|[<-|[<-|[<-|[]]]]], Hq as [<-|[<-|[<-|[<-|[]]]]]; vm_compute; reflexivity.
Qed.

Definition height_is {c T} (k : nat) (r : res (kd_tree_data c T)) : Prop :=
  match r with Ok t => height (kd_root t) = k | _ => False end.
Lemma sy_height : height_is 3 (build Euclidean std_example it_int 9 sy_sp (max_leaf_size 1) bounds_from_space sliding_midpoint_max_side).
Proof. vm_compute. reflexivity. Qed.
Lemma sx_height : height_is 3 (build Euclidean std_example it_int 9 sx_sp (max_leaf_size 1) bounds_from_space midpoint_max_side).
Proof. vm_compute. reflexivity. Qed.

(** * Floating point *)
Definition one_up : double := f64 (2 ^ 52 + 1) (-52).
Definition sz_sp : space double := Space 1 [[f64 1 0]; [one_up]].
Definition sz_box : box double := Box [f64 1 0] [one_up].
Lemma sz_wf : wf_space sz_sp. Proof. apply wf_space_check. reflexivity. Qed.
Lemma sz_good : all_coords (below 53 1024 (1024 - 2)) sz_sp.
Proof. apply below_top. vm_compute. reflexivity. Qed.
Lemma sz_apart : B2R (f64 1 0) <> B2R one_up.
Proof.
  intros E. assert (K : @s_ltb double F64 (f64 1 0) one_up = true) by (vm_compute; reflexivity).
  apply (ltb_R 53 1024 prec_gt_53 prec_lt_1024) in K; [|reflexivity|reflexivity]. rewrite E in K. exact (Rlt_irrefl _ K).
Qed.
Lemma sz_differ : at_most sz_sp 1 (fun p q => forall d, d < 1 -> B2R (nth d p (B754_zero false)) = B2R (nth d q (B754_zero false))).
Proof.
  apply at_most_1. intros i j Hi Hj NE R. specialize (R 0 ltac:(lia)). unfold npts in *. cbn in Hi, Hj.
  pose proof sz_apart as A.
  destruct i as [|[|]], j as [|[|]]; try lia; cbn [nth sp_pts sz_sp] in R; [exact (A R)|exact (A (eq_sym R))].
Qed.
Lemma sz_mid : @s_add double F64 (@s_mul double F64 (@s_sub double F64 one_up (f64 1 0)) (@s_half double F64)) (f64 1 0) = f64 1 0.
Proof. apply B2SF_inj. vm_compute. reflexivity. Qed.
Lemma sz_long : @s_ltb double F64 (@s_lowest double F64) (@s_sub double F64 one_up (f64 1 0)) = true.
Proof. vm_compute. reflexivity. Qed.
Lemma sz_first : @s_ltb double F64 (f64 1 0) (f64 1 0) = false. Proof. vm_compute. reflexivity. Qed.
Lemma sz_second : @s_ltb double F64 one_up (f64 1 0) = false. Proof. vm_compute. reflexivity. Qed.
Lemma sz_side : @box_max_side double F64 sz_box = (Some 0, @s_sub double F64 one_up (f64 1 0)).
Proof.
  unfold box_max_side, sz_box, box_size. cbn [box_min box_max length seq fold_left get nth]. unfold get. cbn [nth].
  rewrite sz_long. reflexivity.
Qed.
Lemma sz_split : @splitter double F64 std_example midpoint_max_side sz_sp [0; 1] sz_box = Ok ([], [0; 1], 0, f64 1 0).
Proof.
  unfold splitter, split_midpoint, split_side. rewrite sz_side. rewrite guard_true by reflexivity. cbn [bind]. cbv zeta.
  unfold sz_box. cbn [box_min]. unfold get. cbn [nth]. rewrite sz_mid.
  unfold std_example. cbn [std_partition partition filter]. cbv zeta beta.
  unfold coord, sp_at, get. cbn [sp_pts sz_sp nth]. cbn [nth]. rewrite sz_first, sz_second. reflexivity.
Qed.
Lemma sz_stuck fuel : forall depth off x, @create_node double F64 Euclidean std_example midpoint_max_side it_int (max_leaf_size 1) sz_sp
  fuel depth off [0; 1] sz_box <> Ok x.
Proof.
  induction fuel as [|fuel IH]; intros depth off x; [discriminate|].
  cbn [create_node]. replace (is_leaf it_int (max_leaf_size 1) depth (length [0; 1])) with false by reflexivity.
  rewrite sz_split. cbn [bind].
  match goal with |- context [@create_node _ _ ?a ?b ?c ?d ?e ?f ?g ?h ?i [] ?j] =>
    destruct (@create_node _ _ a b c d e f g h i [] j) as [[[nl sl] lb]| |] end; cbn [bind]; try discriminate.
  replace (box_set_min sz_box 0 (f64 1 0)) with sz_box by reflexivity.
  match goal with |- context [@create_node _ _ ?a ?b ?c ?d ?e ?f ?g ?h ?i [0; 1] ?j] =>
    pose proof (IH h i) as N; destruct (@create_node _ _ a b c d e f g h i [0; 1] j) as [[[nr sr] rb]| |] eqn:E end; cbn [bind]; try discriminate.
  exfalso. exact (N _ eq_refl).
Qed.
Lemma same_floats (l l' : list double) : map B2SF l = map B2SF l' -> l = l'.
Proof.
  revert l'. induction l as [|x l IH]; intros [|y l'] E; cbn [map] in E; try discriminate; [reflexivity|].
  injection E as E1 E2. apply B2SF_inj in E1. apply IH in E2. subst. reflexivity.
Qed.
Lemma sz_root : @box_from_bounds double F64 sz_sp bounds_from_space = sz_box.
Proof.
  assert (A : map B2SF (box_min (@box_from_bounds double F64 sz_sp bounds_from_space)) = map B2SF (box_min sz_box))
    by (vm_compute; reflexivity).
  assert (B : map B2SF (box_max (@box_from_bounds double F64 sz_sp bounds_from_space)) = map B2SF (box_max sz_box))
    by (vm_compute; reflexivity).
  apply same_floats in A, B. destruct (@box_from_bounds double F64 sz_sp bounds_from_space) as [mn mx].
  cbn [box_min box_max] in A, B. rewrite A, B. reflexivity.
Qed.
Lemma sz_never fuel t : @build double F64 Euclidean std_example it_int fuel sz_sp (max_leaf_size 1) bounds_from_space midpoint_max_side <> Ok t.
Proof.
  intros E. apply build_inv in E as (_ & _ & bx' & E & _). rewrite sz_root in E. exact (sz_stuck _ _ _ _ E).
Qed.

(** Four numbers with spread 7, as floating point numbers below 2^3. *)
Definition sw_sp : space double := Space 1 [[f64 0 0]; [f64 1 0]; [f64 3 0]; [f64 7 0]].
Lemma sw_wf : wf_space sw_sp. Proof. apply wf_space_check. reflexivity. Qed.
Lemma sw_good : all_coords (below 53 1024 3) sw_sp.
Proof. apply below_all; [lia|]. vm_compute. reflexivity. Qed.
Lemma f64_Z z : (Z.abs z < 2 ^ 53)%Z -> B2R (f64 z 0) = IZR z.
Proof. intros H. destruct (f64_R z 0 H ltac:(lia) ltac:(lia)) as [_ E]. rewrite E. cbn [bpow]. apply Rmult_1_r. Qed.
Lemma sw_coord i : i < 4 -> B2R (nth 0 (nth i (sp_pts sw_sp) []) (B754_zero false)) = IZR (nth i [0; 1; 3; 7]%Z 0%Z).
Proof. intros Hi. destruct i as [|[|[|[|]]]]; try lia; cbn [nth sp_pts sw_sp]; apply f64_Z; reflexivity. Qed.
Lemma sw_close : at_most sw_sp 1 (close_float 53 1024 1 1).
Proof.
  apply at_most_1. intros i j Hi Hj NE R. specialize (R 0 ltac:(lia)). unfold npts in *. cbn [length sw_sp sp_pts] in Hi, Hj.
  rewrite !sw_coord in R by auto. rewrite <- minus_IZR, <- abs_IZR in R. apply lt_IZR in R.
  destruct i as [|[|[|[|]]]], j as [|[|[|[|]]]]; try lia; cbn in R; lia.
Qed.
Lemma sw_extent d : d < 1 -> extent_below_float 53 1024 sw_sp bounds_from_space d (1 / 2 * 2 ^ 4)%R.
Proof.
  intros Hd. destruct d; [|lia]. intros p q Hp Hq.
  apply (In_nth _ _ []) in Hp as (i & Hi & <-). apply (In_nth _ _ []) in Hq as (j & Hj & <-).
  cbn [length sw_sp sp_pts] in Hi, Hj.
  replace (1 / 2 * 2 ^ 4)%R with 8%R by (cbn [pow]; field). rewrite !sw_coord by auto. rewrite <- minus_IZR. apply IZR_lt.
  destruct i as [|[|[|[|]]]], j as [|[|[|[|]]]]; try lia; cbn; lia.
Qed.
Lemma sw_delta : (bpow radix2 (3 + 6 - 53) <= 1)%R.
Proof. replace 1%R with (bpow radix2 0) by reflexivity. apply bpow_le. lia. Qed.
Lemma sw_height : height_is 3 (@build double F64 Euclidean std_example it_int 9 sw_sp (max_leaf_size 1) bounds_from_space midpoint_max_side).
Proof. vm_compute. reflexivity. Qed.

(** Checked statements about these cases, on floating point numbers: different points do
    not suffice for the midpoint rule. *)
Lemma c144_float_refutation :
  ~ (forall sp : space double, wf_space sp -> sp_pts sp <> [] -> all_coords (below 53 1024 (1024 - 2)) sp ->
     forall (alg : std_algos) (m : Z), std_laws alg -> (0 < m <= it_max it_int)%Z ->
     (Z.of_nat (npts sp) <= it_max it_int)%Z ->
     at_most sp (Z.to_nat m) (fun p q => forall d, d < sp_sdim sp ->
       B2R (nth d p (B754_zero false)) = B2R (nth d q (B754_zero false))) ->
     exists fuel t, @build double F64 Euclidean alg it_int fuel sp (max_leaf_size m) bounds_from_space
       midpoint_max_side = Ok t).
Proof.
  intros H.
  destruct (H sz_sp sz_wf ltac:(discriminate) sz_good std_example 1%Z std_example_laws ltac:(vm_compute; split; congruence)
    ltac:(vm_compute; discriminate) sz_differ) as (fuel & t & E).
  exact (sz_never fuel t E).
Qed.
