(** Proofs of the statements of PropCoverInv. *)
From Coq Require Import List ZArith QArith Qround Qreals Reals Bool Arith Lia Lra.
From Flocq Require Import Core.Core IEEE754.BinarySingleNaN.
From Verif Require Import Base ModelBox ModelBuild ModelSearch Spec ModelCover SpecCover SpecCoverInv SpecReal Instances
  Floats Examples CoverEx CoverReal CoverTop CoverInvTop CoverInvEx.
Import ListNotations.

Lemma c135 (T : Type) (S : Scalar T) (ok : T -> Prop) : ord_laws S ok ->
  forall (cm : cmath T) (alg : std_algos) (shuffle : list nat -> list nat),
  std_laws alg -> shuffles shuffle ->
  forall (m : metric T) (fuel : nat) (sp : space T) (base : T) (t : cover_tree T),
  (forall i j, i < npts sp -> j < npts sp ->
     ok (between m sp i j) /\ s_leb (between m sp i j) (between m sp j i) = true)%nat ->
  (forall l, ok (c_pow cm base l)) ->
  cover_tree_make cm alg shuffle m fuel sp base = Ok t ->
  forall p : cover_node T, node_of p (ct_root t) ->
    (forall c, In c (cn_children p) ->
       cn_level c = s_sub (cn_level p) s_one \/ cn_level p = s_add (cn_level c) s_one)
    /\ (forall c c', In c (cn_children p) -> In c' (cn_children p) -> cn_index c <> cn_index c' ->
       s_ltb (c_pow cm base (s_sub (cn_level p) s_one)) (between m sp (cn_index c) (cn_index c')) = true).
Proof.
  intros OL cm alg sh SL SH m fuel sp base t HD HP HM p HN.
  apply (cover_local cm alg sh SL SH m fuel sp base t HM ok OL); auto; intros; apply HD; auto.
Qed.

Lemma c135_floats (prec emax : Z) (Hp : Prec_gt_0 prec) (He : Prec_lt_emax prec emax) :
  let F := binary_float prec emax in let S := Float_scalar prec emax Hp He in
  forall (cm : cmath F) (alg : std_algos) (shuffle : list nat -> list nat),
  std_laws alg -> shuffles shuffle ->
  forall (m : metric F) (fuel : nat) (sp : space F) (base : F) (t : cover_tree F),
  (forall i j, i < npts sp -> j < npts sp ->
     is_nan (between m sp i j) = false /\ s_leb (between m sp i j) (between m sp j i) = true)%nat ->
  (forall l, is_nan (c_pow cm base l) = false) ->
  cover_tree_make cm alg shuffle m fuel sp base = Ok t ->
  forall p : cover_node F, node_of p (ct_root t) ->
    (forall c, In c (cn_children p) ->
       cn_level c = s_sub (cn_level p) s_one \/ cn_level p = s_add (cn_level c) s_one)
    /\ (forall c c', In c (cn_children p) -> In c' (cn_children p) -> cn_index c <> cn_index c' ->
       s_ltb (c_pow cm base (s_sub (cn_level p) s_one)) (between m sp (cn_index c) (cn_index c')) = true).
Proof.
  intros F S. exact (c135 F S (fun x => is_nan x = false) (float_ord_nan prec emax Hp He)).
Qed.

Lemma two_inner : node_of (CoverNode 3 3 1 [CoverNode 2 0 2 []; CoverNode 2 (3#2) 5 [CoverNode 1 0 3 []]]) two_root.
Proof. unfold two_root. do 3 (eapply node_below; [left; reflexivity|]). apply node_here. Qed.

Lemma c135_example :
  cover_tree_make (q_levels 2) std_example (fun l => l) metric_l1 60 (line_sp seven) 2
    = Ok (CoverTree (line_sp seven) metric_l1 two_root)
  /\ ord_laws QD (fun _ => True)
  /\ (forall i j, i < 7 -> j < 7 ->
        s_leb (between metric_l1 (line_sp seven) i j) (between metric_l1 (line_sp seven) j i) = true)%nat
  /\ (exists p, node_of p two_root /\ length (cn_children p) = 2%nat).
Proof.
  split; [exact two_make|]. split; [exact QD_ord|]. split.
  - apply (pair_check (fun i j => s_leb (between metric_l1 (line_sp seven) i j) (between metric_l1 (line_sp seven) j i)) 7).
    vm_compute. reflexivity.
  - eexists. split; [exact two_inner|reflexivity].
Qed.

Fixpoint has_pair {T} (n : cover_node T) : bool :=
  match n with CoverNode _ _ _ cs => (length cs =? 2)%nat || existsb has_pair cs end.
Lemma has_pair_ok {T} : forall n : cover_node T, has_pair n = true -> exists p, node_of p n /\ length (cn_children p) = 2%nat.
Proof.
  fix IH 1. intros [l md i cs] H. cbn [has_pair] in H. apply orb_true_iff in H as [H|H].
  - exists (CoverNode l md i cs). split; [constructor|]. apply Nat.eqb_eq in H. exact H.
  - assert (E : exists c, In c cs /\ exists p, node_of p c /\ length (cn_children p) = 2%nat).
    { induction cs as [|c cs IHc]; cbn in H; [discriminate|]. apply orb_true_iff in H as [H|H].
      - exists c. split; [left; auto|]. apply IH. auto.
      - destruct (IHc H) as (c0 & Hc & K). exists c0. split; [right; auto|auto]. }
    destruct E as (c & Hc & p & Hp & K). exists p. split; auto. eapply node_below; eauto.
Qed.

Lemma c135_floats_example :
  @cover_tree_make _ F64 f_levels std_example (fun l => l) (@metric_l1 _ F64) 60 f_seven (f64 2 0)
    = Ok (CoverTree f_seven (@metric_l1 _ F64) f_root)
  /\ (forall i j, i < npts f_seven -> j < npts f_seven ->
        is_nan (between (@metric_l1 _ F64) f_seven i j) = false
        /\ @s_leb _ F64 (between (@metric_l1 _ F64) f_seven i j) (between (@metric_l1 _ F64) f_seven j i) = true)%nat
  /\ (forall l, is_nan (c_pow f_levels (f64 2 0) l) = false)
  /\ (exists p, node_of p f_root /\ length (cn_children p) = 2%nat).
Proof.
  split; [exact f_seven_make|]. split; [exact f_seven_ok|]. split.
  - intros l. cbn [f_levels c_pow]. rewrite is_nan_Bldexp. reflexivity.
  - apply has_pair_ok. vm_compute. reflexivity.
Qed.

Lemma c136 (T : Type) (S : Scalar T) (val : T -> R) : real_ops S val ->
  forall (cm : cmath T) (alg : std_algos) (shuffle : list nat -> list nat),
  std_laws alg -> shuffles shuffle ->
  forall (m : metric T) (fuel : nat) (sp : space T) (base : T) (P : R -> R) (t : cover_tree T),
  is_metric val m sp -> powers val cm base P -> (2 <= val base)%R ->
  cover_tree_make cm alg shuffle m fuel sp base = Ok t ->
  forall p : cover_node T, node_of p (ct_root t) ->
    (forall c, In c (cn_children p) -> val (cn_level c) = (val (cn_level p) - 1)%R)
    /\ (forall y, In y (stored p) -> (val (between m sp (cn_index p) y) <= val (c_pow cm base (cn_level p)))%R)
    /\ (val (cn_max_distance p) <= val (c_pow cm base (cn_level p)))%R.
Proof.
  intros RO cm alg sh SL SH m fuel sp base P t ME PW B2 HM p HN.
  destruct (cover_strong cm alg sh SL SH m fuel sp base t HM val P RO PW ME B2 p HN) as (A & _ & B & C & _).
  rewrite (pw_pow _ _ _ _ PW). auto.
Qed.
Lemma c137 (T : Type) (S : Scalar T) (val : T -> R) : real_ops S val ->
  forall (cm : cmath T) (alg : std_algos) (shuffle : list nat -> list nat),
  std_laws alg -> shuffles shuffle ->
  forall (m : metric T) (fuel : nat) (sp : space T) (base : T) (P : R -> R) (t : cover_tree T),
  is_metric val m sp -> powers val cm base P -> (2 <= val base)%R ->
  cover_tree_make cm alg shuffle m fuel sp base = Ok t ->
  forall p : cover_node T, node_of p (ct_root t) ->
  forall c c' y, In c (cn_children p) -> In c' (cn_children p) -> In y (stored c) ->
    (val (between m sp (cn_index c) y) <= val (between m sp (cn_index c') y))%R.
Proof.
  intros RO cm alg sh SL SH m fuel sp base P t ME PW B2 HM p HN.
  destruct (cover_strong cm alg sh SL SH m fuel sp base t HM val P RO PW ME B2 p HN) as (_ & _ & _ & _ & A). exact A.
Qed.

Lemma c136_euclidean (mx : R) (cm : cmath R) :
  (forall b x, c_pow cm b x = Rpower b x) -> (forall x, (0 < x)%R -> c_log cm x = ln x) ->
  (forall x, (c_floor cm x <= x < c_floor cm x + 1)%R) -> (forall x, (x <= c_ceil cm x < x + 1)%R) ->
  (forall x, (0 <= x)%R -> c_sqrt cm x = sqrt x) ->
  forall (alg : std_algos) (shuffle : list nat -> list nat), std_laws alg -> shuffles shuffle ->
  forall (fuel : nat) (sp : space R) (base : R) (t : cover_tree R),
  wf_space sp -> (2 <= base)%R ->
  @cover_tree_make R (R_scalar mx) cm alg shuffle (@metric_l2 R (R_scalar mx) cm) fuel sp base = Ok t ->
  forall p : cover_node R, node_of p (ct_root t) ->
    (forall c c', In c (cn_children p) -> In c' (cn_children p) -> cn_index c <> cn_index c' ->
       (Rpower base (cn_level p - 1) < euclid (nth (cn_index c) (sp_pts sp) []) (nth (cn_index c') (sp_pts sp) []))%R)
    /\ (forall y, In y (stored p) ->
       (euclid (nth (cn_index p) (sp_pts sp) []) (nth y (sp_pts sp) []) <= Rpower base (cn_level p))%R)
    /\ (forall c c' y, In c (cn_children p) -> In c' (cn_children p) -> In y (stored c) ->
       (euclid (nth (cn_index c) (sp_pts sp) []) (nth y (sp_pts sp) [])
        <= euclid (nth (cn_index c') (sp_pts sp) []) (nth y (sp_pts sp) []))%R).
Proof.
  intros CP CL CF CC CS alg sh SL SH fuel sp base t WF B2 HM p HN.
  assert (B1 : (1 < base)%R) by lra.
  assert (E : forall i j, between (@metric_l2 R (R_scalar mx) cm) sp i j = euclid (nth i (sp_pts sp) []) (nth j (sp_pts sp) [])).
  { intros i j. unfold between. apply (l2_dist mx cm CS). }
  destruct (cover_strong (S := R_scalar mx) cm alg sh SL SH _ fuel sp base t HM (fun x => x) (Rpower base) (R_real_ops mx)
    (R_powers mx cm base B1 (CP base) CL CF CC) (euclid_metric mx cm sp CS WF) B2 p HN) as (_ & A & B & _ & C).
  split; [|split].
  - intros c c' Hc Hc' N. rewrite <- E. auto.
  - intros y Hy. rewrite <- E. auto.
  - intros c c' y Hc Hc' Hy. rewrite <- !E. auto.
Qed.

Lemma two_le : (2 <= Q2R 2)%R.
Proof. unfold Q2R. cbn. lra. Qed.
Lemma c136_example :
  real_ops QD Q2R /\ powers Q2R (q_levels 2) 2 (q_power 2) /\ is_metric Q2R metric_l1 (line_sp seven)
  /\ (2 <= Q2R 2)%R
  /\ cover_tree_make (q_levels 2) std_example (fun l => l) metric_l1 60 (line_sp seven) 2
     = Ok (CoverTree (line_sp seven) metric_l1 two_root)
  /\ length (stored two_root) = 7%nat.
Proof.
  split; [exact QD_real_ops|]. split; [exact two_powers|]. split; [exact seven_metric|]. split; [exact two_le|].
  split; [exact two_make|reflexivity].
Qed.
Lemma c137_example :
  cover_tree_make (q_levels 2) std_example (fun l => l) metric_l1 60 (line_sp seven) 2
    = Ok (CoverTree (line_sp seven) metric_l1 two_root)
  /\ exists p c c', node_of p two_root /\ cn_children p = [c; c'] /\ stored c' = [5; 3]%nat
     /\ real_ops QD Q2R /\ powers Q2R (q_levels 2) 2 (q_power 2) /\ is_metric Q2R metric_l1 (line_sp seven).
Proof.
  split; [exact two_make|]. do 3 eexists. split; [exact two_inner|]. split; [reflexivity|]. split; [reflexivity|].
  split; [exact QD_real_ops|]. split; [exact two_powers|]. exact seven_metric.
Qed.

Lemma low_inner : node_of (CoverNode 11 (41#2) 3
      [CoverNode 10 20 4 [CoverNode 9 10 0 [CoverNode 8 3 1 [CoverNode 7 0 2 []]]];
       CoverNode 10 0 6 []]) low_root.
Proof. unfold low_root. eapply node_below; [left; reflexivity|]. apply node_here. Qed.
Lemma low_gt : (1 < Q2R (13#10))%R.
Proof. unfold Q2R. cbn. lra. Qed.

Lemma c136_refutation : ~ (forall (T : Type) (S : Scalar T) (val : T -> R), real_ops S val ->
  forall (cm : cmath T) (alg : std_algos) (shuffle : list nat -> list nat),
  std_laws alg -> shuffles shuffle ->
  forall (m : metric T) (fuel : nat) (sp : space T) (base : T) (P : R -> R) (t : cover_tree T),
  is_metric val m sp -> powers val cm base P -> (1 < val base)%R ->
  cover_tree_make cm alg shuffle m fuel sp base = Ok t ->
  forall p : cover_node T, node_of p (ct_root t) ->
  forall y, In y (stored p) -> (val (between m sp (cn_index p) y) <= val (c_pow cm base (cn_level p)))%R).
Proof.
  intros H.
  pose proof (H Q QD Q2R QD_real_ops _ _ _ std_example_laws id_shuffles _ _ _ _ _ _ seven_metric low_powers low_gt low_make
    _ low_inner 4%nat ltac:(cbn; auto)) as A.
  apply Rle_Qle in A. apply Qle_bool_iff in A. vm_compute in A. discriminate A.
Qed.
Lemma c137_refutation : ~ (forall (T : Type) (S : Scalar T) (val : T -> R), real_ops S val ->
  forall (cm : cmath T) (alg : std_algos) (shuffle : list nat -> list nat),
  std_laws alg -> shuffles shuffle ->
  forall (m : metric T) (fuel : nat) (sp : space T) (base : T) (P : R -> R) (t : cover_tree T),
  is_metric val m sp -> powers val cm base P -> (1 < val base)%R ->
  cover_tree_make cm alg shuffle m fuel sp base = Ok t ->
  forall p : cover_node T, node_of p (ct_root t) ->
  forall c c' y, In c (cn_children p) -> In c' (cn_children p) -> In y (stored c) ->
    (val (between m sp (cn_index c) y) <= val (between m sp (cn_index c') y))%R).
Proof.
  intros H.
  pose proof (H Q QD Q2R QD_real_ops _ _ _ std_example_laws id_shuffles _ _ _ _ _ _ seven_metric low_powers low_gt low_make
    _ low_inner (CoverNode 10 20 4 [CoverNode 9 10 0 [CoverNode 8 3 1 [CoverNode 7 0 2 []]]]) (CoverNode 10 0 6 []) 1%nat
    ltac:(cbn; auto) ltac:(cbn; auto) ltac:(cbn; auto)) as A.
  apply Rle_Qle in A. apply Qle_bool_iff in A. vm_compute in A. discriminate A.
Qed.
Lemma c136_euclidean_example :
  exists cm : cmath R,
  (forall b x, c_pow cm b x = Rpower b x) /\ (forall x, (0 < x)%R -> c_log cm x = ln x)
  /\ (forall x, (c_floor cm x <= x < c_floor cm x + 1)%R) /\ (forall x, (x <= c_ceil cm x < x + 1)%R)
  /\ (forall x, (0 <= x)%R -> c_sqrt cm x = sqrt x)
  /\ exists (sp : space R) fuel t, wf_space sp /\ npts sp = 3%nat
     /\ @cover_tree_make R (R_scalar 1000) cm std_example (@rev nat) (@metric_l2 R (R_scalar 1000) cm) fuel sp 2%R = Ok t.
Proof.
  exists (CMath Rpower ln (fun x => IZR (- Int_part (- x))) (fun x => IZR (Int_part x)) sqrt).
  cbn [c_pow c_log c_floor c_ceil c_sqrt]. split; [reflexivity|]. split; [reflexivity|].
  split; [intros x; apply Int_part_bounds|].
  split; [intros x; pose proof (Int_part_bounds (- x)) as H; rewrite opp_IZR; lra|]. split; [reflexivity|].
  exists (Space 2 [[0; 0]; [3; 4]; [6; 8]]%R).
  destruct euclid_example as (_ & (f & t & E) & W & _). exists f, t. split; [exact W|]. split; [reflexivity|exact E].
Qed.
