(** Concrete data for the examples that accompany the theorems. *)
From Coq Require Import List ZArith QArith Qabs Bool Arith Permutation Lia Lqa.
From Verif Require Import Base ModelBox ModelBuild ModelSearch Spec Instances SearchProofs BuildOrder BuildThms.
Import ListNotations.
Local Open Scope Q_scope.

(** Rationals with the range of double. *)
#[export] Instance QD : Scalar Q := Q_scalar dbl_max.
Definition qv (x : Q) : Q := x.

Lemma QD_exact : exact_laws QD qv.
Proof. apply (Q_exact dbl_max). vm_compute. discriminate. Qed.
Lemma QD_field : field_laws QD qv.
Proof. apply (Q_field dbl_max). Qed.
Lemma QD_ord : ord_laws QD (fun _ => True).
Proof. exact (exact_ord qv QD_exact). Qed.
Lemma QD_mid : mid_ok QD (fun _ => True).
Proof. unfold mid_ok. auto. Qed.
Lemma QD_range : range_laws QD (no_overflow qv).
Proof. exact (exact_range qv QD_exact). Qed.

(** 32-bit integers, as long as nothing overflows. *)
Definition Z32 : Scalar Z := Z_scalar 32.
Lemma Z32_exact : exact_laws Z32 inject_Z.
Proof. apply Z_exact. lia. Qed.

(** Seven points in the plane, two of them equal. *)
Definition ex_sp : space Q :=
  Space 2 [[0; 0]; [1; 3]; [4; 1]; [2; 2]; [2; 2]; [5; 5]; [7; 0]].

Lemma ex_wf : wf_space ex_sp.
Proof. split; [cbn; lia|repeat constructor]. Qed.
Lemma ex_ok : all_coords (fun _ => True) ex_sp.
Proof. repeat constructor. Qed.
Lemma ex_rep : all_coords (representable qv) ex_sp.
Proof. repeat (constructor; [repeat (constructor; [split; vm_compute; discriminate|]); constructor|]); constructor. Qed.
Lemma ex_good : all_coords (no_overflow qv) ex_sp.
Proof.
  repeat (constructor; [repeat (constructor; [split; [split; vm_compute; discriminate|vm_compute; reflexivity]|]); constructor|]);
    constructor.
Qed.

(** Four angles, two of them close to the seam of the circle. *)
Definition ex_so2 : space Q := Space 1 [[1 # 20]; [3 # 10]; [1 # 2]; [19 # 20]; [1]].
Lemma ex_so2_wf : wf_space ex_so2.
Proof. split; [cbn; lia|repeat constructor]. Qed.

Lemma ex_so2_rep : all_coords (representable qv) ex_so2.
Proof. repeat (constructor; [repeat (constructor; [split; vm_compute; discriminate|]); constructor|]); constructor. Qed.

(** Poses of SE(2). *)
Definition ex_se2 : space Q :=
  Space 3 [[0; 0; 1 # 10]; [1; 2; 9 # 10]; [1; 2; 1 # 2]; [3; 1; 1]; [2; 2; 0]].
Lemma ex_se2_wf : wf_space ex_se2.
Proof. split; [cbn; lia|repeat constructor]. Qed.

Lemma ex_usable_l2 q : length q = 2%nat -> usable qv L2Squared ex_sp bounds_from_space q.
Proof.
  intros. constructor; auto using ex_wf, ex_rep; try exact I.
  repeat constructor.
Qed.
Lemma ex_usable_l1 q : length q = 2%nat -> usable qv L1 ex_sp bounds_from_space q.
Proof.
  intros. constructor; auto using ex_wf, ex_rep; try exact I.
  repeat constructor.
Qed.
Lemma ex_usable_so2 x : 0 <= x <= 1 -> usable qv SO2 ex_so2 bounds_from_space [x].
Proof.
  intros. constructor; auto using ex_so2_wf; try exact I.
  - repeat (constructor; [repeat (constructor; [split; vm_compute; discriminate|]); constructor|]); constructor.
  - repeat (constructor; [split; [reflexivity|split; vm_compute; discriminate]|]); constructor.
  - split; [reflexivity|exact H].
Qed.
Lemma ex_usable_se2 x y z : 0 <= z <= 1 -> usable qv SE2Squared ex_se2 bounds_from_space [x; y; z].
Proof.
  intros. constructor; auto using ex_se2_wf; try exact I.
  - repeat (constructor; [repeat (constructor; [split; vm_compute; discriminate|]); constructor|]); constructor.
  - repeat (constructor; [split; [reflexivity|split; vm_compute; discriminate]|]); constructor.
  - split; [reflexivity|exact H].
Qed.

(** For the seven points, every distance to a given query is small enough. *)
Lemma fit_by_cases em (sp : space Q) q :
  forallb (fun i => negb (Qle_bool dbl_max (dist_to qv em sp q i))) (seq 0 (npts sp)) = true ->
  distances_fit qv em sp q.
Proof.
  intros H i Hi. rewrite forallb_forall in H. specialize (H i).
  apply negb_Qle_bool_lt. apply H. apply in_seq. split; [apply Nat.le_0_l|exact Hi].
Qed.

(** The tree made from given data; keeps the metric out of computations. *)
Lemma make_ok {T} {S : Scalar T} alg it m fuel (sp : space T) stop bnds ru data :
  build (m_cat m) alg it fuel sp stop bnds ru = Ok data ->
  kd_tree_make alg it m fuel sp stop bnds ru = Ok (KdTree sp m data).
Proof. intros E. unfold kd_tree_make. rewrite E. reflexivity. Qed.

(** 32-bit integer points. *)
Definition int_fit (z : Z) : Prop := (- 2 ^ 31 <= z < 2 ^ 31)%Z.
Lemma Z32_ord : ord_laws Z32 int_fit.
Proof.
  pose proof (exact_ord inject_Z Z32_exact) as O. constructor; intros.
  - apply (ol_lt _ _ O); auto.
  - apply (ol_total _ _ O); auto.
  - apply (ol_trans _ _ O) with y; auto.
  - split; vm_compute; [discriminate|reflexivity].
  - split; vm_compute; [discriminate|reflexivity].
Qed.
Definition ex_int : space Z := Space 2 [[0; 0]; [1; -3]; [4; 1]; [2; 2]; [2; 2]; [5; 5]; [7; 0]]%Z.
Lemma ex_int_wf : wf_space ex_int.
Proof. split; [cbn; lia|repeat constructor]. Qed.
Lemma ex_int_fit : all_coords int_fit ex_int.
Proof. repeat (constructor; [repeat (constructor; [split; vm_compute; congruence|]); constructor|]); constructor. Qed.
