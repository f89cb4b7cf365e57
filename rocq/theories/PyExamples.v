(** Concrete data for the examples about the Python bindings. *)
From Coq Require Import List ZArith QArith Bool Arith Lia.
From Verif Require Import Base ModelBox ModelBuild ModelSearch ModelSerial ModelPython Spec SpecPython Instances Lemmas Examples.
Import ListNotations.
Local Open Scope nat_scope.

(** A new C-order array holding the points of [sp] as rows. *)
Definition c_array {T} (sp : space T) : ndarray T :=
  NdArray (concat (sp_pts sp)) 0 [length (sp_pts sp); sp_sdim sp] (c_strides [length (sp_pts sp); sp_sdim sp]) true DtFloat64.

Lemma concat_nth {T} (l : list (list T)) d i j : Forall (fun p => length p = d) l -> i < length l -> j < d ->
  nth_error (concat l) (i * d + j) = nth_error (nth i l []) j.
Proof.
  intros F. revert i. induction F as [|p l Hp F IH]; intros i Hi Hj; cbn [length] in Hi; [lia|].
  cbn [concat]. destruct i as [|i]; cbn [nth].
  - rewrite nth_error_app1 by lia. reflexivity.
  - rewrite nth_error_app2 by (cbn; lia). rewrite Hp. replace (S i * d + j - d) with (i * d + j) by (cbn; lia).
    apply IH; lia.
Qed.
Lemma concat_len {T} (l : list (list T)) d : Forall (fun p => length p = d) l -> length (concat l) = length l * d.
Proof. induction 1; cbn [concat length]; [reflexivity|]. rewrite app_length. lia. Qed.

Lemma c_array_get {T} (sp : space T) i j : nd_get (c_array sp) [i; j] = nth_error (concat (sp_pts sp)) (i * sp_sdim sp + j).
Proof.
  unfold nd_get. assert (nd_addr (c_array sp) [i; j] = Z.of_nat (i * sp_sdim sp + j)) as ->.
  { unfold nd_addr, c_array. cbn [nd_off nd_strides c_strides fold_right map combine fst snd]. lia. }
  destruct (Z.ltb_spec (Z.of_nat (i * sp_sdim sp + j)) 0); [lia|]. rewrite Nat2Z.id. reflexivity.
Qed.

Lemma c_array_row {T} (sp : space T) : is_row_major (c_array sp) = true.
Proof.
  unfold is_row_major, c_array, nd_empty. cbn [nd_shape nd_strides c_strides existsb combine rev app contiguous_from fold_right].
  set (n := length (sp_pts sp)). set (d := sp_sdim sp).
  destruct (0 =? n); [reflexivity|]. destruct (0 =? d); [reflexivity|]. cbn [orb].
  rewrite Nat.mul_1_r. cbn [Z.of_nat Pos.of_succ_nat].
  destruct (Nat.eqb_spec d 1) as [->|]; destruct (n =? 1); cbn [Z.eqb Pos.eqb andb]; try reflexivity.
  all: replace (1 * Z.of_nat d)%Z with (Z.of_nat d) by lia; rewrite Z.eqb_refl; reflexivity.
Qed.

Lemma c_array_points {T} (sp : space T) : Forall (fun p => length p = sp_sdim sp) (sp_pts sp) ->
  points_array (c_array sp) sp.
Proof.
  intros F. assert (G : forall i j, i < length (sp_pts sp) -> j < sp_sdim sp ->
    nd_get (c_array sp) [i; j] = nth_error (nth i (sp_pts sp) []) j).
  { intros i j Hi Hj. rewrite c_array_get. apply concat_nth; auto. }
  constructor.
  - split; [reflexivity|]. split; [cbn; lia|]. intros idx H. cbn [c_array nd_shape] in H.
    inversion H as [|i ? ? ? Hi H1]; subst. inversion H1 as [|j ? ? ? Hj H2]; subst. inversion H2; subst.
    rewrite G by auto. destruct (nth_error (nth i (sp_pts sp) []) j) eqn:E; [eauto|].
    apply nth_error_None in E. rewrite Forall_forall in F. rewrite (F (nth i (sp_pts sp) [])) in E; [lia|apply nth_In; auto].
  - unfold is_contiguous. rewrite c_array_row. reflexivity.
  - exists (length (sp_pts sp)), (sp_sdim sp). split; [reflexivity|]. split; [auto|]. rewrite c_array_row.
    split; [auto|]. split; [auto|]. intros i j Hi Hj. symmetry. auto.
Qed.

(** The seven points of [ex_sp] and two queries. *)
Definition py_pts : ndarray Q := c_array ex_sp.
Definition py_qs : space Q := Space 2 [[1; 1]; [6; 4]]%Q.
Definition py_queries : ndarray Q := c_array py_qs.

Lemma py_tree_args : tree_args py_pts ex_sp 1.
Proof.
  constructor; try (cbn; lia); try (right; reflexivity); try discriminate.
  apply c_array_points. apply ex_wf.
Qed.
Lemma py_query_args : query_args py_pts ex_sp py_queries py_qs.
Proof. constructor; try reflexivity. apply c_array_points. repeat constructor. Qed.

(** The queries as columns: an array of shape (2, 2) in F order. *)
Definition py_queries_f : ndarray Q := NdArray (concat (sp_pts py_qs)) 0 [2; 2] [1; 2]%Z true DtFloat64.

(** [n] iterations take turns [N] times. *)
Definition rounds (n N : nat) : list nat := concat (repeat (seq 0 n) N).
