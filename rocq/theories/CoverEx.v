(** Counterexamples and concrete data for cover trees. *)
From Coq Require Import List ZArith QArith Qround Bool Arith Permutation Lia Lqa.
From Flocq Require Import IEEE754.BinarySingleNaN.
From Verif Require Import Base ModelBox ModelBuild ModelSearch Spec ModelCover SpecCover Lemmas Instances
  Examples Floats CoverThms.
Import ListNotations.
Local Open Scope nat_scope.

(** * A level that adding one does not change *)
Section Stuck.
Context {T : Type} {S : Scalar T}.
Lemma raise_root_stuck (level : T) : forall fuel (t : cover_node T), cn_is_leaf t = false ->
  s_add (cn_level t) s_one = cn_level t -> s_ltb (cn_level t) level = true ->
  raise_root fuel t level = OutOfFuel.
Proof.
  induction fuel as [|fuel IH]; intros t HL HA HB; cbn [raise_root]; auto.
  rewrite HB.
  destruct (remove_leaf_spec t HL) as (t' & leaf & E1 & H1 & H2 & H3). rewrite E1. cbn [bind].
  destruct (node_to_parent_spec leaf t' H1) as (t2 & E2 & H4 & H5 & H6). rewrite E2. cbn [bind].
  apply IH; auto; rewrite H6, H3, HA; auto.
Qed.
End Stuck.

Notation double := (binary_float 53 1024).
Definition minus_inf : double := B754_infinity true.
Definition plus_zero : double := B754_zero false.

(** Values that the C library guarantees (C11 Annex F), with the natural
    logarithm of two a positive finite number. *)
Record libm (cm : cmath double) : Prop := {
  lm_log_zero : c_log cm plus_zero = minus_inf;
  lm_log_one : c_log cm (f64 1 0) = plus_zero;
  lm_log_two : exists mm e, c_log cm (f64 2 0) = f64 mm e /\ is_finite (f64 mm e) = true
                 /\ Bsign (f64 mm e) = false /\ is_finite_strict (f64 mm e) = true;
  lm_ceil : c_ceil cm minus_inf = minus_inf;
  lm_floor : c_floor cm plus_zero = plus_zero;
  lm_pow : c_pow cm (f64 2 0) minus_inf = plus_zero;
  lm_sqrt_zero : c_sqrt cm plus_zero = plus_zero;
  lm_sqrt_one : c_sqrt cm (f64 1 0) = f64 1 0
}.

(** The first two points coincide. *)
Definition cx_sp : space double := Space 1 [[plus_zero]; [plus_zero]; [f64 1 0]].

Lemma div_inf (x : double) : is_finite_strict x = true -> Bsign x = false ->
  s_div (Scalar := F64) minus_inf x = minus_inf.
Proof. destruct x as [[]|[]| |[] ? ? ?]; cbn; intros; try discriminate; reflexivity. Qed.
Lemma div_zero (x : double) : is_finite_strict x = true -> Bsign x = false ->
  s_div (Scalar := F64) plus_zero x = plus_zero.
Proof. destruct x as [[]|[]| |[] ? ? ?]; cbn; intros; try discriminate; reflexivity. Qed.

Lemma cx_diverges cm alg fuel : libm cm ->
  cover_tree_make (S := F64) cm alg (fun l => l) (metric_l2 (S := F64) cm) fuel cx_sp (f64 2 0) = OutOfFuel.
Proof.
  intros [L0 L1 (mm & e & L2 & _ & L2s & L2f) LC LF LP LS0 LS1].
  assert (D0 : m_dist (metric_l2 (S := F64) cm) [plus_zero] [plus_zero] = plus_zero).
  { cbn [metric_l2 m_dist]. transitivity (c_sqrt cm plus_zero); [f_equal; apply B2SF_inj; vm_compute; reflexivity|exact LS0]. }
  assert (D1 : m_dist (metric_l2 (S := F64) cm) [f64 1 0] [plus_zero] = f64 1 0).
  { cbn [metric_l2 m_dist]. transitivity (c_sqrt cm (f64 1 0)); [f_equal; apply B2SF_inj; vm_compute; reflexivity|exact LS1]. }
  assert (BL : c_ceil cm (base_level (S := F64) cm (f64 2 0) plus_zero) = minus_inf).
  { unfold base_level. rewrite L0, L2, div_inf by auto. exact LC. }
  assert (BF : c_floor cm (base_level (S := F64) cm (f64 2 0) (s_add (Scalar := F64) plus_zero (f64 1 0))) = plus_zero).
  { unfold base_level. replace (s_add (Scalar := F64) plus_zero (f64 1 0)) with (f64 1 0) by (apply B2SF_inj; vm_compute; reflexivity).
    rewrite L1, L2, div_zero by auto. exact LF. }
  unfold cover_tree_make. change (seq 0 (sp_size cx_sp)) with [0; 1; 2].
  assert (F : insert_first_two (S := F64) cm (metric_l2 (S := F64) cm) cx_sp (f64 2 0) [0; 1; 2]
    = Ok (CoverNode minus_inf plus_zero 0 [CoverNode (s_sub (Scalar := F64) minus_inf (s_one (Scalar := F64))) plus_zero 1 []], 2)).
  { unfold insert_first_two.
    change (at_ [0; 1; 2] 0) with (Ok 0). change (at_ [0; 1; 2] 1) with (Ok 1).
    change (cover_create_node (S := F64) cx_sp (sp_size cx_sp) 0 0) with (Ok (CoverNode plus_zero plus_zero 0 [], 1)).
    cbn [bind]. change (sp_size cx_sp =? 1) with false.
    change (cover_create_node (S := F64) cx_sp (sp_size cx_sp) 1 1) with (Ok (CoverNode plus_zero plus_zero 1 [], 2)).
    cbn [bind]. change (sp_at cx_sp 0) with [plus_zero]. change (sp_at cx_sp 1) with [plus_zero].
    rewrite D0, BL. reflexivity. }
  unfold build_cover_tree. rewrite F. change (guard (0 <? sp_size cx_sp) UbAssert) with (Ok tt).
  cbn [bind skipn fold_res].
  change (cover_create_node (S := F64) cx_sp (sp_size cx_sp) 2 2) with (Ok (CoverNode plus_zero plus_zero 2 [], 3)).
  cbn [bind]. unfold cover_insert, cn_dist, cover_distance. cbn [cn_index cn_level].
  change (sp_at cx_sp 2) with [f64 1 0]. change (sp_at cx_sp 0) with [plus_zero].
  rewrite D1, LP. replace (s_ltb (Scalar := F64) plus_zero (f64 1 0)) with true by (vm_compute; reflexivity).
  rewrite BF. rewrite raise_root_stuck; [reflexivity|reflexivity| |].
  - cbn [cn_level]. apply B2SF_inj. vm_compute. reflexivity.
  - cbn [cn_level]. vm_compute. reflexivity.
Qed.

(** Functions with these values exist. *)
Definition cx_libm : cmath double := CMath
  (fun _ y => if Beqb y minus_inf then plus_zero else f64 1 0)
  (fun x => if Beqb x plus_zero then minus_inf else if Beqb x (f64 1 0) then plus_zero
            else f64 6243314768165359 (-53))
  (fun x => x)
  (fun x => x)
  (fun x => x).
Lemma cx_libm_ok : libm cx_libm.
Proof.
  constructor; try (apply B2SF_inj; vm_compute; reflexivity).
  exists 6243314768165359%Z, (-53)%Z.
  split; [apply B2SF_inj|split; [|split]]; vm_compute; reflexivity.
Qed.

(** * Rational numbers: powers and logarithms of two, rounded down *)
Local Open Scope Q_scope.
Definition q_math : cmath Q := CMath
  (fun b x => Qpower b (Qfloor x))
  (fun x => inject_Z (Z.log2 (Qfloor x)))
  (fun x => inject_Z (Qceiling x))
  (fun x => inject_Z (Qfloor x))
  (fun x => x).

Lemma id_shuffles : shuffles (fun l => l).
Proof. intros l. reflexivity. Qed.
Lemma rev_shuffles : shuffles (@rev nat).
Proof. intros l. symmetry. apply Permutation_rev. Qed.

Lemma make_cover_ok {T} {S : Scalar T} cm alg sh m fuel (sp : space T) base root :
  build_cover_tree cm alg m sp base fuel (sh (seq 0 (sp_size sp))) = Ok root ->
  cover_tree_make cm alg sh m fuel sp base = Ok (CoverTree sp m root).
Proof. intros E. unfold cover_tree_make. rewrite E. reflexivity. Qed.

(** Three points on a line for which squared distances lead astray. *)
Definition sq_sp : space Q := Space 1 [[18]; [0]; [5]].
