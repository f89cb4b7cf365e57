(** The structure of cover trees. *)
From Coq Require Import List ZArith QArith Qround Qreals Reals Bool Arith.
From Flocq Require Import Core.Core IEEE754.BinarySingleNaN.
From Verif Require Import Base ModelBox ModelBuild ModelSearch Spec ModelCover SpecCover SpecCoverInv SpecReal Instances
  Floats Examples CoverEx CoverReal CoverInvTop CoverInvEx CoverInvProof.
Import ListNotations.

(** ** C135: levels decrease by one and siblings are separated *)
Theorem C135_separated :
  forall (T : Type) (S : Scalar T) (ok : T -> Prop), ord_laws S ok ->
  forall (cm : cmath T) (alg : std_algos) (shuffle : list nat -> list nat),
  std_laws alg -> shuffles shuffle ->
  forall (m : metric T) (fuel : nat) (sp : space T) (base : T) (t : cover_tree T),
  (forall i j, i < npts sp -> j < npts sp ->
     ok (between m sp i j) /\ s_leb (between m sp i j) (between m sp j i) = true)%nat ->
  (forall l, ok (c_pow cm base l)) ->
  cover_tree_make cm alg shuffle m fuel sp base = Ok t ->
  forall p : cover_node T, node_of p (ct_root t) ->
    (forall c, In c (cn_children p) ->
       cn_level c = s_sub (cn_level p) s_one \/ cn_level p = s_add (cn_level c) s_one)
    /\ (forall c c', In c (cn_children p) -> In c' (cn_children p) -> cn_index c <> cn_index c' ->
       s_ltb (c_pow cm base (s_sub (cn_level p) s_one)) (between m sp (cn_index c) (cn_index c')) = true).
Proof. exact c135. Qed.
Print Assumptions C135_separated.

(** Binary floating point numbers, including infinite distances and powers. *)
Theorem C135_floats :
  forall (prec emax : Z) (Hp : Prec_gt_0 prec) (He : Prec_lt_emax prec emax),
  let F := binary_float prec emax in let S := Float_scalar prec emax Hp He in
  forall (cm : cmath F) (alg : std_algos) (shuffle : list nat -> list nat),
  std_laws alg -> shuffles shuffle ->
  forall (m : metric F) (fuel : nat) (sp : space F) (base : F) (t : cover_tree F),
  (forall i j, i < npts sp -> j < npts sp ->
     is_nan (between m sp i j) = false /\ s_leb (between m sp i j) (between m sp j i) = true)%nat ->
  (forall l, is_nan (c_pow cm base l) = false) ->
  cover_tree_make cm alg shuffle m fuel sp base = Ok t ->
  forall p : cover_node F, node_of p (ct_root t) ->
    (forall c, In c (cn_children p) ->
       cn_level c = s_sub (cn_level p) s_one \/ cn_level p = s_add (cn_level c) s_one)
    /\ (forall c c', In c (cn_children p) -> In c' (cn_children p) -> cn_index c <> cn_index c' ->
       s_ltb (c_pow cm base (s_sub (cn_level p) s_one)) (between m sp (cn_index c) (cn_index c')) = true).
Proof. exact c135_floats. Qed.
Print Assumptions C135_floats.

(** Seven points on a line, base 2. *)
Example C135_example :
  cover_tree_make (q_levels 2) std_example (fun l => l) metric_l1 60 (line_sp seven) 2
    = Ok (CoverTree (line_sp seven) metric_l1 two_root)
  /\ ord_laws QD (fun _ => True)
  /\ (forall i j, i < 7 -> j < 7 ->
        s_leb (between metric_l1 (line_sp seven) i j) (between metric_l1 (line_sp seven) j i) = true)%nat
  /\ (exists p, node_of p two_root /\ length (cn_children p) = 2%nat).
Proof. exact c135_example. Qed.

Example C135_floats_example :
  @cover_tree_make _ F64 f_levels std_example (fun l => l) (@metric_l1 _ F64) 60 f_seven (f64 2 0)
    = Ok (CoverTree f_seven (@metric_l1 _ F64) f_root)
  /\ (forall i j, i < npts f_seven -> j < npts f_seven ->
        is_nan (between (@metric_l1 _ F64) f_seven i j) = false
        /\ @s_leb _ F64 (between (@metric_l1 _ F64) f_seven i j) (between (@metric_l1 _ F64) f_seven j i) = true)%nat
  /\ (forall l, is_nan (c_pow f_levels (f64 2 0) l) = false)
  /\ (exists p, node_of p f_root /\ length (cn_children p) = 2%nat).
Proof. exact c135_floats_example. Qed.

(** ** C136: nodes cover what is below them *)
(** The full statement: for every base greater than one. *)
Definition C136_statement : Prop :=
  forall (T : Type) (S : Scalar T) (val : T -> R), real_ops S val ->
  forall (cm : cmath T) (alg : std_algos) (shuffle : list nat -> list nat),
  std_laws alg -> shuffles shuffle ->
  forall (m : metric T) (fuel : nat) (sp : space T) (base : T) (P : R -> R) (t : cover_tree T),
  is_metric val m sp -> powers val cm base P -> (1 < val base)%R ->
  cover_tree_make cm alg shuffle m fuel sp base = Ok t ->
  forall p : cover_node T, node_of p (ct_root t) ->
  forall y, In y (stored p) -> (val (between m sp (cn_index p) y) <= val (c_pow cm base (cn_level p)))%R.

Theorem C136_refuted : ~ C136_statement.
Proof. exact c136_refutation. Qed.
Print Assumptions C136_refuted.

(** What holds: bases of at least two. *)
Theorem C136_covering :
  forall (T : Type) (S : Scalar T) (val : T -> R), real_ops S val ->
  forall (cm : cmath T) (alg : std_algos) (shuffle : list nat -> list nat),
  std_laws alg -> shuffles shuffle ->
  forall (m : metric T) (fuel : nat) (sp : space T) (base : T) (P : R -> R) (t : cover_tree T),
  is_metric val m sp -> powers val cm base P -> (2 <= val base)%R ->
  cover_tree_make cm alg shuffle m fuel sp base = Ok t ->
  forall p : cover_node T, node_of p (ct_root t) ->
    (forall c, In c (cn_children p) -> val (cn_level c) = (val (cn_level p) - 1)%R)
    /\ (forall y, In y (stored p) -> (val (between m sp (cn_index p) y) <= val (c_pow cm base (cn_level p)))%R)
    /\ (val (cn_max_distance p) <= val (c_pow cm base (cn_level p)))%R.
Proof. exact c136. Qed.
Print Assumptions C136_covering.

(** Euclidean distances of points with real coordinates. *)
Theorem C136_euclidean :
  forall (mx : R) (cm : cmath R),
  (forall b x, c_pow cm b x = Rpower b x) -> (forall x, (0 < x)%R -> c_log cm x = ln x) ->
  (forall x, (c_floor cm x <= x < c_floor cm x + 1)%R) -> (forall x, (x <= c_ceil cm x < x + 1)%R) ->
  (forall x, (0 <= x)%R -> c_sqrt cm x = sqrt x) ->
  forall (alg : std_algos) (shuffle : list nat -> list nat), std_laws alg -> shuffles shuffle ->
  forall (fuel : nat) (sp : space R) (base : R) (t : cover_tree R),
  wf_space sp -> (2 <= base)%R ->
  @cover_tree_make R (R_scalar mx) cm alg shuffle (@metric_l2 R (R_scalar mx) cm) fuel sp base = Ok t ->
  forall p : cover_node R, node_of p (ct_root t) ->
    (forall c c', In c (cn_children p) -> In c' (cn_children p) -> cn_index c <> cn_index c' ->
       (Rpower base (cn_level p - 1) < euclid (nth (cn_index c) (sp_pts sp) []) (nth (cn_index c') (sp_pts sp) []))%R)
    /\ (forall y, In y (stored p) ->
       (euclid (nth (cn_index p) (sp_pts sp) []) (nth y (sp_pts sp) []) <= Rpower base (cn_level p))%R)
    /\ (forall c c' y, In c (cn_children p) -> In c' (cn_children p) -> In y (stored c) ->
       (euclid (nth (cn_index c) (sp_pts sp) []) (nth y (sp_pts sp) [])
        <= euclid (nth (cn_index c') (sp_pts sp) []) (nth y (sp_pts sp) []))%R).
Proof. exact c136_euclidean. Qed.
Print Assumptions C136_euclidean.

Example C136_example :
  real_ops QD Q2R /\ powers Q2R (q_levels 2) 2 (q_power 2) /\ is_metric Q2R metric_l1 (line_sp seven)
  /\ (2 <= Q2R 2)%R
  /\ cover_tree_make (q_levels 2) std_example (fun l => l) metric_l1 60 (line_sp seven) 2
     = Ok (CoverTree (line_sp seven) metric_l1 two_root)
  /\ length (stored two_root) = 7%nat.
Proof. exact c136_example. Qed.

Example C136_euclidean_example :
  exists cm : cmath R,
  (forall b x, c_pow cm b x = Rpower b x) /\ (forall x, (0 < x)%R -> c_log cm x = ln x)
  /\ (forall x, (c_floor cm x <= x < c_floor cm x + 1)%R) /\ (forall x, (x <= c_ceil cm x < x + 1)%R)
  /\ (forall x, (0 <= x)%R -> c_sqrt cm x = sqrt x)
  /\ exists (sp : space R) fuel t, wf_space sp /\ npts sp = 3%nat
     /\ @cover_tree_make R (R_scalar 1000) cm std_example (@rev nat) (@metric_l2 R (R_scalar 1000) cm) fuel sp 2%R = Ok t.
Proof. exact c136_euclidean_example. Qed.

(** ** C137: points are below the nearest of the siblings *)
(** The full statement: for every base greater than one. *)
Definition C137_statement : Prop :=
  forall (T : Type) (S : Scalar T) (val : T -> R), real_ops S val ->
  forall (cm : cmath T) (alg : std_algos) (shuffle : list nat -> list nat),
  std_laws alg -> shuffles shuffle ->
  forall (m : metric T) (fuel : nat) (sp : space T) (base : T) (P : R -> R) (t : cover_tree T),
  is_metric val m sp -> powers val cm base P -> (1 < val base)%R ->
  cover_tree_make cm alg shuffle m fuel sp base = Ok t ->
  forall p : cover_node T, node_of p (ct_root t) ->
  forall c c' y, In c (cn_children p) -> In c' (cn_children p) -> In y (stored c) ->
    (val (between m sp (cn_index c) y) <= val (between m sp (cn_index c') y))%R.

Theorem C137_refuted : ~ C137_statement.
Proof. exact c137_refutation. Qed.
Print Assumptions C137_refuted.

(** What holds: bases of at least two. *)
Theorem C137_nearest_ancestor :
  forall (T : Type) (S : Scalar T) (val : T -> R), real_ops S val ->
  forall (cm : cmath T) (alg : std_algos) (shuffle : list nat -> list nat),
  std_laws alg -> shuffles shuffle ->
  forall (m : metric T) (fuel : nat) (sp : space T) (base : T) (P : R -> R) (t : cover_tree T),
  is_metric val m sp -> powers val cm base P -> (2 <= val base)%R ->
  cover_tree_make cm alg shuffle m fuel sp base = Ok t ->
  forall p : cover_node T, node_of p (ct_root t) ->
  forall c c' y, In c (cn_children p) -> In c' (cn_children p) -> In y (stored c) ->
    (val (between m sp (cn_index c) y) <= val (between m sp (cn_index c') y))%R.
Proof. exact c137. Qed.
Print Assumptions C137_nearest_ancestor.

(** A node with two children, one of which has a child of its own. *)
Example C137_example :
  cover_tree_make (q_levels 2) std_example (fun l => l) metric_l1 60 (line_sp seven) 2
    = Ok (CoverTree (line_sp seven) metric_l1 two_root)
  /\ exists p c c', node_of p two_root /\ cn_children p = [c; c'] /\ stored c' = [5; 3]%nat
     /\ real_ops QD Q2R /\ powers Q2R (q_levels 2) 2 (q_power 2) /\ is_metric Q2R metric_l1 (line_sp seven).
Proof. exact c137_example. Qed.
