(** Properties of metrics and segments: C31, C32. *)
From Coq Require Import List ZArith QArith Qabs Bool Arith Permutation Sorted Lia Lqa.
From Verif Require Import Base ModelBox ModelBuild ModelSearch Spec Instances MetricThms Examples.
Import ListNotations.
Local Open Scope Q_scope.

(** ** C31: metrics *)
Theorem C31_axioms :
  forall (T : Type) (S : Scalar T) (val : T -> Q), exact_laws S val ->
  forall (em : exact_metric) (x y : list T),
  length x = length y -> valid_for em (map val x) -> valid_for em (map val y) ->
  val (m_dist (metric_of em) x y) == val (m_dist (metric_of em) y x)
  /\ 0 <= val (m_dist (metric_of em) x y)
  /\ (val (m_dist (metric_of em) x y) == 0 <-> same_point em (map val x) (map val y)).
Proof. exact @metric_axioms. Qed.
Print Assumptions C31_axioms.

Theorem C31_triangle :
  forall (T : Type) (S : Scalar T) (val : T -> Q), exact_laws S val ->
  forall (em : exact_metric) (x y z : list T),
  em = L1 \/ em = SO2 ->
  length x = length y -> length y = length z ->
  valid_for em (map val x) -> valid_for em (map val y) -> valid_for em (map val z) ->
  val (m_dist (metric_of em) x z) <= val (m_dist (metric_of em) x y) + val (m_dist (metric_of em) y z).
Proof. exact @metric_triangle. Qed.
Print Assumptions C31_triangle.

(** The square roots of the squared metrics satisfy the triangle inequality. *)
Theorem C31_squared_triangle :
  forall (T : Type) (S : Scalar T) (val : T -> Q), exact_laws S val ->
  forall (em : exact_metric) (x y z : list T) (a b : Q),
  em = L2Squared \/ em = SE2Squared ->
  length x = length y -> length y = length z ->
  valid_for em (map val x) -> valid_for em (map val y) -> valid_for em (map val z) ->
  0 <= a -> 0 <= b ->
  val (m_dist (metric_of em) x y) <= a * a ->
  val (m_dist (metric_of em) y z) <= b * b ->
  val (m_dist (metric_of em) x z) <= (a + b) * (a + b).
Proof. exact @metric_sqrt_triangle. Qed.
Print Assumptions C31_squared_triangle.

Theorem C31_lpinf_is_max_norm :
  forall (T : Type) (S : Scalar T) (val : T -> Q), exact_laws S val ->
  forall x y : list T, length x = length y ->
  val (m_dist metric_lpinf x y) == linf_dist (map val x) (map val y).
Proof. exact @lpinf_val. Qed.
Print Assumptions C31_lpinf_is_max_norm.

Theorem C31_lpinf_axioms :
  forall (T : Type) (S : Scalar T) (val : T -> Q), exact_laws S val ->
  forall x y z : list T, length x = length y -> length y = length z ->
  val (m_dist metric_lpinf x y) == val (m_dist metric_lpinf y x)
  /\ 0 <= val (m_dist metric_lpinf x y)
  /\ (val (m_dist metric_lpinf x y) == 0 <-> Forall2 Qeq (map val x) (map val y))
  /\ val (m_dist metric_lpinf x z) <= val (m_dist metric_lpinf x y) + val (m_dist metric_lpinf y z).
Proof. exact @lpinf_axioms. Qed.
Print Assumptions C31_lpinf_axioms.

Theorem C31_scalar_application :
  forall (T : Type) (S : Scalar T) (val : T -> Q), exact_laws S val ->
  forall a v : T,
  val (m_app metric_l1 (s_sub a v)) == val (m_dist metric_l1 [v] [a])
  /\ val (m_app metric_l2_squared (s_sub a v)) == val (m_dist metric_l2_squared [v] [a])
  /\ val (m_app metric_lpinf (s_sub a v)) == val (m_dist metric_lpinf [v] [a])
  /\ (0 <= val v <= 1 -> 0 <= val a <= 1 ->
      val (m_app metric_so2 (s1_distance a v)) == val (m_dist metric_so2 [v] [a])).
Proof. exact @metric_app_one. Qed.
Print Assumptions C31_scalar_application.

(** The min norm: the smallest difference of two coordinates, at most max(). *)
Theorem C31_lninf_is_min_norm :
  forall (T : Type) (S : Scalar T) (val : T -> Q), exact_laws S val ->
  forall x y : list T,
  (forall a b, In (a, b) (combine x y) -> val (m_dist metric_lninf x y) <= abs_diff (val a) (val b))
  /\ val (m_dist metric_lninf x y) <= val s_max
  /\ ((exists a b, In (a, b) (combine x y) /\ val (m_dist metric_lninf x y) == abs_diff (val a) (val b))
      \/ val (m_dist metric_lninf x y) == val s_max).
Proof. exact @lninf_val. Qed.
Print Assumptions C31_lninf_is_min_norm.

Theorem C31_lninf_scalar_application :
  forall (T : Type) (S : Scalar T) (val : T -> Q), exact_laws S val ->
  forall a v : T, abs_diff (val v) (val a) <= val s_max ->
  val (m_app metric_lninf (s_sub a v)) == val (m_dist metric_lninf [v] [a]).
Proof. exact @lninf_app. Qed.
Print Assumptions C31_lninf_scalar_application.

Example C31_lninf_example : m_dist metric_lninf [1; 5] [4; 1] == 3 /\ m_app metric_lninf (3 - 7) == 4
  /\ abs_diff (qv 7) (qv 3) <= qv s_max.
Proof. repeat split; vm_compute; try reflexivity; discriminate. Qed.

Example C31_example :
  m_dist metric_l1 [1; 5] [4; 1] == 7 /\ m_dist metric_l2_squared [1; 5] [4; 1] == 25
  /\ m_dist metric_lpinf [1; 5] [4; 1] == 4 /\ m_dist metric_lninf [1; 5] [4; 1] == 3
  /\ m_dist metric_so2 [1 # 10] [9 # 10] == 1 # 5
  /\ m_dist metric_se2_squared [1; 5; 1 # 10] [4; 1; 9 # 10] == 25 + (1 # 25)
  /\ valid_for SE2Squared [1; 5; 1 # 10].
Proof. repeat split; vm_compute; try reflexivity; discriminate. Qed.

(** ** C32: segments *)
Theorem C32_segment_r1_distance :
  forall (T : Type) (S : Scalar T) (val : T -> Q), exact_laws S val ->
  forall mn mx v : T, val mn <= val mx ->
  (forall p, val mn <= p <= val mx -> val (segment_r1_distance mn mx v) <= abs_diff (val v) p)
  /\ (exists p, val mn <= p <= val mx /\ val (segment_r1_distance mn mx v) == abs_diff (val v) p).
Proof. exact @segment_r1_min. Qed.
Print Assumptions C32_segment_r1_distance.

Theorem C32_segment_s1_distance :
  forall (T : Type) (S : Scalar T) (val : T -> Q), exact_laws S val ->
  forall mn mx v : T, 0 <= val mn <= 1 -> 0 <= val mx <= 1 -> 0 <= val v <= 1 ->
  (forall p, on_arc (val mn) (val mx) p -> val (segment_s1_distance mn mx v) <= arc (val v) p)
  /\ (exists p, on_arc (val mn) (val mx) p /\ val (segment_s1_distance mn mx v) == arc (val v) p).
Proof. exact @segment_s1_min. Qed.
Print Assumptions C32_segment_s1_distance.

Theorem C32_segment_s1_contains :
  forall (T : Type) (S : Scalar T) (val : T -> Q), exact_laws S val ->
  forall mn mx v : T, 0 <= val v <= 1 ->
  segment_s1_contains mn mx v = true <-> on_arc (val mn) (val mx) (val v).
Proof. exact @segment_s1_contains_spec. Qed.
Print Assumptions C32_segment_s1_contains.

Theorem C32_segment_r1_contains :
  forall (T : Type) (S : Scalar T) (val : T -> Q), exact_laws S val ->
  forall mn mx v : T, segment_r1_contains mn mx v = true <-> val mn <= val v <= val mx.
Proof. exact @segment_r1_contains_spec. Qed.
Print Assumptions C32_segment_r1_contains.

Example C32_example :
  segment_r1_distance 2 5 9 == 4 /\ segment_r1_distance 2 5 3 == 0
  /\ segment_s1_distance (8 # 10) (1 # 10) (5 # 10) == 3 # 10
  /\ segment_s1_distance (8 # 10) (1 # 10) (95 # 100) == 0
  /\ segment_s1_distance (2 # 10) (4 # 10) (95 # 100) == 1 # 4
  /\ segment_s1_contains (8 # 10) (1 # 10) (95 # 100) = true.
Proof. repeat split; vm_compute; reflexivity. Qed.
