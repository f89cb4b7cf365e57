(** Concrete scalar types and a concrete standard library, showing that the
    assumptions in Spec.v can be met; also used by all examples. *)
From Coq Require Import List ZArith QArith Qabs Bool Arith Permutation Sorted Lia Lqa.
From Verif Require Import Base ModelBox ModelBuild ModelSearch Spec.
Import ListNotations.

(** Rational numbers with given numeric_limits: the ideal a floating point type
    approximates. *)
Definition Q_scalar (mx : Q) : Scalar Q := {|
  s_zero := 0; s_one := 1; s_two := 2; s_half := 1 # 2;
  s_max := mx; s_lowest := - mx;
  s_add := fun x y => Qred (x + y); s_sub := fun x y => Qred (x - y);
  s_mul := fun x y => Qred (x * y); s_div := fun x y => Qred (x / y);
  s_abs := Qabs;
  s_ltb := fun x y => negb (Qle_bool y x); s_leb := Qle_bool
|}.

(** Integers with the limits of a two's complement type of the given width;
    exact as long as nothing overflows.  scalar_type(0.5) is 0 for integers and
    division truncates. *)
Definition Z_scalar (bits : Z) : Scalar Z := {|
  s_zero := 0%Z; s_one := 1%Z; s_two := 2%Z; s_half := 0%Z;
  s_max := (2 ^ (bits - 1) - 1)%Z; s_lowest := (- 2 ^ (bits - 1))%Z;
  s_add := Z.add; s_sub := Z.sub; s_mul := Z.mul; s_div := Z.quot;
  s_abs := Z.abs; s_ltb := Z.ltb; s_leb := Z.leb
|}.

(** Largest finite IEEE binary64 value. *)
Definition dbl_max : Q := inject_Z ((2 ^ 53 - 1) * 2 ^ 971).

Lemma negb_Qle_bool_lt x y : negb (Qle_bool y x) = true <-> (x < y)%Q.
Proof.
  rewrite negb_true_iff. split.
  - intros H. apply Qnot_le_lt. intros C. apply Qle_bool_iff in C. congruence.
  - intros H. destruct (Qle_bool y x) eqn:E; auto.
    apply Qle_bool_iff in E. lra.
Qed.

Lemma Q_exact mx : (1 <= mx)%Q -> exact_laws (Q_scalar mx) (fun x => x).
Proof.
  intros Hmx. constructor; cbn -[Qred Qplus Qminus Qmult Qdiv Qabs Qle_bool]; intros; try (apply Qred_correct); try reflexivity.
  - apply negb_Qle_bool_lt.
  - apply Qle_bool_iff.
  - split; lra.
  - rewrite Qred_correct. unfold Qdiv. change (/2)%Q with (1#2)%Q. lra.
  - rewrite Qred_correct. unfold Qdiv. change (/2)%Q with (1#2)%Q. lra.
  - exact Hmx.
  - lra.
Qed.

Lemma Q_field mx : field_laws (Q_scalar mx) (fun x => x).
Proof.
  constructor; cbn -[Qred Qplus Qminus Qmult Qdiv Qabs Qle_bool]; intros; [apply Qred_correct | reflexivity | reflexivity].
Qed.

Lemma Z_exact bits : (2 <= bits)%Z -> exact_laws (Z_scalar bits) inject_Z.
Proof.
  intros Hb.
  assert (Hp : (2 <= 2 ^ (bits - 1))%Z).
  { change 2%Z with (2 ^ 1)%Z at 1. apply Z.pow_le_mono_r; lia. }
  constructor; cbn -[Z.pow Z.quot]; intros.
  - rewrite Z.ltb_lt, Zlt_Qlt. reflexivity.
  - rewrite Z.leb_le, Zle_Qle. reflexivity.
  - reflexivity.
  - reflexivity.
  - rewrite inject_Z_plus. reflexivity.
  - unfold Qminus. rewrite <- inject_Z_opp, <- inject_Z_plus. reflexivity.
  - rewrite inject_Z_mult. reflexivity.
  - reflexivity.
  - split; discriminate.
  - assert (0 <= x)%Z by (rewrite Zle_Qle; exact H).
    split.
    + change 0%Q with (inject_Z 0). rewrite <- Zle_Qle. apply Z.quot_pos; lia.
    + rewrite <- Zle_Qle. apply Z.quot_le_upper_bound; lia.
  - assert (x <= 0)%Z by (rewrite Zle_Qle; exact H).
    assert (E : (x = - (- x))%Z) by lia. rewrite E.
    rewrite Z.quot_opp_l by lia.
    assert (0 <= Z.quot (- x) 2 <= - x)%Z.
    { split; [apply Z.quot_pos; lia | apply Z.quot_le_upper_bound; lia]. }
    split; [| change 0%Q with (inject_Z 0)]; rewrite <- Zle_Qle; lia.
  - change 1%Q with (inject_Z 1). rewrite <- Zle_Qle. lia.
  - change 0%Q with (inject_Z 0). rewrite <- Zlt_Qlt. lia.
Qed.

(** A stable partition, and insertion sort for nth_element and sort. *)
Fixpoint isort_insert {A} (lt : A -> A -> bool) (x : A) (l : list A) : list A :=
  match l with
  | [] => [x]
  | y :: r => if lt y x then y :: isort_insert lt x r else x :: l
  end.
Definition isort {A} (lt : A -> A -> bool) (l : list A) : list A :=
  fold_right (isort_insert lt) [] l.

Definition std_example : std_algos := {|
  std_partition := fun p l => (filter p l, filter (fun x => negb (p x)) l);
  std_nth_element := fun lt _ l => isort lt l;
  std_sort := fun _ lt l => isort lt l
|}.

(** A second library that processes the range backwards, to have two genuinely
    different implementations at hand. *)
Definition std_example_rev : std_algos := {|
  std_partition := fun p l => (filter p (rev l), filter (fun x => negb (p x)) (rev l));
  std_nth_element := fun lt _ l => isort lt (rev l);
  std_sort := fun _ lt l => isort lt (rev l)
|}.

Lemma isort_insert_perm {A} (lt : A -> A -> bool) x l :
  Permutation (isort_insert lt x l) (x :: l).
Proof.
  induction l as [|y r IH]; simpl; auto.
  destruct (lt y x); auto.
  rewrite IH. apply perm_swap.
Qed.

Lemma isort_perm {A} (lt : A -> A -> bool) l : Permutation (isort lt l) l.
Proof.
  induction l as [|y r IH]; simpl; auto.
  rewrite isort_insert_perm. auto.
Qed.

Lemma strict_weak_incl {A} (lt : A -> A -> bool) l l' :
  incl l' l -> strict_weak lt l -> strict_weak lt l'.
Proof.
  intros Hi [H1 H2 H3]. constructor; intros; eauto.
Qed.

Lemma isort_sorted {A} (lt : A -> A -> bool) l :
  strict_weak lt l -> StronglySorted (fun x y => lt y x = false) (isort lt l).
Proof.
  induction l as [|y r IH]; simpl; intros Hw; [constructor|].
  assert (Hr : strict_weak lt r).
  { eapply strict_weak_incl; [|exact Hw]. intros z; simpl; auto. }
  specialize (IH Hr).
  assert (Hin : forall z, In z (isort lt r) -> In z r).
  { intros z Hz. eapply Permutation_in; [apply isort_perm|exact Hz]. }
  revert IH Hin. generalize (isort lt r) as s. clear Hr.
  induction s as [|z s IHs]; simpl; intros Hs Hin.
  - constructor; constructor.
  - destruct (lt z y) eqn:E.
    + apply StronglySorted_inv in Hs as [Hs Hf].
      constructor; [apply IHs; auto|].
      rewrite Forall_forall in *. intros w Hw'.
      apply (Permutation_in _ (isort_insert_perm lt y s)) in Hw'.
      destruct Hw' as [<-|Hw']; auto.
      destruct (lt y z) eqn:E2; auto.
      assert (lt y y = true).
      { eapply (sw_trans _ _ Hw); eauto; simpl; auto. }
      rewrite (sw_irrefl _ _ Hw) in H; simpl; auto; discriminate.
    + constructor; auto. constructor; auto.
      apply StronglySorted_inv in Hs as [Hs Hf].
      rewrite Forall_forall in *. intros w Hw'.
      eapply (sw_incomp _ _ Hw); [simpl; auto | right; apply Hin; auto | left; auto
                                 | apply Hf; auto | exact E].
Qed.

Lemma sorted_firstn_skipn {A} (R : A -> A -> Prop) n l x y :
  StronglySorted R l -> In x (firstn n l) -> In y (skipn n l) -> R x y.
Proof.
  revert l. induction n; simpl; intros l Hs Hx Hy; [contradiction|].
  destruct l as [|a l]; simpl in *; [contradiction|].
  apply StronglySorted_inv in Hs as [Hs Hf].
  destruct Hx as [<-|Hx].
  - rewrite Forall_forall in Hf. apply Hf.
    rewrite <- (firstn_skipn n l). apply in_or_app; auto.
  - eauto.
Qed.

Lemma isort_nth_after {A} (lt : A -> A -> bool) n l x y :
  strict_weak lt l -> nth_error (isort lt l) n = Some x ->
  In y (skipn n (isort lt l)) -> lt y x = false.
Proof.
  intros Hw Hn Hy.
  assert (Hx : In x l).
  { eapply Permutation_in; [apply isort_perm|]. eapply nth_error_In; eauto. }
  pose proof (isort_sorted lt l Hw) as Hs.
  revert Hs Hn Hy. generalize (isort lt l). clear - Hw Hx.
  induction n; intros s Hs Hn Hy; destruct s as [|z s]; simpl in *; try discriminate.
  - inversion Hn; subst. destruct Hy as [<-|Hy]; [apply (sw_irrefl _ _ Hw); auto|].
    apply StronglySorted_inv in Hs as [_ Hf]. rewrite Forall_forall in Hf. auto.
  - apply StronglySorted_inv in Hs as [Hs _]. eauto.
Qed.

Lemma filter_split_perm {A} (p : A -> bool) l :
  Permutation (filter p l ++ filter (fun x => negb (p x)) l) l.
Proof.
  induction l as [|a l IH]; simpl; auto.
  destruct (p a); simpl; [constructor; auto|].
  rewrite <- Permutation_middle. constructor. auto.
Qed.

Lemma strict_weak_rev {A} (lt : A -> A -> bool) l : strict_weak lt l -> strict_weak lt (rev l).
Proof. apply strict_weak_incl. intros x. apply in_rev. Qed.

Lemma std_example_laws : std_laws std_example.
Proof.
  constructor; simpl; intros.
  - apply filter_split_perm.
  - apply filter_In in H. tauto.
  - apply filter_In in H. apply negb_true_iff. tauto.
  - apply isort_perm.
  - eapply (sorted_firstn_skipn (fun x y => lt y x = false)); eauto. apply isort_sorted; auto.
  - eapply isort_nth_after; eauto.
  - apply isort_perm.
  - apply isort_sorted; auto.
Qed.

Lemma std_example_rev_laws : std_laws std_example_rev.
Proof.
  constructor; simpl; intros.
  - rewrite filter_split_perm. apply Permutation_sym, Permutation_rev.
  - apply filter_In in H. tauto.
  - apply filter_In in H. apply negb_true_iff. tauto.
  - rewrite isort_perm. apply Permutation_sym, Permutation_rev.
  - eapply (sorted_firstn_skipn (fun x y => lt y x = false)); eauto.
    apply isort_sorted, strict_weak_rev; auto.
  - eapply isort_nth_after; [apply strict_weak_rev| |]; eauto.
  - rewrite isort_perm. apply Permutation_sym, Permutation_rev.
  - apply isort_sorted, strict_weak_rev; auto.
Qed.
