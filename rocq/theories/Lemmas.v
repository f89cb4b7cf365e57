(** General lemmas: lists, outcomes, arrays. *)
From Coq Require Import List ZArith Bool Arith Permutation Lia Sorted.
From Verif Require Import Base.
Import ListNotations.

(** Take apart a successful [bind]. *)
Ltac okbind H :=
  match type of H with
  | bind ?e _ = Ok _ =>
      let E := fresh "E" in
      destruct e eqn:E; cbn [bind] in H; try discriminate H
  end.

Lemma guard_ok b w u : guard b w = Ok u -> b = true.
Proof. unfold guard. destruct b; congruence. Qed.

Lemma guard_true b w : b = true -> guard b w = Ok tt.
Proof. intros ->. reflexivity. Qed.

Lemma length_set_nth {A} (l : list A) i x : length (set_nth l i x) = length l.
Proof. revert i; induction l; destruct i; simpl; auto. Qed.

Lemma nth_set_nth_same {A} (l : list A) i x d : i < length l -> nth i (set_nth l i x) d = x.
Proof.
  revert i; induction l; destruct i; simpl; intros; try lia; auto. apply IHl; lia.
Qed.

Lemma nth_set_nth_other {A} (l : list A) i j x d : i <> j -> nth j (set_nth l i x) d = nth j l d.
Proof.
  revert i j; induction l; destruct i, j; simpl; intros; try lia; auto.
Qed.

Lemma set_nth_restore {A} (l : list A) i x y :
  nth_error l i = Some x -> set_nth (set_nth l i y) i x = l.
Proof.
  revert i; induction l; destruct i; simpl; intros; try discriminate; auto.
  - congruence.
  - f_equal; auto.
Qed.

Lemma length_tab {A} n (f : nat -> A) : length (tab n f) = n.
Proof. unfold tab. rewrite map_length, seq_length. reflexivity. Qed.

Lemma nth_tab {A} n (f : nat -> A) i d : i < n -> nth i (tab n f) d = f i.
Proof.
  intros H. unfold tab. rewrite nth_indep with (d' := f 0) by (rewrite map_length, seq_length; lia).
  rewrite map_nth, seq_nth by lia. reflexivity.
Qed.

Lemma at_ok {A} (l : list A) i x : at_ l i = Ok x -> nth_error l i = Some x.
Proof. unfold at_. destruct (nth_error l i); congruence. Qed.

Lemma at_lt {A} (l : list A) i d : i < length l -> at_ l i = Ok (nth i l d).
Proof. intros H. unfold at_. rewrite (nth_error_nth' l d H). reflexivity. Qed.

Lemma slice_app {A} (pre l post : list A) :
  slice (pre ++ l ++ post) (length pre) (length pre + length l) = Ok l.
Proof.
  unfold slice.
  assert (H : (length pre <=? length (pre ++ l ++ post)) &&
              (length pre + length l <=? length (pre ++ l ++ post)) = true).
  { rewrite !app_length. apply andb_true_intro; split; apply Nat.leb_le; lia. }
  rewrite H. f_equal.
  rewrite skipn_app, skipn_all, Nat.sub_diag. simpl.
  replace (length pre + length l - length pre) with (length l) by lia.
  rewrite firstn_app, firstn_all, Nat.sub_diag. simpl. apply app_nil_r.
Qed.

Lemma Forall_nth {A} (P : A -> Prop) l i d : Forall P l -> i < length l -> P (nth i l d).
Proof. rewrite Forall_forall. intros H Hi. apply H, nth_In, Hi. Qed.

Lemma Permutation_Forall' {A} (P : A -> Prop) l l' : Permutation l l' -> Forall P l -> Forall P l'.
Proof. intros H. rewrite !Forall_forall. intros F x Hx. apply F. eapply Permutation_in; [symmetry|]; eauto. Qed.

Lemma NoDup_app_l {A} (l1 l2 : list A) : NoDup (l1 ++ l2) -> NoDup l1.
Proof. induction l1; simpl; intros H; constructor; inversion H; subst; auto. rewrite in_app_iff in *; tauto. Qed.

Lemma NoDup_app_r {A} (l1 l2 : list A) : NoDup (l1 ++ l2) -> NoDup l2.
Proof. induction l1; simpl; intros H; auto. inversion H; auto. Qed.

Lemma NoDup_app_disj {A} (l1 l2 : list A) x : NoDup (l1 ++ l2) -> In x l1 -> In x l2 -> False.
Proof.
  induction l1 as [|a l1 IH]; simpl; intros H H1 H2; [contradiction|].
  inversion H as [|? ? Hn Hd]; subst. destruct H1 as [<-|H1]; auto.
  apply Hn. apply in_or_app; auto.
Qed.

Lemma NoDup_app_intro {A} (l1 l2 : list A) :
  NoDup l1 -> NoDup l2 -> (forall x, In x l1 -> In x l2 -> False) -> NoDup (l1 ++ l2).
Proof.
  induction l1; simpl; intros H1 H2 H; auto.
  inversion H1; subst. constructor.
  - rewrite in_app_iff. intros [?|?]; eauto.
  - apply IHl1; eauto.
Qed.

Lemma StronglySorted_app {A} (R : A -> A -> Prop) l1 l2 :
  StronglySorted R l1 -> StronglySorted R l2 ->
  (forall x y, In x l1 -> In y l2 -> R x y) -> StronglySorted R (l1 ++ l2).
Proof.
  induction l1; simpl; intros H1 H2 H; auto.
  apply StronglySorted_inv in H1 as [H1 Hf]. constructor; auto.
  rewrite Forall_forall in *. intros x Hx. apply in_app_iff in Hx as [Hx|Hx]; auto.
Qed.

Lemma StronglySorted_app_inv {A} (R : A -> A -> Prop) l1 l2 :
  StronglySorted R (l1 ++ l2) ->
  StronglySorted R l1 /\ StronglySorted R l2 /\ (forall x y, In x l1 -> In y l2 -> R x y).
Proof.
  induction l1; simpl; intros H.
  - repeat split; auto; [constructor | tauto].
  - apply StronglySorted_inv in H as [H Hf]. destruct (IHl1 H) as (A1 & A2 & A3).
    rewrite Forall_forall in Hf. repeat split; auto.
    + constructor; auto. rewrite Forall_forall. intros x Hx. apply Hf, in_or_app; auto.
    + intros x y [<-|Hx] Hy; auto. apply Hf, in_or_app; auto.
Qed.

Lemma firstn_skipn_len {A} n (l : list A) : n <= length l ->
  length (firstn n l) = n /\ length (skipn n l) = length l - n.
Proof. intros. rewrite firstn_length, skipn_length. lia. Qed.

Lemma In_seq0 i n : In i (seq 0 n) <-> i < n.
Proof. rewrite in_seq. lia. Qed.

Lemma length_nonnil {A} (l : list A) : 1 <= length l -> l <> [].
Proof. destruct l; simpl; intros; [lia|discriminate]. Qed.

