(** Proofs about construction. *)
From Coq Require Import List ZArith QArith Qabs Bool Arith Permutation Lia Lqa.
From Verif Require Import Base ModelBox ModelBuild ModelSearch Spec Lemmas Instances.
Import ListNotations.
Local Open Scope nat_scope.

(** The node covers the positions [b .. b + length l) of the index vector, which
    hold [l]; [R] relates each branch to the indices of its two sides. *)
Inductive node_spans {B} (R : B -> list nat -> list nat -> Prop)
  : node B -> nat -> list nat -> Prop :=
| spans_leaf b l : node_spans R (Leaf b (b + length l)) b l
| spans_branch br nl nr b l r :
    node_spans R nl b l -> node_spans R nr (b + length l) r -> R br l r ->
    node_spans R (Branch br nl nr) b (l ++ r).

Lemma node_spans_impl {B} (R R' : B -> list nat -> list nat -> Prop) n b l :
  node_spans R n b l ->
  (forall br l1 r1, incl l1 l -> incl r1 l -> R br l1 r1 -> R' br l1 r1) -> node_spans R' n b l.
Proof.
  induction 1; intros HI; constructor.
  - apply IHnode_spans1. intros. apply HI; auto; intros z Hz; apply in_or_app; left; auto.
  - apply IHnode_spans2. intros. apply HI; auto; intros z Hz; apply in_or_app; right; auto.
  - apply HI; auto; intros z Hz; apply in_or_app; auto.
Qed.

Fixpoint node_len {B} (n : node B) : nat :=
  match n with Leaf b e => e - b | Branch _ l r => node_len l + node_len r end.

Lemma node_spans_len {B} (R : B -> list nat -> list nat -> Prop) n b l :
  node_spans R n b l -> node_len n = length l.
Proof. induction 1; simpl; rewrite ?app_length; lia. Qed.

Lemma app_inj_len {A} (a b c d : list A) : length a = length c -> a ++ b = c ++ d -> a = c /\ b = d.
Proof.
  revert c; induction a; destruct c; simpl; intros; try lia; auto.
  injection H0 as -> H0. destruct (IHa c) as [-> ->]; auto.
Qed.

Lemma node_spans_and {B} (R1 R2 : B -> list nat -> list nat -> Prop) n b l :
  node_spans R1 n b l -> node_spans R2 n b l ->
  node_spans (fun br x y => R1 br x y /\ R2 br x y) n b l.
Proof.
  induction 1; intros H2; [constructor|].
  inversion H2; subst.
  assert (length l0 = length l).
  { apply node_spans_len in H, H8. congruence. }
  match goal with E : _ ++ _ = _ ++ _ |- _ => apply app_inj_len in E as [-> ->] end; auto.
  constructor; auto.
Qed.

Section Ord.
Context {T : Type} {S : Scalar T} (ok : T -> Prop) (OL : ord_laws S ok).

Lemma leb_refl x : ok x -> s_leb x x = true.
Proof. intros H. destruct (ol_total _ _ OL x x H H); auto. Qed.

Lemma ltb_leb x y : ok x -> ok y -> s_ltb x y = true -> s_leb x y = true.
Proof.
  intros Hx Hy H. rewrite (ol_lt _ _ OL) in H by auto.
  destruct (ol_total _ _ OL x y Hx Hy) as [E|E]; auto. rewrite E in H. discriminate.
Qed.

Lemma ltb_false x y : ok x -> ok y -> s_ltb x y = false -> s_leb y x = true.
Proof.
  intros Hx Hy H. rewrite (ol_lt _ _ OL) in H by auto. destruct (s_leb y x); auto; discriminate.
Qed.

Lemma leb_false_ltb x y : ok x -> ok y -> s_leb x y = false -> s_ltb y x = true.
Proof. intros Hx Hy H. rewrite (ol_lt _ _ OL) by auto. rewrite H. reflexivity. Qed.

Lemma leb_not_ltb x y : ok x -> ok y -> s_leb x y = true -> s_ltb y x = false.
Proof. intros Hx Hy H. rewrite (ol_lt _ _ OL) by auto. rewrite H. reflexivity. Qed.

Lemma leb_trans x y z : ok x -> ok y -> ok z -> s_leb x y = true -> s_leb y z = true -> s_leb x z = true.
Proof. apply (ol_trans _ _ OL). Qed.

Lemma coord_lt_strict_weak sp d l :
  (forall i, In i l -> ok (coord sp d i)) -> strict_weak (coord_lt sp d) l.
Proof.
  intros H. unfold coord_lt. constructor; intros.
  - apply leb_not_ltb; auto. apply leb_refl; auto.
  - destruct (s_ltb (coord sp d x) (coord sp d z)) eqn:E; auto.
    apply ltb_leb in H3; auto. apply ltb_false in E; auto.
    rewrite (ol_lt _ _ OL) in H4 by auto.
    rewrite (leb_trans (coord sp d z) (coord sp d x) (coord sp d y)) in H4; auto; discriminate.
  - apply ltb_false in H3, H4; auto. apply leb_not_ltb; auto.
    eapply leb_trans; [| | | exact H4 | exact H3]; auto.
Qed.

(** Boxes. *)
Definition box_wf (n : nat) (b : box T) : Prop :=
  length (box_min b) = n /\ length (box_max b) = n.
Definition ok_box (n : nat) (b : box T) : Prop :=
  forall d, d < n -> ok (get (box_min b) d) /\ ok (get (box_max b) d).
(** The point [x] is in the box. *)
Definition in_box (n : nat) (b : box T) (x : list T) : Prop :=
  forall d, d < n -> s_leb (get (box_min b) d) (get x d) = true
                     /\ s_leb (get x d) (get (box_max b) d) = true.
Definition ok_point (n : nat) (x : list T) : Prop := forall d, d < n -> ok (get x d).

Lemma inverse_max_wf n : box_wf n (box_inverse_max n).
Proof. split; apply length_tab. Qed.

Lemma inverse_max_ok n : ok_box n (box_inverse_max n).
Proof.
  intros d H. unfold get, box_inverse_max. simpl. rewrite !nth_tab by auto.
  split; [apply (ol_max _ _ OL)|apply (ol_lowest _ _ OL)].
Qed.

Lemma box_fit_wf n b x : box_wf n b -> box_wf n (box_fit b x).
Proof. intros [H1 H2]. unfold box_fit, box_size. split; simpl; rewrite length_tab; auto. Qed.

Lemma box_fit_box_wf n b x : box_wf n b -> box_wf n (box_fit_box b x).
Proof. intros [H1 H2]. unfold box_fit_box, box_size. split; simpl; rewrite length_tab; auto. Qed.

Lemma get_fit_min n b x d : box_wf n b -> d < n ->
  get (box_min (box_fit b x)) d =
  (if s_ltb (get x d) (get (box_min b) d) then get x d else get (box_min b) d).
Proof.
  intros [H1 H2] Hd. unfold box_fit, box_size. simpl. unfold get at 1. rewrite nth_tab by lia.
  reflexivity.
Qed.
Lemma get_fit_max n b x d : box_wf n b -> d < n ->
  get (box_max (box_fit b x)) d =
  (if s_ltb (get (box_max b) d) (get x d) then get x d else get (box_max b) d).
Proof.
  intros [H1 H2] Hd. unfold box_fit, box_size. simpl. unfold get at 1. rewrite nth_tab by lia.
  reflexivity.
Qed.
Lemma get_fit_box_min n b x d : box_wf n b -> d < n ->
  get (box_min (box_fit_box b x)) d =
  (if s_ltb (get (box_min x) d) (get (box_min b) d) then get (box_min x) d else get (box_min b) d).
Proof.
  intros [H1 H2] Hd. unfold box_fit_box, box_size. simpl. unfold get at 1. rewrite nth_tab by lia.
  reflexivity.
Qed.
Lemma get_fit_box_max n b x d : box_wf n b -> d < n ->
  get (box_max (box_fit_box b x)) d =
  (if s_ltb (get (box_max b) d) (get (box_max x) d) then get (box_max x) d else get (box_max b) d).
Proof.
  intros [H1 H2] Hd. unfold box_fit_box, box_size. simpl. unfold get at 1. rewrite nth_tab by lia.
  reflexivity.
Qed.

Lemma box_fit_ok n b x : box_wf n b -> ok_box n b -> ok_point n x -> ok_box n (box_fit b x).
Proof.
  intros W H1 H2 d Hd. rewrite (get_fit_min n), (get_fit_max n) by auto.
  specialize (H1 d Hd); specialize (H2 d Hd).
  split; [destruct (s_ltb _ _)|destruct (s_ltb _ _)]; tauto.
Qed.

Lemma box_fit_in n b x : box_wf n b -> ok_box n b -> ok_point n x -> in_box n (box_fit b x) x.
Proof.
  intros W H1 H2 d Hd. rewrite (get_fit_min n), (get_fit_max n) by auto.
  specialize (H1 d Hd); specialize (H2 d Hd). destruct H1.
  split.
  - destruct (s_ltb _ _) eqn:E; [apply leb_refl|apply ltb_false]; auto.
  - destruct (s_ltb _ _) eqn:E; [apply leb_refl|apply ltb_false]; auto.
Qed.

Lemma box_fit_keep n b x y : box_wf n b -> ok_box n b -> ok_point n x -> ok_point n y ->
  in_box n b y -> in_box n (box_fit b x) y.
Proof.
  intros W H1 H2 H3 HI d Hd. rewrite (get_fit_min n), (get_fit_max n) by auto.
  specialize (H1 d Hd); specialize (H2 d Hd); specialize (H3 d Hd); specialize (HI d Hd).
  destruct H1, HI. split.
  - destruct (s_ltb _ _) eqn:E; auto. apply ltb_leb in E; auto.
    eapply leb_trans; [| | |exact E|]; auto.
  - destruct (s_ltb _ _) eqn:E; auto. apply ltb_leb in E; auto.
    eapply leb_trans; [| | | |exact E]; auto.
Qed.

Lemma box_fit_box_ok n b x : box_wf n b -> ok_box n b -> ok_box n x -> ok_box n (box_fit_box b x).
Proof.
  intros W H1 H2 d Hd. rewrite (get_fit_box_min n), (get_fit_box_max n) by auto.
  specialize (H1 d Hd); specialize (H2 d Hd).
  split; [destruct (s_ltb _ _)|destruct (s_ltb _ _)]; tauto.
Qed.

Lemma box_fit_box_keep n b x y : box_wf n b -> ok_box n b -> ok_box n x -> ok_point n y ->
  in_box n b y \/ in_box n x y -> in_box n (box_fit_box b x) y.
Proof.
  intros W H1 H2 H3 HI d Hd. rewrite (get_fit_box_min n), (get_fit_box_max n) by auto.
  specialize (H1 d Hd); specialize (H2 d Hd); specialize (H3 d Hd).
  destruct H1, H2. destruct HI as [HI|HI]; specialize (HI d Hd); destruct HI; split.
  - destruct (s_ltb _ _) eqn:E; auto. apply ltb_leb in E; auto.
    eapply leb_trans; [| | |exact E|]; auto.
  - destruct (s_ltb _ _) eqn:E; auto. apply ltb_leb in E; auto.
    eapply leb_trans; [| | | |exact E]; auto.
  - destruct (s_ltb _ _) eqn:E; auto. apply ltb_false in E; auto.
    eapply leb_trans; [| | |exact E|]; auto.
  - destruct (s_ltb _ _) eqn:E; auto. apply ltb_false in E; auto.
    eapply leb_trans; [| | | |exact E]; auto.
Qed.

Lemma box_set_min_wf n b d v : box_wf n b -> box_wf n (box_set_min b d v).
Proof. intros [H1 H2]. split; simpl; rewrite ?length_set_nth; auto. Qed.
Lemma box_set_max_wf n b d v : box_wf n b -> box_wf n (box_set_max b d v).
Proof. intros [H1 H2]. split; simpl; rewrite ?length_set_nth; auto. Qed.

Lemma get_set_same l d v : d < length l -> get (set_nth l d v) d = v.
Proof. intros. apply nth_set_nth_same; auto. Qed.
Lemma get_set_other l d d' v : d <> d' -> get (set_nth l d v) d' = get l d'.
Proof. intros. apply nth_set_nth_other; auto. Qed.

Lemma box_set_min_ok n b d v : box_wf n b -> ok_box n b -> ok v -> ok_box n (box_set_min b d v).
Proof.
  intros [W1 W2] H Hv d' Hd'. simpl. destruct (Nat.eq_dec d d') as [<-|N].
  - rewrite get_set_same by lia. split; auto. apply H; auto.
  - rewrite get_set_other by auto. apply H; auto.
Qed.
Lemma box_set_max_ok n b d v : box_wf n b -> ok_box n b -> ok v -> ok_box n (box_set_max b d v).
Proof.
  intros [W1 W2] H Hv d' Hd'. simpl. destruct (Nat.eq_dec d d') as [<-|N].
  - rewrite get_set_same by lia. split; auto. apply H; auto.
  - rewrite get_set_other by auto. apply H; auto.
Qed.

(** max_side. *)
Lemma max_side_fold b l st :
  (forall d v, st = (Some d, v) -> v = s_sub (get (box_max b) d) (get (box_min b) d)) ->
  forall d v,
  fold_left
    (fun '(p_max_index, p_max_value) i =>
       let delta := s_sub (get (box_max b) i) (get (box_min b) i) in
       if s_ltb p_max_value delta then (Some i, delta) else (p_max_index, p_max_value))
    l st = (Some d, v) ->
  (In d l \/ fst st = Some d) /\ v = s_sub (get (box_max b) d) (get (box_min b) d).
Proof.
  revert st. induction l as [|i l IH]; intros [si sv] Hst d v H; simpl in H.
  - injection H as -> ->. split; [right; reflexivity|]. apply Hst; reflexivity.
  - apply IH in H.
    + destruct H as [[H|H] Hv]; split; simpl; auto.
      destruct (s_ltb sv _); simpl in *; auto. injection H as ->. auto.
    + intros d' v' E. destruct (s_ltb sv _); [injection E as <- <-; auto|].
      apply Hst; auto.
Qed.

Lemma max_side_some b n d v : box_wf n b -> box_max_side b = (Some d, v) ->
  d < n /\ v = s_sub (get (box_max b) d) (get (box_min b) d).
Proof.
  intros [W _] H. unfold box_max_side in H. apply max_side_fold in H.
  - destruct H as [[H|H] Hv]; split; auto; [|discriminate].
    apply In_seq0 in H. unfold box_size in H. lia.
  - intros ? ? E; discriminate.
Qed.

Variables (sp : space T) (WF : wf_space sp) (OKS : all_coords ok sp).
Let n := sp_sdim sp.
Local Notation in_sp := (fun i => in_space sp i = true).

Lemma in_space_lt i : in_space sp i = true <-> i < length (sp_pts sp).
Proof. unfold in_space, sp_size. apply Nat.ltb_lt. Qed.

Lemma sp_at_length i : in_space sp i = true -> length (sp_at sp i) = n.
Proof.
  intros H. apply in_space_lt in H. destruct WF as [_ W].
  unfold sp_at. apply (Forall_nth (fun p => length p = sp_sdim sp)); auto.
Qed.

Lemma ok_coord i d : in_space sp i = true -> d < n -> ok (coord sp d i).
Proof.
  intros H Hd. unfold coord, get. pose proof (sp_at_length i H) as L.
  apply in_space_lt in H.
  assert (F : Forall ok (sp_at sp i)).
  { unfold sp_at. apply (Forall_nth (Forall ok)); auto. }
  apply Forall_nth; auto. lia.
Qed.

Lemma ok_point_at i : in_space sp i = true -> ok_point n (sp_at sp i).
Proof. intros H d Hd. apply ok_coord; auto. Qed.

(** All points of [seg] are in the box. *)
Definition holds (b : box T) (seg : list nat) : Prop :=
  forall i, In i seg -> in_box n b (sp_at sp i).

Lemma holds_perm b l l' : Permutation l l' -> holds b l -> holds b l'.
Proof. intros P H i Hi. apply H. eapply Permutation_in; [symmetry|]; eauto. Qed.

Lemma bounding_box_fold seg : forall b,
  box_wf n b -> ok_box n b -> Forall in_sp seg ->
  let b' := fold_left (fun b i => box_fit b (sp_at sp i)) seg b in
  box_wf n b' /\ ok_box n b' /\ holds b' seg
  /\ (forall y, ok_point n y -> in_box n b y -> in_box n b' y).
Proof.
  induction seg as [|i seg IH]; simpl; intros b W O F.
  - split; [exact W|]. split; [exact O|]. split; [intros ? []|auto].
  - inversion F; subst.
    assert (OP := ok_point_at i H1).
    assert (W' := box_fit_wf n b (sp_at sp i) W).
    assert (O' := box_fit_ok n b (sp_at sp i) W O OP).
    destruct (IH _ W' O' H2) as (A & B & C & D).
    split; [exact A|]. split; [exact B|]. split.
    + intros j [<-|Hj]; [apply D; auto; apply box_fit_in; auto | apply C; auto].
    + intros y Oy Iy. apply D; auto. apply box_fit_keep; auto.
Qed.

Lemma compute_bounding_box_spec seg : Forall in_sp seg ->
  box_wf n (compute_bounding_box sp seg) /\ ok_box n (compute_bounding_box sp seg)
  /\ holds (compute_bounding_box sp seg) seg.
Proof.
  intros F. destruct (bounding_box_fold seg (box_inverse_max n)) as (A & B & C & _); auto.
  - apply inverse_max_wf.
  - apply inverse_max_ok.
Qed.

Variables (alg : std_algos) (SL : std_laws alg).

Lemma partition_facts p l a b : std_partition alg p l = (a, b) ->
  Permutation (a ++ b) l /\ (forall x, In x a -> p x = true) /\ (forall x, In x b -> p x = false).
Proof.
  intros E. pose proof (sl_partition_perm _ SL p l). pose proof (sl_partition_left _ SL p l).
  pose proof (sl_partition_right _ SL p l). rewrite E in *. auto.
Qed.

Lemma coords_ok_list d l : d < n -> Forall in_sp l -> forall i, In i l -> ok (coord sp d i).
Proof. intros Hd F i Hi. rewrite Forall_forall in F. apply ok_coord; auto. Qed.

(** What every splitter guarantees: a permutation split in two, an existing
    dimension. *)
Lemma split_side_facts seg bx d delta :
  box_wf n bx -> split_side sp seg bx = Ok (d, delta) ->
  d < n /\ Forall in_sp seg /\ delta = s_sub (get (box_max bx) d) (get (box_min bx) d).
Proof.
  intros W H. unfold split_side in H.
  destruct (box_max_side bx) as [[d'|] v] eqn:E; [|discriminate].
  okbind H. injection H as <- <-.
  apply guard_ok in E0. apply andb_prop in E0 as [F Hd].
  destruct (max_side_some bx n d' v W E) as [Hd' Hv].
  split; auto. split; auto. apply Forall_forall. intros x Hx.
  rewrite forallb_forall in F. auto.
Qed.

(** [nth_element] applied to a range of valid indices. *)
Lemma nth_element_facts d h seg i :
  d < n -> Forall in_sp seg -> nth_error (std_nth_element alg (coord_lt sp d) h seg) h = Some i ->
  h < length seg ->
  let s := std_nth_element alg (coord_lt sp d) h seg in
  Permutation (firstn h s ++ skipn h s) seg
  /\ length (firstn h s) = h /\ length (skipn h s) = length seg - h
  /\ In i seg
  /\ (forall x, In x (firstn h s) -> s_leb (coord sp d x) (coord sp d i) = true)
  /\ (forall x, In x (skipn h s) -> s_leb (coord sp d i) (coord sp d x) = true).
Proof.
  intros Hd F Hi Hh s. change (nth_error s h = Some i) in Hi.
  assert (SW : strict_weak (coord_lt sp d) seg).
  { apply coord_lt_strict_weak, coords_ok_list; assumption. }
  assert (P : Permutation s seg) by (apply (sl_nth_perm _ SL); [exact SW|lia]).
  assert (L : length s = length seg) by (apply Permutation_length; auto).
  assert (Ii : In i s) by (eapply nth_error_In; eauto).
  assert (Ii' : In i seg) by (eapply Permutation_in; eauto).
  assert (Is : forall x, In x s -> In x seg) by (intros; eapply Permutation_in; eauto).
  assert (K : forall x, In x seg -> ok (coord sp d x)) by (apply coords_ok_list; auto).
  assert (Isk : In i (skipn h s)).
  { rewrite <- (firstn_skipn h s) in Hi.
    rewrite nth_error_app2 in Hi; [eapply nth_error_In; eauto|].
    rewrite firstn_length. lia. }
  rewrite firstn_skipn. split; [exact P|].
  split; [rewrite firstn_length; lia|]. split; [rewrite skipn_length; lia|].
  split; [exact Ii'|]. split.
  - intros x Hx. assert (In x seg).
    { apply Is. rewrite <- (firstn_skipn h s). apply in_or_app; auto. }
    pose proof (sl_nth_before _ SL (coord_lt sp d) h seg x i SW Hh Hx Isk) as E.
    unfold coord_lt in E. apply ltb_false in E; auto.
  - intros x Hx. assert (In x seg).
    { apply Is. rewrite <- (firstn_skipn h s). apply in_or_app; auto. }
    pose proof (sl_nth_after _ SL (coord_lt sp d) h seg i x SW Hh Hi Hx) as E.
    unfold coord_lt in E. apply ltb_false in E; auto.
Qed.

Lemma nth_error_some_lt {A} (l : list A) i x : nth_error l i = Some x -> i < length l.
Proof. intros H. apply nth_error_Some. congruence. Qed.

(** If [*split] can be read after nth_element then the position was inside. *)
Lemma nth_element_in d h seg i :
  d < n -> Forall in_sp seg -> h <= length seg ->
  nth_error (std_nth_element alg (coord_lt sp d) h seg) h = Some i -> h < length seg.
Proof.
  intros Hd F Hh Hi. apply nth_error_some_lt in Hi.
  rewrite (Permutation_length (sl_nth_perm _ SL (coord_lt sp d) h seg
             (coord_lt_strict_weak sp d seg (coords_ok_list d seg Hd F)) Hh)) in Hi.
  exact Hi.
Qed.

(** What every splitter guarantees about its result: left, right, dimension,
    value. *)
Record split_facts (seg : list nat) (bx : box T) (ru : rule) (l r : list nat) (d : nat) (v : T)
  : Prop := {
  sf_dim : d < n;
  sf_perm : Permutation (l ++ r) seg;
  sf_in : Forall in_sp seg;
  sf_val :
    (ok v /\ exists i, In i seg /\ v = coord sp d i)
    \/ v = s_add (s_div (s_sub (get (box_max bx) d) (get (box_min bx) d)) s_two) (get (box_min bx) d)
    \/ v = s_add (s_mul (s_sub (get (box_max bx) d) (get (box_min bx) d)) s_half) (get (box_min bx) d);
  sf_val_mid : ru = midpoint_max_side ->
    v = s_add (s_mul (s_sub (get (box_max bx) d) (get (box_min bx) d)) s_half) (get (box_min bx) d);
  sf_left : ok v -> forall i, In i l -> s_leb (coord sp d i) v = true;
  sf_right : ok v -> forall i, In i r -> s_leb v (coord sp d i) = true;
  sf_nonempty : ru <> midpoint_max_side -> 2 <= length seg -> l <> [] /\ r <> [];
  sf_nonnil : ru <> midpoint_max_side -> seg <> [];
  sf_median : ru = median_max_side -> length l = length seg / 2
}.

Lemma ok4_inj {A B C D} (a a' : A) (b b' : B) (c c' : C) (d d' : D) :
  Ok (a, b, c, d) = Ok (a', b', c', d') -> a = a' /\ b = b' /\ c = c' /\ d = d'.
Proof. intros H. inversion H. auto. Qed.

Lemma splitter_facts ru seg bx l r d v :
  box_wf n bx -> splitter alg ru sp seg bx = Ok (l, r, d, v) ->
  split_facts seg bx ru l r d v.
Proof.
  intros W H. destruct ru; simpl in H.
  - unfold split_median in H. okbind H. destruct a as [d' delta].
    assert (Hh : length seg / 2 <= length seg) by (apply Nat.div_le_upper_bound; lia).
    assert (Hh1 : 2 <= length seg -> 1 <= length seg / 2) by (intros; apply Nat.div_le_lower_bound; lia).
    remember (length seg / 2) as h eqn:Eh.
    okbind H. okbind H. injection H as <- <- <- <-.
    apply split_side_facts in E as (Hd & F & Hdelta); auto.
    apply at_ok in E0. rename a into i.
    pose proof (nth_element_in d' _ seg i Hd F Hh E0) as Hlt.
    destruct (nth_element_facts d' _ seg i Hd F E0 Hlt) as (P & L1 & L2 & Ii & A & B).
    constructor; auto.
    + left. split; [|eauto]. apply (coords_ok_list d' seg); auto.
    + discriminate.
    + intros _ H2. split; apply length_nonnil; [rewrite L1|rewrite L2]; lia.
    + intros _ ->. simpl in Hlt. lia.
    + intros _. rewrite <- Eh. exact L1.
  - unfold split_midpoint in H. okbind H. destruct a as [d' delta].
    destruct (std_partition _ _ _) as [a b] eqn:Ep. injection H as <- <- <- <-.
    apply split_side_facts in E as (Hd & F & Hdelta); auto.
    apply partition_facts in Ep as (P & A & B).
    assert (K : forall x, In x seg -> ok (coord sp d' x)) by (apply coords_ok_list; auto).
    constructor; auto; try congruence.
    + right. right. rewrite Hdelta. reflexivity.
    + intros Hv x Hx. apply ltb_leb; auto. apply K. eapply Permutation_in; eauto. apply in_or_app; auto.
    + intros Hv x Hx. apply ltb_false; auto. apply K. eapply Permutation_in; eauto. apply in_or_app; auto.
  - unfold split_sliding in H. okbind H. destruct a as [d' delta].
    destruct (std_partition _ _ _) as [a b] eqn:Ep.
    apply split_side_facts in E as (Hd & F & Hdelta); auto.
    apply partition_facts in Ep as (P & A & B).
    assert (K : forall x, In x seg -> ok (coord sp d' x)) by (apply coords_ok_list; auto).
    assert (F' : Forall in_sp (a ++ b)) by (eapply Permutation_Forall'; [symmetry|]; eauto).
    assert (PL := Permutation_length P).
    destruct b as [|b0 b1].
    + destruct (length (a ++ [])) as [|h] eqn:L; [discriminate|].
      okbind H. okbind H. injection H as <- <- <- <-. apply at_ok in E. rename a0 into i.
      assert (Hh : h < length (a ++ [])) by lia.
      destruct (nth_element_facts d' _ _ i Hd F' E Hh) as (P' & L1 & L2 & Ii & A' & B').
      assert (Ii' : In i seg) by (eapply Permutation_in; eauto).
      constructor; auto; try congruence.
      * rewrite P'. auto.
      * left. split; eauto.
      * intros _ H2. split; apply length_nonnil; [rewrite L1|rewrite L2]; lia.
      * intros _ ->. simpl in PL. lia.
    + destruct a as [|a0 a1].
      * okbind H. okbind H. apply ok4_inj in H as (<- & <- & <- & <-). apply at_ok in E. rename a into i.
        pose proof (nth_element_in d' 1 _ i Hd F' ltac:(simpl; lia) E) as Hlt.
        destruct (nth_element_facts d' _ _ i Hd F' E Hlt) as (P' & L1 & L2 & Ii & A' & B').
        assert (Ii' : In i seg) by (eapply Permutation_in; eauto).
        constructor; auto; try congruence.
        -- rewrite P'. auto.
        -- left. split; eauto.
        -- intros _ H2. split; apply length_nonnil; [rewrite L1|rewrite L2]; lia.
        -- intros _ ->. simpl in PL. lia.
      * injection H as <- <- <- <-.
        constructor; auto; try congruence.
        -- right. left. rewrite Hdelta. reflexivity.
        -- intros Hv x Hx. apply ltb_leb; auto. apply K. eapply Permutation_in; eauto. apply in_or_app; auto.
        -- intros Hv x Hx. apply ltb_false; auto. apply K. eapply Permutation_in; eauto. apply in_or_app; auto.
        -- intros _ _. split; congruence.
        -- intros _ ->. simpl in PL. lia.
Qed.

(** A segment of a successful non-midpoint build that is split has at least two
    points. *)
Variables (c : category) (ru : rule) (it : index_type) (stop : stop_condition).
Local Notation cn := (create_node c alg ru it stop sp).

Lemma create_node_one fuel : forall depth off x bx,
  ru <> midpoint_max_side -> box_wf n bx -> is_leaf it stop depth 1 = false ->
  forall y, cn fuel depth off [x] bx <> Ok y.
Proof.
  induction fuel as [|fuel IH]; intros depth off x bx Hru W HL y H; [discriminate|].
  cbn [create_node length] in H. rewrite HL in H. okbind H. destruct a as [[[l r] d] v].
  apply splitter_facts in E; auto.
  pose proof (Permutation_length (sf_perm _ _ _ _ _ _ _ E)) as PL. rewrite app_length in PL. simpl in PL.
  okbind H. destruct a as [[nl sl] lb]. okbind H.
  assert (HL' : is_leaf it stop (depth + 1) 1 = false).
  { destruct stop; simpl in *; auto. rewrite orb_true_r in HL. discriminate. }
  destruct l as [|l0 [|? ?]]; simpl in PL; try lia.
  - destruct r as [|r0 [|? ?]]; simpl in PL; try lia.
    eapply IH; [auto| |exact HL'|exact E1]. apply box_set_min_wf; auto.
  - eapply IH; [auto| |exact HL'|exact E0]. apply box_set_max_wf; auto.
Qed.

Lemma create_node_two fuel depth off seg bx y :
  ru <> midpoint_max_side -> box_wf n bx -> is_leaf it stop depth (length seg) = false ->
  cn fuel depth off seg bx = Ok y -> 2 <= length seg.
Proof.
  intros Hru W HL H. destruct seg as [|x [|? ?]]; simpl; try lia.
  - exfalso. destruct fuel; [discriminate|].
    cbn [create_node length] in H. simpl in HL. rewrite HL in H. okbind H. destruct a as [[[l r] d] v].
    apply splitter_facts in E; auto. eapply (sf_nonnil _ _ _ _ _ _ _ E); auto.
  - exfalso. eapply create_node_one; eauto.
Qed.

(** Facts A: permutation, ranges, containment. *)
Definition R_holds (br : branch_data c T) (l r : list nat) : Prop :=
  exists lb rb d, br = set_branch c lb rb d /\ d < n /\ box_wf n lb /\ box_wf n rb
    /\ ok_box n lb /\ ok_box n rb /\ holds lb l /\ holds rb r.

Hypothesis MID : ru = midpoint_max_side -> mid_ok S ok.

Lemma forallb_in_space seg : forallb (in_space sp) seg = true <-> Forall in_sp seg.
Proof. rewrite forallb_forall, Forall_forall. tauto. Qed.

Lemma create_node_holds fuel : forall depth off seg bx nd seg' bx',
  box_wf n bx -> (ru = midpoint_max_side -> ok_box n bx) ->
  cn fuel depth off seg bx = Ok (nd, seg', bx') ->
  Permutation seg' seg /\ Forall in_sp seg /\ box_wf n bx' /\ ok_box n bx' /\ holds bx' seg'
  /\ node_spans R_holds nd off seg'.
Proof.
  induction fuel as [|fuel IH]; intros depth off seg bx nd seg' bx' W OB H; [discriminate|].
  cbn [create_node] in H. destruct (is_leaf it stop depth (length seg)) eqn:HL.
  - okbind H. apply guard_ok in E. apply forallb_in_space in E. injection H as <- <- <-.
    destruct (compute_bounding_box_spec seg E) as (A & B & C).
    split; [reflexivity|]. split; [exact E|].
    assert (K : (box_wf n (match ru with
          | midpoint_max_side => match seg with [] => bx | _ :: _ => compute_bounding_box sp seg end
          | _ => compute_bounding_box sp seg end)
        /\ ok_box n (match ru with
          | midpoint_max_side => match seg with [] => bx | _ :: _ => compute_bounding_box sp seg end
          | _ => compute_bounding_box sp seg end)
        /\ holds (match ru with
          | midpoint_max_side => match seg with [] => bx | _ :: _ => compute_bounding_box sp seg end
          | _ => compute_bounding_box sp seg end) seg)).
    { destruct ru; auto. destruct seg; auto. split; auto. split; auto. intros i []. }
    destruct K as (K1 & K2 & K3). repeat (split; auto). constructor.
  - okbind H. destruct a as [[[l r] d] v].
    okbind H. destruct a as [[nl sl] lb]. okbind H. destruct a as [[nr sr] rb].
    injection H as <- <- <-.
    apply splitter_facts in E; auto.
    assert (Hv : ru = midpoint_max_side -> ok v).
    { intros Hm. rewrite (sf_val_mid _ _ _ _ _ _ _ E Hm).
      destruct (OB Hm d (sf_dim _ _ _ _ _ _ _ E)). apply MID; auto. }
    apply IH in E0 as (P1 & F1 & W1 & O1 & H1 & S1);
      [| apply box_set_max_wf; auto | intros Hm; apply box_set_max_ok; auto].
    apply IH in E1 as (P2 & F2 & W2 & O2 & H2 & S2);
      [| apply box_set_min_wf; auto | intros Hm; apply box_set_min_ok; auto].
    split; [rewrite P1, P2; apply (sf_perm _ _ _ _ _ _ _ E)|].
    split; [apply (sf_in _ _ _ _ _ _ _ E)|].
    split; [apply box_fit_box_wf; auto|].
    split; [apply box_fit_box_ok; auto|].
    split.
    + intros i Hi. apply in_app_iff in Hi.
      assert (in_space sp i = true).
      { destruct Hi as [Hi|Hi];
          [apply (Permutation_in _ P1) in Hi; rewrite Forall_forall in F1
          |apply (Permutation_in _ P2) in Hi; rewrite Forall_forall in F2]; auto. }
      apply box_fit_box_keep; auto. apply ok_point_at; auto.
      destruct Hi; [left; apply H1|right; apply H2]; auto.
    + constructor; auto.
      * rewrite (Permutation_length P1). exact S2.
      * exists lb, rb, d. repeat (split; auto). apply (sf_dim _ _ _ _ _ _ _ E).
Qed.

End Ord.
