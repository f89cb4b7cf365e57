(** The structure of cover trees: levels, separation, covering and nearest ancestors. *)
From Coq Require Import List ZArith Reals Bool Arith Permutation Lia Lra.
From Verif Require Import Base ModelBox ModelBuild ModelSearch Spec ModelCover SpecCover SpecCoverInv Lemmas CoverThms.
Import ListNotations.
Local Open Scope nat_scope.

(** * Smaller trees *)
Section Sub.
Context {T : Type}.
Definition below (n : cover_node T) : list nat := flat_map stored (cn_children n).
Inductive sub : cover_node T -> cover_node T -> Prop :=
| sub_node l md md' i cs cs' : (forall c', In c' cs' -> exists c, In c cs /\ sub c' c) ->
    sub (CoverNode l md' i cs') (CoverNode l md i cs).

Lemma sub_refl : forall n, sub n n.
Proof.
  induction n as [l md i cs F] using cover_ind. constructor. intros c H. exists c. split; auto.
  rewrite Forall_forall in F. auto.
Qed.
Lemma sub_index n' n : sub n' n -> cn_index n' = cn_index n.
Proof. intros []. reflexivity. Qed.
Lemma sub_level n' n : sub n' n -> cn_level n' = cn_level n.
Proof. intros []. reflexivity. Qed.
Lemma sub_stored : forall n n', sub n' n -> incl (stored n') (stored n).
Proof.
  induction n as [l md i cs F] using cover_ind. intros n' H. inversion H as [? ? ? ? ? cs' HS]; subst.
  intros y Hy. cbn [stored] in *. destruct Hy as [<-|Hy]; [left; auto|right].
  apply in_flat_map in Hy as (c' & Hc & Hy). destruct (HS c' Hc) as (c & Ic & Sc).
  apply in_flat_map. exists c. split; auto. rewrite Forall_forall in F. apply (F c Ic c' Sc y Hy).
Qed.
Lemma sub_below n n' : sub n' n -> incl (below n') (below n).
Proof.
  intros H. inversion H as [? ? ? ? cs cs' HS]; subst. unfold below. cbn [cn_children].
  intros y Hy. apply in_flat_map in Hy as (c' & Hc & Hy). destruct (HS c' Hc) as (c & Ic & Sc).
  apply in_flat_map. exists c. split; auto. apply (sub_stored c c' Sc y Hy).
Qed.
Lemma sub_trans : forall b a c, sub a b -> sub b c -> sub a c.
Proof.
  induction b as [l md i cs F] using cover_ind. intros a c H1 H2.
  inversion H1 as [? ? ? ? ? csa HA]; subst. inversion H2 as [? ? ? ? csc ? HC]; subst.
  constructor. intros c' Hc'. destruct (HA c' Hc') as (b & Ib & Sb). destruct (HC b Ib) as (c & Ic & Sc).
  exists c. split; auto. rewrite Forall_forall in F. apply (F b Ib); auto.
Qed.
Lemma below_stored n y : In y (stored n) <-> y = cn_index n \/ In y (below n).
Proof. rewrite stored_eq. cbn [In]. unfold below. intuition. Qed.
End Sub.

Section Build.
Context {T : Type} {S : Scalar T}.
Variables (cm : cmath T) (alg : std_algos) (m : metric T) (sp : space T) (base : T).
Hypothesis SL : std_laws alg.
Let N := npts sp.
Notation D := (between m sp).

Lemma remove_leaf_sub (t : cover_node T) : forall t' leaf, remove_leaf t = Ok (t', leaf) ->
  sub t' t /\ In (cn_index leaf) (below t).
Proof.
  induction t as [l md i cs F] using cover_ind. intros t' leaf E.
  destruct cs as [|c0 cs_]. { discriminate. }
  destruct (exists_last (l := c0 :: cs_)) as (cs0 & b & EB). { discriminate. }
  rewrite EB in *. clear EB. cbn [remove_leaf] in E. rewrite map_app, rev_app_distr in E. cbn [map rev app] in E.
  rewrite removelast_last in E. apply Forall_app in F as [_ F]. inversion F as [|? ? IH _]; subst.
  unfold below. cbn [cn_children]. rewrite flat_map_app. cbn [flat_map]. rewrite app_nil_r.
  destruct (cn_is_leaf b) eqn:LB.
  - injection E as <- <-. split.
    + constructor. intros c H. exists c. split; [apply in_or_app; auto|apply sub_refl].
    + apply in_or_app. right. apply below_stored. auto.
  - destruct (remove_leaf b) as [[b' lf]| |] eqn:RB; cbn [bind] in E; try discriminate. injection E as <- <-.
    destruct (IH _ _ eq_refl) as [S1 I1]. split.
    + constructor. intros c H. apply in_app_or in H as [H|[<-|[]]].
      * exists c. split; [apply in_or_app; auto|apply sub_refl].
      * exists b. split; [apply in_or_app; cbn; auto|auto].
    + apply in_or_app. right. apply below_stored. auto.
Qed.

Lemma copy_sub cap : forall (n : cover_node T) used n' used', depth_first_buffer_copy cap n used = Ok (n', used') -> sub n' n.
Proof.
  induction n as [l md i cs F] using cover_ind. intros used n' used' E. cbn [depth_first_buffer_copy] in E.
  destruct (buffer_allocate cap used) as [u1| |]; cbn [bind] in E; try discriminate.
  set (go := fix go (cs : list (cover_node T)) (used : nat) : res (list (cover_node T) * nat) := _) in E.
  assert (K : forall cs u cs' u', Forall (fun n => forall used n' used', depth_first_buffer_copy cap n used = Ok (n', used') -> sub n' n) cs ->
    go cs u = Ok (cs', u') -> forall c', In c' cs' -> exists c, In c cs /\ sub c' c).
  { clear. induction cs as [|c cs IH]; intros u cs' u' F E.
    - cbn in E. injection E as <- _. intros c' [].
    - cbn [go] in E. destruct (depth_first_buffer_copy cap c u) as [[c1 u1]| |] eqn:E1; cbn [bind] in E; try discriminate.
      fold go in E. destruct (go cs u1) as [[cs1 u2]| |] eqn:E2; cbn [bind] in E; try discriminate.
      injection E as <- _. inversion F as [|? ? F1 F2]; subst. intros c' [<-|H].
      + exists c. split; [left; auto|]. eapply F1; eauto.
      + destruct (IH u1 cs1 u2 F2 E2 c' H) as (c2 & I2 & S2). exists c2. split; [right; auto|auto]. }
  destruct (go cs u1) as [[cs' u2]| |] eqn:EG; cbn [bind] in E; try discriminate.
  injection E as <- _. constructor. apply (K cs u1 cs' u2 F EG).
Qed.

Lemma update_sub : forall n : cover_node T, sub (update_max_distance m sp n) n.
Proof.
  induction n as [l md i cs F] using cover_ind. cbn [update_max_distance]. constructor. intros c' H.
  apply in_map_iff in H as (c & <- & H). exists c. split; auto. rewrite Forall_forall in F. auto.
Qed.

(** * Taking subtrees apart *)
Section Apart.
Variables (xi ci : nat).
Let moves (y : nat) : Prop := s_ltb (D xi y) (D ci y) = true \/ s_ltb (D ci y) (D xi y) = false.
Let stays (y : nat) : Prop := s_ltb (D xi y) (D ci y) = false.
Let keeps (y : nat) : Prop := s_ltb (D ci y) (D xi y) = true.
Definition from (l : list nat) (Q : nat -> Prop) (old new : list (cover_node T)) : Prop :=
  forall n, In n new -> In n old \/ (cn_is_leaf n = true /\ In (cn_index n) l /\ Q (cn_index n)).

Lemma from_refl l Q old : from l Q old old.
Proof. intros n H. auto. Qed.
Lemma from_trans l Q a b c : from l Q a b -> from l Q b c -> from l Q a c.
Proof. intros H1 H2 n Hn. destruct (H2 n Hn) as [H|H]; auto. Qed.
Lemma from_incl l l' Q a b : incl l l' -> from l Q a b -> from l' Q a b.
Proof. intros HI H n Hn. destruct (H n Hn) as [G|(A & B & C)]; auto. Qed.
Lemma from_snoc (l : list nat) (Q : nat -> Prop) a c : In (cn_index c) l -> Q (cn_index c) -> from l Q a (a ++ [cn_clear c]).
Proof.
  intros H1 H2 n Hn. apply in_app_or in Hn as [Hn|[<-|[]]]; auto. right.
  rewrite index_clear. split; auto. apply leaf_clear.
Qed.

Lemma strip_from : forall (d : cover_node T) b,
  from (below d) moves (fst b) (fst (strip m sp (sp_at sp xi) (sp_at sp ci) d b))
  /\ from (below d) stays (snd b) (snd (strip m sp (sp_at sp xi) (sp_at sp ci) d b)).
Proof.
  induction d as [l md i cs F] using cover_ind. intros b. cbn [strip]. unfold below. cbn [cn_children].
  revert b. induction cs as [|c cs IHc]; intros b; cbn [fold_left flat_map].
  - split; apply from_refl.
  - inversion F as [|? ? Hc Hcs]; subst. specialize (IHc Hcs). destruct (Hc b) as [A1 B1].
    set (b1 := strip m sp (sp_at sp xi) (sp_at sp ci) c b) in *.
    assert (I1 : incl (below c) (stored c ++ flat_map stored cs)).
    { intros y H. apply in_or_app. left. apply below_stored. auto. }
    assert (I2 : incl (flat_map stored cs) (stored c ++ flat_map stored cs)).
    { intros y H. apply in_or_app. auto. }
    assert (I3 : In (cn_index c) (stored c ++ flat_map stored cs)).
    { apply in_or_app. left. apply below_stored. auto. }
    destruct (s_ltb (cn_dist m sp (sp_at sp xi) c) (cn_dist m sp (sp_at sp ci) c)) eqn:C.
    + destruct (IHc (fst b1 ++ [cn_clear c], snd b1)) as [A2 B2]. cbn [fst snd] in A2, B2. split.
      * apply (from_trans _ _ _ (fst b1)); [apply (from_incl _ _ _ _ _ I1 A1)|].
        apply (from_trans _ _ _ (fst b1 ++ [cn_clear c])); [|apply (from_incl _ _ _ _ _ I2 A2)].
        apply from_snoc; [exact I3|left; exact C].
      * apply (from_trans _ _ _ (snd b1)); [apply (from_incl _ _ _ _ _ I1 B1)|apply (from_incl _ _ _ _ _ I2 B2)].
    + destruct (IHc (fst b1, snd b1 ++ [cn_clear c])) as [A2 B2]. cbn [fst snd] in A2, B2. split.
      * apply (from_trans _ _ _ (fst b1)); [apply (from_incl _ _ _ _ _ I1 A1)|apply (from_incl _ _ _ _ _ I2 A2)].
      * apply (from_trans _ _ _ (snd b1)); [apply (from_incl _ _ _ _ _ I1 B1)|].
        apply (from_trans _ _ _ (snd b1 ++ [cn_clear c])); [|apply (from_incl _ _ _ _ _ I2 B2)].
        apply from_snoc; [exact I3|exact C].
Qed.

Lemma extract_from : forall (d : cover_node T) b,
  let r := extract alg m sp (sp_at sp xi) (sp_at sp ci) d b in
  sub (fst r) d /\ (forall y, In y (below (fst r)) -> keeps y)
  /\ from (below d) moves (fst b) (fst (snd r)) /\ from (below d) stays (snd b) (snd (snd r)).
Proof.
  induction d as [l md i cs F] using cover_ind. intros b. cbv zeta. cbn [extract].
  set (dd := CoverNode l md i cs) in *.
  set (p := fun k => s_ltb (cn_dist m sp (sp_at sp ci) (nth k cs dd)) (cn_dist m sp (sp_at sp xi) (nth k cs dd))).
  pose proof (sl_partition_perm _ SL p (seq 0 (length cs))) as HP.
  pose proof (sl_partition_left _ SL p (seq 0 (length cs))) as HL.
  pose proof (sl_partition_right _ SL p (seq 0 (length cs))) as HR.
  destruct (std_partition alg p (seq 0 (length cs))) as [stay move]. cbn [fst snd] in HP, HL, HR.
  assert (RG : forall k, In k stay \/ In k move -> k < length cs).
  { intros k Hk. apply In_seq0. eapply Permutation_in; [exact HP|apply in_or_app; auto]. }
  assert (BE : forall k, k < length cs -> incl (stored (nth k cs dd)) (below dd)).
  { intros k Hk y Hy. unfold below, dd at 1. cbn [cn_children]. apply in_flat_map. exists (nth k cs dd). split; auto.
    apply nth_In. auto. }
  (* moved *)
  assert (K1 : forall ks b, Forall (fun k => k < length cs /\ p k = false) ks ->
    let r := fold_left (fun b k => strip m sp (sp_at sp xi) (sp_at sp ci) (nth k cs dd) (fst b ++ [cn_clear (nth k cs dd)], snd b)) ks b in
    from (below dd) moves (fst b) (fst r) /\ from (below dd) stays (snd b) (snd r)).
  { induction ks as [|k ks IH]; intros b' FK; cbv zeta in *; cbn [fold_left].
    - split; apply from_refl.
    - inversion FK as [|? ? [Hk Pk] FK2]; subst.
      destruct (strip_from (nth k cs dd) (fst b' ++ [cn_clear (nth k cs dd)], snd b')) as [A B]. cbn [fst snd] in A, B.
      assert (I1 : incl (below (nth k cs dd)) (below dd)).
      { intros y Hy. apply (BE k Hk). apply below_stored. auto. }
      destruct (IH (strip m sp (sp_at sp xi) (sp_at sp ci) (nth k cs dd) (fst b' ++ [cn_clear (nth k cs dd)], snd b')) FK2) as [A2 B2].
      split.
      + eapply from_trans; [|exact A2]. eapply from_trans; [|apply (from_incl _ _ _ _ _ I1 A)].
        apply from_snoc; [apply (BE k Hk), below_stored; auto|]. right. exact Pk.
      + eapply from_trans; [|exact B2]. apply (from_incl _ _ _ _ _ I1 B). }
  specialize (K1 (rev move) b). cbv zeta in K1.
  match type of K1 with _ -> from _ _ _ (fst ?e) /\ _ => set (b1 := e) in * end.
  destruct K1 as [A1 B1].
  { apply Forall_forall. intros k Hk. apply in_rev in Hk. auto. }
  (* kept *)
  assert (K2 : forall ks cs0 b, Forall (fun k => k < length cs /\ p k = true) ks ->
    (forall c', In c' cs0 -> (exists c, In c cs /\ sub c' c) /\ (forall y, In y (stored c') -> keeps y)) ->
    let r := fold_left (fun '(cs', b) k =>
        let '(c', b') := nth k (map (fun c => extract alg m sp (sp_at sp xi) (sp_at sp ci) c) cs) (fun b => (dd, b)) b in (c' :: cs', b'))
      ks (cs0, b) in
    (forall c', In c' (fst r) -> (exists c, In c cs /\ sub c' c) /\ (forall y, In y (stored c') -> keeps y))
    /\ from (below dd) moves (fst b) (fst (snd r)) /\ from (below dd) stays (snd b) (snd (snd r))).
  { induction ks as [|k ks IH]; intros cs0 b' FK H0; cbv zeta in *; cbn [fold_left].
    - cbn [fst snd]. split; auto. split; apply from_refl.
    - inversion FK as [|? ? [Hk Pk] FK2]; subst.
      rewrite (nth_indep _ _ (extract alg m sp (sp_at sp xi) (sp_at sp ci) dd)) by (rewrite map_length; auto).
      rewrite map_nth. rewrite Forall_forall in F.
      pose proof (F (nth k cs dd) (nth_In _ _ Hk) b') as G. cbv zeta in G.
      destruct (extract alg m sp (sp_at sp xi) (sp_at sp ci) (nth k cs dd) b') as [c' b2]. cbn [fst snd] in G.
      destruct G as (SU & KE & A & B).
      assert (I1 : incl (below (nth k cs dd)) (below dd)).
      { intros y Hy. apply (BE k Hk). apply below_stored. auto. }
      destruct (IH (c' :: cs0) b2 FK2) as (H1 & A2 & B2).
      { intros c2 [<-|H2]; auto. split; [exists (nth k cs dd); split; auto; apply nth_In; auto|].
        intros y Hy. apply below_stored in Hy as [->|Hy]; auto.
        rewrite (sub_index _ _ SU). exact Pk. }
      split; auto. split.
      + eapply from_trans; [|exact A2]. apply (from_incl _ _ _ _ _ I1 A).
      + eapply from_trans; [|exact B2]. apply (from_incl _ _ _ _ _ I1 B). }
  specialize (K2 (rev stay) [] b1). cbv zeta in K2.
  match type of K2 with _ -> _ -> (forall c', In c' (fst ?e) -> _) /\ _ => set (r2 := e) in * end.
  match goal with |- context [fold_left ?g (rev stay) ?a] => change (fold_left g (rev stay) a) with r2 end.
  destruct K2 as (H2 & A2 & B2).
  { apply Forall_forall. intros k Hk. apply in_rev in Hk. auto. }
  { intros c' []. }
  destruct r2 as [cs' b2]. cbn [fst snd] in *. split; [|split; [|split]].
  - constructor. intros c' Hc'. apply (H2 c' Hc').
  - unfold below. cbn [cn_children]. intros y Hy. apply in_flat_map in Hy as (c' & Hc & Hy). apply (proj2 (H2 c' Hc) y Hy).
  - eapply from_trans; eauto.
  - eapply from_trans; eauto.
Qed.
End Apart.

(** * The structure *)
Section Good.
Variable (ok : T -> Prop).
Hypothesis OL : ord_laws S ok.
Hypothesis OKD : forall i j, i < N -> j < N -> ok (D i j).
Hypothesis OKP : forall l, ok (c_pow cm base l).
Hypothesis SYM : forall i j, i < N -> j < N -> s_leb (D i j) (D j i) = true.
(** If [strong], distances are those of a metric, and real arithmetic is exact. *)
Variables (strong : Prop) (val : T -> R) (P : R -> R).
Hypothesis RO : strong -> real_ops S val.
Hypothesis PW : strong -> powers val cm base P.
Hypothesis ME : strong -> is_metric val m sp.
Hypothesis B2 : strong -> (2 <= val base)%R.
Notation d := (fun i j => val (D i j)).
Notation cd l := (c_pow cm base (s_sub l s_one)).

Definition steps (lc lp : T) : Prop := lc = s_sub lp s_one \/ lp = s_add lc s_one.
Lemma steps_val lc lp : strong -> steps lc lp -> val lc = (val lp - 1)%R.
Proof.
  intros H. destruct (RO H) as [_ _ A B C _]. intros [-> | ->]; rewrite ?A, ?B, C; lra.
Qed.

Record local (l : T) (i : nat) (cs : list (cover_node T)) : Prop := {
  lo_range : i < N;
  lo_level : forall c, In c cs -> steps (cn_level c) l;
  lo_sep : forall c c', In c cs -> In c' cs -> cn_index c <> cn_index c' ->
    s_ltb (cd l) (D (cn_index c) (cn_index c')) = true;
  lo_cover : strong -> forall y, In y (flat_map stored cs) -> (d i y <= P (val l))%R;
  lo_near : strong -> forall c c' y, In c cs -> In c' cs -> In y (stored c) ->
    (d (cn_index c) y <= d (cn_index c') y)%R
}.
Inductive good : cover_node T -> Prop :=
| good_node l md i cs : local l i cs -> (forall c, In c cs -> good c) -> good (CoverNode l md i cs).

Lemma good_index n : good n -> cn_index n < N.
Proof. intros [? ? ? ? []]. auto. Qed.
Lemma good_stored : forall n y, good n -> In y (stored n) -> y < N.
Proof.
  induction n as [l md i cs F] using cover_ind. intros y G H. inversion G as [? ? ? ? L GC]; subst.
  cbn [stored] in H. destruct H as [<-|H]; [apply (lo_range _ _ _ L)|].
  apply in_flat_map in H as (c & Hc & H). rewrite Forall_forall in F. apply (F c Hc y (GC c Hc) H).
Qed.
Lemma good_leaf n : cn_is_leaf n = true -> cn_index n < N -> good n.
Proof.
  destruct n as [l md i [|c cs]]; [|discriminate]. intros _ H. constructor; [|intros c []].
  constructor; auto; intros; cbn [flat_map In] in *; contradiction.
Qed.
Lemma good_set_leaf n l : cn_is_leaf n = true -> cn_index n < N -> good (cn_set_level n l).
Proof. intros H1 H2. apply good_leaf; [rewrite leaf_set_level|rewrite index_set_level]; auto. Qed.

Lemma sub_good : forall n n', good n -> sub n' n -> good n'.
Proof.
  induction n as [l md i cs F] using cover_ind. intros n' G H.
  inversion H as [? ? ? ? ? cs' HS]; subst. inversion G as [? ? ? ? [L1 L2 L3 L4 L5] GC]; subst.
  rewrite Forall_forall in F. constructor.
  - constructor; auto.
    + intros c' Hc'. destruct (HS c' Hc') as (c & Ic & Sc). rewrite (sub_level _ _ Sc). auto.
    + intros c1 c2 H1 H2. destruct (HS c1 H1) as (e1 & I1 & S1). destruct (HS c2 H2) as (e2 & I2 & S2).
      rewrite (sub_index _ _ S1), (sub_index _ _ S2). auto.
    + intros HS' y Hy. apply L4; auto. apply in_flat_map in Hy as (c1 & H1 & Hy).
      destruct (HS c1 H1) as (e1 & I1 & S1). apply in_flat_map. exists e1. split; auto. apply (sub_stored _ _ S1 y Hy).
    + intros HS' c1 c2 y H1 H2 Hy. destruct (HS c1 H1) as (e1 & I1 & S1). destruct (HS c2 H2) as (e2 & I2 & S2).
      rewrite (sub_index _ _ S1), (sub_index _ _ S2). apply L5; auto. apply (sub_stored _ _ S1 y Hy).
  - intros c' Hc'. destruct (HS c' Hc') as (c & Ic & Sc). apply (F c Ic); auto.
Qed.

(** Facts about real distances. *)
Lemma d_self i : strong -> i < N -> d i i = 0%R.
Proof. intros H Hi. apply (im_self _ _ _ (ME H) i Hi). Qed.
Lemma d_nonneg i j : strong -> i < N -> j < N -> (0 <= d i j)%R.
Proof.
  intros H Hi Hj. pose proof (im_triangle _ _ _ (ME H) i j i Hi Hj Hi) as A.
  pose proof (im_sym _ _ _ (ME H) i j Hi Hj) as B. pose proof (im_self _ _ _ (ME H) i Hi) as C.
  cbv beta in *. lra.
Qed.
Lemma not_lt x y : strong -> s_ltb x y = false -> (val y <= val x)%R.
Proof.
  intros H E. apply Rnot_lt_le. intros L. apply (ro_lt _ _ (RO H)) in L. congruence.
Qed.
Lemma P_step l : strong -> (P (val l) = val base * P (val l - 1))%R.
Proof. intros H. rewrite <- (pw_step _ _ _ _ (PW H)). f_equal. lra. Qed.

(** Covered by a node. *)
Definition covers (t : cover_node T) (y : nat) : Prop := strong -> (d y (cn_index t) <= P (val (cn_level t)))%R.
Lemma below_covered t y : good t -> In y (below t) -> covers t y.
Proof.
  intros G H HS. inversion G as [l md i cs L GC]; subst. cbn [cn_index cn_level].
  pose proof (lo_cover _ _ _ L HS y H) as A.
  rewrite (im_sym _ _ _ (ME HS)); auto; [|apply (lo_range _ _ _ L)].
  apply (good_stored (CoverNode l md i cs)); auto. apply below_stored. auto.
Qed.

(** What an insertion gives. *)
Definition grown (xi : nat) (t t' : cover_node T) : Prop :=
  good t' /\ cn_index t' = cn_index t /\ cn_level t' = cn_level t
  /\ forall y, In y (stored t') -> y = xi \/ In y (stored t).
Definition inserts (ic : cover_node T -> cover_node T -> res (cover_node T)) : Prop :=
  forall t n t', ic t n = Ok t' -> cn_is_leaf n = true -> cn_index n < N -> good t -> covers t (cn_index n) ->
  grown (cn_index n) t t'.

Lemma insert_many_good ic : inserts ic -> forall l t t', fold_res ic l t = Ok t' -> good t ->
  (forall n, In n l -> cn_is_leaf n = true /\ cn_index n < N /\ covers t (cn_index n)) ->
  good t' /\ cn_index t' = cn_index t /\ cn_level t' = cn_level t
  /\ forall y, In y (stored t') -> In y (idxs l) \/ In y (stored t).
Proof.
  intros HI. induction l as [|n l IH]; intros t t' E G H; cbn [fold_res] in E.
  - injection E as <-. auto.
  - destruct (ic t n) as [t1| |] eqn:E1; cbn [bind] in E; try discriminate.
    destruct (H n (or_introl eq_refl)) as (H1 & H2 & H3).
    destruct (HI t n t1 E1 H1 H2 G H3) as (G1 & I1 & L1 & S1).
    destruct (IH t1 t' E G1) as (G2 & I2 & L2 & S2).
    { intros n' Hn'. destruct (H n' (or_intror Hn')) as (A & B & C). split; auto. split; auto.
      unfold covers in *. rewrite I1, L1. auto. }
    split; auto. split; [congruence|]. split; [congruence|]. intros y Hy. cbn [idxs map In].
    destruct (S2 y Hy) as [A|A]; auto. destruct (S1 y A) as [->|B]; auto.
Qed.

(** The nearest child. *)
Lemma nearest_child_spec xi c cs : xi < N -> (forall e, In e (c :: cs) -> cn_index e < N) ->
  let '(k, dd) := nearest_child m sp (sp_at sp xi) c cs in
  exists ck, nth_error (c :: cs) k = Some ck /\ dd = D xi (cn_index ck)
    /\ forall e, In e (c :: cs) -> s_leb (D xi (cn_index ck)) (D xi (cn_index e)) = true.
Proof.
  intros HX HC. unfold nearest_child.
  set (g := fun '(min_i, min_d) i => _).
  assert (K : forall n a, n <= length cs -> (exists ck, nth_error (c :: cs) (fst a) = Some ck /\ snd a = D xi (cn_index ck)
      /\ forall j e, j <= length cs - n -> nth_error (c :: cs) j = Some e -> s_leb (D xi (cn_index ck)) (D xi (cn_index e)) = true) ->
    exists ck, nth_error (c :: cs) (fst (fold_left g (seq (Datatypes.S (length cs - n)) n) a)) = Some ck
      /\ snd (fold_left g (seq (Datatypes.S (length cs - n)) n) a) = D xi (cn_index ck)
      /\ forall j e, nth_error (c :: cs) j = Some e -> s_leb (D xi (cn_index ck)) (D xi (cn_index e)) = true).
  { induction n as [|n IH]; intros [mi md] Hn (ck & E1 & E2 & A).
    - cbn [seq fold_left]. exists ck. split; auto. split; auto. intros j e Hj. apply (A j); auto.
      assert (j < length (c :: cs)) by (apply nth_error_Some; congruence). cbn [length] in *. lia.
    - cbn [seq fold_left fst snd] in *. 
      destruct (nth_error (c :: cs) (Datatypes.S (length cs - Datatypes.S n))) as [e1|] eqn:Ee.
      2:{ apply nth_error_None in Ee. cbn [length] in Ee. lia. }
      assert (ES : Datatypes.S (Datatypes.S (length cs - Datatypes.S n)) = Datatypes.S (length cs - n)) by lia.
      rewrite ES. apply IH; [lia|]. unfold g. rewrite (nth_error_nth _ _ c Ee).
      assert (O1 : ok (D xi (cn_index e1))) by (apply OKD; auto; apply HC; eapply nth_error_In; eauto).
      assert (O2 : ok (D xi (cn_index ck))) by (apply OKD; auto; apply HC; eapply nth_error_In; eauto).
      change (cn_dist m sp (sp_at sp xi) e1) with (D xi (cn_index e1)). rewrite E2 in *.
      destruct (s_ltb (D xi (cn_index e1)) (D xi (cn_index ck))) eqn:C.
      + exists e1. cbn [fst snd]. split; auto. split; auto. intros j e Hj He.
        assert (O3 : ok (D xi (cn_index e))) by (apply OKD; auto; apply HC; eapply nth_error_In; eauto).
        destruct (Nat.eq_dec j (Datatypes.S (length cs - Datatypes.S n))) as [->|NE].
        * rewrite Ee in He. injection He as <-. destruct (ol_total _ _ OL _ _ O1 O1); auto.
        * rewrite (ol_lt _ _ OL) in C by auto. apply negb_true_iff in C.
          destruct (ol_total _ _ OL _ _ O1 O2) as [T1|T1]; [|congruence].
          eapply (ol_trans _ _ OL); [exact O1|exact O2|exact O3|exact T1|]. apply (A j e); auto; lia.
      + exists ck. cbn [fst snd]. split; auto. split; auto. intros j e Hj He.
        destruct (Nat.eq_dec j (Datatypes.S (length cs - Datatypes.S n))) as [->|NE].
        * rewrite Ee in He. injection He as <-. rewrite (ol_lt _ _ OL) in C by auto. apply negb_false_iff in C. exact C.
        * apply (A j e); auto; lia. }
  specialize (K (length cs) (0, cn_dist m sp (sp_at sp xi) c) (le_n _)). rewrite Nat.sub_diag in K.
  destruct K as (ck & E1 & E2 & A).
  { exists c. split; auto. split; auto. intros j e Hj He. destruct j; [|lia]. injection He as <-.
    assert (O1 : ok (D xi (cn_index c))) by (apply OKD; auto; apply HC; left; auto).
    destruct (ol_total _ _ OL _ _ O1 O1); auto. }
  destruct (fold_left g (seq 1 (length cs)) _) as [k dd]. cbn [fst snd] in *.
  exists ck. split; auto. split; auto. intros e He. apply In_nth_error in He as (j & Hj). eauto.
Qed.

(** A node to which the search for a parent leads: no child covers the point. *)
Definition apart (xi : nat) (p : cover_node T) : Prop :=
  forall c, In c (cn_children p) -> s_ltb (cd (cn_level p)) (D xi (cn_index c)) = true.

Lemma in_set_nth {A} (l : list A) : forall k (x : A) e, In e (set_nth l k x) -> e = x \/ In e l.
Proof.
  induction l as [|a l IH]; intros [|k] x e H; cbn [set_nth] in H; cbn [In] in *; try tauto.
  - destruct H as [<-|H]; auto.
  - destruct H as [<-|H]; auto. destruct (IH k x e H); auto.
Qed.

Lemma update_good xi f : xi < N ->
  (forall p p', good p -> covers p xi -> apart xi p -> f p = Ok p' -> grown xi p p') ->
  forall t t', good t -> covers t xi ->
  update_at (find_parent cm m sp base t (sp_at sp xi)) f t = Ok t' -> grown xi t t'.
Proof.
  intros HX HF. induction t as [l md i cs F] using cover_ind. intros t' G HC E.
  inversion G as [? ? ? ? L GC]; subst. cbn [find_parent] in E. destruct cs as [|c cs].
  { cbn [update_at] in E. apply HF; auto. intros e []. }
  pose proof (nearest_child_spec xi c cs HX (fun e He => good_index e (GC e He))) as NC.
  destruct (nearest_child m sp (sp_at sp xi) c cs) as [k dd]. destruct NC as (ck & Ek & -> & NE).
  destruct (s_leb (D xi (cn_index ck)) (child_distance cm base (CoverNode l md i (c :: cs)))) eqn:CL.
  2:{ cbn [update_at] in E. apply HF; auto. intros e He. cbn [cn_children cn_level] in *.
      unfold child_distance in CL. cbn [cn_level] in CL.
      assert (O1 : ok (D xi (cn_index ck))) by (apply OKD; auto; apply good_index, GC; eapply nth_error_In; eauto).
      assert (O2 : ok (D xi (cn_index e))) by (apply OKD; auto; apply good_index, GC; auto).
      rewrite (ol_lt _ _ OL) by auto. apply negb_true_iff. destruct (s_leb (D xi (cn_index e)) _) eqn:C; auto.
      rewrite (ol_trans _ _ OL _ _ _ O1 O2 (OKP _) (NE e He) C) in CL. discriminate. }
  assert (EN : nth k (map (fun c => find_parent cm m sp base c (sp_at sp xi)) (c :: cs)) [] = find_parent cm m sp base ck (sp_at sp xi)).
  { apply nth_error_nth. exact (map_nth_error (fun c => find_parent cm m sp base c (sp_at sp xi)) k (c :: cs) Ek). }
  rewrite EN in E. cbn [update_at] in E. unfold at_ in E. rewrite Ek in E. cbn [bind] in E.
  destruct (update_at (find_parent cm m sp base ck (sp_at sp xi)) f ck) as [c'| |] eqn:E1; cbn [bind] in E; try discriminate.
  injection E as <-. pose proof (nth_error_In _ _ Ek) as Ick. rewrite Forall_forall in F.
  destruct (F ck Ick c' (GC ck Ick)) as (G1 & I1 & L1 & S1); auto.
  { intros HS. apply (ro_le _ _ (RO HS)) in CL. unfold child_distance in CL. cbn [cn_level] in CL.
    rewrite (pw_pow _ _ _ _ (PW HS)), (ro_sub _ _ (RO HS)), (ro_one _ _ (RO HS)) in CL.
    rewrite (steps_val _ _ HS (lo_level _ _ _ L ck Ick)). exact CL. }
  destruct L as [L1' L2 L3 L4 L5].
  (* old counterparts of the children *)
  assert (OLD : forall e, In e (set_nth (c :: cs) k c') -> exists e0, In e0 (c :: cs) /\ cn_index e = cn_index e0
    /\ cn_level e = cn_level e0 /\ forall y, In y (stored e) -> In y (stored e0) \/ (y = xi /\ e0 = ck)).
  { intros e He. apply (in_set_nth (c :: cs) k c') in He as [->|He].
    - exists ck. split; auto. split; auto. split; auto. intros y Hy. destruct (S1 y Hy); auto.
    - exists e. auto. }
  assert (ST : forall y, In y (flat_map stored (set_nth (c :: cs) k c')) -> y = xi \/ In y (flat_map stored (c :: cs))).
  { intros y Hy. apply in_flat_map in Hy as (e & He & Hy). destruct (OLD e He) as (e0 & I0 & _ & _ & Y).
    destruct (Y y Hy) as [A|[A _]]; auto. right. apply in_flat_map. exists e0. auto. }
  split; [|split; [reflexivity|split; [reflexivity|]]].
  - constructor; [constructor|].
    + exact L1'.
    + intros e He. destruct (OLD e He) as (e0 & I0 & _ & -> & _). auto.
    + intros e1 e2 H1 H2. destruct (OLD e1 H1) as (f1 & F1 & -> & _). destruct (OLD e2 H2) as (f2 & F2 & -> & _). auto.
    + intros HS y Hy. destruct (ST y Hy) as [->|H]; auto. cbv beta. rewrite (im_sym _ _ _ (ME HS)) by auto. apply (HC HS).
    + intros HS e1 e2 y H1 H2 Hy. destruct (OLD e1 H1) as (f1 & F1 & -> & _ & Y1). destruct (OLD e2 H2) as (f2 & F2 & -> & _).
      destruct (Y1 y Hy) as [A|[-> ->]]; auto.
      assert (R1 : cn_index ck < N) by (apply good_index; auto). assert (R2 : cn_index f2 < N) by (apply good_index; auto).
      pose proof (im_sym _ _ _ (ME HS) (cn_index ck) xi R1 HX) as A1.
      pose proof (im_sym _ _ _ (ME HS) (cn_index f2) xi R2 HX) as A2. cbv beta in *. rewrite A1, A2.
      apply (ro_le _ _ (RO HS)). apply NE. auto.
    + intros e He. apply (in_set_nth (c :: cs) k c') in He as [->|He]; auto.
  - intros y Hy. cbn [stored] in *. destruct Hy as [<-|Hy]; [right; left; auto|].
    destruct (ST y Hy); auto. right. right. auto.
Qed.

Lemma rebalance_good ic xi parent node p' : inserts ic -> cn_is_leaf node = true -> cn_index node = xi -> xi < N ->
  good parent -> covers parent xi -> apart xi parent ->
  rebalance cm alg m sp base ic parent node (sp_at sp xi) = Ok p' -> grown xi parent p'.
Proof.
  intros HI LN EX HX G HC AP E. destruct parent as [l md i cs]. inversion G as [? ? ? ? [L1 L2 L3 L4 L5] GC]; subst.
  set (xi := cn_index node) in *. unfold rebalance in E. cbn [cn_children cn_level] in *.
  set (dd := s_mul _ s_two) in E.
  set (step := fun '(cs', to_move) child => _) in E.
  (* what becomes of a child *)
  set (turned := fun c0 c : cover_node T => good c /\ cn_index c = cn_index c0 /\ cn_level c = cn_level c0
    /\ (forall y, In y (stored c) -> In y (stored c0))
    /\ (strong -> forall y, In y (stored c) -> (d (cn_index c0) y <= d xi y)%R)).
  set (moved := fun n : cover_node T => cn_is_leaf n = true /\ exists c0, In c0 cs /\ In (cn_index n) (below c0)
    /\ (strong -> (d xi (cn_index n) <= d (cn_index c0) (cn_index n))%R)).
  assert (CV : forall c0, In c0 cs -> strong -> P (val (cn_level c0)) = P (val l - 1)%R).
  { intros c0 H0 HS. rewrite (steps_val _ _ HS (L2 c0 H0)). reflexivity. }
  assert (K : forall cs1 cs0 tm cs' A, incl cs1 cs ->
    fold_res step cs1 (cs0, tm) = Ok (cs', A) ->
    (forall c, In c cs0 -> exists c0, In c0 cs /\ turned c0 c) -> Forall moved tm ->
    (forall c, In c cs' -> exists c0, In c0 cs /\ turned c0 c) /\ Forall moved A).
  { induction cs1 as [|c cs1 IH]; intros cs0 tm cs' A INC E1 H0 M0; cbn [fold_res] in E1.
    - injection E1 as <- <-. auto.
    - assert (Ic : In c cs) by (apply INC; left; auto).
      assert (INC' : incl cs1 cs) by (intros e He; apply INC; right; auto).
      pose proof (good_index c (GC c Ic)) as Rc.
      unfold step in E1 at 1. destruct (s_ltb (cn_dist m sp (sp_at sp xi) c) dd) eqn:CD.
      + pose proof (extract_from xi (cn_index c) c (tm, [])) as X. cbv zeta in X.
        destruct (extract alg m sp (sp_at sp xi) (sp_at sp (cn_index c)) c (tm, [])) as [c1 [tm' ts]]. cbn [fst snd] in X.
        destruct X as (SU & KE & FM & FS).
        destruct (fold_res ic (rev ts) c1) as [c2| |] eqn:E2; cbn [bind] in E1; try discriminate.
        pose proof (sub_good _ _ (GC c Ic) SU) as G1.
        assert (TS : forall n, In n ts -> cn_is_leaf n = true /\ In (cn_index n) (below c)
                       /\ s_ltb (D xi (cn_index n)) (D (cn_index c) (cn_index n)) = false).
        { intros n Hn. destruct (FS n Hn) as [[]|H]. auto. }
        assert (RB : forall y, In y (below c) -> y < N).
        { intros y Hy. apply (good_stored c y (GC c Ic)). apply below_stored. auto. }
        destruct (insert_many_good ic HI (rev ts) c1 c2 E2 G1) as (G2 & I2 & V2 & S2).
        { intros n Hn. apply in_rev in Hn. destruct (TS n Hn) as (A1 & A2 & _). split; auto. split; auto.
          unfold covers. rewrite (sub_index _ _ SU), (sub_level _ _ SU). apply below_covered; auto. }
        rewrite (sub_index _ _ SU) in I2. rewrite (sub_level _ _ SU) in V2.
        assert (TC : turned c c2).
        { split; auto. split; auto. split; auto. 
          assert (IN : forall y, In y (stored c2) -> In y (idxs ts) \/ y = cn_index c \/ In y (below c1)).
          { intros y Hy. destruct (S2 y Hy) as [H|H].
            - left. eapply Permutation_in; [apply idxs_rev|exact H].
            - right. apply below_stored in H. rewrite (sub_index _ _ SU) in H. auto. }
          split.
          - intros y Hy. destruct (IN y Hy) as [H|[->|H]].
            + unfold idxs in H. apply in_map_iff in H as (n & <- & Hn). apply below_stored. right. apply (TS n Hn).
            + apply below_stored. auto.
            + apply below_stored. right. apply (sub_below _ _ SU y H).
          - intros HS y Hy. destruct (IN y Hy) as [H|[->|H]].
            + unfold idxs in H. apply in_map_iff in H as (n & <- & Hn). apply (not_lt _ _ HS). apply (TS n Hn).
            + pose proof (d_self (cn_index c) HS Rc) as Z. pose proof (d_nonneg xi (cn_index c) HS HX Rc) as Z2.
              cbv beta in *. lra.
            + apply KE in H. apply (ro_lt _ _ (RO HS)) in H. cbv beta. lra. }
        apply (IH (cs0 ++ [c2]) tm' cs' A INC' E1).
        * intros e He. apply in_app_or in He as [He|[<-|[]]]; auto. exists c. auto.
        * apply Forall_forall. intros n Hn. rewrite Forall_forall in M0. destruct (FM n Hn) as [H|(A1 & A2 & A3)]; auto.
          split; auto. exists c. split; auto. split; auto. intros HS. destruct A3 as [A3|A3].
          -- apply (ro_lt _ _ (RO HS)) in A3. cbv beta. lra.
          -- apply (not_lt _ _ HS A3).
      + cbn [bind] in E1. apply (IH (cs0 ++ [c]) tm cs' A INC' E1); auto.
        intros e He. apply in_app_or in He as [He|[<-|[]]]; auto. exists c. split; auto.
        split; auto. split; auto. split; auto. split; auto. intros HS y Hy.
        (* too far away to matter *)
        apply (not_lt _ _ HS) in CD. unfold dd, child_distance in CD. cbn [cn_level] in CD.
        rewrite (ro_double _ _ (RO HS)), (pw_pow _ _ _ _ (PW HS)), (ro_sub _ _ (RO HS)), (ro_one _ _ (RO HS)) in CD.
        change (cn_dist m sp (sp_at sp xi) c) with (D xi (cn_index c)) in CD.
        assert (Ry : y < N) by (apply (good_stored c y (GC c Ic) Hy)).
        apply below_stored in Hy as [->|Hy].
        * pose proof (d_self (cn_index c) HS Rc) as Z. pose proof (d_nonneg xi (cn_index c) HS HX Rc) as Z2. cbv beta in *. lra.
        * pose proof (below_covered c y (GC c Ic) Hy HS) as Z. rewrite (CV c Ic HS) in Z.
          pose proof (im_triangle _ _ _ (ME HS) xi y (cn_index c) HX Ry Rc) as Z2.
          pose proof (im_sym _ _ _ (ME HS) (cn_index c) y Rc Ry) as Z3. cbv beta in *. lra. }
  destruct (fold_res step cs ([], [])) as [[cs' A]| |] eqn:E1; cbn [bind] in E; try discriminate.
  destruct (K cs [] [] cs' A (fun e H => H) E1) as [TU MO].
  { intros c []. } { constructor. } clear K E1.
  set (node1 := cn_set_level node (s_sub l s_one)) in E.
  destruct (fold_res ic (rev A) node1) as [node2| |] eqn:E2; cbn [bind] in E; try discriminate.
  injection E as <-. rewrite Forall_forall in MO.
  assert (V1 : cn_level node1 = s_sub l s_one) by (unfold node1; destruct node; reflexivity).
  assert (I1 : cn_index node1 = xi) by (unfold node1; apply index_set_level).
  assert (RM : forall n, In n A -> cn_index n < N).
  { intros n Hn. destruct (MO n Hn) as (_ & c0 & Ic & Ib & _). apply (good_stored c0); auto. apply below_stored. auto. }
  destruct (insert_many_good ic HI (rev A) node1 node2 E2) as (G2 & I2 & V2 & S2).
  { unfold node1. apply good_set_leaf; auto. }
  { intros n Hn. apply in_rev in Hn. pose proof (RM n Hn) as Rn. destruct (MO n Hn) as (A1 & c0 & Ic & Ib & A2).
    split; auto. split; auto. intros HS. rewrite V1, I1, (ro_sub _ _ (RO HS)), (ro_one _ _ (RO HS)).
    pose proof (A2 HS) as Z. pose proof (below_covered c0 _ (GC c0 Ic) Ib HS) as Z1. rewrite (CV c0 Ic HS) in Z1.
    pose proof (good_index c0 (GC c0 Ic)) as R0.
    pose proof (im_sym _ _ _ (ME HS) xi (cn_index n) HX Rn) as Z2.
    pose proof (im_sym _ _ _ (ME HS) (cn_index c0) (cn_index n) R0 Rn) as Z3. cbv beta in *. lra. }
  assert (EN : cn_set_level node2 (s_sub l s_one) = node2).
  { rewrite V1 in V2. destruct node2. cbn in V2. subst. reflexivity. }
  unfold push_child. cbn [cn_level cn_push]. rewrite EN, I1 in *.
  assert (ND : forall y, In y (stored node2) -> y = xi \/ exists n, In n A /\ y = cn_index n).
  { intros y Hy. destruct (S2 y Hy) as [H|H].
    - right. apply (Permutation_in _ (idxs_rev A)) in H. unfold idxs in H. apply in_map_iff in H as (n & <- & Hn). eauto.
    - left. rewrite leaf_stored in H by (unfold node1; rewrite leaf_set_level; auto). rewrite I1 in H. destruct H as [<-|[]]. auto. }
  assert (ST : forall y, In y (flat_map stored (cs' ++ [node2])) -> y = xi \/ In y (flat_map stored cs)).
  { intros y Hy. rewrite flat_map_app in Hy. cbn [flat_map] in Hy. rewrite app_nil_r in Hy. apply in_app_or in Hy as [Hy|Hy].
    - apply in_flat_map in Hy as (c & Hc & Hy). destruct (TU c Hc) as (c0 & Ic0 & _ & _ & _ & IN & _).
      right. apply in_flat_map. exists c0. split; auto.
    - destruct (ND y Hy) as [->|(n & Hn & ->)]; auto. destruct (MO n Hn) as (_ & c0 & Ic & Ib & _).
      right. apply in_flat_map. exists c0. split; auto. apply below_stored. auto. }
  split; [|split; [reflexivity|split; [reflexivity|]]].
  - constructor; [constructor|].
    + exact L1.
    + intros e He. apply in_app_or in He as [He|[<-|[]]].
      * destruct (TU e He) as (c0 & Ic0 & _ & _ & -> & _). auto.
      * left. congruence.
    + intros e1 e2 H1 H2 NE.
      assert (SY : forall c0, In c0 cs -> s_ltb (cd l) (D (cn_index c0) xi) = true).
      { intros c0 H0. assert (A1 : s_ltb (cd l) (D xi (cn_index c0)) = true) by exact (AP c0 H0). pose proof (good_index c0 (GC c0 H0)) as R0.
        rewrite (ol_lt _ _ OL) in A1 by auto. rewrite (ol_lt _ _ OL) by auto. apply negb_true_iff in A1. apply negb_true_iff.
        destruct (s_leb (D (cn_index c0) xi) (cd l)) eqn:C; auto.
        rewrite (ol_trans _ _ OL _ _ _ (OKD _ _ HX R0) (OKD _ _ R0 HX) (OKP _) (SYM _ _ HX R0) C) in A1. discriminate. }
      apply in_app_or in H1 as [H1|[<-|[]]]; apply in_app_or in H2 as [H2|[<-|[]]].
      * destruct (TU e1 H1) as (f1 & F1 & _ & J1 & _). destruct (TU e2 H2) as (f2 & F2 & _ & J2 & _).
        rewrite J1, J2 in *. auto.
      * destruct (TU e1 H1) as (f1 & F1 & _ & J1 & _). rewrite J1, I2. auto.
      * destruct (TU e2 H2) as (f2 & F2 & _ & J2 & _). rewrite J2, I2. apply (AP f2 F2).
      * congruence.
    + intros HS y Hy. destruct (ST y Hy) as [->|H]; auto. cbv beta. rewrite (im_sym _ _ _ (ME HS)) by auto. apply (HC HS).
    + intros HS e1 e2 y H1 H2 Hy.
      apply in_app_or in H1 as [H1|[<-|[]]]; apply in_app_or in H2 as [H2|[<-|[]]].
      * destruct (TU e1 H1) as (f1 & F1 & _ & -> & _ & IN & _). destruct (TU e2 H2) as (f2 & F2 & _ & -> & _).
        apply L5; auto.
      * destruct (TU e1 H1) as (f1 & F1 & _ & -> & _ & _ & NR). rewrite I2. apply NR; auto.
      * destruct (TU e2 H2) as (f2 & F2 & _ & -> & _). rewrite I2. destruct (ND y Hy) as [->|(n & Hn & ->)].
        -- pose proof (good_index f2 (GC f2 F2)) as R2. pose proof (d_self xi HS HX) as Z.
           pose proof (d_nonneg (cn_index f2) xi HS R2 HX) as Z2. cbv beta in *. lra.
        -- destruct (MO n Hn) as (_ & c0 & Ic & Ib & A2). apply Rle_trans with (1 := A2 HS). apply L5; auto.
           apply below_stored. auto.
      * apply Rle_refl.
    + intros e He. apply in_app_or in He as [He|[<-|[]]]; auto. destruct (TU e He) as (c0 & _ & GG & _). exact GG.
  - intros y Hy. cbn [stored] in *. destruct Hy as [<-|Hy]; [right; left; auto|].
    destruct (ST y Hy); auto. right. right. auto.
Qed.

Lemma insert_covered_good fuel : inserts (insert_covered cm alg m sp base fuel).
Proof.
  induction fuel as [|fuel IH]; intros t n t' E LN HX G HC; cbn [insert_covered] in E; [discriminate|].
  eapply (update_good (cn_index n) _ HX); [|exact G|exact HC|exact E].
  intros p p' Gp Cp Ap Ep. cbv beta in Ep. destruct (cn_is_leaf p) eqn:LP.
  - injection Ep as <-. destruct p as [l md i [|c cs]]; [|discriminate]. inversion Gp as [? ? ? ? L _]; subst.
    unfold push_child. cbn [cn_level cn_push app]. split; [|split; [reflexivity|split; [reflexivity|]]].
    + constructor; [constructor|].
      * apply (lo_range _ _ _ L).
      * intros c [<-|[]]. left. destruct n. reflexivity.
      * intros c c' [<-|[]] [<-|[]] H. congruence.
      * intros HS y Hy. cbn [flat_map] in Hy. rewrite app_nil_r, stored_set_level, (leaf_stored n LN) in Hy.
        destruct Hy as [<-|[]]. cbv beta. rewrite (im_sym _ _ _ (ME HS)); auto. apply (lo_range _ _ _ L).
      * intros HS c c' y [<-|[]] [<-|[]] _. apply Rle_refl.
      * intros c [<-|[]]. apply good_set_leaf; auto.
    + intros y Hy. cbn [stored flat_map] in *. rewrite app_nil_r, stored_set_level, (leaf_stored n LN) in Hy.
      destruct Hy as [<-|[<-|[]]]; auto. right. left. auto.
  - apply (rebalance_good (insert_covered cm alg m sp base fuel) (cn_index n) p n p'); auto.
Qed.

(** * Raising the root *)
Lemma new_root n (t t' : cover_node T) : cn_is_leaf n = true -> cn_index n < N -> good t ->
  (strong -> forall y, In y (stored t) -> (d (cn_index n) y <= P (val (cn_level t) + 1))%R) ->
  node_to_parent n t = Ok t' ->
  good t' /\ cn_level t' = s_add (cn_level t) s_one /\ cn_is_leaf t' = false.
Proof.
  intros LN HX G H E. unfold node_to_parent in E. rewrite guard_true in E by auto. cbn [bind] in E. injection E as <-.
  destruct n as [l md i [|c cs]]; [|discriminate]. cbn [cn_set_level cn_push app cn_index] in *.
  split; [|split; reflexivity]. constructor; [constructor|].
  - exact HX.
  - intros c [<-|[]]. right. reflexivity.
  - intros c c' [<-|[]] [<-|[]] NE. congruence.
  - intros HS y Hy. cbn [flat_map] in Hy. rewrite app_nil_r in Hy. rewrite (ro_add _ _ (RO HS)), (ro_one _ _ (RO HS)). auto.
  - intros HS c c' y [<-|[]] [<-|[]] _. apply Rle_refl.
  - intros c [<-|[]]. exact G.
Qed.

Lemma raise_good fuel : forall t level t', raise_root fuel t level = Ok t' -> cn_is_leaf t = false -> good t ->
  good t' /\ s_ltb (cn_level t') level = false.
Proof.
  induction fuel as [|fuel IH]; intros t level t' E LT G; cbn [raise_root] in E; [discriminate|].
  destruct (s_ltb (cn_level t) level) eqn:C; [|injection E as <-; auto].
  destruct (remove_leaf_spec t LT) as (t1 & leaf & E1 & L1 & _). rewrite E1 in E. cbn [bind] in E.
  destruct (remove_leaf_sub t t1 leaf E1) as [SU IB].
  pose proof (sub_good _ _ G SU) as G1.
  assert (RL : cn_index leaf < N) by (apply (good_stored t); auto; apply below_stored; auto).
  destruct (node_to_parent leaf t1) as [t2| |] eqn:E2; cbn [bind] in E; try discriminate.
  destruct (new_root leaf t1 t2 L1 RL G1) as (G2 & _ & L2); auto.
  - intros HS y Hy. rewrite (sub_level _ _ SU). rewrite (pw_step _ _ _ _ (PW HS)).
    pose proof (pw_pos _ _ _ _ (PW HS) (val (cn_level t))) as PP. pose proof (B2 HS) as BB.
    assert (Ry : y < N) by (apply (good_stored t1); auto).
    pose proof (good_index t G) as Rt.
    pose proof (below_covered t _ G IB HS) as Z1.
    assert (Z2 : (d (cn_index t) y <= P (val (cn_level t)))%R).
    { apply (sub_stored _ _ SU) in Hy. apply below_stored in Hy as [->|Hy].
      - pose proof (d_self (cn_index t) HS Rt) as Z. cbv beta in *. lra.
      - pose proof (below_covered t y G Hy HS) as Z. pose proof (im_sym _ _ _ (ME HS) (cn_index t) y Rt Ry) as Z3.
        cbv beta in *. lra. }
    pose proof (im_triangle _ _ _ (ME HS) (cn_index leaf) (cn_index t) y RL Rt Ry) as Z3. cbv beta in *.
    assert (2 * P (val (cn_level t)) <= val base * P (val (cn_level t)))%R by (apply Rmult_le_compat_r; lra). lra.
  - apply (IH t2 level t' E L2 G2).
Qed.

Lemma cover_insert_good fuel t n t' : cover_insert cm alg m sp base fuel t n = Ok t' -> cn_is_leaf t = false ->
  cn_is_leaf n = true -> cn_index n < N -> good t -> good t'.
Proof.
  intros E LT LN HX G. unfold cover_insert in E. pose proof (good_index t G) as Rt.
  change (cn_dist m sp (sp_at sp (cn_index n)) t) with (D (cn_index n) (cn_index t)) in E.
  destruct (s_ltb (cover_distance cm base t) (D (cn_index n) (cn_index t))) eqn:C.
  - set (level := c_floor cm _) in E. pose proof (raise_root_safe fuel t level LT) as RS.
    destruct (raise_root fuel t level) as [t1| |] eqn:E1; cbn [bind] in E; try discriminate. destruct RS as [PM _].
    destruct (raise_good fuel t level t1 E1 LT G) as [G1 V1].
    apply (new_root n t1 t'); auto. intros HS y Hy.
    assert (Ry : y < N) by (apply (good_stored t1); auto).
    assert (Z2 : (d (cn_index t) y <= P (val (cn_level t)))%R).
    { apply (Permutation_in _ PM) in Hy. apply below_stored in Hy as [->|Hy].
      - pose proof (d_self (cn_index t) HS Rt) as Z. pose proof (pw_pos _ _ _ _ (PW HS) (val (cn_level t))) as PP.
        cbv beta in *. lra.
      - pose proof (below_covered t y G Hy HS) as Z. pose proof (im_sym _ _ _ (ME HS) (cn_index t) y Rt Ry) as Z3.
        cbv beta in *. lra. }
    pose proof (im_triangle _ _ _ (ME HS) (cn_index n) (cn_index t) y HX Rt Ry) as Z3.
    pose proof (pw_pos _ _ _ _ (PW HS) (val (cn_level t))) as PP.
    pose proof (d_nonneg (cn_index n) (cn_index t) HS HX Rt) as Z4.
    assert (ZC : val (cover_distance cm base t) = P (val (cn_level t))) by apply (pw_pow _ _ _ _ (PW HS)).
    assert (ZF : (P (val (cn_level t)) + d (cn_index n) (cn_index t) < P (val level + 1))%R).
    { cbv beta. rewrite <- ZC, <- (ro_add _ _ (RO HS)). apply (pw_floor _ _ _ _ (PW HS)).
      rewrite (ro_add _ _ (RO HS)), ZC. cbv beta in *. lra. }
    apply (not_lt _ _ HS) in V1.
    pose proof (pw_mono _ _ _ _ (PW HS) (val level + 1) (val (cn_level t1) + 1) ltac:(lra)) as ZM.
    cbv beta in *. lra.
  - apply (insert_covered_good fuel t n t' E); auto. intros HS. apply (not_lt _ _ HS) in C.
    unfold cover_distance in C. rewrite (pw_pow _ _ _ _ (PW HS)) in C. exact C.
Qed.

Lemma insert_loop_good fuel : N <= fuel -> forall l t used t' u', good t ->
  cn_is_leaf t = false -> cn_size t <= fuel -> cn_size t + length l <= fuel + 1 -> Forall (fun i => i < N) l ->
  fold_res (fun '(tree, used) idx =>
         do (node, used') <- cover_create_node sp (sp_size sp) used idx;
         do tree' <- cover_insert cm alg m sp base fuel tree node;
         Ok (tree', used')) l (t, used) = Ok (t', u') -> good t'.
Proof.
  intros HF. induction l as [|i l IH]; intros t used t' u' G LT SZ SL' F E; cbn [fold_res] in E.
  - injection E as <- <-. exact G.
  - inversion F as [|? ? Fi Fl]; subst. unfold cover_create_node in E.
    destruct (buffer_allocate (sp_size sp) used) as [u1| |]; cbn [bind] in E; try discriminate.
    rewrite guard_true in E by (unfold in_space, sp_size; apply Nat.ltb_lt; auto). cbn [bind] in E.
    pose proof (cover_insert_safe cm alg m sp base (sl_partition_perm _ SL) fuel t (CoverNode s_zero s_zero i []) LT eq_refl SZ) as K.
    destruct (cover_insert cm alg m sp base fuel t (CoverNode s_zero s_zero i [])) as [t1| |] eqn:E1; cbn [bind] in E; try discriminate.
    destruct K as [PM L1].
    assert (S1 : cn_size t1 = Datatypes.S (cn_size t)) by (unfold cn_size; rewrite (Permutation_length PM); reflexivity).
    destruct l as [|i2 l].
    + cbn [fold_res] in E. injection E as <- <-. apply (cover_insert_good fuel t _ t1 E1); auto.
    + cbn [length] in *. apply (IH t1 u1 t' u'); auto; try lia. apply (cover_insert_good fuel t _ t1 E1); auto.
Qed.

Lemma build_good fuel indices root : N <= fuel -> Permutation indices (seq 0 N) ->
  build_cover_tree cm alg m sp base fuel indices = Ok root -> good root.
Proof.
  intros HF PM E. unfold build_cover_tree in E.
  destruct (guard (0 <? sp_size sp) UbAssert) eqn:GU; cbn [bind] in E; try discriminate.
  apply guard_ok in GU. apply Nat.ltb_lt in GU. change (0 < N) in GU.
  assert (FI : Forall (fun i => i < N) indices).
  { apply Forall_forall. intros i Hi. apply In_seq0. eapply Permutation_in; eauto. }
  assert (LI : length indices = N) by (rewrite (Permutation_length PM), seq_length; auto).
  assert (FIN : forall t, good t -> (do (r, _) <- depth_first_buffer_copy (sp_size sp) t 0; Ok (update_max_distance m sp r)) = Ok root -> good root).
  { intros t G EE. destruct (depth_first_buffer_copy (sp_size sp) t 0) as [[r u]| |] eqn:EC; cbn [bind] in EE; try discriminate.
    injection EE as <-. apply (sub_good _ _ G). apply (sub_trans r); [apply update_sub|apply (copy_sub _ _ _ _ _ EC)]. }
  unfold insert_first_two in E. destruct indices as [|i0 indices]; [simpl in LI; lia|].
  inversion FI as [|? ? F0 F1]; subst. unfold at_ in E. cbn [nth_error bind] in E.
  rewrite create_ok in E by (auto; unfold sp_size; lia). cbn [bind] in E.
  destruct (Nat.eqb_spec (sp_size sp) 1) as [E1|E1].
  - change (N = 1) in E1. destruct indices; [|cbn [length] in LI; lia]. cbn [bind skipn fold_res] in E.
    apply (FIN _ (good_leaf (CoverNode s_zero s_zero i0 []) eq_refl F0) E).
  - change (N <> 1) in E1. destruct indices as [|i1 indices]; [cbn [length] in LI; lia|].
    inversion F1 as [|? ? F2 F3]; subst. cbn [nth_error bind] in E.
    rewrite create_ok in E by (auto; change (length (sp_pts sp)) with N; change (sp_size sp) with N; lia). cbn [bind skipn] in E.
    set (t0 := push_child _ _) in E.
    match type of E with (bind ?e _) = _ => destruct e as [[t2 u2]| |] eqn:E2 end; cbn [bind] in E; try discriminate.
    apply (FIN t2); auto. apply (insert_loop_good fuel HF indices t0 (0 + 1 + 1) t2 u2); auto; clear E2 E.
    + unfold t0, push_child. cbn [cn_set_level cn_level cn_push app]. constructor; [constructor|].
      * exact F0.
      * intros c [<-|[]]. left. reflexivity.
      * intros c c' [<-|[]] [<-|[]] NE. congruence.
      * intros HS y [<-|[]]. 
        change (m_dist m (sp_at sp i0) (sp_at sp i1)) with (D i0 i1). unfold base_level.
        pose proof (d_nonneg i0 i1 HS F0 F2) as Z. destruct (Rle_lt_or_eq_dec _ _ Z) as [Z1|Z1].
        -- apply (pw_ceil _ _ _ _ (PW HS)). exact Z1.
        -- cbv beta. rewrite <- Z1. apply Rlt_le, (pw_pos _ _ _ _ (PW HS)).
      * intros HS c c' y [<-|[]] [<-|[]] _. apply Rle_refl.
      * intros c [<-|[]]. apply good_leaf; auto.
    + unfold cn_size, t0. cbn. cbn [length] in LI. lia.
    + unfold cn_size, t0. cbn. cbn [length] in LI. lia.
Qed.

Lemma good_node_of p : forall n, good n -> node_of p n -> good p.
Proof. intros n G H. induction H as [|l md i cs c Hc H IH]; auto. apply IH. inversion G; auto. Qed.
End Good.
End Build.
