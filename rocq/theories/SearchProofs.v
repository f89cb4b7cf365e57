(** Proofs about nearest neighbour search for arbitrary visitors. *)
From Coq Require Import List ZArith QArith Qabs Bool Arith Permutation Lia Lqa.
From Verif Require Import Base ModelBox ModelBuild ModelSearch Spec Lemmas Instances
  BuildProofs BuildOrder BuildShape BuildThms.
Import ListNotations.
Local Open Scope nat_scope.

(** * Both searches are instances of one scheme *)
Section Gen.
Context {T : Type} {S : Scalar T} {V B : Type}.
Variables (m : metric T) (vis : visitor T V) (sp : space T) (indices : list nat) (q : list T).

Fixpoint search_gen (decide : B -> res (nat * bool * T)) (n : node B) (dist : T)
    (st : list T * V) : res (list T * V) :=
  match n with
  | Leaf b e =>
      do is_ <- slice indices b e;
      do v' <- visit_range m vis sp q is_ (snd st);
      Ok (fst st, v')
  | Branch br nl nr =>
      do (sd, go_left, new_offset) <- decide br;
      do st1 <- search_gen decide (if go_left then nl else nr) dist st;
      do old_offset <- at_ (fst st1) sd;
      let dist' := s_add (s_sub dist old_offset) new_offset in
      if s_leb dist' (v_max vis (snd st1)) then
        do st2 <- search_gen decide (if go_left then nr else nl) dist'
                    (set_nth (fst st1) sd new_offset, snd st1);
        Ok (set_nth (fst st2) sd old_offset, snd st2)
      else Ok st1
  end.

(** The visitor after being shown the points [tr] in order. *)
Definition visits (tr : list nat) (st : V) : V :=
  fold_left (fun st i => v_visit vis i (m_dist m q (sp_at sp i)) st) tr st.

Lemma visit_range_visits l : forall st, Forall (fun i => in_space sp i = true) l ->
  visit_range m vis sp q l st = Ok (visits l st).
Proof.
  induction l as [|i l IH]; simpl; intros st F; auto.
  inversion F; subst. rewrite guard_true by auto. simpl. apply IH; auto.
Qed.

Lemma visits_app a b st : visits (a ++ b) st = visits b (visits a st).
Proof. apply fold_left_app. Qed.

Variables (R : B -> list nat -> list nat -> Prop) (decide : B -> res (nat * bool * T)).
Variables (Inv : V -> Prop) (Far : V -> nat -> Prop) (LB : nat -> list T -> T -> list nat -> Prop).
Variable top : nat.
Variable all : list nat.
Hypotheses
  (H_inv : forall st i, Inv st -> In i all -> Inv (v_visit vis i (m_dist m q (sp_at sp i)) st))
  (H_far : forall st i j, Inv st -> In i all -> Far st j -> Far (v_visit vis i (m_dist m q (sp_at sp i)) st) j)
  (H_incl : forall s o d l l', LB s o d l -> incl l' l -> LB s o d l')
  (H_prune : forall s o d l st, s <= top -> LB s o d l -> Inv st -> s_leb d (v_max vis st) = false -> forall j, In j l -> Far st j)
  (H_step : forall s br l r o d, s < top -> R br l r -> incl (l ++ r) all -> LB s o d (l ++ r) ->
     exists sd gl no old, decide br = Ok (sd, gl, no) /\ at_ o sd = Ok old
       /\ LB (s + 1) (set_nth o sd no) (s_add (s_sub d old) no) (if gl : bool then r else l)).

Lemma visits_inv tr : forall st, Inv st -> incl tr all -> Inv (visits tr st).
Proof.
  induction tr as [|i tr IH]; simpl; intros st HI Hin; auto.
  apply IH; [apply H_inv; auto; apply Hin; simpl; auto|intros x Hx; apply Hin; simpl; auto].
Qed.

Lemma visits_far tr : forall st j, Inv st -> incl tr all -> Far st j -> Far (visits tr st) j.
Proof.
  induction tr as [|i tr IH]; simpl; intros st j HI Hin HF; auto.
  assert (In i all) by (apply Hin; simpl; auto).
  apply IH; [apply H_inv; auto|intros x Hx; apply Hin; simpl; auto|apply H_far; auto].
Qed.

Lemma search_gen_levels nd b l : node_spans R nd b l ->
  forall s pre post o d st, s + node_height nd <= top -> indices = pre ++ l ++ post -> b = length pre ->
  Forall (fun i => in_space sp i = true) l -> incl l all -> LB s o d l -> Inv st ->
  exists tr rest, Permutation (tr ++ rest) l
    /\ search_gen decide nd d (o, st) = Ok (o, visits tr st)
    /\ forall j, In j rest -> Far (visits tr st) j.
Proof.
  induction 1 as [b l|br nl nr b l r H1 IH1 H2 IH2 HR]; intros s pre post o d st HS Hi Hb F HA HL HI;
    cbn [node_height] in HS.
  - exists l, []. rewrite app_nil_r. split; auto. split; [|intros ? []].
    simpl. subst b. rewrite Hi, slice_app. cbn [bind].
    rewrite visit_range_visits by auto. reflexivity.
  - apply Forall_app in F as [Fl Fr].
    assert (HAl : incl l all) by (intros x Hx; apply HA, in_or_app; auto).
    assert (HAr : incl r all) by (intros x Hx; apply HA, in_or_app; auto).
    destruct (H_step s br l r o d ltac:(lia) HR HA HL) as (sd & gl & no & old & Ed & Eo & HL').
    cbn [search_gen]. rewrite Ed. cbn [bind].
    assert (IHn : exists tr rest, Permutation (tr ++ rest) (if gl then l else r)
        /\ search_gen decide (if gl then nl else nr) d (o, st) = Ok (o, visits tr st)
        /\ forall j, In j rest -> Far (visits tr st) j).
    { destruct gl.
      - apply (IH1 s pre (r ++ post)); auto. { lia. } { rewrite Hi, <- app_assoc. auto. }
        apply (H_incl s o d (l ++ r)); auto. intros x Hx; apply in_or_app; auto.
      - apply (IH2 s (pre ++ l) post); auto. { lia. } { rewrite Hi, <- !app_assoc. auto. } { rewrite app_length. lia. }
        apply (H_incl s o d (l ++ r)); auto. intros x Hx; apply in_or_app; auto. }
    destruct IHn as (tr & rest & P & E & HF). rewrite E. cbn [bind fst snd]. rewrite Eo. cbn [bind].
    assert (Itr : incl tr all).
    { intros x Hx. assert (Hx' : In x (if gl then l else r)).
      { eapply Permutation_in; [exact P|]. apply in_or_app; auto. }
      destruct gl; auto. }
    assert (HIv : Inv (visits tr st)) by (apply visits_inv; auto).
    destruct (s_leb _ _) eqn:EL.
    + assert (IHf : exists tr' rest', Permutation (tr' ++ rest') (if gl then r else l)
        /\ search_gen decide (if gl then nr else nl) (s_add (s_sub d old) no) (set_nth o sd no, visits tr st)
             = Ok (set_nth o sd no, visits tr' (visits tr st))
        /\ forall j, In j rest' -> Far (visits tr' (visits tr st)) j).
      { destruct gl.
        - apply (IH2 (s + 1) (pre ++ l) post); auto. { lia. } { rewrite Hi, <- !app_assoc. auto. } { rewrite app_length. lia. }
        - apply (IH1 (s + 1) pre (r ++ post)); auto. { lia. } rewrite Hi, <- app_assoc. auto. }
      destruct IHf as (tr' & rest' & P' & E' & HF'). rewrite E'. cbn [bind fst snd].
      exists (tr ++ tr'), (rest ++ rest').
      assert (Itr' : incl tr' all).
      { intros x Hx. assert (Hx' : In x (if gl then r else l)).
        { eapply Permutation_in; [exact P'|]. apply in_or_app; auto. }
        destruct gl; auto. }
      split; [|split].
      * transitivity ((tr ++ rest) ++ (tr' ++ rest')).
        { rewrite <- !app_assoc. apply Permutation_app_head. rewrite !app_assoc.
          apply Permutation_app_tail. apply Permutation_app_comm. }
        rewrite P, P'. destruct gl; auto. apply Permutation_app_comm.
      * rewrite set_nth_restore by (apply at_ok; auto). rewrite visits_app. reflexivity.
      * intros j Hj. rewrite visits_app. apply in_app_iff in Hj as [Hj|Hj]; auto.
        apply visits_far; auto.
    + exists tr, (rest ++ if gl then r else l). split; [|split; auto].
      * rewrite app_assoc, P. destruct gl; auto. apply Permutation_app_comm.
      * intros j Hj. apply in_app_iff in Hj as [Hj|Hj]; auto.
        eapply (H_prune (s + 1)); eauto. lia.
Qed.
End Gen.

(** The same with one lower bound for all levels. *)
Section Flat.
Context {T : Type} {S : Scalar T} {V B : Type}.
Variables (m : metric T) (vis : visitor T V) (sp : space T) (indices : list nat) (q : list T).
Variables (R : B -> list nat -> list nat -> Prop) (decide : B -> res (nat * bool * T)).
Variables (Inv : V -> Prop) (Far : V -> nat -> Prop) (LB : list T -> T -> list nat -> Prop).
Variable all : list nat.
Local Notation visits := (visits m vis sp q).
Hypotheses
  (H_inv : forall st i, Inv st -> In i all -> Inv (v_visit vis i (m_dist m q (sp_at sp i)) st))
  (H_far : forall st i j, Inv st -> In i all -> Far st j -> Far (v_visit vis i (m_dist m q (sp_at sp i)) st) j)
  (H_incl : forall o d l l', LB o d l -> incl l' l -> LB o d l')
  (H_prune : forall o d l st, LB o d l -> Inv st -> s_leb d (v_max vis st) = false -> forall j, In j l -> Far st j)
  (H_step : forall br l r o d, R br l r -> incl (l ++ r) all -> LB o d (l ++ r) ->
     exists sd gl no old, decide br = Ok (sd, gl, no) /\ at_ o sd = Ok old
       /\ LB (set_nth o sd no) (s_add (s_sub d old) no) (if gl : bool then r else l)).

Lemma search_gen_spec nd b l : node_spans R nd b l ->
  forall pre post o d st, indices = pre ++ l ++ post -> b = length pre ->
  Forall (fun i => in_space sp i = true) l -> incl l all -> LB o d l -> Inv st ->
  exists tr rest, Permutation (tr ++ rest) l
    /\ search_gen m vis sp indices q decide nd d (o, st) = Ok (o, visits tr st)
    /\ forall j, In j rest -> Far (visits tr st) j.
Proof.
  intros NS pre post o d st Hi Hb F HA HL HI.
  eapply (search_gen_levels m vis sp indices q R decide Inv Far (fun _ => LB) (node_height nd) all)
    with (s := 0); eauto.
Qed.
End Flat.

Section Instances.
Context {T : Type} {S : Scalar T} {V : Type}.
Variables (m : metric T) (vis : visitor T V) (sp : space T) (indices : list nat) (q : list T).

Definition decide_euclidean (br : branch_single T) : res (nat * bool * T) :=
  do v <- at_ q (bs_split_dim br);
  let go_left := s_ltb s_zero (s_sub (s_sub (s_add (bs_left_max br) (bs_right_min br)) v) v) in
  Ok (bs_split_dim br, go_left,
      if go_left then m_app m (s_sub (bs_right_min br) v) else m_app m (s_sub (bs_left_max br) v)).

Lemma euclidean_gen n : forall d st,
  search_nearest_euclidean m vis sp indices q n d st
  = search_gen m vis sp indices q decide_euclidean n d st.
Proof.
  induction n as [b e|br nl IHl nr IHr]; intros d st; [reflexivity|].
  cbn [search_nearest_euclidean search_gen]. unfold decide_euclidean at 1.
  destruct (at_ q (bs_split_dim br)); cbn [bind]; auto.
  destruct (s_ltb s_zero _); cbn [bind].
  - rewrite <- IHl. destruct (search_nearest_euclidean _ _ _ _ _ nl _ _); cbn [bind]; auto.
    destruct (at_ (fst a0) _); cbn [bind]; auto. destruct (s_leb _ _); auto. rewrite <- IHr. reflexivity.
  - rewrite <- IHr. destruct (search_nearest_euclidean _ _ _ _ _ nr _ _); cbn [bind]; auto.
    destruct (at_ (fst a0) _); cbn [bind]; auto. destruct (s_leb _ _); auto. rewrite <- IHl. reflexivity.
Qed.

Definition decide_topological (br : branch_double T) : res (nat * bool * T) :=
  do v <- at_ q (bd_split_dim br);
  do d1 <- box_distance m (bd_left_min br) (bd_left_max br) v (bd_split_dim br);
  do d2 <- box_distance m (bd_right_min br) (bd_right_max br) v (bd_split_dim br);
  let go_left := s_ltb d1 d2 in
  Ok (bd_split_dim br, go_left, if go_left then d2 else d1).

Lemma topological_gen n : forall d st,
  search_nearest_topological m vis sp indices q n d st
  = search_gen m vis sp indices q decide_topological n d st.
Proof.
  induction n as [b e|br nl IHl nr IHr]; intros d st; [reflexivity|].
  cbn [search_nearest_topological search_gen]. unfold decide_topological at 1.
  destruct (at_ q (bd_split_dim br)); cbn [bind]; auto.
  destruct (box_distance m (bd_left_min br) _ _ _); cbn [bind]; auto.
  destruct (box_distance m (bd_right_min br) _ _ _); cbn [bind]; auto.
  destruct (s_ltb _ _); cbn [bind].
  - rewrite <- IHl. destruct (search_nearest_topological _ _ _ _ _ nl _ _); cbn [bind]; auto.
    destruct (at_ (fst a2) _); cbn [bind]; auto. destruct (s_leb _ _); auto. rewrite <- IHr. reflexivity.
  - rewrite <- IHr. destruct (search_nearest_topological _ _ _ _ _ nr _ _); cbn [bind]; auto.
    destruct (at_ (fst a2) _); cbn [bind]; auto. destruct (s_leb _ _); auto. rewrite <- IHl. reflexivity.
Qed.

Definition decide (c : category) : branch_data c T -> res (nat * bool * T) :=
  match c return branch_data c T -> res (nat * bool * T) with
  | Euclidean => decide_euclidean
  | Topological => decide_topological
  end.

Definition offsets0 : list T := tab (sp_sdim sp) (fun _ => s_zero).

Lemma search_nearest_root_gen c root v0 :
  search_nearest_root m c vis sp indices q root v0
  = do st <- search_gen m vis sp indices q (decide c) root s_zero (offsets0, v0); Ok (snd st).
Proof.
  destruct c; simpl; [rewrite euclidean_gen|rewrite topological_gen]; reflexivity.
Qed.

End Instances.

(** * Sums *)
Section Sum.
Local Open Scope Q_scope.
Lemma sumN_ext n f g : (forall k, (k < n)%nat -> f k == g k) -> sumN n f == sumN n g.
Proof. induction n; simpl; intros H; [reflexivity|]. rewrite IHn, H by auto. reflexivity. Qed.
Lemma sumN_le n f g : (forall k, (k < n)%nat -> f k <= g k) -> sumN n f <= sumN n g.
Proof. induction n; simpl; intros H; [lra|]. specialize (IHn ltac:(auto)). specialize (H n ltac:(auto)). lra. Qed.
Lemma sumN_zero n f : (forall k, (k < n)%nat -> f k == 0) -> sumN n f == 0.
Proof. induction n; simpl; intros H; [reflexivity|]. rewrite IHn, H by auto. reflexivity. Qed.
Lemma sumN_nonneg n f : (forall k, (k < n)%nat -> 0 <= f k) -> 0 <= sumN n f.
Proof. induction n; simpl; intros H; [lra|]. specialize (IHn ltac:(auto)). specialize (H n ltac:(auto)). lra. Qed.
Lemma sumN_update n f g s : (s < n)%nat -> (forall k, (k < n)%nat -> k <> s -> g k == f k) ->
  sumN n g == sumN n f - f s + g s.
Proof.
  induction n; intros Hs H; [lia|]. simpl.
  destruct (Nat.eq_dec s n) as [->|N].
  - rewrite (sumN_ext n g f) by (intros; apply H; lia). ring.
  - rewrite IHn by (auto; lia). rewrite (H n) by lia. ring.
Qed.
End Sum.

(** * Lower bounds *)
Section Lower.
Context {T : Type} {S : Scalar T} (val : T -> Q) (EL : exact_laws S val).
Variables (m : metric T) (t : nat -> Q -> Q -> Q).
Variables (sp : space T) (WF : wf_space sp) (q : list T).
Let n := sp_sdim sp.
Hypothesis LQ : length q = n.
Local Open Scope Q_scope.

(** Sum of the terms of point [j]: what the box distances bound from below. *)
Definition D_low (j : nat) : Q := term_sum val n t q (sp_at sp j).

Record LB_sum (o : list T) (d : T) (l : list nat) : Prop := {
  lb_len : length o = n;
  lb_sum : val d == sumN n (fun k => val (get o k));
  lb_low : forall j k, In j l -> (k < n)%nat ->
    val (get o k) <= t k (val (get q k)) (val (get (sp_at sp j) k))
}.

Lemma LB_sum_incl o d l l' : LB_sum o d l -> incl l' l -> LB_sum o d l'.
Proof. intros [A B C] H. constructor; auto. Qed.

Lemma LB_sum_low o d l j : LB_sum o d l -> In j l -> val d <= D_low j.
Proof. intros [A B C] H. rewrite B. apply sumN_le. intros k Hk. apply C; auto. Qed.

Lemma LB_sum_start l : (forall k x y, 0 <= t k x y) -> LB_sum (offsets0 sp) s_zero l.
Proof.
  intros NN. constructor.
  - apply length_tab.
  - rewrite (el_zero _ _ EL). symmetry. apply sumN_zero. intros k Hk.
    unfold offsets0, get. rewrite nth_tab by auto. apply (el_zero _ _ EL).
  - intros j k _ Hk. unfold offsets0, get at 1. rewrite nth_tab by auto.
    rewrite (el_zero _ _ EL). apply NN.
Qed.

Lemma LB_sum_step o d l l' sd no old : LB_sum o d l -> incl l' l -> (sd < n)%nat ->
  at_ o sd = Ok old ->
  (forall j, In j l' -> val no <= t sd (val (get q sd)) (val (get (sp_at sp j) sd))) ->
  LB_sum (set_nth o sd no) (s_add (s_sub d old) no) l'.
Proof.
  intros [A B C] HI Hs Ho HN. constructor.
  - rewrite length_set_nth. auto.
  - rewrite (el_add _ _ EL), (el_sub _ _ EL), B.
    rewrite (sumN_update n (fun k => val (get o k)) (fun k => val (get (set_nth o sd no) k)) sd); auto.
    + rewrite get_set_same by lia. apply at_ok in Ho.
      unfold get at 3. rewrite (nth_error_nth _ _ _ Ho). reflexivity.
    + intros k Hk Hne. rewrite get_set_other by auto. reflexivity.
  - intros j k Hj Hk. destruct (Nat.eq_dec sd k) as [<-|Hne].
    + rewrite get_set_same by lia. auto.
    + rewrite get_set_other by auto. auto.
Qed.

(** What the branches of a tree over [sp] satisfy. *)
Definition R_euclidean (br : branch_single T) (l r : list nat) : Prop :=
  (bs_split_dim br < n)%nat
  /\ (forall i, In i l -> val (coord sp (bs_split_dim br) i) <= val (bs_left_max br))
  /\ (forall i, In i r -> val (bs_right_min br) <= val (coord sp (bs_split_dim br) i))
  /\ val (bs_left_max br) <= val (bs_right_min br).

Definition R_topological (br : branch_double T) (l r : list nat) : Prop :=
  (bd_split_dim br < n)%nat
  /\ (forall i, In i l -> val (bd_left_min br) <= val (coord sp (bd_split_dim br) i) <= val (bd_left_max br))
  /\ (forall i, In i r -> val (bd_right_min br) <= val (coord sp (bd_split_dim br) i) <= val (bd_right_max br))
  /\ val (bd_left_min br) <= val (bd_left_max br)
  /\ val (bd_right_min br) <= val (bd_right_max br)
  /\ (m_dim_space m (bd_split_dim br) = S1 ->
      0 <= val (bd_left_min br) /\ val (bd_left_max br) <= 1
      /\ 0 <= val (bd_right_min br) /\ val (bd_right_max br) <= 1).

Definition R_search (c : category) : branch_data c T -> list nat -> list nat -> Prop :=
  match c return branch_data c T -> list nat -> list nat -> Prop with
  | Euclidean => R_euclidean
  | Topological => R_topological
  end.

Lemma step_euclidean br l r o d : euclidean_terms val m t -> R_euclidean br l r ->
  LB_sum o d (l ++ r) ->
  exists sd gl no old, decide_euclidean m q br = Ok (sd, gl, no) /\ at_ o sd = Ok old
    /\ LB_sum (set_nth o sd no) (s_add (s_sub d old) no) (if gl : bool then r else l).
Proof.
  intros AM (Hd & Hl & Hr & Ho) HL. unfold decide_euclidean.
  rewrite (at_lt q _ s_zero) by lia. cbn [bind]. fold (get q (bs_split_dim br)).
  set (v := get q (bs_split_dim br)). set (sd := bs_split_dim br) in *.
  assert (Eo : at_ o sd = Ok (nth sd o s_zero)) by (apply at_lt; rewrite (lb_len _ _ _ HL); auto).
  do 4 eexists. split; [reflexivity|]. split; [exact Eo|].
  eapply LB_sum_step; eauto.
  { destruct (s_ltb _ _); intros x Hx; apply in_or_app; auto. }
  destruct (s_ltb _ _) eqn:E.
  - apply (ltb_val val EL) in E.
    rewrite !(el_sub _ _ EL), (el_add _ _ EL), (el_zero _ _ EL) in E.
    intros j Hj. rewrite (et_app _ _ _ AM sd). apply (et_mono _ _ _ AM).
    left. specialize (Hr j Hj). fold v. change (get (sp_at sp j) sd) with (coord sp sd j). lra.
  - apply (ltb_val_false val EL) in E.
    rewrite !(el_sub _ _ EL), (el_add _ _ EL), (el_zero _ _ EL) in E.
    intros j Hj. rewrite (et_app _ _ _ AM sd). apply (et_mono _ _ _ AM).
    right. specialize (Hl j Hj). fold v. change (get (sp_at sp j) sd) with (coord sp sd j). lra.
Qed.

Lemma box_distance_low mn mx k p : topological_terms val m t -> circular_ok val m n q -> (k < n)%nat ->
  val mn <= val mx -> (m_dim_space m k = S1 -> 0 <= val mn /\ val mx <= 1) ->
  exists b, box_distance m mn mx (get q k) k = Ok b /\
    (val mn <= p <= val mx -> val b <= t k (val (get q k)) p).
Proof.
  intros AM CQ Hk Hp HS. unfold box_distance. destruct (m_dim_space m k) eqn:E.
  - rewrite guard_true by (apply (leb_val val EL); auto). cbn [bind].
    eexists. split; [reflexivity|]. intros Hin. apply (tt_r1 _ _ _ AM); auto.
  - eexists. split; [reflexivity|]. intros Hin. destruct (HS eq_refl).
    apply (tt_s1 _ _ _ AM); auto. apply CQ; auto.
Qed.

Lemma step_topological br l r o d : topological_terms val m t -> circular_ok val m n q ->
  R_topological br l r -> LB_sum o d (l ++ r) ->
  exists sd gl no old, decide_topological m q br = Ok (sd, gl, no) /\ at_ o sd = Ok old
    /\ LB_sum (set_nth o sd no) (s_add (s_sub d old) no) (if gl : bool then r else l).
Proof.
  intros AM CQ (Hd & Hl & Hr & Pl & Pr & HS) HL. unfold decide_topological.
  rewrite (at_lt q _ s_zero) by lia. cbn [bind]. fold (get q (bd_split_dim br)).
  set (sd := bd_split_dim br) in *.
  destruct (box_distance_low (bd_left_min br) (bd_left_max br) sd 0 AM CQ Hd Pl ltac:(intros; tauto)) as (b1 & E1 & _).
  destruct (box_distance_low (bd_right_min br) (bd_right_max br) sd 0 AM CQ Hd Pr ltac:(intros; tauto)) as (b2 & E2 & _).
  rewrite E1. cbn [bind]. rewrite E2. cbn [bind].
  assert (Eo : at_ o sd = Ok (nth sd o s_zero)) by (apply at_lt; rewrite (lb_len _ _ _ HL); auto).
  do 4 eexists. split; [reflexivity|]. split; [exact Eo|].
  eapply LB_sum_step; eauto.
  { destruct (s_ltb _ _); intros x Hx; apply in_or_app; auto. }
  destruct (s_ltb _ _) eqn:E; intros j Hj; change (get (sp_at sp j) sd) with (coord sp sd j).
  - destruct (box_distance_low (bd_right_min br) (bd_right_max br) sd (val (coord sp sd j)) AM CQ Hd Pr ltac:(intros; tauto)) as (b & Eb & K).
    rewrite E2 in Eb. injection Eb as <-. apply K. auto.
  - destruct (box_distance_low (bd_left_min br) (bd_left_max br) sd (val (coord sp sd j)) AM CQ Hd Pl ltac:(intros; tauto)) as (b & Eb & K).
    rewrite E1 in Eb. injection Eb as <-. apply K. auto.
Qed.

(** The two are combined over the category. *)
Lemma step_search c br l r o d : m_cat m = c -> terms_for val m t -> point_ok val m n q ->
  R_search c br l r -> LB_sum o d (l ++ r) ->
  exists sd gl no old, decide m q c br = Ok (sd, gl, no) /\ at_ o sd = Ok old
    /\ LB_sum (set_nth o sd no) (s_add (s_sub d old) no) (if gl : bool then r else l).
Proof.
  intros Hc [AM|AM] PO.
  - rewrite (et_cat _ _ _ AM) in Hc. subst c. apply step_euclidean; auto.
  - unfold point_ok in PO. rewrite (tt_cat _ _ _ AM) in Hc, PO. subst c. apply step_topological; auto.
Qed.

End Lower.
