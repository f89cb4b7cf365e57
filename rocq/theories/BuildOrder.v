(** Proofs about construction with exact arithmetic: the boxes stored in the
    branches are ordered, proper and tight. *)
From Coq Require Import List ZArith QArith Qabs Bool Arith Permutation Lia Lqa.
From Verif Require Import Base ModelBox ModelBuild ModelSearch Spec Lemmas Instances BuildProofs.
Import ListNotations.
Local Open Scope nat_scope.

Section Exact.
Context {T : Type} {S : Scalar T} (val : T -> Q) (EL : exact_laws S val).

Lemma ltb_val x y : s_ltb x y = true <-> (val x < val y)%Q.
Proof. apply (el_lt _ _ EL). Qed.
Lemma leb_val x y : s_leb x y = true <-> (val x <= val y)%Q.
Proof. apply (el_le _ _ EL). Qed.
Lemma ltb_val_false x y : s_ltb x y = false <-> (val y <= val x)%Q.
Proof.
  split; intros H.
  - apply Qnot_lt_le. intros C. apply ltb_val in C. congruence.
  - destruct (s_ltb x y) eqn:E; auto. apply ltb_val in E. lra.
Qed.
Lemma leb_val_false x y : s_leb x y = false <-> (val y < val x)%Q.
Proof.
  split; intros H.
  - apply Qnot_le_lt. intros C. apply leb_val in C. congruence.
  - destruct (s_leb x y) eqn:E; auto. apply leb_val in E. lra.
Qed.

Lemma exact_ord : ord_laws S (fun _ => True).
Proof.
  constructor; auto; intros.
  - destruct (s_leb y x) eqn:E; simpl.
    + apply leb_val in E. apply ltb_val_false. exact E.
    + apply leb_val_false in E. apply ltb_val. exact E.
  - rewrite !leb_val. destruct (Qlt_le_dec (val x) (val y)); [left|right]; lra.
  - rewrite leb_val in *. lra.
Qed.

Lemma all_coords_true (sp : space T) : all_coords (fun _ => True) sp.
Proof. unfold all_coords. apply Forall_forall. intros. apply Forall_forall. auto. Qed.

Definition cmin (b : box T) (d : nat) : Q := val (get (box_min b) d).
Definition cmax (b : box T) (d : nat) : Q := val (get (box_max b) d).
Definition proper (n : nat) (b : box T) : Prop := forall d, d < n -> (cmin b d <= cmax b d)%Q.
Definition within (n : nat) (lo hi : nat -> Q) (b : box T) : Prop :=
  forall d, d < n -> (lo d <= cmin b d /\ cmax b d <= hi d)%Q.

Lemma cmax_fit n b x d v : box_wf n b -> d < n ->
  (cmax (box_fit b x) d <= v <-> cmax b d <= v /\ val (get x d) <= v)%Q.
Proof.
  intros W Hd. unfold cmax. rewrite (get_fit_max n) by auto.
  destruct (s_ltb _ _) eqn:E; [apply ltb_val in E | apply ltb_val_false in E]; split; intros; lra.
Qed.
Lemma cmin_fit n b x d v : box_wf n b -> d < n ->
  (v <= cmin (box_fit b x) d <-> v <= cmin b d /\ v <= val (get x d))%Q.
Proof.
  intros W Hd. unfold cmin. rewrite (get_fit_min n) by auto.
  destruct (s_ltb _ _) eqn:E; [apply ltb_val in E | apply ltb_val_false in E]; split; intros; lra.
Qed.
Lemma cmax_fit_box n b x d v : box_wf n b -> d < n ->
  (cmax (box_fit_box b x) d <= v <-> cmax b d <= v /\ cmax x d <= v)%Q.
Proof.
  intros W Hd. unfold cmax. rewrite (get_fit_box_max n) by auto.
  destruct (s_ltb _ _) eqn:E; [apply ltb_val in E | apply ltb_val_false in E]; split; intros; lra.
Qed.
Lemma cmin_fit_box n b x d v : box_wf n b -> d < n ->
  (v <= cmin (box_fit_box b x) d <-> v <= cmin b d /\ v <= cmin x d)%Q.
Proof.
  intros W Hd. unfold cmin. rewrite (get_fit_box_min n) by auto.
  destruct (s_ltb _ _) eqn:E; [apply ltb_val in E | apply ltb_val_false in E]; split; intros; lra.
Qed.

Variables (sp : space T) (WF : wf_space sp) (REP : all_coords (representable val) sp).
Let n := sp_sdim sp.
Local Notation in_sp := (fun i => in_space sp i = true).

Lemma rep_coord i d : in_space sp i = true -> d < n ->
  (val s_lowest <= val (coord sp d i) <= val s_max)%Q.
Proof. intros Hi Hd. apply (ok_coord (representable val) sp WF REP i d Hi Hd). Qed.

Lemma fold_fit_max seg : forall b d v, box_wf n b -> d < n ->
  (cmax (fold_left (fun b i => box_fit b (sp_at sp i)) seg b) d <= v
   <-> cmax b d <= v /\ forall i, In i seg -> val (coord sp d i) <= v)%Q.
Proof.
  induction seg as [|i seg IH]; simpl; intros b d v W Hd.
  - split; [|tauto]. intros; split; auto; intros ? [].
  - rewrite IH by (auto; apply box_fit_wf; auto). rewrite (cmax_fit n) by auto.
    split; [intros [[A B] C]; split; auto; intros j [<-|Hj]; auto|].
    intros [A B]. split; [split; auto; apply (B i); auto|auto].
Qed.
Lemma fold_fit_min seg : forall b d v, box_wf n b -> d < n ->
  (v <= cmin (fold_left (fun b i => box_fit b (sp_at sp i)) seg b) d
   <-> v <= cmin b d /\ forall i, In i seg -> v <= val (coord sp d i))%Q.
Proof.
  induction seg as [|i seg IH]; simpl; intros b d v W Hd.
  - split; [|tauto]. intros; split; auto; intros ? [].
  - rewrite IH by (auto; apply box_fit_wf; auto). rewrite (cmin_fit n) by auto.
    split; [intros [[A B] C]; split; auto; intros j [<-|Hj]; auto|].
    intros [A B]. split; [split; auto; apply (B i); auto|auto].
Qed.

Lemma cmax_inverse k d : d < k -> cmax (box_inverse_max k) d = val s_lowest.
Proof. intros H. unfold cmax, box_inverse_max, get. simpl. rewrite nth_tab; auto. Qed.
Lemma cmin_inverse k d : d < k -> cmin (box_inverse_max k) d = val s_max.
Proof. intros H. unfold cmin, box_inverse_max, get. simpl. rewrite nth_tab; auto. Qed.

Lemma bbox_max seg d v : Forall in_sp seg -> seg <> [] -> d < n ->
  (forall i, In i seg -> val (coord sp d i) <= v)%Q ->
  (cmax (compute_bounding_box sp seg) d <= v)%Q.
Proof.
  intros F NE Hd H. apply fold_fit_max; auto. { apply inverse_max_wf. }
  split; auto. fold n. rewrite cmax_inverse by auto.
  destruct seg as [|i seg]; [congruence|]. inversion F; subst.
  specialize (H i (or_introl eq_refl)). pose proof (rep_coord i d H2 Hd). lra.
Qed.
Lemma bbox_min seg d v : Forall in_sp seg -> seg <> [] -> d < n ->
  (forall i, In i seg -> v <= val (coord sp d i))%Q ->
  (v <= cmin (compute_bounding_box sp seg) d)%Q.
Proof.
  intros F NE Hd H. apply fold_fit_min; auto. { apply inverse_max_wf. }
  split; auto. fold n. rewrite cmin_inverse by auto.
  destruct seg as [|i seg]; [congruence|]. inversion F; subst.
  specialize (H i (or_introl eq_refl)). pose proof (rep_coord i d H2 Hd). lra.
Qed.

Lemma holds_proper b seg : seg <> [] -> holds sp b seg -> proper n b.
Proof.
  intros NE H d Hd. destruct seg as [|i seg]; [congruence|].
  destruct (H i (or_introl eq_refl) d Hd) as [A B]. apply leb_val in A, B.
  unfold cmin, cmax. lra.
Qed.

(** The split value of the midpoint rule lies in the cell. *)
Lemma cell_mid_between bx d : (cmin bx d <= cmax bx d)%Q ->
  (cmin bx d <= val (s_add (s_mul (s_sub (get (box_max bx) d) (get (box_min bx) d)) s_half)
                           (get (box_min bx) d)) <= cmax bx d)%Q.
Proof.
  unfold cmin, cmax. intros H.
  rewrite (el_add _ _ EL), (el_mul _ _ EL), (el_sub _ _ EL).
  pose proof (el_half _ _ EL) as [H0 H1]. nra.
Qed.

Variables (alg : std_algos) (SL : std_laws alg).
Variables (c : category) (ru : rule) (it : index_type) (stop : stop_condition).
Local Notation cn := (create_node c alg ru it stop sp).
Variables (lo hi : nat -> Q).
Hypothesis PTS_IN : forall i d, in_space sp i = true -> d < n ->
  (lo d <= val (coord sp d i) <= hi d)%Q.

Record order_facts (br : branch_data c T) (l r : list nat) (lb rb : box T) (d : nat) : Prop := {
  of_br : br = set_branch c lb rb d;
  of_dim : d < n;
  of_wfl : box_wf n lb;
  of_wfr : box_wf n rb;
  of_holdl : holds sp lb l;
  of_holdr : holds sp rb r;
  of_properl : proper n lb;
  of_properr : proper n rb;
  of_withinl : within n lo hi lb;
  of_withinr : within n lo hi rb;
  of_order : (cmax lb d <= cmin rb d)%Q;
  of_tight : ru <> midpoint_max_side -> forall d' v, d' < n ->
     ((forall i, In i l -> val (coord sp d' i) <= v)%Q -> (cmax lb d' <= v)%Q)
     /\ ((forall i, In i l -> v <= val (coord sp d' i))%Q -> (v <= cmin lb d')%Q)
     /\ ((forall i, In i r -> val (coord sp d' i) <= v)%Q -> (cmax rb d' <= v)%Q)
     /\ ((forall i, In i r -> v <= val (coord sp d' i))%Q -> (v <= cmin rb d')%Q)
}.
Definition R_order (br : branch_data c T) (l r : list nat) : Prop :=
  exists lb rb d, order_facts br l r lb rb d.

Lemma cmax_set_max b d v d' : box_wf n b -> d < n ->
  cmax (box_set_max b d v) d' = if d =? d' then val v else cmax b d'.
Proof.
  intros [W1 W2] Hd. unfold cmax; simpl. destruct (Nat.eqb_spec d d') as [<-|N].
  - rewrite get_set_same by lia. reflexivity.
  - rewrite get_set_other by auto. reflexivity.
Qed.
Lemma cmin_set_min b d v d' : box_wf n b -> d < n ->
  cmin (box_set_min b d v) d' = if d =? d' then val v else cmin b d'.
Proof.
  intros [W1 W2] Hd. unfold cmin; simpl. destruct (Nat.eqb_spec d d') as [<-|N].
  - rewrite get_set_same by lia. reflexivity.
  - rewrite get_set_other by auto. reflexivity.
Qed.
Lemma cmin_set_max b d v d' : cmin (box_set_max b d v) d' = cmin b d'.
Proof. reflexivity. Qed.
Lemma cmax_set_min b d v d' : cmax (box_set_min b d v) d' = cmax b d'.
Proof. reflexivity. Qed.

Lemma perm_nonnil {A} (l l' : list A) : Permutation l l' -> l' <> [] -> l <> [].
Proof. intros P H ->. apply Permutation_nil in P. auto. Qed.

Lemma rule_dec : {ru = midpoint_max_side} + {ru <> midpoint_max_side}.
Proof. destruct ru; [right|left|right]; congruence. Qed.

Lemma create_node_order fuel : forall depth off seg bx nd seg' bx',
  box_wf n bx -> (ru = midpoint_max_side -> proper n bx /\ within n lo hi bx) ->
  cn fuel depth off seg bx = Ok (nd, seg', bx') ->
  seg <> [] \/ ru = midpoint_max_side ->
  proper n bx' /\ within n lo hi bx'
  /\ (forall d v, d < n -> (forall i, In i seg -> val (coord sp d i) <= v)%Q ->
       (ru = midpoint_max_side -> cmax bx d <= v)%Q -> (cmax bx' d <= v)%Q)
  /\ (forall d v, d < n -> (forall i, In i seg -> v <= val (coord sp d i))%Q ->
       (ru = midpoint_max_side -> v <= cmin bx d)%Q -> (v <= cmin bx' d)%Q)
  /\ node_spans R_order nd off seg'.
Proof.
  induction fuel as [|fuel IH]; intros depth off seg bx nd seg' bx' W MP H NE; [discriminate|].
  pose proof H as Hfull.
  apply (create_node_holds (fun _ => True) exact_ord sp WF (all_coords_true sp) alg SL) in Hfull;
    [|intros _; unfold mid_ok; auto|auto|intros _ d _; auto].
  destruct Hfull as (PS & FS & WF' & _ & HS & _).
  assert (H2 : is_leaf it stop depth (length seg) = false -> ru <> midpoint_max_side -> 2 <= length seg).
  { intros HL Hru. exact (create_node_two (fun _ => True) exact_ord sp WF (all_coords_true sp) alg SL c ru it stop _ _ _ _ _ _ Hru W HL H). }
  cbn [create_node] in H. destruct (is_leaf it stop depth (length seg)) eqn:HL.
  - okbind H. clear E. injection H as <- <- <-.
    destruct (list_eq_dec Nat.eq_dec seg []) as [->|Hne].
    + destruct NE as [NE|NE]; [congruence|].
      destruct (MP NE) as [MP1 MP2]. rewrite NE in *.
      split; [exact MP1|]. split; [exact MP2|]. split; [auto|]. split; [auto|]. constructor.
    + assert (E : match ru with
          | midpoint_max_side => match seg with [] => bx | _ :: _ => compute_bounding_box sp seg end
          | _ => compute_bounding_box sp seg end = compute_bounding_box sp seg).
      { destruct ru; auto. destruct seg; congruence. }
      rewrite E in *.
      split; [eapply holds_proper; eauto|].
      split.
      { intros d Hd. rewrite Forall_forall in FS.
        split; [apply bbox_min|apply bbox_max]; auto; try (rewrite Forall_forall; auto);
          intros i Hi; apply PTS_IN; auto. }
      split; [intros; apply bbox_max; auto|].
      split; [intros; apply bbox_min; auto|]. constructor.
  - specialize (H2 eq_refl).
    okbind H. destruct a as [[[l r] d] v].
    okbind H. destruct a as [[nl sl] lb]. okbind H. destruct a as [[nr sr] rb].
    injection H as <- <- <-.
    apply (splitter_facts (fun _ => True) exact_ord sp WF (all_coords_true sp) alg SL) in E; auto.
    pose proof (sf_dim _ _ _ _ _ _ _ _ _ E) as Hd. fold n in Hd.
    pose proof (sf_left _ _ _ _ _ _ _ _ _ E I) as Hl.
    pose proof (sf_right _ _ _ _ _ _ _ _ _ E I) as Hr.
    pose proof (sf_perm _ _ _ _ _ _ _ _ _ E) as HP.
    assert (NEl : l <> [] \/ ru = midpoint_max_side).
    { destruct rule_dec as [Hm|Hm]; auto. left. apply (sf_nonempty _ _ _ _ _ _ _ _ _ E); auto. }
    assert (NEr : r <> [] \/ ru = midpoint_max_side).
    { destruct rule_dec as [Hm|Hm]; auto. left. apply (sf_nonempty _ _ _ _ _ _ _ _ _ E); auto. }
    assert (Hv : ru = midpoint_max_side -> (cmin bx d <= val v <= cmax bx d)%Q).
    { intros Hm. rewrite (sf_val_mid _ _ _ _ _ _ _ _ _ E Hm). apply cell_mid_between. apply MP; auto. }
    assert (Il : forall i, In i l -> In i seg).
    { intros i Hi. eapply Permutation_in; eauto. apply in_or_app; auto. }
    assert (Ir : forall i, In i r -> In i seg).
    { intros i Hi. eapply Permutation_in; eauto. apply in_or_app; auto. }
    assert (WL := box_set_max_wf n bx d v W). assert (WR := box_set_min_wf n bx d v W).
    pose proof E0 as HA1. pose proof E1 as HA2.
    apply (create_node_holds (fun _ => True) exact_ord sp WF (all_coords_true sp) alg SL) in HA1;
      [|intros _; unfold mid_ok; auto|auto|intros _ z _; auto].
    apply (create_node_holds (fun _ => True) exact_ord sp WF (all_coords_true sp) alg SL) in HA2;
      [|intros _; unfold mid_ok; auto|auto|intros _ z _; auto].
    destruct HA1 as (P1 & F1 & W1 & _ & Ho1 & _). destruct HA2 as (P2 & F2 & W2 & _ & Ho2 & _).
    apply IH in E0 as (Pr1 & Wi1 & U1 & L1 & S1); auto;
      [|intros Hm; destruct (MP Hm) as [MP1 MP2]; split; intros d' Hd'; rewrite cmax_set_max, cmin_set_max by auto;
        specialize (Hv Hm); specialize (MP1 d' Hd'); specialize (MP2 d' Hd');
        destruct (Nat.eqb_spec d d') as [<-|]; try split; lra].
    apply IH in E1 as (Pr2 & Wi2 & U2 & L2 & S2); auto;
      [|intros Hm; destruct (MP Hm) as [MP1 MP2]; split; intros d' Hd'; rewrite cmin_set_min, cmax_set_min by auto;
        specialize (Hv Hm); specialize (MP1 d' Hd'); specialize (MP2 d' Hd');
        destruct (Nat.eqb_spec d d') as [<-|]; try split; lra].
    assert (Hwi : within n lo hi (box_fit_box lb rb)).
    { intros d' Hd'. specialize (Wi1 d' Hd'); specialize (Wi2 d' Hd').
      split; [apply (cmin_fit_box n)|apply (cmax_fit_box n)]; auto; split; tauto. }
    split.
    { intros d' Hd'. specialize (Pr1 d' Hd').
      pose proof (proj1 (cmax_fit_box n lb rb d' (cmax (box_fit_box lb rb) d') W1 Hd') (Qle_refl _)).
      pose proof (proj1 (cmin_fit_box n lb rb d' (cmin (box_fit_box lb rb) d') W1 Hd') (Qle_refl _)).
      lra. }
    split; [exact Hwi|].
    split.
    { intros d' v' Hd' Hp Hc. apply (cmax_fit_box n); auto. split.
      - apply U1; auto. intros Hm. rewrite cmax_set_max by auto.
        specialize (Hv Hm); specialize (Hc Hm). destruct (Nat.eqb_spec d d') as [<-|]; lra.
      - apply U2; auto. }
    split.
    { intros d' v' Hd' Hp Hc. apply (cmin_fit_box n); auto. split.
      - apply L1; auto.
      - apply L2; auto. intros Hm. rewrite cmin_set_min by auto.
        specialize (Hv Hm); specialize (Hc Hm). destruct (Nat.eqb_spec d d') as [<-|]; lra. }
    constructor; auto.
    + rewrite (Permutation_length P1). exact S2.
    + exists lb, rb, d. constructor; auto.
      * assert (A1 : (cmax lb d <= val v)%Q).
        { apply U1; auto.
          - intros i Hi. apply leb_val. auto.
          - intros Hm. rewrite cmax_set_max, Nat.eqb_refl by auto. lra. }
        assert (A2 : (val v <= cmin rb d)%Q).
        { apply L2; auto.
          - intros i Hi. apply leb_val. auto.
          - intros Hm. rewrite cmin_set_min, Nat.eqb_refl by auto. lra. }
        lra.
      * intros Hru d' v' Hd'. repeat split; intros Hq.
        -- apply U1; auto; [|congruence]. intros i Hi. apply Hq. eapply Permutation_in; [symmetry|]; eauto.
        -- apply L1; auto; [|congruence]. intros i Hi. apply Hq. eapply Permutation_in; [symmetry|]; eauto.
        -- apply U2; auto; [|congruence]. intros i Hi. apply Hq. eapply Permutation_in; [symmetry|]; eauto.
        -- apply L2; auto; [|congruence]. intros i Hi. apply Hq. eapply Permutation_in; [symmetry|]; eauto.
Qed.

End Exact.
