(** Construction with scalars of which only the order is known to be sane
    (floating point): the boxes stored in the branches are ordered and tight. *)
From Coq Require Import List ZArith QArith Bool Arith Permutation Lia.
From Verif Require Import Base ModelBox ModelBuild ModelSearch Spec Lemmas
  BuildProofs BuildShape BuildThms.
Import ListNotations.
Local Open Scope nat_scope.

Section Tight.
Context {T : Type} {S : Scalar T} (ok : T -> Prop) (OL : ord_laws S ok) (FIN : ok_finite S ok).
Variables (good : T -> Prop).
Variable GHALF : forall x y, good x -> good y -> good (s_add (s_mul (s_sub y x) s_half) x).
Variable GTWO : forall x y, good x -> good y -> good (s_add (s_div (s_sub y x) s_two) x).
Variables (GOK : forall x, good x -> ok x).
Variables (sp : space T) (WF : wf_space sp) (GOODS : all_coords good sp).
Let n := sp_sdim sp.
Variables (alg : std_algos) (SL : std_laws alg).
Variables (c : category) (ru : rule) (it : index_type) (stop : stop_condition).
Local Notation cn := (create_node c alg ru it stop sp).
Local Notation in_sp := (fun i => in_space sp i = true).
Local Notation le := (fun a b => s_leb a b = true).

Lemma oks : all_coords ok sp.
Proof.
  unfold all_coords in *. eapply Forall_impl; [|exact GOODS]. intros p Hp. cbn beta in Hp.
  eapply Forall_impl; [|exact Hp]. auto.
Qed.
Let OKS := oks.

(** Each side of the box [b] touches one of the points [l]. *)
Definition touches (b : box T) (l : list nat) : Prop :=
  forall k, k < n ->
    (exists i, In i l /\ le (coord sp k i) (get (box_min b) k))
    /\ (exists i, In i l /\ le (get (box_max b) k) (coord sp k i)).

Record tight_facts (br : branch_data c T) (l r : list nat) (lb rb : box T) (d : nat) : Prop := {
  tf_br : br = set_branch c lb rb d;
  tf_dim : d < n;
  tf_wfl : box_wf n lb;
  tf_wfr : box_wf n rb;
  tf_okl : ok_box ok n lb;
  tf_okr : ok_box ok n rb;
  tf_holdl : holds sp lb l;
  tf_holdr : holds sp rb r;
  tf_touchl : touches lb l;
  tf_touchr : touches rb r;
  tf_order : le (get (box_max lb) d) (get (box_min rb) d)
}.
Definition R_tight (br : branch_data c T) (l r : list nat) : Prop :=
  exists lb rb d, tight_facts br l r lb rb d.

Lemma touches_perm b l l' : Permutation l l' -> touches b l -> touches b l'.
Proof.
  intros P H k Hk. destruct (H k Hk) as [(i & Hi & Ei) (j & Hj & Ej)].
  split; [exists i|exists j]; split; auto; eapply Permutation_in; eauto.
Qed.

Lemma bbox_touches seg : Forall in_sp seg -> seg <> [] -> touches (compute_bounding_box sp seg) seg.
Proof.
  intros F NE k Hk. unfold compute_bounding_box.
  assert (K : forall l b, box_wf n b -> ok_box ok n b -> Forall in_sp l ->
    let b' := fold_left (fun b i => box_fit b (sp_at sp i)) l b in
    (get (box_min b') k = get (box_min b) k \/ exists i, In i l /\ le (coord sp k i) (get (box_min b') k))
    /\ (get (box_max b') k = get (box_max b) k \/ exists i, In i l /\ le (get (box_max b') k) (coord sp k i))).
  { induction l as [|i l IH]; intros b W O Fl; cbn [fold_left]; [split; left; reflexivity|].
    inversion Fl; subst.
    assert (W' := box_fit_wf n b (sp_at sp i) W).
    assert (OP := ok_point_at ok sp WF OKS i H1).
    assert (O' := box_fit_ok ok n b (sp_at sp i) W O OP).
    destruct (IH _ W' O' H2) as [A B]. cbn zeta in *.
    rewrite (get_fit_min n) in A by auto. rewrite (get_fit_max n) in B by auto.
    assert (OI : ok (coord sp k i)) by (apply OP; auto).
    split; [clear B|clear A].
    - destruct A as [A|(j & Hj & Ej)]; [|right; exists j; split; [right; auto|auto]].
      destruct (s_ltb _ _) eqn:E; [|left; auto].
      right. exists i. split; [left; auto|]. rewrite A. apply (leb_refl ok OL); auto.
    - destruct B as [B|(j & Hj & Ej)]; [|right; exists j; split; [right; auto|auto]].
      destruct (s_ltb _ _) eqn:E; [|left; auto].
      right. exists i. split; [left; auto|]. rewrite B. apply (leb_refl ok OL); auto. }
  destruct (K seg (box_inverse_max (sp_sdim sp)) (inverse_max_wf n) (inverse_max_ok ok OL n) F) as [A B].
  destruct seg as [|i seg]; [congruence|]. inversion F; subst.
  assert (OI : ok (coord sp k i)) by (apply (ok_point_at ok sp WF OKS i); auto).
  destruct (FIN _ OI) as [F1 F2]. cbn zeta in *.
  split.
  - destruct A as [A|A]; [|exact A]. exists i. split; [left; auto|]. rewrite A.
    unfold box_inverse_max, get. cbn [box_min]. rewrite nth_tab by exact Hk. exact F2.
  - destruct B as [B|B]; [|exact B]. exists i. split; [left; auto|]. rewrite B.
    unfold box_inverse_max, get. cbn [box_max]. rewrite nth_tab by exact Hk. exact F1.
Qed.

Lemma fit_box_touches lb rb l r : box_wf n lb -> touches lb l -> touches rb r ->
  touches (box_fit_box lb rb) (l ++ r).
Proof.
  intros W Hl Hr k Hk. destruct (Hl k Hk) as [(i & Hi & Ei) (j & Hj & Ej)].
  destruct (Hr k Hk) as [(i' & Hi' & Ei') (j' & Hj' & Ej')].
  rewrite (get_fit_box_min n), (get_fit_box_max n) by auto.
  split; destruct (s_ltb _ _).
  - exists i'. split; auto. apply in_or_app; auto.
  - exists i. split; auto. apply in_or_app; auto.
  - exists j'. split; auto. apply in_or_app; auto.
  - exists j. split; auto. apply in_or_app; auto.
Qed.

Hypothesis NM : ru <> midpoint_max_side.

Lemma create_node_tight fuel : forall depth off seg bx nd seg' bx',
  box_wf n bx -> good_box sp good bx ->
  cn fuel depth off seg bx = Ok (nd, seg', bx') -> seg <> [] ->
  touches bx' seg' /\ node_spans R_tight nd off seg'.
Proof.
  induction fuel as [|fuel IH]; intros depth off seg bx nd seg' bx' W G H NE; [discriminate|].
  assert (H2 : is_leaf it stop depth (length seg) = false -> 2 <= length seg).
  { intros HL. exact (create_node_two ok OL sp WF OKS alg SL c ru it stop _ _ _ _ _ _ NM W HL H). }
  cbn [create_node] in H. destruct (is_leaf it stop depth (length seg)) eqn:HL.
  - okbind H. apply guard_ok in E. apply forallb_in_space in E. injection H as <- <- <-.
    split; [|constructor].
    destruct ru; try congruence; apply bbox_touches; auto.
  - specialize (H2 eq_refl).
    okbind H. destruct a as [[[l r] d] v].
    okbind H. destruct a as [[nl sl] lb]. okbind H. destruct a as [[nr sr] rb].
    injection H as <- <- <-.
    apply (splitter_facts ok OL sp WF OKS alg SL) in E; auto.
    pose proof (sf_dim _ _ _ _ _ _ _ _ _ E) as Hd. fold n in Hd.
    pose proof (sf_perm _ _ _ _ _ _ _ _ _ E) as HP.
    destruct (sf_nonempty _ _ _ _ _ _ _ _ _ E NM H2) as [NL NR].
    destruct (G d Hd) as [G1 G2].
    assert (Gv : good v).
    { destruct (sf_val _ _ _ _ _ _ _ _ _ E) as [(_ & i & Hi & ->)|[->| ->]].
      - apply (ok_coord good sp WF GOODS); auto.
        pose proof (sf_in _ _ _ _ _ _ _ _ _ E) as Fi. rewrite Forall_forall in Fi. auto.
      - apply GTWO; auto.
      - apply GHALF; auto. }
    assert (WL := box_set_max_wf n bx d v W). assert (WR := box_set_min_wf n bx d v W).
    assert (GL : good_box sp good (box_set_max bx d v)) by (apply good_set_max; auto).
    assert (GR : good_box sp good (box_set_min bx d v)) by (apply good_set_min; auto).
    pose proof E0 as HA1. pose proof E1 as HA2.
    apply (create_node_holds ok OL sp WF OKS alg SL c ru it stop) in HA1; [|congruence|auto|congruence].
    apply (create_node_holds ok OL sp WF OKS alg SL c ru it stop) in HA2; [|congruence|auto|congruence].
    destruct HA1 as (P1 & F1 & W1 & O1 & Ho1 & _). destruct HA2 as (P2 & F2 & W2 & O2 & Ho2 & _).
    apply IH in E0 as (T1 & S1); auto. apply IH in E1 as (T2 & S2); auto.
    split; [apply fit_box_touches; auto|].
    constructor; auto.
    { rewrite (Permutation_length P1). exact S2. }
    exists lb, rb, d. constructor; auto.
    destruct (T1 d Hd) as [_ (j & Hj & Ej)]. destruct (T2 d Hd) as [(i & Hi & Ei) _].
    destruct (O1 d Hd) as [_ OM]. destruct (O2 d Hd) as [Om _].
    apply (Permutation_in _ P1) in Hj. apply (Permutation_in _ P2) in Hi.
    rewrite Forall_forall in F1, F2.
    assert (Oj : ok (coord sp d j)) by (apply (ok_coord ok sp WF OKS); auto).
    assert (Oi : ok (coord sp d i)) by (apply (ok_coord ok sp WF OKS); auto).
    pose proof (sf_left _ _ _ _ _ _ _ _ _ E (GOK _ Gv) j Hj) as Lj.
    pose proof (sf_right _ _ _ _ _ _ _ _ _ E (GOK _ Gv) i Hi) as Li.
    pose proof (GOK _ Gv) as Ov.
    eapply (leb_trans ok OL); [| | |exact Ej|]; auto.
    eapply (leb_trans ok OL); [| | |exact Lj|]; auto.
    eapply (leb_trans ok OL); [| | |exact Li|]; auto.
Qed.
End Tight.

(** The whole construction. *)
Section Build.
Context {T : Type} {S : Scalar T} (ok : T -> Prop) (OL : ord_laws S ok) (FIN : ok_finite S ok).
Variables (good : T -> Prop) (RL : range_laws S good) (GOK : forall x, good x -> ok x).
Variables (sp : space T) (WF : wf_space sp) (GOODS : all_coords good sp).
Variables (alg : std_algos) (SL : std_laws alg).

Lemma build_tight_ord c it fuel stop bnds ru t : ru <> midpoint_max_side ->
  bounds_coords good sp bnds ->
  build c alg it fuel sp stop bnds ru = Ok t ->
  Permutation (kd_indices t) (seq 0 (length (sp_pts sp)))
  /\ node_spans (R_tight ok sp c) (kd_root t) 0 (kd_indices t).
Proof.
  intros NM HB H. pose proof H as H0.
  apply (build_holds ok OL sp WF (oks ok good GOK sp GOODS) alg SL) in H0 as [P _]; [|congruence].
  split; auto.
  apply build_inv in H as (_ & [Hn _] & bx' & H & _).
  assert (NE : sp_pts sp <> []) by (apply length_nonnil; lia).
  eapply (create_node_tight ok OL FIN good (rl_half _ _ RL) (rl_two _ _ RL) GOK sp WF GOODS alg SL c ru it stop NM) in H; [apply H| | |].
  - apply box_from_bounds_wf.
  - apply (box_from_bounds_good good RL sp WF GOODS); auto.
  - apply length_nonnil. rewrite seq_length. lia.
Qed.
End Build.

(** The same when the coordinates may be any values of the type. *)
Section BuildAny.
Context {T : Type} {S : Scalar T} (ok : T -> Prop) (OL : ord_laws S ok) (FIN : ok_finite S ok).
Variable GHALF : forall x y, ok x -> ok y -> ok (s_add (s_mul (s_sub y x) s_half) x).
Variable GTWO : forall x y, ok x -> ok y -> ok (s_add (s_div (s_sub y x) s_two) x).
Variables (sp : space T) (WF : wf_space sp) (OKS : all_coords ok sp).
Variables (alg : std_algos) (SL : std_laws alg).

Lemma build_tight_any c it fuel stop bnds ru t : ru <> midpoint_max_side ->
  bounds_coords ok sp bnds ->
  build c alg it fuel sp stop bnds ru = Ok t ->
  Permutation (kd_indices t) (seq 0 (length (sp_pts sp)))
  /\ node_spans (R_tight ok sp c) (kd_root t) 0 (kd_indices t).
Proof.
  intros NM HB H. pose proof H as H0.
  apply (build_holds ok OL sp WF OKS alg SL) in H0 as [P _]; [|congruence].
  split; auto.
  apply build_inv in H as (_ & [Hn _] & bx' & H & _).
  eapply (create_node_tight ok OL FIN ok GHALF GTWO (fun x K => K) sp WF OKS alg SL c ru it stop NM) in H; [apply H| | |].
  - apply box_from_bounds_wf.
  - exact (box_from_bounds_ok ok OL sp WF OKS bnds HB).
  - apply length_nonnil. rewrite seq_length. lia.
Qed.
End BuildAny.
