(** Proofs about construction: shape of the tree, termination. *)
From Coq Require Import List ZArith QArith Qabs Bool Arith Permutation Lia Lqa.
From Verif Require Import Base ModelBox ModelBuild ModelSearch Spec Lemmas Instances BuildProofs BuildOrder.
Import ListNotations.
Local Open Scope nat_scope.

Lemma spans_intervals {B} R (nd : node B) b l :
  node_spans R nd b l -> consecutive b (leaf_intervals nd) (b + length l).
Proof.
  induction 1; simpl.
  - constructor; [lia|constructor].
  - rewrite app_length, Nat.add_assoc.
    revert IHnode_spans1 IHnode_spans2. clear. generalize (leaf_intervals nl) (leaf_intervals nr).
    intros x y Hx Hy. induction Hx; simpl; auto. constructor; auto.
Qed.

Lemma node_len_points {B} (nd : node B) : node_len nd = node_points nd.
Proof. induction nd; simpl; auto. Qed.

Lemma it_cast_fits it v : index_type_ok it -> (0 <= v <= it_max it)%Z -> it_cast it v = v.
Proof.
  unfold index_type_ok, it_cast, it_max. intros Hb Hv.
  assert (P : (2 ^ it_bits it = 2 * 2 ^ (it_bits it - 1))%Z).
  { rewrite <- Z.pow_succ_r by lia. f_equal. lia. }
  assert (0 < 2 ^ (it_bits it - 1))%Z by (apply Z.pow_pos_nonneg; lia).
  destruct (it_signed it); simpl.
  - rewrite Z.mod_small by lia.
    destruct (Z.leb_spec (2 ^ (it_bits it - 1)) v); lia.
  - rewrite Z.mod_small by lia. reflexivity.
Qed.

Section Shape.
Context {T : Type} {S : Scalar T} (ok : T -> Prop) (OL : ord_laws S ok).
Variables (sp : space T) (WF : wf_space sp) (OKS : all_coords ok sp).
Let n := sp_sdim sp.
Local Notation in_sp := (fun i => in_space sp i = true).
Variables (alg : std_algos) (SL : std_laws alg).
Variables (c : category) (ru : rule) (it : index_type) (stop : stop_condition).
Local Notation cn := (create_node c alg ru it stop sp).

Ltac branch H :=
  okbind H; let l := fresh "l" in let r := fresh "r" in let d := fresh "d" in let v := fresh "v" in
  match goal with a : split_result |- _ => destruct a as [[[l r] d] v] | a : (_ * _ * _ * _)%type |- _ => destruct a as [[[l r] d] v] end.

(** Every leaf satisfies the stop condition. *)
Lemma create_node_leaves fuel : forall depth off seg bx nd seg' bx',
  cn fuel depth off seg bx = Ok (nd, seg', bx') ->
  Forall (fun '(h, len) => is_leaf it stop h len = true) (leaf_levels depth nd).
Proof.
  induction fuel as [|fuel IH]; intros depth off seg bx nd seg' bx' H; [discriminate|].
  cbn [create_node] in H. destruct (is_leaf it stop depth (length seg)) eqn:HL.
  - okbind H. injection H as <- <- <-. simpl. constructor; auto.
    replace (off + length seg - off) with (length seg) by lia. exact HL.
  - okbind H. destruct a as [[[l r] d] v].
    okbind H. destruct a as [[nl sl] lb]. okbind H. destruct a as [[nr sr] rb].
    injection H as <- <- <-. simpl. apply Forall_app. split; eauto.
Qed.

Lemma create_node_depth m fuel : (0 <= m)%Z -> stop = max_leaf_depth m -> it_cast it m = m ->
  forall depth off seg bx nd seg' bx',
  cn fuel depth off seg bx = Ok (nd, seg', bx') -> (Z.of_nat depth <= m)%Z ->
  Forall (fun '(h, len) => (Z.of_nat h <= m)%Z) (leaf_levels depth nd).
Proof.
  intros Hm -> Hc. induction fuel as [|fuel IH]; intros depth off seg bx nd seg' bx' H Hd; [discriminate|].
  cbn [create_node] in H. destruct (is_leaf it (max_leaf_depth m) depth (length seg)) eqn:HL.
  - okbind H. injection H as <- <- <-. simpl. constructor; auto.
  - okbind H. destruct a as [[[l r] d] v].
    okbind H. destruct a as [[nl sl] lb]. okbind H. destruct a as [[nr sr] rb].
    injection H as <- <- <-. simpl in HL. rewrite Hc in HL. apply orb_false_elim in HL as [HL _].
    apply Z.eqb_neq in HL.
    simpl. apply Forall_app. split; eapply IH; eauto; lia.
Qed.

(** No empty leaves; branches have at least two points. *)
Lemma create_node_nonempty fuel : ru <> midpoint_max_side ->
  forall depth off seg bx nd seg' bx',
  box_wf n bx -> cn fuel depth off seg bx = Ok (nd, seg', bx') -> seg <> [] ->
  Forall (fun '(_, len) => 1 <= len) (leaf_levels depth nd)
  /\ node_points nd = length seg
  /\ every_branch (fun _ l r => 1 <= node_points l /\ 1 <= node_points r) nd
  /\ (ru = median_max_side ->
      every_branch (fun _ l r => node_points l <= node_points r <= node_points l + 1) nd).
Proof.
  intros Hru. induction fuel as [|fuel IH]; intros depth off seg bx nd seg' bx' W H NE; [discriminate|].
  pose proof (fun HL => create_node_two ok OL sp WF OKS alg SL c ru it stop _ _ _ _ _ _ Hru W HL H) as H2.
  cbn [create_node] in H. destruct (is_leaf it stop depth (length seg)) eqn:HL.
  - okbind H. injection H as <- <- <-. simpl.
    replace (off + length seg - off) with (length seg) by lia.
    repeat split; auto. constructor; auto. destruct seg; simpl; [congruence|lia].
  - specialize (H2 eq_refl). okbind H. destruct a as [[[l r] d] v].
    okbind H. destruct a as [[nl sl] lb]. okbind H. destruct a as [[nr sr] rb].
    injection H as <- <- <-.
    apply (splitter_facts ok OL sp WF OKS alg SL) in E; auto.
    destruct (sf_nonempty _ _ _ _ _ _ _ _ _ E Hru H2) as [NL NR].
    pose proof (Permutation_length (sf_perm _ _ _ _ _ _ _ _ _ E)) as PL. rewrite app_length in PL.
    apply IH in E0 as (A1 & A2 & A3 & A4); auto; [|apply box_set_max_wf; auto].
    apply IH in E1 as (B1 & B2 & B3 & B4); auto; [|apply box_set_min_wf; auto].
    assert (1 <= length l) by (destruct l; simpl; [congruence|lia]).
    assert (1 <= length r) by (destruct r; simpl; [congruence|lia]).
    simpl. split; [apply Forall_app; auto|]. split; [lia|].
    split; [rewrite A2, B2; auto|].
    intros Hmed. split; [|auto]. rewrite A2, B2.
    pose proof (sf_median _ _ _ _ _ _ _ _ _ E Hmed) as Hh.
    pose proof (Nat.div_mod (length seg) 2 ltac:(lia)).
    pose proof (Nat.mod_upper_bound (length seg) 2 ltac:(lia)). lia.
Qed.

(** Levels of a median tree. *)
Lemma create_node_median_levels m fuel : ru = median_max_side -> stop = max_leaf_size m ->
  it_cast it m = m ->
  forall h depth off seg bx nd seg' bx',
  box_wf n bx -> cn fuel depth off seg bx = Ok (nd, seg', bx') ->
  (Z.of_nat (length seg) <= m * 2 ^ Z.of_nat h)%Z ->
  Forall (fun '(lv, _) => lv <= depth + h) (leaf_levels depth nd).
Proof.
  intros Hru Hs Hc. induction fuel as [|fuel IH]; intros h depth off seg bx nd seg' bx' W H Hlen; [discriminate|].
  cbn [create_node] in H. destruct (is_leaf it stop depth (length seg)) eqn:HL.
  - okbind H. injection H as <- <- <-. simpl. constructor; auto. lia.
  - okbind H. destruct a as [[[l r] d] v].
    okbind H. destruct a as [[nl sl] lb]. okbind H. destruct a as [[nr sr] rb].
    injection H as <- <- <-.
    apply (splitter_facts ok OL sp WF OKS alg SL) in E; auto.
    pose proof (Permutation_length (sf_perm _ _ _ _ _ _ _ _ _ E)) as PL. rewrite app_length in PL.
    pose proof (sf_median _ _ _ _ _ _ _ _ _ E Hru) as Hh.
    pose proof (Nat.div_mod (length seg) 2 ltac:(lia)).
    pose proof (Nat.mod_upper_bound (length seg) 2 ltac:(lia)).
    rewrite Hs in HL. simpl in HL. rewrite Hc in HL. apply Z.leb_gt in HL.
    destruct h as [|h]; [simpl in Hlen; lia|].
    rewrite Nat2Z.inj_succ, Z.pow_succ_r in Hlen by lia.
    assert (Hb : (0 < 2 ^ Z.of_nat h)%Z) by (apply Z.pow_pos_nonneg; lia).
    simpl. apply Forall_app. replace (depth + Datatypes.S h) with ((depth + 1) + h) by lia.
    split; [eapply (IH h _ _ _ _ _ _ _ _ E0)|eapply (IH h _ _ _ _ _ _ _ _ E1)];
      try apply box_set_max_wf; try apply box_set_min_wf; auto; nia.
Unshelve. all: try apply box_set_max_wf; try apply box_set_min_wf; auto.
Qed.

(** * Termination without undefined behaviour *)
Variables (good : T -> Prop) (RL : range_laws S good).
Hypothesis (GOODS : all_coords good sp).

Definition good_box (b : box T) : Prop :=
  forall d, d < n -> good (get (box_min b) d) /\ good (get (box_max b) d).

Lemma max_side_found b : box_wf n b -> good_box b -> 1 <= n ->
  exists d delta, box_max_side b = (Some d, delta).
Proof.
  intros [W _] G Hn. unfold box_max_side.
  assert (HK : forall l i v, exists d delta,
    fold_left
      (fun '(p_max_index, p_max_value) i =>
       let delta := s_sub (get (box_max b) i) (get (box_min b) i) in
       if s_ltb p_max_value delta then (Some i, delta) else (p_max_index, p_max_value))
      l (Some i, v) = (Some d, delta)).
  { induction l as [|j l IH]; simpl; intros i v; eauto.
    destruct (s_ltb v _); apply IH. }
  unfold box_size. rewrite W. destruct n as [|k] eqn:En; [lia|].
  cbn [seq fold_left].
  destruct (G 0 ltac:(lia)) as [G1 G2].
  rewrite (rl_side _ _ RL) by auto. apply HK.
Qed.

Lemma good_coord i d : in_space sp i = true -> d < n -> good (coord sp d i).
Proof. intros. apply (ok_coord good sp WF GOODS); auto. Qed.

Lemma split_side_total seg b : box_wf n b -> good_box b -> Forall in_sp seg ->
  exists d delta, split_side sp seg b = Ok (d, delta).
Proof.
  intros W G F. destruct (max_side_found b W G) as (d & delta & E); [apply WF|].
  unfold split_side. rewrite E. exists d, delta.
  destruct (max_side_some b n d delta W E) as [Hd _].
  rewrite guard_true; auto. apply andb_true_intro. split; [apply forallb_in_space; auto|].
  apply Nat.ltb_lt. exact Hd.
Qed.

Lemma nth_element_total d h seg : d < n -> Forall in_sp seg -> h < length seg ->
  exists i, at_ (std_nth_element alg (coord_lt sp d) h seg) h = Ok i /\ in_space sp i = true.
Proof.
  intros Hd F Hh.
  assert (P : Permutation (std_nth_element alg (coord_lt sp d) h seg) seg).
  { apply (sl_nth_perm _ SL); [|lia]. apply (coord_lt_strict_weak ok OL).
    intros i Hi. apply (ok_coord ok sp WF OKS); auto. rewrite Forall_forall in F; auto. }
  destruct seg as [|s0 seg0] eqn:Es; [simpl in Hh; lia|]. rewrite <- Es in *.
  eexists. split.
  - apply (at_lt _ _ 0). rewrite (Permutation_length P). lia.
  - rewrite Forall_forall in F. apply F. eapply Permutation_in; [exact P|]. apply nth_In.
    rewrite (Permutation_length P). lia.
Qed.

Lemma splitter_total seg b : box_wf n b -> good_box b -> Forall in_sp seg ->
  (ru <> midpoint_max_side -> 2 <= length seg) ->
  exists l r d v, splitter alg ru sp seg b = Ok (l, r, d, v) /\ good v.
Proof.
  intros W G F H2. destruct (split_side_total seg b W G F) as (d & delta & E).
  pose proof (split_side_facts sp seg b d delta W E) as (Hd & _ & Hdelta). fold n in Hd.
  destruct (G d Hd) as [G1 G2].
  destruct ru; simpl.
  - specialize (H2 ltac:(discriminate)). unfold split_median. rewrite E. cbn [bind].
    destruct (nth_element_total d (length seg / 2) seg Hd F) as (i & Ei & Hi).
    { apply Nat.div_lt; lia. }
    rewrite Ei. cbn [bind]. rewrite guard_true by auto. cbn [bind].
    do 4 eexists. split; [reflexivity|]. apply good_coord; auto.
  - unfold split_midpoint. rewrite E. cbn [bind].
    destruct (std_partition _ _ _) as [l r]. do 4 eexists. split; [reflexivity|].
    rewrite Hdelta. apply (rl_half _ _ RL); auto.
  - specialize (H2 ltac:(discriminate)). unfold split_sliding. rewrite E. cbn [bind].
    destruct (std_partition _ _ _) as [l r] eqn:Ep.
    apply (partition_facts alg SL) in Ep as (P & _ & _).
    pose proof (Permutation_length P) as PL.
    assert (F' : Forall in_sp (l ++ r)) by (eapply Permutation_Forall'; [symmetry|]; eauto).
    destruct r as [|r0 r].
    + destruct (length (l ++ [])) as [|h] eqn:L; [lia|].
      destruct (nth_element_total d h (l ++ []) Hd F' ltac:(lia)) as (i & Ei & Hi).
      rewrite Ei. cbn [bind]. rewrite guard_true by auto. cbn [bind].
      do 4 eexists. split; [reflexivity|]. apply good_coord; auto.
    + destruct l as [|l0 l].
      * destruct (nth_element_total d 1 ([] ++ r0 :: r) Hd F' ltac:(lia)) as (i & Ei & Hi).
        rewrite Ei. cbn [bind]. rewrite guard_true by auto. cbn [bind].
        do 4 eexists. split; [reflexivity|]. apply good_coord; auto.
      * do 4 eexists. split; [reflexivity|]. rewrite Hdelta. apply (rl_two _ _ RL); auto.
Qed.

Lemma good_set_max b d v : box_wf n b -> good_box b -> good v -> good_box (box_set_max b d v).
Proof. intros W G Hv. apply (box_set_max_ok good n); auto. Qed.
Lemma good_set_min b d v : box_wf n b -> good_box b -> good v -> good_box (box_set_min b d v).
Proof. intros W G Hv. apply (box_set_min_ok good n); auto. Qed.

(** Sliding midpoint and median: the number of points is enough fuel. *)
Lemma create_node_total : ru <> midpoint_max_side ->
  (forall depth, is_leaf it stop depth 1 = true) ->
  forall fuel depth off seg bx, box_wf n bx -> good_box bx -> Forall in_sp seg ->
  1 <= length seg <= fuel ->
  exists nd seg' bx', cn fuel depth off seg bx = Ok (nd, seg', bx').
Proof.
  intros Hru H1. induction fuel as [|fuel IH]; intros depth off seg bx W G F HL; [lia|].
  cbn [create_node]. destruct (is_leaf it stop depth (length seg)) eqn:EL.
  - rewrite guard_true by (apply forallb_in_space; auto). cbn [bind]. eauto.
  - assert (H2 : 2 <= length seg).
    { destruct (Nat.eq_dec (length seg) 1) as [E1|]; [|lia]. rewrite E1, H1 in EL. discriminate. }
    destruct (splitter_total seg bx W G F (fun _ => H2)) as (l & r & d & v & E & Gv).
    rewrite E. cbn [bind]. apply (splitter_facts ok OL sp WF OKS alg SL) in E; auto.
    pose proof (sf_perm _ _ _ _ _ _ _ _ _ E) as P.
    pose proof (Permutation_length P) as PL. rewrite app_length in PL.
    destruct (sf_nonempty _ _ _ _ _ _ _ _ _ E Hru H2) as [NL NR].
    assert (1 <= length l) by (destruct l; simpl; [congruence|lia]).
    assert (1 <= length r) by (destruct r; simpl; [congruence|lia]).
    assert (F' : Forall in_sp (l ++ r)) by (eapply Permutation_Forall'; [symmetry|]; eauto).
    apply Forall_app in F' as [Fl Fr].
    destruct (IH (depth + 1) off l (box_set_max bx d v)) as (nl & sl & lb & El); auto;
      [apply box_set_max_wf; auto | apply good_set_max; auto | lia |].
    rewrite El. cbn [bind].
    destruct (IH (depth + 1) (off + length l) r (box_set_min bx d v)) as (nr & sr & rb & Er); auto;
      [apply box_set_min_wf; auto | apply good_set_min; auto | lia |].
    rewrite Er. cbn [bind]. eauto.
Qed.

(** max_leaf_depth: the remaining depth is enough fuel, for every rule. *)
Lemma create_node_total_depth m : stop = max_leaf_depth m -> it_cast it m = m ->
  forall fuel depth off seg bx, box_wf n bx -> good_box bx -> Forall in_sp seg ->
  (ru <> midpoint_max_side -> 1 <= length seg) ->
  (Z.of_nat depth <= m)%Z -> (m < Z.of_nat (depth + fuel))%Z ->
  exists nd seg' bx', cn fuel depth off seg bx = Ok (nd, seg', bx').
Proof.
  intros Hs Hc. induction fuel as [|fuel IH]; intros depth off seg bx W G F H1 Hd Hf; [lia|].
  cbn [create_node]. destruct (is_leaf it stop depth (length seg)) eqn:EL.
  - rewrite guard_true by (apply forallb_in_space; auto). cbn [bind]. eauto.
  - rewrite Hs in EL. cbn [is_leaf] in EL. rewrite Hc in EL. apply orb_false_elim in EL as [E1 E2].
    apply Z.eqb_neq in E1. apply Nat.leb_gt in E2.
    destruct (splitter_total seg bx W G F (fun _ => E2)) as (l & r & d & v & E & Gv).
    rewrite E. cbn [bind]. apply (splitter_facts ok OL sp WF OKS alg SL) in E; auto.
    pose proof (sf_perm _ _ _ _ _ _ _ _ _ E) as P.
    assert (NLR : ru <> midpoint_max_side -> 1 <= length l /\ 1 <= length r).
    { intros Hru. destruct (sf_nonempty _ _ _ _ _ _ _ _ _ E Hru E2) as [NL NR].
      destruct l, r; simpl; try congruence; lia. }
    assert (F' : Forall in_sp (l ++ r)) by (eapply Permutation_Forall'; [symmetry|]; eauto).
    apply Forall_app in F' as [Fl Fr].
    destruct (IH (depth + 1) off l (box_set_max bx d v)) as (nl & sl & lb & El); auto;
      [apply box_set_max_wf; auto | apply good_set_max; auto | intros Hru; apply NLR; auto | lia | lia |].
    rewrite El. cbn [bind].
    destruct (IH (depth + 1) (off + length l) r (box_set_min bx d v)) as (nr & sr & rb & Er); auto;
      [apply box_set_min_wf; auto | apply good_set_min; auto | intros Hru; apply NLR; auto | lia | lia |].
    rewrite Er. cbn [bind]. eauto.
Qed.

End Shape.

(** * The root box *)
Section Root.
Context {T : Type} {S : Scalar T}.

Lemma fold_fit_wf n pts : forall b : box T, box_wf n b -> box_wf n (fold_left box_fit pts b).
Proof. induction pts; simpl; intros; auto. apply IHpts, box_fit_wf; auto. Qed.

Lemma box_from_bounds_wf (sp : space T) bnds : box_wf (sp_sdim sp) (box_from_bounds sp bnds).
Proof.
  destruct bnds; simpl.
  - apply fold_fit_wf, inverse_max_wf.
  - apply box_fit_wf, box_fit_wf, inverse_max_wf.
Qed.

Variables (ok : T -> Prop) (OL : ord_laws S ok).

Lemma fold_fit_ok n pts : forall b : box T, box_wf n b -> ok_box ok n b ->
  Forall (fun p => ok_point ok n p) pts ->
  ok_box ok n (fold_left box_fit pts b)
  /\ (forall p, In p pts -> in_box n (fold_left box_fit pts b) p)
  /\ (forall p, ok_point ok n p -> in_box n b p -> in_box n (fold_left box_fit pts b) p).
Proof.
  induction pts as [|p pts IH]; simpl; intros b W O F.
  - split; auto. split; [intros ? []|auto].
  - inversion F; subst.
    destruct (IH (box_fit b p)) as (A & B & C); auto.
    { apply box_fit_wf; auto. } { apply box_fit_ok; auto. }
    split; auto. split.
    + intros q [<-|Hq]; auto. apply C; auto. apply (box_fit_in ok OL); auto.
    + intros q Oq Hq. apply C; auto. apply (box_fit_keep ok OL); auto.
Qed.

Variables (sp : space T) (WF : wf_space sp) (OKS : all_coords ok sp).

Lemma ok_points : Forall (fun p => ok_point ok (sp_sdim sp) p) (sp_pts sp).
Proof.
  destruct WF as [_ W]. unfold all_coords in OKS. rewrite Forall_forall in *.
  intros p Hp d Hd. unfold get. apply Forall_nth; auto. rewrite W; auto.
Qed.

Lemma ok_point_list p : length p = sp_sdim sp -> Forall ok p -> ok_point ok (sp_sdim sp) p.
Proof. intros L F d Hd. unfold get. apply Forall_nth; auto. lia. Qed.

Lemma box_from_bounds_ok bnds : bounds_coords ok sp bnds ->
  ok_box ok (sp_sdim sp) (box_from_bounds sp bnds).
Proof.
  destruct bnds as [|mn mx]; simpl; intros H.
  - apply fold_fit_ok; [apply inverse_max_wf | apply (inverse_max_ok ok OL) | apply ok_points].
  - destruct H as (L1 & L2 & F1 & F2).
    apply box_fit_ok; [apply box_fit_wf, inverse_max_wf| |apply ok_point_list; auto].
    apply box_fit_ok; [apply inverse_max_wf|apply (inverse_max_ok ok OL)|apply ok_point_list; auto].
Qed.

(** The root box contains all points if user bounds enclose them. *)
Lemma box_from_bounds_holds bnds seg : bounds_coords ok sp bnds -> bounds_enclose sp bnds ->
  Forall (fun i => in_space sp i = true) seg -> holds sp (box_from_bounds sp bnds) seg.
Proof.
  intros HC HE F i Hi. rewrite Forall_forall in F. specialize (F i Hi).
  pose proof (ok_point_at ok sp WF OKS i F) as OP.
  assert (IP : In (sp_at sp i) (sp_pts sp)).
  { apply nth_In. apply (in_space_lt sp i). exact F. }
  destruct bnds as [|mn mx]; simpl in *.
  - exact (proj1 (proj2 (fold_fit_ok _ _ _ (inverse_max_wf _) (inverse_max_ok ok OL _) ok_points)) _ IP).
  - destruct HC as (L1 & L2 & F1 & F2).
    intros d Hd. destruct (HE _ d IP Hd) as [A B].
    assert (W0 := inverse_max_wf (T := T) (sp_sdim sp)).
    assert (O0 := inverse_max_ok ok OL (sp_sdim sp)).
    assert (OM : ok_point ok (sp_sdim sp) mn) by (apply ok_point_list; auto).
    assert (OX : ok_point ok (sp_sdim sp) mx) by (apply ok_point_list; auto).
    assert (W1 : box_wf (sp_sdim sp) (box_fit (box_inverse_max (sp_sdim sp)) mn)) by (apply box_fit_wf; auto).
    assert (O1 : ok_box ok (sp_sdim sp) (box_fit (box_inverse_max (sp_sdim sp)) mn)) by (apply box_fit_ok; auto).
    assert (O2 : ok_box ok (sp_sdim sp) (box_fit (box_fit (box_inverse_max (sp_sdim sp)) mn) mx)) by (apply box_fit_ok; auto).
    assert (I1 : in_box (sp_sdim sp) (box_fit (box_fit (box_inverse_max (sp_sdim sp)) mn) mx) mn).
    { apply (box_fit_keep ok OL); auto. apply (box_fit_in ok OL); auto. }
    assert (I2 : in_box (sp_sdim sp) (box_fit (box_fit (box_inverse_max (sp_sdim sp)) mn) mx) mx).
    { apply (box_fit_in ok OL); auto. }
    destruct (O2 d Hd), (I1 d Hd), (I2 d Hd).
    assert (ok (get (sp_at sp i) d)) by (apply OP; auto).
    assert (ok (get mn d)) by (apply OM; auto). assert (ok (get mx d)) by (apply OX; auto).
    split.
    + destruct A as [A|A]; eapply (leb_trans ok OL); [| | | |exact A| | | | |exact A]; auto.
    + destruct B as [B|B]; eapply (leb_trans ok OL); [| | |exact B| | | | |exact B|]; auto.
Qed.

End Root.

Section RootGood.
Context {T : Type} {S : Scalar T}.
Variables (good : T -> Prop) (RL : range_laws S good).
Variables (sp : space T) (WF : wf_space sp) (GOODS : all_coords good sp).

(** Every coordinate of the box is good, or still the initial one. *)
Lemma fold_fit_good n pts : forall b : box T, box_wf n b ->
  Forall (fun p => ok_point good n p) pts ->
  (forall d, d < n -> (good (get (box_min b) d) \/ get (box_min b) d = s_max)
                      /\ (good (get (box_max b) d) \/ get (box_max b) d = s_lowest)) ->
  pts <> [] -> good_box sp good (fold_left box_fit pts b) \/ n <> sp_sdim sp.
Proof.
  intros b W F H NE. destruct (Nat.eq_dec n (sp_sdim sp)) as [En|]; auto. left.
  revert b W F H. destruct pts as [|p pts]; [congruence|]. clear NE.
  intros b W F H. inversion F as [|? ? Fp Fr]; subst. simpl.
  assert (W' := box_fit_wf _ b p W).
  assert (G : good_box sp good (box_fit b p)).
  { intros d Hd. specialize (Fp d Hd). destruct (H d Hd) as [H1 H2].
    rewrite (get_fit_min (sp_sdim sp)), (get_fit_max (sp_sdim sp)) by auto. split.
    - destruct (s_ltb _ _) eqn:E; auto. destruct H1 as [|H1]; auto. rewrite H1 in *.
      destruct (rl_max _ _ RL _ Fp); auto; congruence.
    - destruct (s_ltb _ _) eqn:E; auto. destruct H2 as [|H2]; auto. rewrite H2 in *.
      destruct (rl_lowest _ _ RL _ Fp); auto; congruence. }
  revert W' G Fr. generalize (box_fit b p). clear. induction pts as [|p pts IH]; simpl; intros b W G F; auto.
  inversion F; subst. apply IH; auto; [apply box_fit_wf; auto|].
  intros d Hd. rewrite (get_fit_min (sp_sdim sp)), (get_fit_max (sp_sdim sp)) by auto.
  destruct (G d Hd). split; destruct (s_ltb _ _); auto.
Qed.

Lemma good_points : Forall (fun p => ok_point good (sp_sdim sp) p) (sp_pts sp).
Proof. apply ok_points; auto. Qed.

Lemma inverse_initial d : d < sp_sdim sp ->
  (good (get (box_min (box_inverse_max (sp_sdim sp))) d) \/ get (box_min (box_inverse_max (sp_sdim sp))) d = s_max)
  /\ (good (get (box_max (box_inverse_max (sp_sdim sp))) d) \/ get (box_max (box_inverse_max (sp_sdim sp))) d = s_lowest).
Proof.
  intros Hd. unfold get, box_inverse_max; simpl. rewrite !nth_tab by exact Hd. auto.
Qed.

Lemma box_from_bounds_good bnds : sp_pts sp <> [] -> bounds_coords good sp bnds ->
  good_box sp good (box_from_bounds sp bnds).
Proof.
  intros NE. destruct bnds as [|mn mx]; simpl; intros H.
  - destruct (fold_fit_good (sp_sdim sp) (sp_pts sp) (box_inverse_max (sp_sdim sp))) as [A|A]; auto; [|..|congruence].
    + apply inverse_max_wf. + apply good_points. + apply inverse_initial.
  - destruct H as (L1 & L2 & F1 & F2).
    change (box_fit (box_fit (box_inverse_max (sp_sdim sp)) mn) mx)
      with (fold_left box_fit [mn; mx] (box_inverse_max (sp_sdim sp))).
    destruct (fold_fit_good (sp_sdim sp) [mn; mx] (box_inverse_max (sp_sdim sp))) as [A|A]; auto; [|..|congruence].
    + apply inverse_max_wf.
    + repeat constructor; apply ok_point_list; auto.
    + apply inverse_initial. + congruence.
Qed.

End RootGood.
