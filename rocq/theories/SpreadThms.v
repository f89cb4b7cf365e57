(** How deep trees get when points are not too close together: the general
    argument, for any notion of sides that are halved. *)
From Coq Require Import List ZArith Bool Arith Permutation Lia.
From Verif Require Import Base ModelBox ModelBuild ModelSearch Spec SpecShape Lemmas Instances
  BuildProofs BuildShape BuildThms ShapeThms.
Import ListNotations.
Local Open Scope nat_scope.

(** The sum of [k d] over the dimensions. *)
Lemma sum_upd (k : nat -> nat) d n : d < n -> forall x, k d = S x ->
  list_sum (map k (seq 0 n)) = S (list_sum (map (fun i => if i =? d then x else k i) (seq 0 n))).
Proof.
  intros Hd x E.
  assert (A : forall l, ~ In d l -> map (fun i => if i =? d then x else k i) l = map k l).
  { intros l H. apply map_ext_in. intros i Hi. destruct (Nat.eqb_spec i d); [congruence|auto]. }
  assert (ND := seq_NoDup n 0).
  assert (I : In d (seq 0 n)) by (apply in_seq; lia).
  apply in_split in I as (l1 & l2 & Es). rewrite Es in *.
  apply NoDup_remove_2 in ND. rewrite in_app_iff in ND.
  rewrite !map_app. cbn [map]. rewrite !list_sum_app. cbn [list_sum fold_right].
  rewrite !A by tauto. rewrite Nat.eqb_refl, E. cbn. unfold list_sum. lia.
Qed.

Section Spread.
Context {T : Type} {S : Scalar T} (ok : T -> Prop) (OL : ord_laws S ok).
Variables (sp : space T) (WF : wf_space sp) (OKS : all_coords ok sp).
Variables (alg : std_algos) (SL : std_laws alg).
Variables (good : T -> Prop) (RL : range_laws S good) (GOODS : all_coords good sp).
Let n := sp_sdim sp.
Local Notation in_sp := (fun i => in_space sp i = true).
Local Notation side b i := (s_sub (get (box_max b) i) (get (box_min b) i)).

(** [near k a b]: from [a] to [b] it is less than 2^k units. *)
Variable near : nat -> T -> T -> Prop.
Hypothesis good_ok : forall x, good x -> ok x.
Hypothesis side_ok : forall x y, good x -> good y -> ok (s_sub y x).
Hypothesis near_mono : forall k a b c d, good a -> good b -> good c -> good d ->
  s_leb a b = true -> s_leb c d = true -> near k a d -> near k b c.
Hypothesis near_half : forall k a b, good a -> good b -> s_leb a b = true -> near (Datatypes.S k) a b ->
  near k a (s_add (s_mul (s_sub b a) s_half) a) /\ near k (s_add (s_mul (s_sub b a) s_half) a) b.
Hypothesis near_two : forall k a b, good a -> good b -> s_leb a b = true -> near (Datatypes.S k) a b ->
  near k a (s_add (s_div (s_sub b a) s_two) a) /\ near k (s_add (s_div (s_sub b a) s_two) a) b.
Hypothesis near_side : forall a b c d, good a -> good b -> good c -> good d ->
  s_ltb (s_sub b a) (s_sub d c) = false -> near 0 a b -> near 0 c d.

Lemma max_side_longest_ok b d v : box_wf n b -> good_box sp good b -> box_max_side b = (Some d, v) ->
  d < n /\ forall i, i < n -> s_ltb (side b d) (side b i) = false.
Proof.
  intros W G H. pose proof (max_side_some b n d v W H) as [Hd Ev]. split; auto. subst v.
  unfold box_max_side in H. destruct W as [W _]. unfold box_size in H. rewrite W in H.
  assert (K : forall l st, (forall i, In i l -> i < n) -> ok (snd st) ->
    fold_left (fun '(p_max_index, p_max_value) i =>
       let delta := side b i in
       if s_ltb p_max_value delta then (Some i, delta) else (p_max_index, p_max_value)) l st = (Some d, side b d) ->
    (forall i, In i l -> s_leb (side b i) (side b d) = true) /\ s_leb (snd st) (side b d) = true).
  { assert (OS : forall i, i < n -> ok (side b i)) by (intros i Hi; apply side_ok; apply G; auto).
    induction l as [|i l IH]; intros [si sv] Hl Os HF; cbn [fold_left snd] in *.
    - injection HF as -> ->. split; [intros ? []|]. apply (leb_refl ok OL). auto.
    - assert (Oi : ok (side b i)) by (apply OS, Hl; left; auto).
      destruct (s_ltb sv (side b i)) eqn:E.
      + apply IH in HF as (A & B); [|intros; apply Hl; right; auto|auto]. cbn [snd] in B.
        apply (ltb_leb ok OL) in E; auto. split.
        * intros j [<-|Hj]; auto.
        * apply (leb_trans ok OL) with (side b i); auto.
      + apply IH in HF as (A & B); [|intros; apply Hl; right; auto|auto]. cbn [snd] in B.
        apply (ltb_false ok OL) in E; auto. split; auto.
        intros j [<-|Hj]; auto. apply (leb_trans ok OL) with sv; auto. }
  intros i Hi. destruct (K (seq 0 n) (None, s_lowest) (fun i Hi => proj1 (In_seq0 i n) Hi) (ol_lowest _ _ OL) H) as [A _].
  apply (leb_not_ltb ok OL); [apply side_ok; apply G; auto|apply side_ok; apply G; auto|].
  apply A. apply In_seq0. auto.
Qed.

Lemma split_side_longest_ok seg bx d delta : box_wf n bx -> good_box sp good bx ->
  split_side sp seg bx = Ok (d, delta) -> forall i, i < n -> s_ltb (side bx d) (side bx i) = false.
Proof.
  intros W G H. unfold split_side in H. destruct (box_max_side bx) as [[d0|] v0] eqn:E; [|discriminate].
  okbind H. injection H as -> ->. eapply max_side_longest_ok; eauto.
Qed.

Variables (c : category) (ru : rule) (it : index_type) (m : nat) (M : nat).
Hypothesis (Hru : ru <> median_max_side) (Hm : 1 <= m) (Hit : it_cast it (Z.of_nat m) = Z.of_nat m).
Hypothesis HM : ru = midpoint_max_side -> M <= m.
(** No more than [M] points are near each other in all dimensions. *)
Hypothesis clusters : forall seg, NoDup seg -> Forall in_sp seg ->
  (forall i j d, In i seg -> In j seg -> d < n -> near 0 (coord sp d i) (coord sp d j)) -> length seg <= M.
Local Notation cn := (create_node c alg ru it (max_leaf_size (Z.of_nat m)) sp).

Lemma leaf_iff depth (seg : list nat) : is_leaf it (max_leaf_size (Z.of_nat m)) depth (length seg) = (length seg <=? m).
Proof.
  cbn [is_leaf]. rewrite Hit. destruct (Nat.leb_spec (length seg) m); [apply Z.leb_le|apply Z.leb_gt]; lia.
Qed.

Lemma splitter_near seg bx l r d v k : box_wf n bx -> good_box sp good bx ->
  s_leb (get (box_min bx) d) (get (box_max bx) d) = true ->
  splitter alg ru sp seg bx = Ok (l, r, d, v) ->
  near (Datatypes.S k) (get (box_min bx) d) (get (box_max bx) d) ->
  (length l = 1 \/ near k (get (box_min bx) d) v) /\ (length r = 1 \/ near k v (get (box_max bx) d)).
Proof.
  intros W G LE H N. destruct ru; [congruence| |]; simpl in H.
  - unfold split_midpoint in H. okbind H. destruct a as [d' delta].
    destruct (std_partition _ _ _) as [a b]. injection H as <- <- <- <-.
    apply split_side_facts in E as (Hd & _ & ->); auto. fold n in Hd. destruct (G d' Hd) as [G1 G2].
    destruct (near_half k _ _ G1 G2 LE N). auto.
  - unfold split_sliding in H. okbind H. destruct a as [d' delta].
    destruct (std_partition _ _ _) as [a b] eqn:Ep.
    apply split_side_facts in E as (Hd & F & ->); auto.
    apply (partition_facts alg SL) in Ep as (P & A & B).
    assert (F' : Forall in_sp (a ++ b)) by (eapply Permutation_Forall'; [symmetry|]; eauto).
    assert (GC : forall i, In i (a ++ b) -> good (coord sp d' i)).
    { intros i Hi. apply (good_coord sp WF good GOODS); auto. rewrite Forall_forall in F'. auto. }
    destruct (G d' Hd) as [G1 G2].
    destruct b as [|b0 b1].
    + destruct (length (a ++ [])) as [|h] eqn:L; [discriminate|].
      okbind H. okbind H. injection H as <- <- <- <-. apply at_ok in E. rename a0 into i.
      destruct (nth_element_facts ok OL sp WF OKS alg SL d' _ _ i Hd F' E ltac:(lia)) as (P' & L1 & L2 & Ii & A' & B').
      destruct (near_two k _ _ G1 G2 LE N) as [N1 N2]. pose proof (rl_two _ _ RL _ _ G1 G2) as GM.
      split; [right|left; rewrite L2; lia].
      apply (near_mono k _ _ _ _ G1 G1 (GC i Ii) GM); [apply (leb_refl ok OL); auto| |exact N1].
      apply (ltb_leb ok OL); [auto|auto|]. apply A. rewrite app_nil_r in Ii. exact Ii.
    + destruct a as [|a0 a1].
      * okbind H. okbind H. apply ok4_inj in H as (<- & <- & <- & <-). apply at_ok in E. rename a into i.
        pose proof (nth_element_in ok OL sp WF OKS alg SL d' 1 _ i Hd F' ltac:(simpl; lia) E) as Hlt.
        destruct (nth_element_facts ok OL sp WF OKS alg SL d' _ _ i Hd F' E Hlt) as (P' & L1 & L2 & Ii & A' & B').
        destruct (near_two k _ _ G1 G2 LE N) as [N1 N2]. pose proof (rl_two _ _ RL _ _ G1 G2) as GM.
        split; [left; exact L1|right].
        apply (near_mono k _ _ _ _ GM (GC i Ii) G2 G2); [|apply (leb_refl ok OL); auto|exact N2].
        apply (ltb_false ok OL); [auto|auto|]. apply B. exact Ii.
      * injection H as <- <- <- <-. destruct (near_two k _ _ G1 G2 LE N). auto.
Qed.

Lemma near_node : forall fuel ks depth off seg bx,
  list_sum (map ks (seq 0 n)) + (M - m) < fuel ->
  box_wf n bx -> good_box sp good bx -> holds sp bx seg -> Forall in_sp seg -> NoDup seg ->
  (forall d, d < n -> near (ks d) (get (box_min bx) d) (get (box_max bx) d)) ->
  exists nd seg' bx', cn fuel depth off seg bx = Ok (nd, seg', bx')
    /\ height nd <= list_sum (map ks (seq 0 n)) + (M - m) /\ Permutation seg' seg.
Proof.
  induction fuel as [|fuel IH]; intros ks depth off seg bx Hf W G HO F ND HN; [lia|].
  cbn [create_node]. rewrite leaf_iff. destruct (Nat.leb_spec (length seg) m) as [HL|HL].
  { rewrite guard_true by (apply forallb_in_space; auto). cbn [bind]. do 3 eexists. split; [reflexivity|]. split; [cbn; lia|reflexivity]. }
  assert (GC : forall i d, In i seg -> d < n -> good (coord sp d i)).
  { intros i d Hi Hd. apply (good_coord sp WF good GOODS); auto. rewrite Forall_forall in F. auto. }
  assert (H2 : 2 <= length seg) by lia.
  destruct (splitter_total ok OL sp WF OKS alg SL ru good RL GOODS seg bx W G F (fun _ => H2)) as (l & r & d & v & E & Gv).
  rewrite E. cbn [bind].
  pose proof (splitter_facts ok OL sp WF OKS alg SL ru seg bx l r d v W E) as SF.
  pose proof (sf_dim _ _ _ _ _ _ _ _ _ SF) as Hd. fold n in Hd.
  assert (LNG : forall i, i < n -> s_ltb (side bx d) (side bx i) = false).
  { assert (exists delta, split_side sp seg bx = Ok (d, delta)) as [delta Es].
    { clear - E. destruct ru; simpl in E.
      - unfold split_median in E. okbind E. destruct a as [d' delta]. okbind E. okbind E. injection E as _ _ <- _. eauto.
      - unfold split_midpoint in E. okbind E. destruct a as [d' delta]. destruct (std_partition _ _ _). injection E as _ _ <- _. eauto.
      - unfold split_sliding in E. okbind E. destruct a as [d' delta]. destruct (std_partition _ _ _) as [a b].
        destruct b; [destruct (length (a ++ [])); [discriminate|]; okbind E; okbind E; injection E as _ _ <- _; eauto|].
        destruct a; [okbind E; okbind E; apply ok4_inj in E as (_ & _ & <- & _); eauto|injection E as _ _ <- _; eauto]. }
    eapply split_side_longest_ok; eauto. }
  destruct (G d Hd) as [G1 G2].
  assert (LE : s_leb (get (box_min bx) d) (get (box_max bx) d) = true).
  { destruct seg as [|i seg0]; [cbn in H2; lia|].
    destruct (HO i (or_introl eq_refl) d Hd) as [A B].
    apply (leb_trans ok OL) with (coord sp d i); auto. apply good_ok, GC; auto. left; auto. }
  destruct (ks d) as [|k] eqn:Ek.
  - (* all sides are short *)
    assert (HC : length seg <= M).
    { apply clusters; auto. intros i j e Hi Hj He.
      destruct (G e He) as [G3 G4]. destruct (HO i Hi e He) as [A B]. destruct (HO j Hj e He) as [A' B'].
      apply (near_mono 0 (get (box_min bx) e) _ _ (get (box_max bx) e)); auto.
      apply (near_side _ _ _ _ G1 G2 G3 G4); auto. rewrite <- Ek. auto. }
    assert (Hns : ru <> midpoint_max_side) by (intros X; specialize (HM X); lia).
    destruct (create_node_total ok OL sp WF OKS alg SL c ru it (max_leaf_size (Z.of_nat m)) good RL GOODS Hns) with
      (fuel := length seg) (depth := depth) (off := off) (seg := seg) (bx := bx) as (nd & seg' & bx' & Ec); auto; [|lia|].
    { intros depth'. exact (eq_trans (leaf_iff depth' [0]) (proj2 (Nat.leb_le 1 m) Hm)). }
    pose proof Ec as Eo. apply (create_node_over ok OL sp WF OKS alg SL) in Eo as (P1 & P2); auto; [|lia].
    apply height_points in P2. rewrite Nat2Z.id in P2.
    destruct (create_node_fuel sp alg c ru it _ _ _ _ _ _ _ _ _ Ec) as (_ & Ef).
    assert (HH : height nd <= list_sum (map ks (seq 0 n)) + (M - m)) by lia.
    assert (PP : Permutation seg' seg).
    { apply (create_node_holds ok OL sp WF OKS alg SL) in Ec; [tauto| |auto|congruence].
      intros X. congruence. }
    exists nd, seg', bx'. split; [|split; [exact HH|exact PP]].
    specialize (Ef (Datatypes.S fuel)). cbn [create_node] in Ef. rewrite leaf_iff in Ef.
    destruct (Nat.leb_spec (length seg) m); [lia|]. rewrite E in Ef. cbn [bind] in Ef. rewrite Ef.
    destruct (Nat.ltb_spec (height nd) (Datatypes.S fuel)); [reflexivity|lia].
  - pose proof (HN d Hd) as Nd. rewrite Ek in Nd.
    destruct (splitter_near seg bx l r d v k W G LE E Nd) as [Nl Nr].
    pose proof (sf_perm _ _ _ _ _ _ _ _ _ SF) as P.
    assert (F' : Forall in_sp (l ++ r)) by (eapply Permutation_Forall'; [symmetry|]; eauto).
    apply Forall_app in F' as [Fl Fr].
    assert (ND' : NoDup (l ++ r)) by (eapply Permutation_NoDup; [symmetry|]; eauto).
    pose proof (NoDup_app_l _ _ ND') as NDl. pose proof (NoDup_app_r _ _ ND') as NDr.
    pose proof (sum_upd ks d n Hd k Ek) as ES. set (ks' := fun i => if i =? d then k else ks i) in *.
    destruct W as [W1 W2].
    assert (Rl : exists nl sl lb, cn fuel (depth + 1) off l (box_set_max bx d v) = Ok (nl, sl, lb)
      /\ height nl <= list_sum (map ks' (seq 0 n)) + (M - m) /\ Permutation sl l).
    { destruct Nl as [L1|Nl].
      - destruct fuel as [|fuel']; [lia|]. cbn [create_node]. rewrite leaf_iff.
        destruct (Nat.leb_spec (length l) m); [|lia].
        rewrite guard_true by (apply forallb_in_space; auto). cbn [bind]. do 3 eexists. split; [reflexivity|]. split; [cbn; lia|reflexivity].
      - apply IH; auto.
        + lia.
        + apply box_set_max_wf; split; auto.
        + apply good_set_max; auto; split; auto.
        + intros i Hi e He. assert (Hi' : In i seg) by (eapply Permutation_in; [exact P|]; apply in_or_app; auto).
          destruct (HO i Hi' e He) as [A B]. split; auto. cbn [box_set_max box_max].
          destruct (Nat.eq_dec d e) as [<-|Hne]; [|rewrite get_set_other; auto].
          rewrite get_set_same by (rewrite W2; auto). apply (sf_left _ _ _ _ _ _ _ _ _ SF); auto.
        + intros e He. cbn [box_set_max box_max box_min]. unfold ks'. destruct (Nat.eqb_spec e d) as [->|Hne].
          * rewrite get_set_same by (rewrite W2; auto). auto.
          * rewrite get_set_other by auto. auto. }
    assert (Rr : exists nr sr rb, cn fuel (depth + 1) (off + length l) r (box_set_min bx d v) = Ok (nr, sr, rb)
      /\ height nr <= list_sum (map ks' (seq 0 n)) + (M - m) /\ Permutation sr r).
    { destruct Nr as [L1|Nr].
      - destruct fuel as [|fuel']; [lia|]. cbn [create_node]. rewrite leaf_iff.
        destruct (Nat.leb_spec (length r) m); [|lia].
        rewrite guard_true by (apply forallb_in_space; auto). cbn [bind]. do 3 eexists. split; [reflexivity|]. split; [cbn; lia|reflexivity].
      - apply IH; auto.
        + lia.
        + apply box_set_min_wf; split; auto.
        + apply good_set_min; auto; split; auto.
        + intros i Hi e He. assert (Hi' : In i seg) by (eapply Permutation_in; [exact P|]; apply in_or_app; auto).
          destruct (HO i Hi' e He) as [A B]. split; auto. cbn [box_set_min box_min].
          destruct (Nat.eq_dec d e) as [<-|Hne]; [|rewrite get_set_other; auto].
          rewrite get_set_same by (rewrite W1; auto). apply (sf_right _ _ _ _ _ _ _ _ _ SF); auto.
        + intros e He. cbn [box_set_min box_max box_min]. unfold ks'. destruct (Nat.eqb_spec e d) as [->|Hne].
          * rewrite get_set_same by (rewrite W1; auto). auto.
          * rewrite get_set_other by auto. auto. }
    destruct Rl as (nl & sl & lb & -> & Hl & Pl). destruct Rr as (nr & sr & rb & Er & Hr & Pr). cbn [bind]. rewrite Er. cbn [bind].
    do 3 eexists. split; [reflexivity|]. split; [cbn [height]; lia|]. rewrite Pl, Pr. exact P.
Qed.

Lemma near_build (fuel : nat) (bnds : start_bounds T) (ks : nat -> nat) :
  sp_pts sp <> [] -> (Z.of_nat (length (sp_pts sp)) <= it_max it)%Z ->
  bounds_coords good sp bnds -> bounds_enclose sp bnds -> bounds_dim sp bnds = true ->
  let bx := box_from_bounds sp bnds in
  (forall d, d < n -> near (ks d) (get (box_min bx) d) (get (box_max bx) d)) ->
  list_sum (map ks (seq 0 n)) + (M - m) < fuel ->
  exists t, build c alg it fuel sp (max_leaf_size (Z.of_nat m)) bnds ru = Ok t
    /\ height (kd_root t) <= list_sum (map ks (seq 0 n)) + (M - m)
    /\ Permutation (kd_indices t) (seq 0 (length (sp_pts sp))).
Proof.
  intros NE HI HC HE HD bx HN Hf.
  assert (F : Forall in_sp (seq 0 (sp_size sp))).
  { apply Forall_forall. intros i Hi. apply (in_space_lt sp). apply in_seq in Hi. unfold sp_size in Hi. lia. }
  destruct (near_node fuel ks 0 0 (seq 0 (sp_size sp)) bx) as (nd & seg' & bx' & E & Hh & PP); auto.
  - apply box_from_bounds_wf.
  - apply box_from_bounds_good; auto.
  - apply (box_from_bounds_holds ok OL); auto.
    destruct bnds as [|mn mx]; cbn in *; auto. destruct HC as (A & B & C & D).
    split; auto. split; auto. split; eapply Forall_impl; try eassumption; auto.
  - apply seq_NoDup.
  - exists (KdTreeData seg' bx nd). split; [|split; [exact Hh|exact PP]].
    unfold build. cbn [stop_assert]. rewrite guard_true by (apply Z.ltb_lt; lia). cbn [bind].
    rewrite guard_true by (apply Nat.ltb_lt; unfold sp_size; destruct (sp_pts sp); [congruence|cbn; lia]). cbn [bind].
    rewrite guard_true by (apply Z.leb_le; exact HI). cbn [bind]. rewrite guard_true by auto. cbn [bind].
    fold bx. rewrite E. reflexivity.
Qed.
End Spread.

(** * Bounds that are bounds of points *)
Section Touch.
Context {T : Type} {S : Scalar T}.
Variables (good : T -> Prop) (n : nat).
Hypothesis inside : forall x, good x -> s_ltb x s_max = true /\ s_ltb s_lowest x = true.

Lemma fold_fit_touch (pts : list (list T)) : pts <> [] -> Forall (fun p => ok_point good n p) pts ->
  forall d, d < n -> let b := fold_left box_fit pts (box_inverse_max n) in
  (exists p, In p pts /\ get (box_min b) d = get p d) /\ (exists p, In p pts /\ get (box_max b) d = get p d).
Proof.
  intros NE F d Hd. destruct pts as [|p0 pts]; [congruence|]. cbn zeta. cbn [fold_left].
  inversion F as [|? ? F0 Fr]; subst.
  set (b0 := box_fit (box_inverse_max n) p0).
  assert (W0 : box_wf n b0) by (apply box_fit_wf, inverse_max_wf).
  assert (E : get (box_min b0) d = get p0 d /\ get (box_max b0) d = get p0 d).
  { unfold b0. rewrite (get_fit_min n), (get_fit_max n) by (auto; apply inverse_max_wf).
    destruct (inside _ (F0 d Hd)) as [A B].
    assert (E1 : get (box_min (box_inverse_max (T := T) n)) d = s_max) by (unfold get, box_inverse_max; cbn [box_min]; rewrite nth_tab by auto; reflexivity).
    assert (E2 : get (box_max (box_inverse_max (T := T) n)) d = s_lowest) by (unfold get, box_inverse_max; cbn [box_max]; rewrite nth_tab by auto; reflexivity).
    rewrite E1, E2, A, B. auto. }
  assert (K : forall l b, box_wf n b -> incl l (p0 :: pts) ->
    (exists p, In p (p0 :: pts) /\ get (box_min b) d = get p d) -> (exists p, In p (p0 :: pts) /\ get (box_max b) d = get p d) ->
    (exists p, In p (p0 :: pts) /\ get (box_min (fold_left box_fit l b)) d = get p d)
    /\ (exists p, In p (p0 :: pts) /\ get (box_max (fold_left box_fit l b)) d = get p d)).
  { induction l as [|p l IH]; intros b W I H1 H2; cbn [fold_left]; [split; auto|].
    apply IH; [apply box_fit_wf; auto|intros x Hx; apply I; right; auto|..].
    - rewrite (get_fit_min n) by auto. destruct (s_ltb _ _); auto. exists p. split; auto. apply I. left; auto.
    - rewrite (get_fit_max n) by auto. destruct (s_ltb _ _); auto. exists p. split; auto. apply I. left; auto. }
  apply K; auto.
  - intros x Hx. right; auto.
  - exists p0. split; [left; auto|]. apply E.
  - exists p0. split; [left; auto|]. apply E.
Qed.
End Touch.
