(** Priority search on one tree, for arbitrary visitors. *)
From Coq Require Import List ZArith QArith Qabs Bool Arith Permutation Lia Lqa.
From Verif Require Import Base ModelBox ModelBuild ModelSearch Spec ModelCover ModelForest SpecForest Lemmas Instances
  BuildProofs BuildOrder BuildShape BuildThms SearchProofs.
Import ListNotations.
Local Open Scope nat_scope.

Fixpoint leaves {B} (n : node B) : nat :=
  match n with Leaf _ _ => 1 | Branch _ l r => leaves l + leaves r end.

Lemma leaves_pos {B} (n : node B) : 1 <= leaves n.
Proof. induction n; simpl; lia. Qed.

Fixpoint leaves_le {B} (w : nat) (n : node B) : Prop :=
  match n with Leaf b e => e - b <= w | Branch _ l r => leaves_le w l /\ leaves_le w r end.

Lemma leaf_levels_le {B} (w : nat) (n : node B) h :
  Forall (fun '(_, len) => len <= w) (leaf_levels h n) -> leaves_le w n.
Proof.
  revert h. induction n as [b e|br l IHl r IHr]; intros h; cbn.
  - intros H. inversion H; auto.
  - intros H. apply Forall_app in H as [H1 H2]. eauto.
Qed.

Section Gen.
Context {T : Type} {S : Scalar T} {V : Type}.
Variables (pq : pqueue T) (QL : queue_laws S pq).
Variables (m : metric T) (vis : visitor T V) (sp : space T) (indices : list nat) (q : list T).
Local Notation branch := (branch_double T).
Local Notation visits := (visits m vis sp q).

Definition goes_left (br : branch) (v : T) : bool :=
  s_ltb s_zero (s_sub (s_sub (s_add (bd_left_max br) (bd_right_min br)) v) v).
Definition old_off (br : branch) (v : T) : T :=
  if goes_left br v
  then if s_ltb (bd_left_min br) v then s_zero else m_app m (s_sub (bd_left_min br) v)
  else if s_ltb v (bd_right_max br) then s_zero else m_app m (s_sub (bd_right_max br) v).
Definition new_off (br : branch) (v : T) : T :=
  if goes_left br v then m_app m (s_sub (bd_right_min br) v) else m_app m (s_sub (bd_left_max br) v).

Variables (R : branch -> list nat -> list nat -> Prop).
Variables (Inv : V -> Prop) (Far : V -> nat -> Prop) (LB : T -> list nat -> Prop).
Variable all : list nat.
Variable key_le : T -> T -> Prop.
Hypotheses
  (H_inv : forall st i, Inv st -> In i all -> Inv (v_visit vis i (m_dist m q (sp_at sp i)) st))
  (H_far : forall st i j, Inv st -> In i all -> Far st j -> Far (v_visit vis i (m_dist m q (sp_at sp i)) st) j)
  (H_incl : forall d l l', LB d l -> incl l' l -> LB d l')
  (H_prune : forall d l st, LB d l -> Inv st -> s_ltb d (v_max vis st) = false -> forall j, In j l -> Far st j)
  (H_break : forall d d' l st, LB d' l -> Inv st -> key_le d d' -> s_ltb (v_max vis st) d = true ->
     forall j, In j l -> Far st j)
  (H_dim : forall br l r, R br l r -> bd_split_dim br < length q)
  (H_ne : forall br l r, R br l r -> l <> [] /\ r <> [])
  (H_order : forall l x r, pq_pop pq l = Some (x, r) -> forall y, In y (x :: r) -> key_le (fst x) (fst y))
  (H_step : forall br l r d, R br l r -> incl (l ++ r) all -> LB d (l ++ r) ->
     let v := get q (bd_split_dim br) in
     LB (s_add (s_sub d (old_off br v)) (new_off br v)) (if goes_left br v then r else l)).

(** A queue entry with the points below it. *)
Definition entry : Type := (queue_pair T * list nat)%type.
Definition entry_ok (e : entry) : Prop :=
  let '((d, nd), l) := e in
  LB d l /\ incl l all /\ Forall (fun i => in_space sp i = true) l
  /\ exists pre post, node_spans R nd (length pre) l /\ indices = pre ++ l ++ post.
Definition entry_leaves (e : entry) : nat := leaves (snd (fst e)).
Definition points (es : list entry) : list nat := concat (map snd es).
Definition total (es : list entry) : nat := list_sum (map entry_leaves es).

Lemma total_perm a b : Permutation a b -> total a = total b.
Proof. unfold total. induction 1; simpl in *; lia. Qed.
Lemma points_perm a b : Permutation a b -> Permutation (points a) (points b).
Proof.
  unfold points. induction 1; simpl; auto.
  - apply Permutation_app_head; auto.
  - rewrite !app_assoc. apply Permutation_app_tail. apply Permutation_app_comm.
  - etransitivity; eauto.
Qed.
Lemma points_app a b : points (a ++ b) = points a ++ points b.
Proof. unfold points. rewrite map_app, concat_app. reflexivity. Qed.
Lemma total_app a b : total (a ++ b) = total a + total b.
Proof. unfold total. rewrite map_app, list_sum_app. reflexivity. Qed.

Lemma descend_spec nd b l : node_spans R nd b l ->
  forall pre post d st qu, indices = pre ++ l ++ post -> b = length pre ->
  Forall (fun i => in_space sp i = true) l -> incl l all -> LB d l -> Inv st ->
  exists tr es rest, Permutation (tr ++ points es ++ rest) l
    /\ priority_descend m vis sp indices q nd d (qu, st) = Ok (map fst es ++ qu, visits tr st)
    /\ Forall entry_ok es
    /\ total es + 1 <= leaves nd
    /\ (l <> [] -> tr <> [])
    /\ (forall j, In j rest -> Far (visits tr st) j)
    /\ (forall w, leaves_le w nd -> length tr <= w /\ Forall (fun e => leaves_le w (snd (fst e))) es).
Proof.
  induction 1 as [b l|br nl nr b l r H1 IH1 H2 IH2 HR]; intros pre post d st qu Hi Hb F HA HL HI.
  - exists l, [], []. cbn [points map concat app]. rewrite app_nil_r. split; auto.
    split; [|split; [constructor|split; [cbn; lia|split; [auto|split; [intros ? []|intros w; cbn; split; [lia|constructor]]]]]].
    cbn [priority_descend]. subst b. rewrite Hi, slice_app. cbn [bind fst snd].
    rewrite visit_range_visits by auto. reflexivity.
  - apply Forall_app in F as [Fl Fr].
    assert (HAl : incl l all) by (intros x Hx; apply HA, in_or_app; auto).
    assert (HAr : incl r all) by (intros x Hx; apply HA, in_or_app; auto).
    pose proof (H_step br l r d HR HA HL) as HL'. cbv zeta in HL'.
    cbn [priority_descend]. rewrite (at_lt q _ s_zero) by (eapply H_dim; eauto). cbn [bind].
    fold (get q (bd_split_dim br)). set (v := get q (bd_split_dim br)) in *.
    change (s_ltb s_zero (s_sub (s_sub (s_add (bd_left_max br) (bd_right_min br)) v) v)) with (goes_left br v).
    fold (old_off br v). fold (new_off br v).
    assert (S1 : exists pre1 post1, indices = pre1 ++ l ++ post1 /\ b = length pre1).
    { exists pre, (r ++ post). rewrite Hi, <- app_assoc. auto. }
    assert (S2 : exists pre2 post2, indices = pre2 ++ r ++ post2 /\ b + length l = length pre2).
    { exists (pre ++ l), post. rewrite Hi, <- !app_assoc, app_length. split; auto. }
    destruct S1 as (pre1 & post1 & Hi1 & Hb1). destruct S2 as (pre2 & post2 & Hi2 & Hb2).
    assert (IHn : exists tr es rest, Permutation (tr ++ points es ++ rest) (if goes_left br v then l else r)
        /\ priority_descend m vis sp indices q (if goes_left br v then nl else nr) d (qu, st)
           = Ok (map fst es ++ qu, visits tr st)
        /\ Forall entry_ok es
        /\ total es + 1 <= leaves (if goes_left br v then nl else nr)
        /\ ((if goes_left br v then l else r) <> [] -> tr <> [])
        /\ (forall j, In j rest -> Far (visits tr st) j)
        /\ forall w, leaves_le w (if goes_left br v then nl else nr) ->
             length tr <= w /\ Forall (fun e => leaves_le w (snd (fst e))) es).
    { destruct (goes_left br v).
      - apply (IH1 pre1 post1); auto. apply (H_incl d (l ++ r)); auto. intros x Hx; apply in_or_app; auto.
      - apply (IH2 pre2 post2); auto. apply (H_incl d (l ++ r)); auto. intros x Hx; apply in_or_app; auto. }
    destruct IHn as (tr & es & rest & P & E & FE & LV & NT & HF & HW). rewrite E. cbn [bind fst snd].
    assert (Itr : incl tr all).
    { intros x Hx. assert (Hx' : In x (if goes_left br v then l else r)).
      { eapply Permutation_in; [exact P|]. apply in_or_app; auto. }
      destruct (goes_left br v); auto. }
    assert (HIv : Inv (visits tr st)) by (apply (visits_inv m vis sp q Inv all); auto).
    set (d' := s_add (s_sub d (old_off br v)) (new_off br v)) in *.
    set (nd2 := if goes_left br v then nr else nl). set (l2 := if goes_left br v then r else l) in *.
    pose proof (leaves_pos nl) as Ll. pose proof (leaves_pos nr) as Lr.
    destruct (s_ltb d' (v_max vis (visits tr st))) eqn:EL.
    + exists tr, (((d', nd2), l2) :: es), rest. split; [|split; [|split; [|split; [|split; [|split]]]]]; auto.
      * cbn [points map concat snd]. fold (points es).
        transitivity (l2 ++ (tr ++ points es ++ rest)).
        { rewrite <- app_assoc. rewrite app_assoc, (app_assoc l2). apply Permutation_app_tail.
          apply Permutation_app_comm. }
        rewrite P. unfold l2. destruct (goes_left br v); auto. apply Permutation_app_comm.
      * constructor; auto. cbn. split; auto. unfold l2, nd2. destruct (goes_left br v).
        -- split; auto. split; auto. exists pre2, post2. rewrite <- Hb2. auto.
        -- split; auto. split; auto. exists pre1, post1. rewrite <- Hb1. auto.
      * unfold total in *. cbn [map list_sum fold_right]. change (fold_right Nat.add 0) with list_sum.
        unfold entry_leaves at 1, nd2. cbn [fst snd leaves]. destruct (goes_left br v); lia.
      * intros _. apply NT. destruct (H_ne _ _ _ HR). destruct (goes_left br v); auto.
      * intros w [W1 W2]. destruct (HW w) as [A B]; [destruct (goes_left br v); auto|]. split; auto.
        constructor; auto. cbn. unfold nd2. destruct (goes_left br v); auto.
    + exists tr, es, (rest ++ l2). split; [|split; [|split; [|split; [|split; [|split]]]]]; auto.
      * rewrite (app_assoc (points es)), (app_assoc tr), P. unfold l2.
        destruct (goes_left br v); auto. apply Permutation_app_comm.
      * cbn [leaves]. destruct (goes_left br v); lia.
      * intros _. apply NT. destruct (H_ne _ _ _ HR). destruct (goes_left br v); auto.
      * intros j Hj. apply in_app_iff in Hj as [Hj|Hj]; auto. eapply H_prune; eauto.
      * intros w [W1 W2]. apply HW. destruct (goes_left br v); auto.
Qed.

Lemma in_points j es : In j (points es) <-> exists e, In e es /\ In j (snd e).
Proof.
  unfold points. rewrite in_concat. setoid_rewrite in_map_iff. split.
  - intros (x & (e & <- & He) & Hj). eauto.
  - intros (e & He & Hj). exists (snd e). split; eauto.
Qed.

Lemma loop_spec budget : forall es st, Forall entry_ok es -> Inv st ->
  exists tr rest, Permutation (tr ++ rest) (points es)
    /\ priority_loop pq m vis sp indices q budget (map fst es, st) = Ok (visits tr st)
    /\ (budget <> 0 -> forall d nd l, es = [((d, nd), l)] -> l <> [] -> s_ltb (v_max vis st) d = false -> tr <> [])
    /\ (total es <= budget -> forall j, In j rest -> Far (visits tr st) j)
    /\ (forall w, Forall (fun e => leaves_le w (snd (fst e))) es -> length tr <= budget * w).
Proof.
  induction budget as [|budget IH]; intros es st FE HI; cbn [priority_loop fst snd].
  - exists [], (points es). split; [reflexivity|]. split.
    { destruct (pq_pop pq _) as [[[d nd] qu]|]; reflexivity. }
    split; [congruence|]. split; [|intros w _; cbn; lia]. intros Ht j Hj. apply in_points in Hj as (e & He & _). exfalso.
    pose proof (leaves_pos (snd (fst e))). unfold total in Ht.
    assert (In (entry_leaves e) (map entry_leaves es)) by (apply in_map; auto).
    assert (entry_leaves e <= list_sum (map entry_leaves es)).
    { clear - H0. induction (map entry_leaves es) as [|a l IH]; [destruct H0|].
      cbn [list_sum fold_right] in *. change (fold_right Nat.add 0) with list_sum in *.
      destruct H0 as [->|H0]; [lia|]. specialize (IH H0). lia. }
    unfold entry_leaves in *. lia.
  - destruct (pq_pop pq (map fst es)) as [[[d nd] qu]|] eqn:EP.
    2:{ exists [], []. destruct es as [|e es]; [|exfalso; revert EP; apply (ql_some _ _ QL); discriminate].
        split; [reflexivity|]. split; [reflexivity|]. split; [intros _ ? ? ? E0; discriminate E0|]. split; [intros _ j []|intros; cbn; lia]. }
    pose proof (ql_perm _ _ QL _ _ _ EP) as PQ.
    apply Permutation_map_inv in PQ as (es' & Em & PE).
    destruct es' as [|e es']; [discriminate|]. cbn [map] in Em. injection Em as Ee Eq.
    assert (FE' : Forall entry_ok (e :: es')) by (eapply Permutation_Forall'; eauto).
    inversion FE' as [|? ? He FEs]; subst.
    destruct e as [[d0 nd0] l]. cbn [fst] in Ee. injection Ee as -> ->.
    destruct (s_ltb (v_max vis st) d0) eqn:EB.
    + exists [], (points es). split; [reflexivity|]. split; [reflexivity|]. split.
      { intros _ d nd l0 -> _ EB'. apply Permutation_length_1_inv in PE. injection PE as <- _ _ _. congruence. }
      split; [|intros; cbn; lia]. intros _ j Hj. cbn. apply (Permutation_in _ (points_perm _ _ PE)) in Hj.
      apply in_points in Hj as (e & Hin & Hj). destruct Hin as [<-|Hin].
      * destruct He as (HL & _). eapply H_break; eauto.
        apply (H_order _ _ _ EP (d0, nd0)). simpl; auto.
      * rewrite Forall_forall in FEs. specialize (FEs e Hin). destruct e as [[d1 nd1] l1]. destruct FEs as (HL & _).
        eapply H_break; [exact HL|auto|..|exact Hj]; [|exact EB].
        apply (H_order _ _ _ EP (d1, nd1)). right. change (d1, nd1) with (fst ((d1, nd1), l1)).
        apply in_map; auto.
    + destruct He as (HL & HA & Fl & pre & post & NS & Hi).
      destruct (descend_spec nd0 (length pre) l NS pre post d0 st (map fst es') Hi eq_refl Fl HA HL HI)
        as (tr & ns & rest & P & E & FN & LV & NT & HF & HW).
      rewrite E. cbn [bind]. rewrite <- map_app.
      assert (Itr : incl tr all).
      { intros x Hx. apply HA. eapply Permutation_in; [exact P|]. apply in_or_app; auto. }
      assert (HIv : Inv (visits tr st)) by (apply (visits_inv m vis sp q Inv all); auto).
      destruct (IH (ns ++ es') (visits tr st)) as (tr' & rest' & P' & E' & _ & HF' & HW'); auto.
      { apply Forall_app; auto. }
      exists (tr ++ tr'), (rest' ++ rest). split; [|split; [|split; [|split]]]; auto.
      * rewrite points_app in P'. rewrite (points_perm _ _ PE).
        cbn [points map concat snd]. fold (points es'). rewrite <- P.
        rewrite <- app_assoc. rewrite <- !app_assoc. apply Permutation_app_head.
        rewrite app_assoc, P'. rewrite <- app_assoc. apply Permutation_app_head. apply Permutation_app_comm.
      * etransitivity; [exact E'|]. rewrite visits_app. reflexivity.
      * intros _ d nd l0 -> Hl _. apply Permutation_length_1_inv in PE. injection PE as _ _ <- _.
        specialize (NT Hl). destruct tr; [congruence|discriminate].
      * intros Ht j Hj. rewrite visits_app. apply in_app_iff in Hj as [Hj|Hj].
        -- apply HF'; auto. rewrite total_app. rewrite (total_perm _ _ PE) in Ht. unfold total in *.
           cbn [map list_sum fold_right] in Ht. change (fold_right Nat.add 0) with list_sum in Ht.
           unfold entry_leaves at 1 in Ht. cbn [fst snd] in Ht. lia.
        -- apply (visits_far m vis sp q Inv Far all); auto.
           intros x Hx. assert (Hx' : In x (points (ns ++ es'))).
           { eapply Permutation_in; [exact P'|]. apply in_or_app; auto. }
           apply in_points in Hx' as (e & He & Hx'). apply in_app_iff in He as [He|He].
           ++ rewrite Forall_forall in FN. specialize (FN e He). destruct e as [[? ?] ?]. apply FN; auto.
           ++ rewrite Forall_forall in FEs. specialize (FEs e He). destruct e as [[? ?] ?]. apply FEs; auto.
      * intros w HWes. eapply Permutation_Forall in HWes; [|exact PE]. inversion HWes as [|? ? W0 WS]; subst.
        destruct (HW w W0) as [A B]. specialize (HW' w ltac:(apply Forall_app; auto)).
        rewrite app_length. cbn. lia.
Qed.

End Gen.
