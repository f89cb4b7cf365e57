(** Searching a cover tree. *)
From Coq Require Import List ZArith QArith Qabs Bool Arith Permutation Sorted Lia Lqa.
From Verif Require Import Base ModelBox ModelBuild ModelSearch Spec ModelCover SpecCover Lemmas
  BuildProofs SearchProofs Visitors QueryThms OrdQuery CoverThms CoverTerm.
Import ListNotations.
Local Open Scope nat_scope.

Section Far.
Context {T : Type} {S : Scalar T} (ok : T -> Prop) (OL : ord_laws S ok).
Variables (m : metric T) (sp : space T).
Hypothesis OKP : forall i j, ok (m_dist m (sp_at sp i) (sp_at sp j)).

(** Every descendant is within [max_distance] of every node. *)
Inductive bounded : cover_node T -> Prop :=
| bounded_node : forall l md i cs, ok md ->
    (forall j, In j (stored (CoverNode l md i cs)) -> s_leb (m_dist m (sp_at sp i) (sp_at sp j)) md = true) ->
    Forall bounded cs -> bounded (CoverNode l md i cs).

Lemma std_max_ok a b : ok a -> ok b -> ok (std_max a b).
Proof. unfold std_max. destruct (s_ltb a b); auto. Qed.
Lemma std_max_l a b : ok a -> ok b -> s_leb a (std_max a b) = true.
Proof.
  intros Ha Hb. unfold std_max. destruct (s_ltb a b) eqn:E; [apply (ltb_leb ok OL)|apply (leb_refl ok OL)]; auto.
Qed.
Lemma std_max_r a b : ok a -> ok b -> s_leb b (std_max a b) = true.
Proof.
  intros Ha Hb. unfold std_max. destruct (s_ltb a b) eqn:E; [apply (leb_refl ok OL)|apply (ltb_false ok OL)]; auto.
Qed.

Lemma max_distance_bound c : forall n : cover_node T,
  ok (max_distance m sp n (sp_at sp c))
  /\ forall j, In j (stored n) -> s_leb (m_dist m (sp_at sp c) (sp_at sp j)) (max_distance m sp n (sp_at sp c)) = true.
Proof.
  induction n as [l md i cs F] using cover_ind. cbn [max_distance stored].
  set (x := sp_at sp c). set (g := fun mx c => std_max mx (max_distance m sp c x)).
  assert (K : forall cs a, ok a -> Forall (fun n => ok (max_distance m sp n x)
      /\ forall j, In j (stored n) -> s_leb (m_dist m x (sp_at sp j)) (max_distance m sp n x) = true) cs ->
    ok (fold_left g cs a) /\ s_leb a (fold_left g cs a) = true
    /\ forall j, In j (flat_map stored cs) -> s_leb (m_dist m x (sp_at sp j)) (fold_left g cs a) = true).
  { clear F cs. induction cs as [|n cs IH]; intros a Ha F; cbn [fold_left flat_map].
    - split; auto. split; [apply (leb_refl ok OL); auto|intros ? []].
    - inversion F as [|? ? [O B] Fcs]; subst. 
      assert (Og : ok (g a n)) by (apply std_max_ok; auto).
      destruct (IH (g a n) Og Fcs) as (O2 & B2 & C2). split; auto. split.
      + eapply (leb_trans ok OL); [| | |apply std_max_l|exact B2]; auto.
      + intros j Hj. apply in_app_or in Hj as [Hj|Hj]; auto.
        eapply (leb_trans ok OL); [| | |apply (B j Hj)|]; auto. { apply OKP. }
        eapply (leb_trans ok OL); [| | |apply std_max_r|exact B2]; auto. }
  destruct (K cs (cn_dist m sp x (CoverNode l md i cs))) as (A & B & C); auto.
  { apply OKP. }
  split; auto. intros j [<-|Hj]; auto.
Qed.

Lemma update_bounded : forall n : cover_node T, bounded (update_max_distance m sp n).
Proof.
  induction n as [l md i cs F] using cover_ind. cbn [update_max_distance].
  destruct (max_distance_bound i (CoverNode l md i cs)) as [A B]. constructor; auto.
  - intros j Hj. apply B. cbn [stored] in *. destruct Hj as [Hj|Hj]; [left; auto|right].
    apply in_flat_map in Hj as (c & Hc & Hj). apply in_map_iff in Hc as (c0 & <- & Hc0).
    rewrite update_stored in Hj. apply in_flat_map. eauto.
  - apply Forall_map. exact F.
Qed.
End Far.

Section Search.
Context {T : Type} {S : Scalar T} {ok : T -> Prop} (OL : ord_laws S ok).
Variables (alg : std_algos) (SL : std_laws alg) (m : metric T) (sp : space T) (q : list T).
Let N := length (sp_pts sp).
Let D (i : nat) : T := m_dist m q (sp_at sp i).
Hypothesis OK : distances_ok ok m sp q.

Lemma OKD i : ok (D i).
Proof. apply (OK i i). Qed.
Lemma OKP i j : ok (m_dist m (sp_at sp i) (sp_at sp j)).
Proof. apply (OK i j). Qed.

Lemma pair_strict_weak (l : list (nat * T)) : (forall e, In e l -> ok (snd e)) ->
  strict_weak (fun a b => s_ltb (snd a) (snd b)) l.
Proof.
  intros H. constructor.
  - intros x Hx. rewrite (ol_lt _ _ OL), (leb_refl ok OL) by auto. reflexivity.
  - intros x y z Hx Hy Hz H1 H2. rewrite (ol_lt _ _ OL) in * by auto. apply negb_true_iff in H1, H2. apply negb_true_iff.
    destruct (s_leb (snd z) (snd x)) eqn:E; auto. exfalso.
    destruct (ol_total _ _ OL (snd y) (snd z)) as [K|K]; auto; [|congruence].
    rewrite (leb_trans ok OL (snd y) (snd z) (snd x)) in H1; auto. discriminate.
  - intros x y z Hx Hy Hz H1 H2. rewrite (ol_lt _ _ OL) in * by auto. apply negb_false_iff in H1, H2. apply negb_false_iff.
    eapply (leb_trans ok OL); [| | |exact H2|]; auto.
Qed.

(** [skip x j]: leaving out point [j] is allowed when the bound is [x]. *)
Record skippable (skip : T -> nat -> Prop) : Prop := {
  sk_far : forall x j, j < N -> ok x -> s_leb x (D j) = true -> skip x j;
  sk_mono : forall x y j, ok x -> ok y -> s_leb y x = true -> skip x j -> skip y j;
  sk_prune : forall c j md x, c < N -> j < N -> ok md -> ok x ->
    s_leb (m_dist m (sp_at sp c) (sp_at sp j)) md = true ->
    s_ltb (s_sub (D c) md) x = false -> skip x j
}.

Section Visitor.
Variables (skip : T -> nat -> Prop) (SK : skippable skip).
Context {V : Type} (vis : visitor T V) (Inv : V -> Prop).
Hypothesis HI : forall st, Inv st -> ok (v_max vis st).
Hypothesis HV : forall st i, i < N -> Inv st -> Inv (v_visit vis i (D i) st)
       /\ s_leb (v_max vis (v_visit vis i (D i) st)) (v_max vis st) = true.

Lemma visits_inv tr : forall st, Forall (fun i => i < N) tr -> Inv st -> Inv (visits m vis sp q tr st)
  /\ s_leb (v_max vis (visits m vis sp q tr st)) (v_max vis st) = true.
Proof.
  induction tr as [|i tr IH]; intros st F H; cbn.
  - split; auto. apply (leb_refl ok OL); auto.
  - inversion F; subst. fold (D i). destruct (HV st i) as [A B]; auto.
    destruct (IH (v_visit vis i (D i) st)) as [C E]; auto. split; auto.
    eapply (leb_trans ok OL); [| | |exact E|]; auto.
Qed.

Definition searched (from : list nat) (st : V) (r : res V) : Prop :=
  exists tr rest, Permutation (tr ++ rest) from /\ r = Ok (visits m vis sp q tr st)
    /\ forall j, In j rest -> skip (v_max vis (visits m vis sp q tr st)) j.

Lemma searched_ind (from l : list nat) st st' r : Inv st -> Forall (fun i => i < N) (l ++ from) ->
  searched l st (Ok st') -> searched from st' r -> searched (l ++ from) st r.
Proof.
  intros H F (tr & rest & P & E & B) (tr2 & rest2 & P2 & E2 & B2). injection E as ->.
  exists (tr ++ tr2), (rest ++ rest2).
  assert (FL : Forall (fun i => i < N) (tr ++ rest)).
  { apply Forall_app in F as [F _]. eapply Permutation_Forall'; [symmetry; exact P|exact F]. }
  assert (FF : Forall (fun i => i < N) (tr2 ++ rest2)).
  { apply Forall_app in F as [_ F]. eapply Permutation_Forall'; [symmetry; exact P2|exact F]. }
  apply Forall_app in FL as [FL _]. apply Forall_app in FF as [FF _].
  destruct (visits_inv tr st FL H) as [H1 H2]. destruct (visits_inv tr2 _ FF H1) as [H3 H4].
  split.
  { rewrite <- P, <- P2. rewrite <- !app_assoc. apply Permutation_app_head.
    rewrite !app_assoc. apply Permutation_app_tail, Permutation_app_comm. }
  rewrite visits_app. split; auto. intros j Hj. apply in_app_or in Hj as [Hj|Hj]; auto.
  eapply (sk_mono _ SK); [| |exact H4|]; auto.
Qed.

Lemma searched_inv from st st' : Inv st -> Forall (fun i => i < N) from -> searched from st (Ok st') -> Inv st'.
Proof.
  intros H F (tr & rest & P & E & _). injection E as ->.
  assert (FL : Forall (fun i => i < N) (tr ++ rest)) by (eapply Permutation_Forall'; [symmetry; exact P|exact F]).
  apply Forall_app in FL as [FL _]. apply visits_inv; auto.
Qed.

Lemma in_sp i : i < N -> in_space sp i = true.
Proof. intros H. apply Nat.ltb_lt. exact H. Qed.

Lemma cover_search_spec : forall (n : cover_node T) st, bounded ok m sp n ->
  Forall (fun i => i < N) (stored n) -> Inv st ->
  searched (stored n) st (cover_search_nearest alg m vis sp q n st).
Proof.
  induction n as [l md i cs F] using cover_ind. intros st HB HN H.
  cbn [cover_search_nearest]. set (nd := CoverNode l md i cs) in *.
  assert (Hi : i < N) by (unfold nd in HN; cbn in HN; inversion HN; auto).
  assert (HC : Forall (fun i => i < N) (flat_map stored cs)) by (unfold nd in HN; cbn in HN; inversion HN; auto).
  rewrite guard_true by (apply in_sp; auto). cbn [bind]. fold (D i).
  assert (HCI : forall c, In c cs -> Forall (fun i => i < N) (stored c)).
  { intros c Hc. rewrite Forall_forall in *. intros j Hj. apply HC. apply in_flat_map. eauto. }
  rewrite guard_true.
  2:{ apply forallb_forall. intros c Hc. apply in_sp. specialize (HCI c Hc). rewrite stored_eq in HCI. inversion HCI; auto. }
  cbn [bind].
  assert (BC : Forall (bounded ok m sp) cs) by (unfold nd in HB; inversion HB; auto).
  (* the node itself *)
  assert (K0 : searched [i] st (Ok (if s_ltb (D i) (v_max vis st) then v_visit vis i (D i) st else st))).
  { destruct (s_ltb (D i) (v_max vis st)) eqn:E.
    - exists [i], []. split; [reflexivity|]. split; [reflexivity|intros ? []].
    - exists [], [i]. split; [reflexivity|]. split; [reflexivity|]. intros j [<-|[]]. cbn.
      apply (sk_far _ SK); auto. apply (ltb_false ok OL); auto. apply OKD. }
  set (st1 := if s_ltb (D i) (v_max vis st) then _ else _) in *.
  assert (H1 : Inv st1) by (eapply searched_inv; [exact H| |exact K0]; auto).
  unfold nd at 1. cbn [stored]. change (i :: flat_map stored cs) with ([i] ++ flat_map stored cs).
  apply (searched_ind _ _ _ st1); auto.
  clear K0. clearbody st1. clear st H. rename st1 into st. rename H1 into H.
  set (ents := map (fun k => (k, m_dist m q (sp_at sp (cn_index (nth k cs nd))))) (seq 0 (length cs))).
  assert (PS : Permutation (std_sort alg (nat * T) (fun a b => s_ltb (snd a) (snd b)) ents) ents).
  { apply (sl_sort_perm _ SL). apply pair_strict_weak. intros e He. apply in_map_iff in He as (k & <- & _). apply OKD. }
  assert (PF : Permutation (map fst (std_sort alg (nat * T) (fun a b => s_ltb (snd a) (snd b)) ents)) (seq 0 (length cs))).
  { rewrite PS. unfold ents. rewrite map_map. cbn [fst]. rewrite map_id. reflexivity. }
  set (sorted := std_sort alg (nat * T) (fun a b => s_ltb (snd a) (snd b)) ents) in *. clearbody sorted.
  assert (PC : Permutation (flat_map (fun e => stored (nth (fst e) cs nd)) sorted) (flat_map stored cs)).
  { transitivity (flat_map (fun k => stored (nth k cs nd)) (map fst sorted)).
    - rewrite !flat_map_concat_map, map_map. reflexivity.
    - rewrite (flat_map_perm _ _ _ PF). rewrite flat_map_concat_map, <- (map_map (fun k => nth k cs nd) stored), map_nth_seq.
      rewrite <- flat_map_concat_map. reflexivity. }
  assert (FK : Forall (fun e => fst e < length cs) sorted).
  { apply Forall_forall. intros e He. apply In_seq0. eapply Permutation_in; [exact PF|]. apply in_map; auto. }
  assert (KX : forall (es : list (nat * T)) st, Forall (fun e => fst e < length cs) es -> Inv st ->
    searched (flat_map (fun e => stored (nth (fst e) cs nd)) es) st
     (fold_res (fun st e =>
           if s_ltb (s_sub (m_dist m q (sp_at sp (cn_index (nth (fst e) cs nd)))) (cn_max_distance (nth (fst e) cs nd))) (v_max vis st)
           then nth (fst e) (map (fun c => cover_search_nearest alg m vis sp q c) cs) (fun _ => Ub UbIndex) st
           else Ok st) es st)).
  { clear - OL OK SK HI HV F HCI BC. induction es as [|e es IH]; intros st FE H; cbn [fold_res flat_map].
    - exists [], []. split; [reflexivity|]. split; [reflexivity|intros ? []].
    - inversion FE as [|? ? Fe FEs]; subst. set (c := nth (fst e) cs nd).
      assert (Hc : In c cs) by (apply nth_In; auto).
      rewrite (nth_indep _ _ (cover_search_nearest alg m vis sp q nd)) by (rewrite map_length; auto).
      rewrite map_nth. fold c.
      rewrite Forall_forall in F, BC.
      assert (ALL : Forall (fun i => i < N) (stored c ++ flat_map (fun e => stored (nth (fst e) cs nd)) es)).
      { apply Forall_app. split; [apply HCI; auto|]. apply Forall_forall. intros j Hj.
        apply in_flat_map in Hj as (e' & He' & Hj). rewrite Forall_forall in FEs. specialize (FEs e' He').
        specialize (HCI (nth (fst e') cs nd) (nth_In _ _ FEs)). rewrite Forall_forall in HCI. auto. }
      destruct (s_ltb _ _) eqn:E.
      + pose proof (F c Hc st (BC c Hc) (HCI c Hc) H) as K.
        pose proof K as (tr & rest & _ & ER & _). rewrite ER in K |- *. cbn [bind].
        apply (searched_ind _ _ _ (visits m vis sp q tr st)); auto. apply IH; auto.
        eapply searched_inv; [exact H| |exact K]. apply HCI; auto.
      + cbn [bind]. apply (searched_ind _ _ _ st); auto.
        exists [], (stored c). split; [reflexivity|]. split; [reflexivity|]. cbn [visits fold_left].
        intros j Hj. specialize (BC c Hc). destruct BC as [l' md' i' cs' OM BM _]. cbn [cn_index cn_max_distance] in *.
        specialize (HCI _ Hc). cbn [stored] in HCI. pose proof HCI as HCJ. rewrite Forall_forall in HCJ. specialize (HCJ j Hj).
        inversion HCI; subst.
        apply (sk_prune _ SK i' j md'); auto. }
  pose proof (KX sorted st FK H) as K. destruct K as (tr & rest & P & E & B).
  exists tr, rest. split; [rewrite P; exact PC|]. split; auto.
Qed.
End Visitor.

(** The contract of a whole search, with some slack. *)
Lemma cover_slack_contract skip (SK : skippable skip) (t : cover_tree T) : ct_space t = sp -> ct_metric t = m ->
  Permutation (stored (ct_root t)) (seq 0 N) -> bounded ok m sp (ct_root t) ->
  length q = sp_sdim sp ->
  forall V (vis : visitor T V) (Inv : V -> Prop) v0,
    Inv v0 -> (forall st, Inv st -> ok (v_max vis st)) ->
    (forall st i, i < N -> Inv st -> Inv (v_visit vis i (D i) st)
       /\ s_leb (v_max vis (v_visit vis i (D i) st)) (v_max vis st) = true) ->
    exists tr rest, Permutation (tr ++ rest) (seq 0 N)
      /\ cover_search alg t vis q v0 = Ok (visits m vis sp q tr v0)
      /\ forall j, In j rest -> skip (v_max vis (visits m vis sp q tr v0)) j.
Proof.
  intros ES EM P B LQ V vis Inv v0 H0 HI HV. unfold cover_search. rewrite ES, EM.
  rewrite guard_true by (apply Nat.eqb_eq; auto). cbn [bind].
  destruct (cover_search_spec skip SK vis Inv HI HV (ct_root t) v0) as (tr & rest & P2 & E & F); auto.
  { eapply Permutation_Forall'; [symmetry; exact P|]. apply Forall_forall. intros i Hi. apply In_seq0; auto. }
  exists tr, rest. split; [rewrite P2; exact P|]. auto.
Qed.

Hypothesis TRI : triangle_ord ok m sp q.
Lemma exact_skip : skippable (fun x j => s_leb x (D j) = true).
Proof.
  constructor.
  - auto.
  - intros x y j Ox Oy H1 H2. eapply (leb_trans ok OL); [| | |exact H1|exact H2]; auto. apply OKD.
  - intros c j md x Hc Hj Om Ox HB E.
    destruct (TRI (sp_at sp c) (sp_at sp j) md) as [T1 T2]; auto.
    { apply nth_In; auto. } { apply nth_In; auto. }
    eapply (leb_trans ok OL); [| | |apply (ltb_false ok OL); [| |exact E]|exact T2]; auto. apply OKD.
Qed.

(** The contract of a whole search. *)
Lemma cover_contract (t : cover_tree T) : ct_space t = sp -> ct_metric t = m ->
  Permutation (stored (ct_root t)) (seq 0 N) -> bounded ok m sp (ct_root t) ->
  length q = sp_sdim sp ->
  contract (ok := ok) m sp q (fun V vis v0 => cover_search alg t vis q v0).
Proof. intros ES EM P B LQ. exact (cover_slack_contract _ exact_skip t ES EM P B LQ). Qed.
End Search.

(** * Trees that were constructed *)
Lemma cover_make_inv {T} {S : Scalar T} cm alg shuffle m fuel sp base (t : cover_tree T) :
  std_laws alg -> shuffles shuffle ->
  cover_tree_make cm alg shuffle m fuel sp base = Ok t ->
  0 < length (sp_pts sp) /\ ct_space t = sp /\ ct_metric t = m
  /\ Permutation (stored (ct_root t)) (seq 0 (length (sp_pts sp)))
  /\ exists r0, ct_root t = update_max_distance m sp r0.
Proof.
  intros SL SH H. unfold cover_tree_make in H.
  destruct (build_cover_tree _ _ _ _ _ _ _) as [root| |] eqn:E; try discriminate.
  cbn [bind] in H. injection H as <-. cbn [ct_space ct_metric ct_root].
  assert (H0 : 0 < length (sp_pts sp)).
  { unfold build_cover_tree in E. destruct (guard _ _) eqn:G; try discriminate. apply guard_ok in G.
    apply Nat.ltb_lt in G. exact G. }
  split; auto. split; auto. split; auto.
  apply (refines_ok _ _ _ (build_cover_mono cm alg m sp base fuel (fuel + length (sp_pts sp)) _ (Nat.le_add_r _ _))) in E.
  pose proof (build_cover_safe cm alg m sp base (sl_partition_perm _ SL) (fuel + length (sp_pts sp))
    (shuffle (seq 0 (sp_size sp))) H0 ltac:(lia) (SH _)) as K.
  rewrite E in K. exact K.
Qed.

Lemma cover_make_ok {T} {S : Scalar T} cm alg shuffle m fuel sp base w :
  std_laws alg -> shuffles shuffle -> 0 < length (sp_pts sp) ->
  cover_tree_make cm alg shuffle m fuel sp base <> Ub (A := cover_tree T) w.
Proof.
  intros SL SH H0 H. unfold cover_tree_make in H.
  pose proof (build_cover_safe cm alg m sp base (sl_partition_perm _ SL) (fuel + length (sp_pts sp))
    (shuffle (seq 0 (sp_size sp))) H0 ltac:(lia) (SH _)) as K.
  destruct (build_cover_tree _ _ _ _ _ fuel _) as [root|w'|] eqn:E; try discriminate.
  apply (refines_ub _ _ _ (build_cover_mono cm alg m sp base fuel (fuel + length (sp_pts sp)) _ (Nat.le_add_r _ _))) in E.
  rewrite E in K. contradiction.
Qed.

Lemma cover_make_ends {T} {S : Scalar T} cm alg shuffle m sp base :
  counts_up S -> std_laws alg -> shuffles shuffle -> 0 < length (sp_pts sp) ->
  exists fuel0 (t : cover_tree T), forall fuel, fuel0 <= fuel ->
    cover_tree_make cm alg shuffle m fuel sp base = Ok t.
Proof.
  intros UP SL SH H0.
  destruct (build_cover_ends cm alg m sp base UP (sl_partition_perm _ SL) (shuffle (seq 0 (sp_size sp))) H0 (SH _))
    as (f0 & root & H).
  exists f0, (CoverTree sp m root). intros f Hf. unfold cover_tree_make. rewrite H; auto.
Qed.
