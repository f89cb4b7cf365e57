(** Construction of the cover tree. *)
From Coq Require Import List ZArith QArith Bool Arith Permutation Lia.
From Verif Require Import Base ModelBox ModelBuild ModelSearch Spec ModelCover SpecCover Lemmas
  BuildProofs.
Import ListNotations.
Local Open Scope nat_scope.

Section CoverInd.
Context {T : Type} (P : cover_node T -> Prop).
Hypothesis H : forall l md i cs, Forall P cs -> P (CoverNode l md i cs).
Fixpoint cover_ind (n : cover_node T) : P n :=
  match n with
  | CoverNode l md i cs =>
      H l md i cs
        ((fix go (cs : list (cover_node T)) : Forall P cs :=
            match cs with
            | [] => Forall_nil P
            | c :: cs' => Forall_cons c (cover_ind c) (go cs')
            end) cs)
  end.
End CoverInd.

(** Number of nodes. *)
Definition cn_size {T} (n : cover_node T) : nat := length (stored n).
Definition idxs {T} (l : list (cover_node T)) : list nat := map cn_index l.
Definition leaves {T} (l : list (cover_node T)) : Prop := Forall (fun n => cn_is_leaf n = true) l.

Lemma stored_eq {T} (n : cover_node T) : stored n = cn_index n :: flat_map stored (cn_children n).
Proof. destruct n; auto. Qed.
Lemma size_pos {T} (n : cover_node T) : 1 <= cn_size n.
Proof. destruct n; unfold cn_size; simpl. lia. Qed.
Lemma leaf_stored {T} (n : cover_node T) : cn_is_leaf n = true -> stored n = [cn_index n].
Proof. destruct n as [l md i [|c cs]]; simpl; auto. discriminate. Qed.
Lemma leaves_stored {T} (l : list (cover_node T)) : leaves l -> flat_map stored l = idxs l.
Proof. induction 1; simpl; auto. rewrite leaf_stored, IHForall by auto. reflexivity. Qed.
Lemma stored_clear {T} (n : cover_node T) : stored (cn_clear n) = [cn_index n].
Proof. destruct n; auto. Qed.
Lemma index_clear {T} (n : cover_node T) : cn_index (cn_clear n) = cn_index n.
Proof. destruct n; auto. Qed.
Lemma leaf_clear {T} (n : cover_node T) : cn_is_leaf (cn_clear n) = true.
Proof. destruct n; auto. Qed.
Lemma stored_set_level {T} (n : cover_node T) l : stored (cn_set_level n l) = stored n.
Proof. destruct n; auto. Qed.
Lemma index_set_level {T} (n : cover_node T) l : cn_index (cn_set_level n l) = cn_index n.
Proof. destruct n; auto. Qed.
Lemma leaf_set_level {T} (n : cover_node T) l : cn_is_leaf (cn_set_level n l) = cn_is_leaf n.
Proof. destruct n; auto. Qed.
Lemma stored_push {T} (n c : cover_node T) : stored (cn_push n c) = stored n ++ stored c.
Proof. destruct n; simpl. rewrite flat_map_app. simpl. rewrite app_nil_r. reflexivity. Qed.
Lemma index_push {T} (n c : cover_node T) : cn_index (cn_push n c) = cn_index n.
Proof. destruct n; auto. Qed.
Lemma level_push {T} (n c : cover_node T) : cn_level (cn_push n c) = cn_level n.
Proof. destruct n; auto. Qed.
Lemma leaf_push {T} (n c : cover_node T) : cn_is_leaf (cn_push n c) = false.
Proof. destruct n as [l md i [|? ?]]; auto. Qed.
Lemma leaf_children {T} (n : cover_node T) : cn_is_leaf n = true -> cn_children n = [].
Proof. destruct n as [l md i [|? ?]]; auto. discriminate. Qed.

Lemma flat_map_set_nth {A} (g : A -> list nat) k : forall (cs : list A) c c' e, nth_error cs k = Some c ->
  Permutation (g c') (e ++ g c) ->
  Permutation (flat_map g (set_nth cs k c')) (e ++ flat_map g cs).
Proof.
  induction k as [|k IH]; intros [|a cs] c c' e H P; simpl in *; try discriminate.
  - injection H as ->. rewrite P, app_assoc. reflexivity.
  - rewrite (IH cs c c' e H P), !app_assoc. apply Permutation_app_tail, Permutation_app_comm.
Qed.

Lemma flat_map_nth_le {A} (g : A -> list nat) k : forall (cs : list A) c, nth_error cs k = Some c ->
  length (g c) <= length (flat_map g cs).
Proof.
  induction k as [|k IH]; intros [|a cs] c H; simpl in *; try discriminate; rewrite app_length.
  - injection H as ->. lia.
  - specialize (IH cs c H). lia.
Qed.

Lemma flat_map_perm {A} (g : A -> list nat) (l l' : list A) : Permutation l l' ->
  Permutation (flat_map g l) (flat_map g l').
Proof.
  induction 1; simpl; auto.
  - apply Permutation_app_head; auto.
  - rewrite !app_assoc. apply Permutation_app_tail, Permutation_app_comm.
  - etransitivity; eauto.
Qed.

Lemma map_nth_seq {A} (d : A) (l : list A) : map (fun k => nth k l d) (seq 0 (length l)) = l.
Proof.
  induction l as [|a l IH]; auto. cbn [length seq map nth]. f_equal.
  rewrite <- seq_shift, map_map. cbn [nth]. exact IH.
Qed.

Section Build.
Context {T : Type} {S : Scalar T}.
Variables (cm : cmath T) (alg : std_algos) (m : metric T) (sp : space T) (base : T).
Hypothesis PP : forall p l, Permutation (fst (std_partition alg p l) ++ snd (std_partition alg p l)) l.

(** * Raising the root *)
Lemma remove_leaf_spec (t : cover_node T) : cn_is_leaf t = false ->
  exists t' leaf, remove_leaf t = Ok (t', leaf) /\ cn_is_leaf leaf = true
    /\ Permutation (cn_index leaf :: stored t') (stored t) /\ cn_level t' = cn_level t.
Proof.
  induction t as [l md i cs F] using cover_ind. intros HL.
  destruct (exists_last (l := cs)) as (cs0 & b & E). { intros ->. discriminate. }
  subst cs. cbn [remove_leaf]. rewrite map_app, rev_app_distr. cbn [map rev app].
  rewrite removelast_last. apply Forall_app in F as [_ F]. inversion F as [|? ? IH _]; subst.
  destruct (cn_is_leaf b) eqn:EB.
  - exists (CoverNode l md i cs0), b. split; auto. split; auto. split; auto.
    cbn [stored]. rewrite flat_map_app. cbn [flat_map]. rewrite (leaf_stored b EB). cbn [app].
    etransitivity; [apply perm_swap|]. apply perm_skip. apply Permutation_cons_append.
  - destruct (IH eq_refl) as (b' & leaf & E & H1 & H2 & _). rewrite E. cbn [bind].
    exists (CoverNode l md i (cs0 ++ [b'])), leaf. split; auto. split; auto. split; auto.
    cbn [stored]. rewrite !flat_map_app. cbn [flat_map]. rewrite !app_nil_r, <- H2.
    etransitivity; [apply perm_swap|]. apply perm_skip. apply Permutation_middle.
Qed.

Lemma node_to_parent_spec (p c : cover_node T) : cn_is_leaf p = true ->
  exists t, node_to_parent p c = Ok t /\ stored t = cn_index p :: stored c
    /\ cn_is_leaf t = false /\ cn_level t = s_add (cn_level c) s_one.
Proof.
  intros H. unfold node_to_parent. rewrite guard_true by auto. cbn [bind]. eexists. split; [reflexivity|].
  rewrite stored_push, stored_set_level, leaf_push, level_push, (leaf_stored p H).
  repeat split. destruct p; reflexivity.
Qed.

Lemma raise_root_safe fuel : forall (t : cover_node T) level, cn_is_leaf t = false ->
  match raise_root fuel t level with
  | Ok t' => Permutation (stored t') (stored t) /\ cn_is_leaf t' = false
  | Ub _ => False
  | OutOfFuel => True
  end.
Proof.
  induction fuel as [|fuel IH]; intros t level HL; cbn [raise_root]; auto.
  destruct (s_ltb (cn_level t) level); [|auto].
  destruct (remove_leaf_spec t HL) as (t' & leaf & E & H1 & H2 & _). rewrite E. cbn [bind].
  destruct (node_to_parent_spec leaf t' H1) as (t2 & E2 & H3 & H4 & _). rewrite E2. cbn [bind].
  specialize (IH t2 level H4). destruct (raise_root fuel t2 level); auto.
  destruct IH as [A B]. split; auto. rewrite A, H3, H2. reflexivity.
Qed.

(** * The path to the parent *)
Lemma nearest_child_lt (x : list T) c cs : fst (nearest_child m sp x c cs) < Datatypes.S (length cs).
Proof.
  unfold nearest_child.
  assert (K : forall l a, Forall (fun k => k < Datatypes.S (length cs)) l -> fst a < Datatypes.S (length cs) ->
    fst (fold_left (fun '(min_i, min_d) i =>
       if s_ltb (cn_dist m sp x (nth i (c :: cs) c)) min_d
       then (i, cn_dist m sp x (nth i (c :: cs) c)) else (min_i, min_d)) l a) < Datatypes.S (length cs)).
  { induction l as [|k l IH]; intros [mi md] F Ha; cbn [fold_left]; auto.
    inversion F; subst. apply IH; auto. destruct (s_ltb _ _); auto. }
  apply K; simpl; [|lia]. apply Forall_forall. intros k Hk. apply in_seq in Hk. lia.
Qed.

Lemma update_at_find (x : list T) f e : forall t,
  (forall p, cn_size p <= cn_size t -> exists p', f p = Ok p'
     /\ Permutation (stored p') (e :: stored p) /\ cn_index p' = cn_index p) ->
  exists t', update_at (find_parent cm m sp base t x) f t = Ok t'
    /\ Permutation (stored t') (e :: stored t) /\ cn_index t' = cn_index t.
Proof.
  induction t as [l md i cs F] using cover_ind. intros HF. cbn [find_parent].
  destruct cs as [|c cs]; [apply HF; auto|].
  pose proof (nearest_child_lt x c cs) as L. destruct (nearest_child m sp x c cs) as [k d]. cbn [fst] in L.
  destruct (s_leb d _); [|cbn [update_at]; apply HF; auto].
  destruct (nth_error (c :: cs) k) as [ck|] eqn:Ek.
  2:{ apply nth_error_None in Ek. simpl in Ek. lia. }
  assert (EN : nth k (map (fun c => find_parent cm m sp base c x) (c :: cs)) [] = find_parent cm m sp base ck x).
  { apply nth_error_nth. exact (map_nth_error (fun c => find_parent cm m sp base c x) k (c :: cs) Ek). }
  rewrite EN. cbn [update_at]. unfold at_. rewrite Ek. cbn [bind].
  rewrite Forall_forall in F.
  destruct (F ck (nth_error_In _ _ Ek)) as (c' & E & H1 & H2).
  { intros p Hp. apply HF. unfold cn_size in *. cbn [stored length].
    pose proof (flat_map_nth_le stored k (c :: cs) ck Ek). lia. }
  rewrite E. cbn [bind]. eexists. split; [reflexivity|]. split; auto.
  cbn [stored]. etransitivity; [|apply perm_swap]. apply perm_skip.
  apply (flat_map_set_nth stored k (c :: cs) ck c' [e] Ek). exact H1.
Qed.

(** * Taking subtrees apart *)
Lemma strip_spec x y : forall (d : cover_node T) b,
  exists A B, strip m sp x y d b = (fst b ++ A, snd b ++ B) /\ leaves A /\ leaves B
    /\ Permutation (idxs A ++ idxs B) (flat_map stored (cn_children d)).
Proof.
  induction d as [l md i cs F] using cover_ind. intros b. cbn [strip cn_children].
  revert b. induction cs as [|c cs IHc]; intros b; cbn [fold_left flat_map].
  - exists [], []. rewrite !app_nil_r. destruct b. repeat split; constructor.
  - inversion F as [|? ? Hc Hcs]; subst. specialize (IHc Hcs).
    destruct (Hc b) as (A & B & E & LA & LB & P). rewrite E. cbn [fst snd].
    set (b1 := if s_ltb _ _ then _ else _).
    destruct (IHc b1) as (A2 & B2 & E2 & LA2 & LB2 & P2). rewrite E2.
    assert (LC : leaves [cn_clear c]) by (constructor; [apply leaf_clear|constructor]).
    rewrite (stored_eq c). unfold b1. destruct (s_ltb _ _); cbn [fst snd].
    + exists (A ++ [cn_clear c] ++ A2), (B ++ B2). rewrite !app_assoc. split; auto.
      split; [apply Forall_app; split; auto; apply Forall_app; split; auto|].
      split; [apply Forall_app; split; auto|].
      unfold idxs in *. rewrite !map_app. cbn [map]. rewrite index_clear, <- P, <- P2.
      cbn [app]. rewrite <- !app_assoc. cbn [app]. rewrite <- Permutation_middle. apply perm_skip.
      apply Permutation_app_head. rewrite !app_assoc. apply Permutation_app_tail, Permutation_app_comm.
    + exists (A ++ A2), (B ++ [cn_clear c] ++ B2). rewrite !app_assoc. split; auto.
      split; [apply Forall_app; split; auto|].
      split; [apply Forall_app; split; auto; apply Forall_app; split; auto|].
      unfold idxs in *. rewrite !map_app. cbn [map]. rewrite index_clear, <- P, <- P2.
      cbn [app]. rewrite <- !app_assoc. cbn [app].
      transitivity (cn_index c :: map cn_index A ++ map cn_index A2 ++ map cn_index B ++ map cn_index B2).
      * rewrite !app_assoc. rewrite <- Permutation_middle. reflexivity.
      * apply perm_skip. apply Permutation_app_head. rewrite !app_assoc.
        apply Permutation_app_tail, Permutation_app_comm.
Qed.

Lemma extract_spec x y : forall (d : cover_node T) b,
  exists d' A B, extract alg m sp x y d b = (d', (fst b ++ A, snd b ++ B)) /\ leaves A /\ leaves B
    /\ Permutation (stored d' ++ idxs A ++ idxs B) (stored d)
    /\ cn_index d' = cn_index d /\ cn_level d' = cn_level d.
Proof.
  induction d as [l md i cs F] using cover_ind. intros b. cbn [extract].
  set (dd := CoverNode l md i cs) in *.
  set (p := fun k => s_ltb (cn_dist m sp y (nth k cs dd)) (cn_dist m sp x (nth k cs dd))).
  pose proof (PP p (seq 0 (length cs))) as HP.
  destruct (std_partition alg p (seq 0 (length cs))) as [stay move]. cbn [fst snd] in HP.
  (* moved *)
  assert (K1 : forall ks b, exists A B,
    fold_left (fun b k => strip m sp x y (nth k cs dd) (fst b ++ [cn_clear (nth k cs dd)], snd b)) ks b
      = (fst b ++ A, snd b ++ B) /\ leaves A /\ leaves B
    /\ Permutation (idxs A ++ idxs B) (flat_map (fun k => stored (nth k cs dd)) ks)).
  { induction ks as [|k ks IH]; intros b'; cbn [fold_left flat_map].
    - exists [], []. rewrite !app_nil_r. destruct b'. repeat split; constructor.
    - destruct (strip_spec x y (nth k cs dd) (fst b' ++ [cn_clear (nth k cs dd)], snd b'))
        as (A & B & E & LA & LB & P). rewrite E. cbn [fst snd].
      destruct (IH ((fst b' ++ [cn_clear (nth k cs dd)]) ++ A, snd b' ++ B)) as (A2 & B2 & E2 & LA2 & LB2 & P2).
      rewrite E2. cbn [fst snd].
      exists (cn_clear (nth k cs dd) :: A ++ A2), (B ++ B2).
      split. { rewrite <- !app_assoc. reflexivity. }
      split. { constructor; [apply leaf_clear|]. apply Forall_app; auto. }
      split. { apply Forall_app; auto. }
      rewrite (stored_eq (nth k cs dd)), <- P, <- P2. unfold idxs. cbn [map].
      rewrite index_clear, !map_app. cbn [app]. apply perm_skip. rewrite <- !app_assoc.
      apply Permutation_app_head. rewrite !app_assoc. apply Permutation_app_tail, Permutation_app_comm. }
  destruct (K1 (rev move) b) as (A1 & B1 & E1 & LA1 & LB1 & P1). rewrite E1. clear K1 E1.
  (* kept *)
  assert (K2 : forall ks cs0 b, Forall (fun k => k < length cs) ks -> exists cs' A B,
    fold_left (fun '(cs', b) k =>
        let '(c', b') := nth k (map (fun c => extract alg m sp x y c) cs) (fun b => (dd, b)) b in (c' :: cs', b'))
      ks (cs0, b) = (cs' ++ cs0, (fst b ++ A, snd b ++ B)) /\ leaves A /\ leaves B
    /\ Permutation (flat_map stored cs' ++ idxs A ++ idxs B) (flat_map (fun k => stored (nth k cs dd)) ks)).
  { induction ks as [|k ks IH]; intros cs0 b' Hk; cbn [fold_left flat_map].
    - exists [], [], []. rewrite !app_nil_r. destruct b'. repeat split; constructor.
    - inversion Hk as [|? ? Hk1 Hk2]; subst.
      rewrite (nth_indep _ _ (extract alg m sp x y dd)) by (rewrite map_length; auto).
      rewrite map_nth. rewrite Forall_forall in F.
      destruct (F (nth k cs dd) (nth_In _ _ Hk1) b') as (c' & A & B & E & LA & LB & P & _ & _).
      rewrite E. destruct (IH (c' :: cs0) (fst b' ++ A, snd b' ++ B) Hk2) as (cs' & A2 & B2 & E2 & LA2 & LB2 & P2).
      rewrite E2. cbn [fst snd].
      exists (cs' ++ [c']), (A ++ A2), (B ++ B2).
      split. { rewrite <- !app_assoc. reflexivity. }
      split; [apply Forall_app; auto|]. split; [apply Forall_app; auto|].
      rewrite <- P, <- P2. unfold idxs. rewrite flat_map_app, !map_app. cbn [flat_map]. rewrite app_nil_r.
      transitivity (stored c' ++ flat_map stored cs' ++ (map cn_index A ++ map cn_index A2) ++ map cn_index B ++ map cn_index B2).
      { rewrite !app_assoc. do 4 apply Permutation_app_tail. apply Permutation_app_comm. }
      rewrite <- !app_assoc. apply Permutation_app_head.
      transitivity (map cn_index A ++ flat_map stored cs' ++ map cn_index A2 ++ map cn_index B ++ map cn_index B2).
      { rewrite !app_assoc. do 3 apply Permutation_app_tail. apply Permutation_app_comm. }
      apply Permutation_app_head.
      transitivity (flat_map stored cs' ++ map cn_index B ++ map cn_index A2 ++ map cn_index B2).
      { apply Permutation_app_head. rewrite !app_assoc. apply Permutation_app_tail, Permutation_app_comm. }
      rewrite !app_assoc. do 2 apply Permutation_app_tail. apply Permutation_app_comm. }
  assert (FS : Forall (fun k => k < length cs) (rev stay)).
  { apply Forall_forall. intros k Hk. apply in_rev in Hk.
    assert (In k (seq 0 (length cs))) as HI by (eapply Permutation_in; [exact HP|apply in_or_app; auto]).
    apply In_seq0 in HI. auto. }
  destruct (K2 (rev stay) [] (fst b ++ A1, snd b ++ B1) FS) as (cs' & A2 & B2 & E2 & LA2 & LB2 & P2).
  match type of E2 with ?lhs = _ => match goal with |- context [fold_left ?g (rev stay) ?a] =>
    change (fold_left g (rev stay) a) with lhs end end. rewrite E2. cbn [fst snd]. rewrite app_nil_r.
  exists (CoverNode l md i cs'), (A1 ++ A2), (B1 ++ B2).
  split. { rewrite <- !app_assoc. reflexivity. }
  split; [apply Forall_app; auto|]. split; [apply Forall_app; auto|]. split; [|split; auto].
  unfold dd. cbn [stored app]. apply perm_skip.
  assert (PC : Permutation (flat_map (fun k => stored (nth k cs dd)) (rev stay)
                 ++ flat_map (fun k => stored (nth k cs dd)) (rev move)) (flat_map stored cs)).
  { rewrite <- flat_map_app. rewrite (flat_map_perm _ _ (seq 0 (length cs))).
    - rewrite <- (flat_map_concat_map) || idtac. rewrite flat_map_concat_map.
      rewrite <- (map_map (fun k => nth k cs dd) stored), map_nth_seq. rewrite <- flat_map_concat_map. reflexivity.
    - rewrite <- HP. apply Permutation_app; symmetry; apply Permutation_rev. }
  rewrite <- PC, <- P1, <- P2. unfold idxs. rewrite !map_app. rewrite <- !app_assoc.
  apply Permutation_app_head.
  transitivity (map cn_index A2 ++ map cn_index A1 ++ map cn_index B1 ++ map cn_index B2).
  { rewrite !app_assoc. do 2 apply Permutation_app_tail. apply Permutation_app_comm. }
  apply Permutation_app_head. rewrite !app_assoc. rewrite Permutation_app_comm. rewrite <- !app_assoc.
  reflexivity.
Qed.

(** * Inserting *)
Lemma push_child_spec (p c : cover_node T) :
  stored (push_child p c) = stored p ++ stored c /\ cn_index (push_child p c) = cn_index p
  /\ cn_is_leaf (push_child p c) = false /\ cn_level (push_child p c) = cn_level p.
Proof.
  unfold push_child. rewrite stored_push, stored_set_level, index_push, leaf_push, level_push. auto.
Qed.

(** Inserting the leaves [l] one after the other. *)
Lemma insert_many (ic : cover_node T -> cover_node T -> res (cover_node T)) bound :
  (forall t n, cn_is_leaf n = true -> cn_size t <= bound -> exists t', ic t n = Ok t'
     /\ Permutation (stored t') (cn_index n :: stored t) /\ cn_index t' = cn_index t) ->
  forall (l : list (cover_node T)) t, leaves l -> cn_size t + length l <= bound + 1 ->
  exists t', fold_res ic l t = Ok t' /\ Permutation (stored t') (idxs l ++ stored t)
    /\ cn_index t' = cn_index t.
Proof.
  intros HI. induction l as [|n l IH]; intros t L B; cbn [fold_res].
  - exists t. auto.
  - inversion L; subst. cbn [length] in B.
    destruct (HI t n) as (t1 & E & P1 & I1); auto; [lia|].
    rewrite E. cbn [bind].
    assert (S1 : cn_size t1 = Datatypes.S (cn_size t)).
    { unfold cn_size. rewrite (Permutation_length P1). reflexivity. }
    destruct (IH t1) as (t2 & E2 & P2 & I2); auto; [lia|].
    exists t2. split; auto. split; [|congruence].
    rewrite P2, P1. unfold idxs. cbn [map app]. symmetry. apply Permutation_middle.
Qed.

Lemma leaves_rev {A} (l : list (cover_node A)) : leaves l -> leaves (rev l).
Proof. intros H. apply Forall_rev. exact H. Qed.
Lemma idxs_rev {A} (l : list (cover_node A)) : Permutation (idxs (rev l)) (idxs l).
Proof. unfold idxs. apply Permutation_map. symmetry. apply Permutation_rev. Qed.

Lemma rebalance_spec ic bound (parent node : cover_node T) (x : list T) :
  (forall t n, cn_is_leaf n = true -> cn_size t <= bound -> exists t', ic t n = Ok t'
     /\ Permutation (stored t') (cn_index n :: stored t) /\ cn_index t' = cn_index t) ->
  cn_is_leaf parent = false -> cn_is_leaf node = true -> cn_size parent <= bound + 1 ->
  exists p', rebalance cm alg m sp base ic parent node x = Ok p'
    /\ Permutation (stored p') (cn_index node :: stored parent) /\ cn_index p' = cn_index parent.
Proof.
  intros HI HL HN HB. unfold rebalance. set (d := s_mul _ s_two).
  assert (K : forall (cs cs0 tm : list (cover_node T)), leaves tm -> Forall (fun c => cn_size c <= bound) cs ->
    exists cs' A, fold_res
      (fun '(cs', to_move) child =>
         if s_ltb (cn_dist m sp x child) d then
           let '(child1, (to_move', to_stay)) :=
             extract alg m sp x (sp_at sp (cn_index child)) child (to_move, []) in
           do child2 <- fold_res ic (rev to_stay) child1;
           Ok (cs' ++ [child2], to_move')
         else Ok (cs' ++ [child], to_move)) cs (cs0, tm) = Ok (cs0 ++ cs', tm ++ A)
      /\ leaves A /\ length cs' = length cs
      /\ Permutation (flat_map stored cs' ++ idxs A) (flat_map stored cs)).
  { induction cs as [|c cs IH]; intros cs0 tm Ltm F; cbn [fold_res].
    - exists [], []. rewrite !app_nil_r. repeat split; auto. constructor.
    - inversion F as [|? ? Fc Fcs]; subst. destruct (s_ltb (cn_dist m sp x c) d).
      + destruct (extract_spec x (sp_at sp (cn_index c)) c (tm, [])) as (c1 & A & B & E & LA & LB & P & I1 & _).
        rewrite E. cbn [fst snd app].
        assert (SZ : cn_size c1 + length (rev B) <= bound + 1).
        { apply Permutation_length in P. rewrite !app_length in P. unfold cn_size in *. unfold idxs in P.
          rewrite !map_length in P. rewrite rev_length. lia. }
        destruct (insert_many ic bound HI (rev B) c1 (leaves_rev B LB) SZ) as (c2 & E2 & P2 & I2).
        rewrite E2. cbn [bind].
        destruct (IH (cs0 ++ [c2]) (tm ++ A)) as (cs' & A' & E3 & LA' & Len & P3); auto.
        { apply Forall_app; auto. }
        rewrite E3. exists (c2 :: cs'), (A ++ A'). rewrite <- !app_assoc. split; auto.
        split; [apply Forall_app; auto|]. split; [cbn; congruence|].
        cbn [flat_map]. rewrite <- P3, <- P, P2, idxs_rev. unfold idxs. rewrite map_app, <- !app_assoc.
        transitivity (stored c1 ++ map cn_index B ++ map cn_index A ++ flat_map stored cs' ++ map cn_index A').
        * rewrite !app_assoc. apply Permutation_app_tail.
          transitivity ((stored c1 ++ map cn_index B) ++ (flat_map stored cs' ++ map cn_index A)).
          { rewrite !app_assoc. do 2 apply Permutation_app_tail. apply Permutation_app_comm. }
          rewrite <- (app_assoc (stored c1 ++ map cn_index B)). apply Permutation_app_head, Permutation_app_comm.
        * apply Permutation_app_head. rewrite !app_assoc. do 2 apply Permutation_app_tail. apply Permutation_app_comm.
      + destruct (IH (cs0 ++ [c]) tm Ltm Fcs) as (cs' & A' & E3 & LA' & Len & P3).
        cbn [bind]. rewrite E3. exists (c :: cs'), A'. rewrite <- !app_assoc. split; auto. split; auto. split; [cbn; congruence|].
        cbn [flat_map]. rewrite <- P3, app_assoc. reflexivity. }
  destruct parent as [l md i cs]. cbn [cn_children cn_level] in *.
  assert (F : Forall (fun c => cn_size c <= bound) cs).
  { apply Forall_forall. intros c Hc. apply In_nth_error in Hc as (k & Hk).
    pose proof (flat_map_nth_le stored k cs c Hk). unfold cn_size in *. cbn [stored length] in HB. lia. }
  destruct (K cs [] [] (Forall_nil _) F) as (cs' & A & E & LA & Len & P). cbn [app] in E. rewrite E. cbn [bind].
  assert (HP1 : 1 <= length (flat_map stored cs')).
  { destruct cs; [discriminate|]. destruct cs'; [discriminate|]. cbn [flat_map]. rewrite app_length.
    pose proof (size_pos c0) as H. unfold cn_size in H. lia. }
  assert (SZ : cn_size (cn_set_level node (s_sub l s_one)) + length (rev A) <= bound + 1).
  { unfold cn_size in *. rewrite stored_set_level, (leaf_stored node HN). cbn [length stored] in *.
    apply Permutation_length in P. rewrite app_length in P. unfold idxs in P. rewrite map_length in P.
    rewrite rev_length. lia. }
  destruct (insert_many ic bound HI (rev A) _ (leaves_rev A LA) SZ) as (n2 & E2 & P2 & I2).
  rewrite E2. cbn [bind]. eexists. split; [reflexivity|].
  destruct (push_child_spec (CoverNode l md i cs') n2) as (P3 & I3 & _). rewrite P3, I3. split; auto.
  cbn [stored app]. etransitivity; [|apply perm_swap]. apply perm_skip.
  rewrite P2, stored_set_level, (leaf_stored node HN), idxs_rev, <- P.
  rewrite app_assoc. symmetry. apply Permutation_cons_append.
Qed.

Lemma insert_covered_spec fuel : forall (t n : cover_node T), cn_is_leaf n = true -> cn_size t <= fuel ->
  exists t', insert_covered cm alg m sp base fuel t n = Ok t'
    /\ Permutation (stored t') (cn_index n :: stored t) /\ cn_index t' = cn_index t.
Proof.
  induction fuel as [|fuel IH]; intros t n HN HS; [pose proof (size_pos t); lia|].
  cbn [insert_covered]. apply update_at_find. intros p Hp. destruct (cn_is_leaf p) eqn:EL.
  - eexists. split; [reflexivity|]. destruct (push_child_spec p n) as (-> & -> & _). split; auto.
    rewrite (leaf_stored n HN). symmetry. apply Permutation_cons_append.
  - apply (rebalance_spec _ fuel); auto. lia.
Qed.

(** Inserting never fails except for lack of fuel while raising the root. *)
Lemma cover_insert_safe fuel (t n : cover_node T) : cn_is_leaf t = false -> cn_is_leaf n = true ->
  cn_size t <= fuel ->
  match cover_insert cm alg m sp base fuel t n with
  | Ok t' => Permutation (stored t') (cn_index n :: stored t) /\ cn_is_leaf t' = false
  | Ub _ => False
  | OutOfFuel => True
  end.
Proof.
  intros HT HN HS. unfold cover_insert. destruct (s_ltb _ _).
  - set (level := c_floor cm _). pose proof (raise_root_safe fuel t level HT) as R.
    destruct (raise_root fuel t level) as [t'| |]; cbn [bind]; auto.
    destruct (node_to_parent_spec n t' HN) as (t2 & E & H1 & H2 & _). rewrite E, H1, H2.
    split; auto. rewrite (proj1 R). reflexivity.
  - destruct (insert_covered_spec fuel t n HN HS) as (t' & E & P & _). rewrite E. split; auto.
    assert (L : 2 <= cn_size t').
    { unfold cn_size. rewrite (Permutation_length P). pose proof (size_pos t). unfold cn_size in *. cbn. lia. }
    destruct (cn_is_leaf t') eqn:EL; auto. unfold cn_size in L. rewrite (leaf_stored t' EL) in L. simpl in L. lia.
Qed.

(** * Copying *)
Lemma buffer_copy_spec cap : forall (n : cover_node T) used, used + cn_size n <= cap ->
  exists n', depth_first_buffer_copy cap n used = Ok (n', used + cn_size n) /\ stored n' = stored n.
Proof.
  induction n as [l md i cs F] using cover_ind. intros used HC. cbn [depth_first_buffer_copy].
  unfold cn_size in *. cbn [stored length] in HC. unfold buffer_allocate.
  destruct (Nat.ltb_spec used cap); [|lia]. cbn [bind].
  set (go := fix go (cs : list (cover_node T)) (used : nat) : res (list (cover_node T) * nat) := _).
  assert (K : forall cs used, Forall (fun n => forall used, used + length (stored n) <= cap ->
      exists n', depth_first_buffer_copy cap n used = Ok (n', used + length (stored n)) /\ stored n' = stored n) cs ->
    used + length (flat_map stored cs) <= cap ->
    exists cs', go cs used = Ok (cs', used + length (flat_map stored cs)) /\ flat_map stored cs' = flat_map stored cs).
  { clear. induction cs as [|c cs IH]; intros used F H; cbn [flat_map].
    - exists []. cbn. rewrite Nat.add_0_r. auto.
    - inversion F as [|? ? Fc Fcs]; subst. cbn [flat_map] in H. rewrite app_length in *.
      destruct (Fc used) as (c' & E & Sc); [lia|]. cbn [go]. rewrite E. cbn [bind].
      destruct (IH (used + length (stored c)) Fcs) as (cs' & E2 & Scs); [lia|].
      fold go. rewrite E2. cbn [bind]. exists (c' :: cs'). split; [f_equal; f_equal; lia|].
      cbn [flat_map]. congruence. }
  destruct (K cs (used + 1) F) as (cs' & E & Scs); [lia|]. rewrite E. cbn [bind].
  exists (CoverNode l s_zero i cs'). split; [|cbn; congruence]. f_equal. f_equal. cbn [stored length]. lia.
Qed.

Lemma update_stored : forall (n : cover_node T), stored (update_max_distance m sp n) = stored n.
Proof.
  induction n as [l md i cs F] using cover_ind. cbn [update_max_distance stored]. f_equal.
  induction F as [|c cs Hc F IH]; cbn; congruence.
Qed.

(** * Construction *)
Lemma create_ok cap used idx : used < cap -> idx < length (sp_pts sp) ->
  cover_create_node sp cap used idx = Ok (CoverNode s_zero s_zero idx [], used + 1).
Proof.
  intros H1 H2. unfold cover_create_node, buffer_allocate. destruct (Nat.ltb_spec used cap); [|lia].
  cbn [bind]. rewrite guard_true; auto. unfold in_space, sp_size. apply Nat.ltb_lt; auto.
Qed.

Let N := length (sp_pts sp).

Lemma insert_loop_safe fuel : N <= fuel -> forall l t used,
  cn_is_leaf t = false -> cn_size t = used -> used + length l <= N -> Forall (fun i => i < N) l ->
  match fold_res (fun '(tree, used) idx =>
         do (node, used') <- cover_create_node sp (sp_size sp) used idx;
         do tree' <- cover_insert cm alg m sp base fuel tree node;
         Ok (tree', used')) l (t, used) with
  | Ok (t', u') => Permutation (stored t') (stored t ++ l)
  | Ub _ => False
  | OutOfFuel => True
  end.
Proof.
  intros HF. induction l as [|i l IH]; intros t used HL HS HN F; cbn [fold_res].
  - rewrite app_nil_r. reflexivity.
  - inversion F; subst. cbn [length] in HN. rewrite create_ok by (auto; fold N; unfold sp_size; lia). cbn [bind].
    pose proof (cover_insert_safe fuel t (CoverNode s_zero s_zero i []) HL eq_refl ltac:(lia)) as K.
    destruct (cover_insert cm alg m sp base fuel t _) as [t'| |]; cbn [bind]; auto.
    destruct K as [P L]. cbn [cn_index] in P.
    specialize (IH t' (cn_size t + 1) L).
    assert (S1 : cn_size t' = cn_size t + 1).
    { unfold cn_size. rewrite (Permutation_length P). cbn. lia. }
    specialize (IH S1 ltac:(lia) H2).
    match goal with |- match ?e with _ => _ end => destruct e as [[t2 u2]| |] end; auto.
    rewrite IH, P. apply Permutation_middle.
Qed.

Lemma build_cover_safe fuel indices : 0 < N -> N <= fuel -> Permutation indices (seq 0 N) ->
  match build_cover_tree cm alg m sp base fuel indices with
  | Ok root => Permutation (stored root) (seq 0 N)
      /\ exists r0, root = update_max_distance m sp r0
  | Ub _ => False
  | OutOfFuel => True
  end.
Proof.
  intros H0 HF HP. unfold build_cover_tree.
  rewrite guard_true by (apply Nat.ltb_lt; auto). cbn [bind].
  assert (FI : Forall (fun i => i < N) indices).
  { apply Forall_forall. intros i Hi. apply In_seq0. eapply Permutation_in; eauto. }
  assert (LI : length indices = N) by (rewrite (Permutation_length HP), seq_length; auto).
  unfold insert_first_two. destruct indices as [|i0 indices]; [simpl in LI; lia|].
  cbn [at_ nth_error bind]. unfold at_. cbn [nth_error bind].
  inversion FI as [|? ? F0 F1]; subst.
  rewrite create_ok by (auto; unfold sp_size; lia). cbn [bind].
  unfold sp_size in *. fold N.
  assert (FIN : forall t, Permutation (stored t) (i0 :: indices) ->
    match (do (root, _) <- depth_first_buffer_copy N t 0; Ok (update_max_distance m sp root)) with
    | Ok root => Permutation (stored root) (seq 0 N) /\ exists r0, root = update_max_distance m sp r0
    | Ub _ => False | OutOfFuel => True end).
  { intros t Pt. destruct (buffer_copy_spec N t 0) as (t' & E & St).
    { unfold cn_size. rewrite (Permutation_length Pt). simpl in *. lia. }
    rewrite E. cbn [bind]. rewrite update_stored, St, Pt. split; [exact HP|eauto]. }
  destruct (Nat.eqb_spec N 1) as [E1|E1].
  - destruct indices; [|simpl in LI; lia]. cbn [bind skipn fold_res]. apply FIN. reflexivity.
  - destruct indices as [|i1 indices]; [simpl in LI; lia|]. cbn [nth_error bind].
    inversion F1 as [|? ? F2 F3]; subst.
    rewrite create_ok by (auto; lia). cbn [bind skipn].
    set (t0 := push_child _ _).
    assert (S0 : stored t0 = [i0; i1]).
    { unfold t0. destruct (push_child_spec (cn_set_level (CoverNode s_zero s_zero i0 [])
        (c_ceil cm (base_level cm base (m_dist m (sp_at sp i0) (sp_at sp i1)))))
        (CoverNode s_zero s_zero i1 [])) as (-> & _). reflexivity. }
    pose proof (insert_loop_safe fuel HF indices t0 (0 + 1 + 1)) as K.
    unfold sp_size in K. fold N in K.
    assert (K0 : cn_is_leaf t0 = false) by reflexivity.
    assert (K1 : cn_size t0 = 0 + 1 + 1) by (unfold cn_size; rewrite S0; reflexivity).
    assert (K2 : 0 + 1 + 1 + length indices <= N) by (cbn [length] in LI; lia).
    specialize (K K0 K1 K2 F3).
    match goal with |- match (bind ?e _) with _ => _ end => destruct e as [[t2 u2]| |] end; cbn [bind]; auto.
    apply FIN. rewrite K, S0. reflexivity.
Qed.
End Build.
