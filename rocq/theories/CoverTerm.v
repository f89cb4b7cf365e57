(** The construction of a cover tree ends, with exact arithmetic; more fuel does
    not change its result. *)
From Coq Require Import List ZArith QArith Qabs Qround Bool Arith Permutation Lia Lqa.
From Verif Require Import Base ModelBox ModelBuild ModelSearch Spec ModelCover SpecCover Lemmas
  BuildProofs CoverThms.
Import ListNotations.
Local Open Scope nat_scope.

(** [g] does whatever [f] does, unless [f] ran out of fuel. *)
Definition refines {A} (r r' : res A) : Prop := r <> OutOfFuel -> r' = r.

Lemma refines_refl {A} (r : res A) : refines r r.
Proof. intros _. reflexivity. Qed.
Lemma refines_bind {A B} (r r' : res A) (k k' : A -> res B) :
  refines r r' -> (forall a, refines (k a) (k' a)) -> refines (bind r k) (bind r' k').
Proof.
  intros H K E. destruct r as [a|w|]; cbn [bind] in *.
  - rewrite H by discriminate. cbn [bind]. apply K. exact E.
  - rewrite H by discriminate. reflexivity.
  - congruence.
Qed.
Lemma refines_ok {A} (r r' : res A) a : refines r r' -> r = Ok a -> r' = Ok a.
Proof. intros H E. rewrite H; auto. rewrite E. discriminate. Qed.
Lemma refines_ub {A} (r r' : res A) a : refines r r' -> r = Ub a -> r' = Ub a.
Proof. intros H E. rewrite H; auto. rewrite E. discriminate. Qed.

Lemma fold_res_mono {A B} (f g : A -> B -> res A) : (forall a b, refines (f a b) (g a b)) ->
  forall l a, refines (fold_res f l a) (fold_res g l a).
Proof.
  intros H. induction l as [|b l IH]; intros a; cbn [fold_res]; [apply refines_refl|].
  apply refines_bind; auto.
Qed.

Section Term.
Context {T : Type} {S : Scalar T}.
Variables (cm : cmath T) (alg : std_algos) (m : metric T) (sp : space T) (base : T).

Lemma update_at_mono (f g : cover_node T -> res (cover_node T)) :
  (forall a, refines (f a) (g a)) ->
  forall path t, refines (update_at path f t) (update_at path g t).
Proof.
  intros H. induction path as [|k path IH]; intros t; cbn [update_at]; auto.
  destruct t as [l md i cs]. apply refines_bind; [apply refines_refl|]. intros c.
  apply refines_bind; auto. intros c'. apply refines_refl.
Qed.

Lemma rebalance_mono (f g : cover_node T -> cover_node T -> res (cover_node T)) :
  (forall a b, refines (f a b) (g a b)) ->
  forall p n x, refines (rebalance cm alg m sp base f p n x) (rebalance cm alg m sp base g p n x).
Proof.
  intros H p n x. unfold rebalance. apply refines_bind.
  - apply fold_res_mono. intros [cs0 tm0] c. destruct (s_ltb _ _); [|apply refines_refl].
    destruct (extract _ _ _ _ _ _ _) as [c1 [tm' ts]].
    apply refines_bind; [apply fold_res_mono; auto|]. intros c2. apply refines_refl.
  - intros [cs' tm]. apply refines_bind; [apply fold_res_mono; auto|]. intros n2. apply refines_refl.
Qed.

Lemma insert_covered_mono f : forall f' t n, f <= f' ->
  refines (insert_covered cm alg m sp base f t n) (insert_covered cm alg m sp base f' t n).
Proof.
  induction f as [|f IH]; intros [|f'] t n L; try lia; [intros E; cbn in E; congruence..|].
  cbn [insert_covered]. apply update_at_mono. intros p.
  destruct (cn_is_leaf p); [apply refines_refl|]. apply rebalance_mono. intros a b. apply IH. lia.
Qed.

Lemma raise_root_mono f : forall f' (t : cover_node T) level, f <= f' ->
  refines (raise_root f t level) (raise_root f' t level).
Proof.
  induction f as [|f IH]; intros [|f'] t level L; try lia; [intros E; cbn in E; congruence..|].
  cbn [raise_root]. destruct (s_ltb _ _); [|apply refines_refl].
  apply refines_bind; [apply refines_refl|]. intros [t' leaf].
  apply refines_bind; [apply refines_refl|]. intros t2. apply IH. lia.
Qed.

Lemma cover_insert_mono f f' t n : f <= f' ->
  refines (cover_insert cm alg m sp base f t n) (cover_insert cm alg m sp base f' t n).
Proof.
  intros L. unfold cover_insert. destruct (s_ltb _ _).
  - apply refines_bind; [apply raise_root_mono; auto|]. intros t'. apply refines_refl.
  - apply insert_covered_mono; auto.
Qed.

Lemma build_cover_mono f f' indices : f <= f' ->
  refines (build_cover_tree cm alg m sp base f indices) (build_cover_tree cm alg m sp base f' indices).
Proof.
  intros L. unfold build_cover_tree. apply refines_bind; [apply refines_refl|]. intros _.
  apply refines_bind; [apply refines_refl|]. intros [t u].
  apply refines_bind; [|intros [t' u']; apply refines_refl].
  apply fold_res_mono. intros [t1 u1] i. apply refines_bind; [apply refines_refl|]. intros [n1 u2].
  apply refines_bind; [apply cover_insert_mono; auto|]. intros t'. apply refines_refl.
Qed.

Hypothesis UP : counts_up S.
Hypothesis PP : forall p l, Permutation (fst (std_partition alg p l) ++ snd (std_partition alg p l)) l.

Lemma iter_shift {A} (f : A -> A) k : forall x, Nat.iter (Datatypes.S k) f x = Nat.iter k f (f x).
Proof. induction k as [|k IH]; intros x; auto. change (f (Nat.iter (Datatypes.S k) f x) = f (Nat.iter k f (f x))). rewrite IH. reflexivity. Qed.

Lemma raise_root_ends K : forall (t : cover_node T) level, cn_is_leaf t = false ->
  s_ltb (Nat.iter K (fun x => s_add x s_one) (cn_level t)) level = false ->
  exists r, raise_root (Datatypes.S K) t level = Ok r.
Proof.
  induction K as [|K IH]; intros t level HL H.
  - cbn [raise_root]. cbn in H. rewrite H. eauto.
  - remember (Datatypes.S K) as SK eqn:EK. cbn [raise_root]. destruct (s_ltb (cn_level t) level) eqn:E; [|eauto].
    destruct (remove_leaf_spec t HL) as (t' & leaf & E1 & H1 & H2 & H3). rewrite E1. cbn [bind].
    destruct (node_to_parent_spec leaf t' H1) as (t2 & E2 & H4 & H5 & H6). rewrite E2. cbn [bind].
    apply IH; auto. rewrite H6, H3. rewrite EK, iter_shift in H. exact H.
Qed.

Lemma cover_insert_ends (t n : cover_node T) : cn_is_leaf t = false -> cn_is_leaf n = true ->
  exists f0 r, cn_size t <= f0 /\ forall f, f0 <= f -> cover_insert cm alg m sp base f t n = Ok r.
Proof.
  intros HT HN. unfold cover_insert. destruct (s_ltb _ _).
  - generalize (c_floor cm (base_level cm base (s_add (cover_distance cm base t) (cn_dist m sp (sp_at sp (cn_index n)) t)))).
    intros level. destruct (UP (cn_level t) level) as (K & HK).
    destruct (raise_root_ends K t level HT HK) as (r & E).
    destruct (node_to_parent_spec n r HN) as (t2 & E2 & _).
    exists (Datatypes.S K + cn_size t), t2. split; [lia|]. intros f Hf.
    assert (HK2 : Datatypes.S K <= f) by lia. rewrite (refines_ok _ _ _ (raise_root_mono _ f t level HK2) E). cbn [bind]. exact E2.
  - destruct (insert_covered_spec cm alg m sp base PP (cn_size t) t n HN ltac:(lia)) as (t' & E & _).
    exists (cn_size t), t'. split; auto. intros f Hf. apply (refines_ok _ _ _ (insert_covered_mono _ f t n Hf) E).
Qed.

Let N := length (sp_pts sp).

Lemma insert_loop_ends : forall l t used,
  cn_is_leaf t = false -> cn_size t = used -> used + length l <= N -> Forall (fun i => i < N) l ->
  exists f0 r, forall f, f0 <= f ->
    fold_res (fun '(tree, used) idx =>
         do (node, used') <- cover_create_node sp (sp_size sp) used idx;
         do tree' <- cover_insert cm alg m sp base f tree node;
         Ok (tree', used')) l (t, used) = Ok r.
Proof.
  induction l as [|i l IH]; intros t used HL HS HN F; cbn [fold_res].
  - exists 0, (t, used). auto.
  - inversion F; subst. cbn [length] in HN.
    destruct (cover_insert_ends t (CoverNode s_zero s_zero i []) HL eq_refl) as (f1 & t' & Hs & E1).
    pose proof (cover_insert_safe cm alg m sp base PP f1 t (CoverNode s_zero s_zero i []) HL eq_refl Hs) as K.
    rewrite (E1 f1 (Nat.le_refl _)) in K. destruct K as [P L]. cbn [cn_index] in P.
    destruct (IH t' (cn_size t + 1) L) as (f2 & r & E2); auto.
    { unfold cn_size. rewrite (Permutation_length P). cbn. lia. }
    { lia. }
    exists (f1 + f2), r. intros f Hf.
    rewrite create_ok by (auto; fold N; unfold sp_size; lia). cbn [bind].
    rewrite E1 by lia. cbn [bind]. apply E2. lia.
Qed.

Lemma build_cover_ends indices : 0 < N -> Permutation indices (seq 0 N) ->
  exists f0 root, forall f, f0 <= f -> build_cover_tree cm alg m sp base f indices = Ok root.
Proof.
  intros H0 HP.
  assert (FI : Forall (fun i => i < N) indices).
  { apply Forall_forall. intros i Hi. apply In_seq0. eapply Permutation_in; eauto. }
  assert (LI : length indices = N) by (rewrite (Permutation_length HP), seq_length; auto).
  destruct (insert_first_two cm m sp base indices) as [[t0 u0]| |] eqn:E0.
  - assert (K : exists f0 r, forall f, f0 <= f ->
      fold_res (fun '(tree, used) idx =>
         do (node, used') <- cover_create_node sp (sp_size sp) used idx;
         do tree' <- cover_insert cm alg m sp base f tree node;
         Ok (tree', used')) (skipn 2 indices) (t0, u0) = Ok r).
    { unfold insert_first_two in E0. destruct indices as [|i0 indices]; [simpl in LI; lia|].
      unfold at_ in E0. cbn [nth_error bind] in E0. inversion FI as [|? ? F0 F1]; subst.
      rewrite create_ok in E0 by (auto; unfold sp_size; lia). cbn [bind] in E0.
      destruct (Nat.eqb_spec (sp_size sp) 1) as [E1|E1].
      - destruct indices; [|simpl in LI; unfold sp_size in E1; fold N in E1; lia].
        exists 0, (t0, u0). reflexivity.
      - destruct indices as [|i1 indices]; [simpl in LI; unfold sp_size in E1; fold N in E1; lia|].
        cbn [nth_error bind] in E0. inversion F1; subst. unfold sp_size in *. fold N in E0, E1.
        rewrite create_ok in E0 by (auto; lia). cbn [bind] in E0. injection E0 as <- <-.
        cbn [skipn]. apply insert_loop_ends; auto. cbn [length] in LI. lia. }
    destruct K as (f0 & [t u] & K).
    pose proof (build_cover_safe cm alg m sp base PP (f0 + N) indices H0 ltac:(lia) HP) as B.
    destruct (build_cover_tree cm alg m sp base (f0 + N) indices) as [root| |] eqn:EB.
    + exists (f0 + N), root. intros f Hf. rewrite <- EB. unfold build_cover_tree.
      rewrite E0. rewrite !guard_true by (apply Nat.ltb_lt; auto). cbn [bind].
      rewrite !K by lia. reflexivity.
    + contradiction.
    + exfalso. unfold build_cover_tree in EB.
      rewrite E0 in EB. rewrite guard_true in EB by (apply Nat.ltb_lt; auto). cbn [bind] in EB.
      rewrite K in EB by lia. cbn [bind] in EB.
      destruct (depth_first_buffer_copy (sp_size sp) t 0) as [[a b]| |] eqn:EC; cbn in EB; try discriminate.
      clear - EC.
      assert (C : forall cap (n : cover_node T) used, depth_first_buffer_copy cap n used <> OutOfFuel).
      { clear. intros cap. induction n as [l md i cs F] using cover_ind. intros used. cbn [depth_first_buffer_copy].
        unfold buffer_allocate. destruct (used <? cap); cbn [bind]; [|discriminate].
        set (go := fix go (cs : list (cover_node T)) (used : nat) : res (list (cover_node T) * nat) := _).
        assert (K : forall cs used, Forall (fun n => forall used, depth_first_buffer_copy cap n used <> OutOfFuel) cs ->
          go cs used <> OutOfFuel).
        { clear. induction cs as [|c cs IH]; intros used F; cbn [go]; [discriminate|].
          inversion F as [|? ? Fc Fcs]; subst. specialize (Fc used).
          destruct (depth_first_buffer_copy cap c used) as [[c1 u1]| |]; cbn [bind]; try congruence.
          fold go. specialize (IH u1 Fcs). destruct (go cs u1) as [[? ?]| |]; cbn [bind]; congruence. }
        specialize (K cs (used + 1) F). destruct (go cs (used + 1)) as [[? ?]| |]; cbn [bind]; congruence. }
      exact (C _ _ _ EC).
  - exfalso. pose proof (build_cover_safe cm alg m sp base PP N indices H0 (Nat.le_refl _) HP) as B.
    unfold build_cover_tree in B. rewrite E0 in B. rewrite guard_true in B by (apply Nat.ltb_lt; auto). exact B.
  - exfalso. unfold insert_first_two in E0. destruct indices as [|i0 indices]; [simpl in LI; lia|].
    unfold at_ in E0. cbn [nth_error bind] in E0. inversion FI as [|? ? F0 F1]; subst.
    rewrite create_ok in E0 by (auto; unfold sp_size; lia). cbn [bind] in E0.
    destruct (Nat.eqb_spec (sp_size sp) 1) as [E1|E1]; [discriminate|].
    destruct indices as [|i1 indices]; [discriminate|].
    cbn [nth_error bind] in E0. inversion F1; subst. unfold sp_size in *. fold N in E0, E1.
    rewrite create_ok in E0 by (auto; cbn [length] in LI; lia). discriminate.
Qed.
End Term.

Lemma archimedes (x : Q) : exists K, (x <= inject_Z (Z.of_nat K))%Q.
Proof.
  exists (Z.to_nat (Qceiling x)). apply Qle_trans with (inject_Z (Qceiling x)).
  - apply Qle_ceiling.
  - rewrite <- Zle_Qle. lia.
Qed.

Lemma exact_counts_up {T} {S : Scalar T} val : exact_laws S val -> counts_up S.
Proof.
  intros EL a b. destruct (archimedes (val b - val a)) as (K & HK). exists K.
  assert (V : (val (Nat.iter K (fun x => s_add x s_one) a) == val a + inject_Z (Z.of_nat K))%Q).
  { clear HK. induction K as [|K IH].
    - change (inject_Z (Z.of_nat 0)) with 0%Q. cbn. lra.
    - change (Nat.iter (Datatypes.S K) (fun x => s_add x s_one) a) with (s_add (Nat.iter K (fun x => s_add x s_one) a) s_one).
      rewrite (el_add _ _ EL), (el_one _ _ EL).
      rewrite Nat2Z.inj_succ. unfold Z.succ. rewrite inject_Z_plus. change (inject_Z 1) with 1%Q.
      rewrite IH. lra. }
  destruct (s_ltb _ _) eqn:E; auto. apply (el_lt _ _ EL) in E. rewrite V in E. lra.
Qed.
