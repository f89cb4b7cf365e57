(** The kd_forest: construction and searches. *)
From Coq Require Import List ZArith QArith Qabs Bool Arith Permutation Lia Lqa.
From Verif Require Import Base ModelBox ModelBuild ModelSearch Spec ModelCover ModelForest SpecForest Lemmas Instances
  BuildProofs BuildOrder BuildThms SearchProofs Metrics Visitors CellThms ExtraThms PriorityThms PriorityExact Reflect.
Import ListNotations.
Local Open Scope nat_scope.

(** * What the constructor leaves behind *)
Section Inv.
Context {T : Type} {S : Scalar T}.
Variables (alg : std_algos) (it : index_type) (cm : cmath T) (fuel : nat) (sp : space T) (stop : stop_condition)
  (bnds : start_bounds T) (ru : rule) (gauss : nat -> nat -> T).

Definition built (i : nat) (t : rkd_tree T) : Prop :=
  rk_rotation t = random_normal cm (gauss i) (sp_sdim sp)
  /\ rotate_space (rk_rotation t) sp = Ok (rk_space t)
  /\ build Topological alg it fuel (rk_space t) stop bnds ru = Ok (rk_tree t).

Lemma build_one_inv g t : build_rkd_one alg it cm fuel sp stop bnds ru g = Ok t ->
  rk_rotation t = random_normal cm g (sp_sdim sp)
  /\ rotate_space (rk_rotation t) sp = Ok (rk_space t)
  /\ build Topological alg it fuel (rk_space t) stop bnds ru = Ok (rk_tree t).
Proof.
  unfold build_rkd_one. intros H.
  destruct (rotate_space (random_normal cm g (sp_sdim sp)) sp) as [s| |] eqn:E1; cbn [bind] in H; try discriminate.
  destruct (build Topological alg it fuel s stop bnds ru) as [t'| |] eqn:E2; cbn [bind] in H; try discriminate.
  injection H as <-. cbn. auto.
Qed.

Lemma build_loop_inv n : forall i ts, build_rkd_loop alg it cm fuel sp stop bnds ru gauss i n = Ok ts ->
  length ts = n /\ Forall (fun t => exists k, i <= k < i + n /\ built k t) ts.
Proof.
  induction n as [|n IH]; intros i ts H; cbn [build_rkd_loop] in H.
  - injection H as <-. split; [reflexivity|constructor].
  - destruct (build_rkd_one alg it cm fuel sp stop bnds ru (gauss i)) as [t| |] eqn:E1; cbn [bind] in H; try discriminate.
    destruct (build_rkd_loop alg it cm fuel sp stop bnds ru gauss (i + 1) n) as [ts'| |] eqn:E2; cbn [bind] in H; try discriminate.
    injection H as <-. destruct (IH _ _ E2) as [L F]. split; [cbn; lia|]. constructor.
    + exists i. split; [lia|]. apply build_one_inv in E1. exact E1.
    + eapply Forall_impl; [|exact F]. intros a (k & Hk & B). exists k. split; [lia|auto].
Qed.

Lemma build_loop_total n : forall i,
  (forall k, i <= k < i + n -> exists t, build_rkd_one alg it cm fuel sp stop bnds ru (gauss k) = Ok t) ->
  exists ts, build_rkd_loop alg it cm fuel sp stop bnds ru gauss i n = Ok ts.
Proof.
  induction n as [|n IH]; intros i H; cbn [build_rkd_loop]; [eauto|].
  destruct (H i) as (t & E); [lia|]. rewrite E. cbn [bind].
  destruct (IH (i + 1)) as (ts & E'); [intros k Hk; apply H; lia|]. rewrite E'. cbn [bind]. eauto.
Qed.

Lemma build_rkd_inv n ts : build_rkd_tree alg it cm fuel sp stop bnds ru gauss n = Ok ts ->
  0 < n /\ length ts = n /\ Forall (fun t => exists k, k < n /\ built k t) ts.
Proof.
  unfold build_rkd_tree. intros H.
  destruct (guard (0 <? n) UbAssert) as [u| |] eqn:E; cbn [bind] in H; try discriminate.
  apply guard_ok in E. apply Nat.ltb_lt in E. apply build_loop_inv in H as [L F]. split; auto. split; auto.
  eapply Forall_impl; [|exact F]. intros a (k & Hk & B). exists k. split; [lia|auto].
Qed.

Lemma rotate_space_inv r s : rotate_space r sp = Ok s ->
  sp_sdim s = sp_sdim sp /\ Forall2 (fun x y => rotate_point r x = Ok y) (sp_pts sp) (sp_pts s).
Proof.
  unfold rotate_space. destruct (rotate_points r (sp_pts sp)) as [ys| |] eqn:E; cbn [bind]; try discriminate.
  intros [= <-]. cbn. split; auto. apply rotate_points_inv; auto.
Qed.

Lemma Forall2_len {A B} (P : A -> B -> Prop) l l' : Forall2 P l l' -> length l = length l'.
Proof. induction 1; cbn; auto. Qed.

Lemma rotate_space_wf r s : wf_space sp -> length r = sp_sdim sp -> rotate_space r sp = Ok s ->
  wf_space s /\ length (sp_pts s) = length (sp_pts sp).
Proof.
  intros [W1 W2] Hr H. apply rotate_space_inv in H as [E F]. split; [split; [lia|]|symmetry; eapply Forall2_len; eauto].
  rewrite E. clear - F W2 Hr. induction F as [|x y xs ys H F IH]; constructor.
  - inversion W2; subst. unfold rotate_point in H.
    destruct (guard _ _) as [u| |]; cbn [bind] in H; try discriminate. injection H as <-. rewrite length_tab. auto.
  - apply IH. inversion W2; auto.
Qed.

End Inv.

Lemma forest_make_inv {T} {S : Scalar T} alg it cm m fuel gauss (sp : space T) leaf_size n f :
  kd_forest_make alg it cm m fuel gauss sp leaf_size n = Ok f ->
  kf_space f = sp /\ kf_metric f = m /\ 0 < n /\ length (kf_data f) = n
  /\ Forall (fun t => exists k, k < n /\ built alg it cm fuel sp (max_leaf_size leaf_size) bounds_from_space
       sliding_midpoint_max_side gauss k t) (kf_data f).
Proof.
  unfold kd_forest_make. intros H.
  match type of H with bind ?e _ = _ => destruct e as [d| |] eqn:E end; cbn [bind] in H; try discriminate.
  injection H as <-. apply build_rkd_inv in E as (A & B & C). cbn. auto.
Qed.

Lemma sliding_ne : sliding_midpoint_max_side <> midpoint_max_side.
Proof. discriminate. Qed.

Lemma random_normal_length {T} {S : Scalar T} (cm : cmath T) g n : length (random_normal cm g n) = n.
Proof. unfold random_normal. rewrite normalize_length, length_tab. reflexivity. Qed.

Lemma shown_app {T V} (vis : visitor T V) a b v : shown_to vis (a ++ b) v = shown_to vis b (shown_to vis a v).
Proof. unfold shown_to. apply fold_left_app. Qed.

Lemma shown_visits {T V} {S : Scalar T} (m : metric T) (vis : visitor T V) sp q l v :
  visits m vis sp q l v = shown_to vis (map (fun i => (i, m_dist m q (sp_at sp i))) l) v.
Proof. revert v. induction l as [|i l IH]; intros v; cbn; auto. apply IH. Qed.

Lemma map_fst_pair {A B} (g : A -> B) l : map fst (map (fun i => (i, g i)) l) = l.
Proof. rewrite map_map. apply map_id. Qed.

(** The bound on the size of leaves. *)
Lemma built_leaves {T} {S : Scalar T} (ok : T -> Prop) (OL : ord_laws S ok) alg (SL : std_laws alg) it fuel
  (s : space T) (leaf : Z) bnds ru (t : kd_tree_data Topological T) :
  index_type_ok it -> (0 < leaf <= it_max it)%Z ->
  build Topological alg it fuel s (max_leaf_size leaf) bnds ru = Ok t ->
  leaves_le (Z.to_nat leaf) (kd_root t).
Proof.
  intros Hi Hl H. apply leaf_levels_le with (h := 0).
  eapply Forall_impl; [|eapply build_leaf_size; eauto]. intros [h len] Hlen. cbn in Hlen. lia.
Qed.

(** * Any scalar type *)
Section Any.
Context {T : Type} {S : Scalar T} (ok : T -> Prop) (OL : ord_laws S ok).
Variables (pq : pqueue T) (QL : queue_laws S pq) (alg : std_algos) (SL : std_laws alg).
Variables (it : index_type) (cm : cmath T) (m : metric T) (fuel : nat) (gauss : nat -> nat -> T) (sp : space T)
  (leaf_size : Z) (n : nat) (f : kd_forest T) (q : list T) (budget : nat).
Hypotheses (WF : wf_space sp) (HI : index_type_ok it) (HLS : (0 < leaf_size <= it_max it)%Z)
  (HM : kd_forest_make alg it cm m fuel gauss sp leaf_size n = Ok f)
  (OKS : Forall (fun t => all_coords ok (rk_space t)) (kf_data f))
  (LQ : length q = sp_sdim sp).
Context {V : Type} (vis : visitor T V).

(** One tree shows each of its points at most once. *)
Definition tree_shows (t : rkd_tree T) (s : list (nat * T)) : Prop :=
  NoDup (map fst s) /\ length s <= budget * Z.to_nat leaf_size
  /\ exists p, rotate_point (rk_rotation t) q = Ok p
     /\ Forall (fun x => fst x < npts sp /\ snd x = m_dist m p (nth (fst x) (sp_pts (rk_space t)) [])) s.

Lemma one_tree t k v0 : all_coords ok (rk_space t) ->
  built alg it cm fuel sp (max_leaf_size leaf_size) bounds_from_space sliding_midpoint_max_side gauss k t ->
  exists p s, rotate_point (rk_rotation t) q = Ok p
    /\ priority_search pq m vis (rk_space t) (kd_indices (rk_tree t)) p budget (kd_root (rk_tree t)) v0
       = Ok (shown_to vis s v0)
    /\ tree_shows t s /\ (0 < budget -> s_ltb (v_max vis v0) s_zero = false -> s <> []).
Proof.
  intros OKt (R1 & R2 & R3).
  assert (LR : length (rk_rotation t) = sp_sdim sp) by (rewrite R1; apply random_normal_length).
  destruct (rotate_point_ok (rk_rotation t) q) as (p & Ep & Lp); [lia|].
  pose proof (rotate_space_wf _ _ _ WF LR R2) as [WFs Ns].
  pose proof (rotate_space_inv _ _ _ R2) as [Es _].
  destruct (priority_any ok OL m (rk_space t) WFs OKt p ltac:(lia) alg SL it fuel _ _ _ sliding_ne (rk_tree t) R3
    vis pq QL budget v0) as (shown & rest & P & E & NE & W).
  exists p, (map (fun i => (i, m_dist m p (sp_at (rk_space t) i))) shown).
  split; auto. split; [rewrite E, shown_visits; reflexivity|].
  assert (ND : NoDup (shown ++ rest)) by (eapply Permutation_NoDup; [symmetry; exact P|apply seq_NoDup]).
  split; [split; [|split]|].
  - rewrite map_fst_pair. eapply NoDup_app_l; eauto.
  - rewrite map_length. apply W. eapply built_leaves; eauto.
  - exists p. split; auto. apply Forall_forall. intros x Hx. apply in_map_iff in Hx as (i & <- & Hi). cbn. split; auto.
    unfold npts. rewrite <- Ns. apply In_seq0. eapply Permutation_in; [exact P|]. apply in_or_app; auto.
  - intros Hb Hz. specialize (NE Hb Hz). destruct shown; [congruence|discriminate].
Qed.

Lemma any_trees : forall ts, Forall (fun t => all_coords ok (rk_space t)) ts ->
  Forall (fun t => exists k, k < n /\ built alg it cm fuel sp (max_leaf_size leaf_size) bounds_from_space
       sliding_midpoint_max_side gauss k t) ts ->
  forall v0, exists ss, forest_loop pq m vis budget q ts v0 = Ok (shown_to vis (concat ss) v0)
    /\ Forall2 tree_shows ts ss
    /\ (forall ss1 s ss2, ss = ss1 ++ s :: ss2 -> 0 < budget ->
          s_ltb (v_max vis (shown_to vis (concat ss1) v0)) s_zero = false -> s <> []).
Proof.
  induction ts as [|t ts IH]; intros F1 F2 v0; cbn [forest_loop].
  - exists []. split; [reflexivity|]. split; [constructor|]. intros [|? ?] ? ? E; discriminate E.
  - inversion F1 as [|? ? A1 B1]; inversion F2 as [|? ? A2 B2]; subst. destruct A2 as (k & _ & A2).
    destruct (one_tree t k v0 A1 A2) as (p & s & E1 & E2 & TS & NE).
    rewrite E1. cbn [bind]. rewrite E2. cbn [bind].
    destruct (IH B1 B2 (shown_to vis s v0)) as (ss & E3 & TSS & NES).
    exists (s :: ss). split; [cbn [concat]; rewrite shown_app; exact E3|]. split; [constructor; auto|].
    intros [|s1 ss1] s' ss2 E Hb Hz; injection E as <- ->; [exact (NE Hb Hz)|].
    cbn [concat] in Hz. rewrite shown_app in Hz. exact (NES _ _ _ eq_refl Hb Hz).
Qed.

Lemma forest_any v0 : exists ss, forest_search_nearest pq f vis q budget v0 = Ok (shown_to vis (concat ss) v0)
  /\ Forall2 tree_shows (kf_data f) ss
  /\ (forall ss1 s ss2, ss = ss1 ++ s :: ss2 -> 0 < budget ->
          s_ltb (v_max vis (shown_to vis (concat ss1) v0)) s_zero = false -> s <> []).
Proof.
  apply forest_make_inv in HM as (_ & Em & Hn & L & F). unfold forest_search_nearest. rewrite Em.
  destruct (any_trees (kf_data f) OKS F v0) as (ss & E & TS & NE). exists ss. auto.
Qed.

End Any.

(** * Exact arithmetic *)
Section Exact.
Context {T : Type} {S : Scalar T} (val : T -> Q) (EL : exact_laws S val) (FL : field_laws S val).
Variables (pq : pqueue T) (QL : queue_laws S pq) (alg : std_algos) (SL : std_laws alg).
Variables (it : index_type) (cm : cmath T) (fuel : nat) (gauss : nat -> nat -> T) (sp : space T)
  (leaf_size : Z) (n : nat).
Hypotheses (WF : wf_space sp) (HI : index_type_ok it) (HLS : (0 < leaf_size <= it_max it)%Z).
Variable b : Q.
Hypotheses (NB : norms_le val b sp).

Lemma pts_len x : In x (sp_pts sp) -> length x = sp_sdim sp.
Proof. intros H. destruct WF as [_ W]. rewrite Forall_forall in W. auto. Qed.

Lemma rotated_bound r s : unit_vector (map val r) -> length r = sp_sdim sp -> rotate_space r sp = Ok s ->
  all_coords (fun c => (- b <= val c <= b)%Q) s.
Proof.
  intros U LR H. apply rotate_space_inv in H as [_ F]. destruct NB as [B0 NB'].
  assert (PL := pts_len). unfold all_coords. revert PL NB'.
  induction F as [|x y xs ys E F IH]; intros PL NB'; constructor.
  - inversion NB' as [|? ? N1 N2]; subst. assert (Lx : length x = length r) by (rewrite LR; apply PL; simpl; auto).
    apply (rotate_point_reflect val EL FL) in E as [Ly Fy]; auto.
    assert (HB : (dot (map val y) (map val y) <= b * b)%Q).
    { rewrite (dot_wd _ _ _ _ Fy Fy). rewrite reflect_norm; auto. rewrite !map_length; auto. }
    apply dot_bound in HB; auto. rewrite Forall_map in HB. exact HB.
  - apply IH; [intros; apply PL; simpl; auto|inversion NB'; auto].
Qed.

Lemma bound_rep c : (- b <= val c <= b)%Q -> (b <= val s_max)%Q -> (b <= - val s_lowest)%Q -> representable val c.
Proof. intros H A B. unfold representable. lra. Qed.
Lemma bound_good c : (- b <= val c <= b)%Q -> (b <= val s_max)%Q -> (2 * b < - val s_lowest)%Q -> no_overflow val c.
Proof.
  intros H A B. destruct NB as [B0 _]. split; [apply bound_rep; auto; lra|].
  apply Qle_lt_trans with (2 * b)%Q; auto.
  assert (Qabs (val c) <= b)%Q by (apply Qabs_Qle_condition; lra). lra.
Qed.

Lemma all_coords_impl (P P' : T -> Prop) s : (forall c, P c -> P' c) -> all_coords P s -> all_coords P' s.
Proof. intros H F. eapply Forall_impl; [|exact F]. intros p Hp. eapply Forall_impl; eauto. Qed.

(** ** Construction *)
Lemma reflected k t : unit_vector (map val (rk_rotation t)) ->
  built alg it cm fuel sp (max_leaf_size leaf_size) bounds_from_space sliding_midpoint_max_side gauss k t ->
  reflected_tree val sp t.
Proof.
  intros U (R1 & R2 & R3). assert (LR : length (rk_rotation t) = sp_sdim sp) by (rewrite R1; apply random_normal_length).
  pose proof (rotate_space_wf _ _ _ WF LR R2) as [WFs Ns].
  pose proof (rotate_space_inv _ _ _ R2) as [Es F]. split; auto. split; auto. split.
  - assert (PL := pts_len). clear Ns. revert PL. induction F as [|x y xs ys E F IH]; intros PL; constructor.
    + apply (rotate_point_reflect val EL FL) in E as [_ E]; auto. rewrite LR. apply PL; simpl; auto.
    + apply IH. intros. apply PL; simpl; auto.
  - apply (build_holds (fun _ => True) (exact_ord val EL) (rk_space t) WFs (all_coords_true _) alg SL) in R3 as [P _];
      [|discriminate]. unfold npts. rewrite <- Ns. exact P.
Qed.

Lemma forest_builds (m : metric T) : 0 < n -> sp_pts sp <> [] -> (Z.of_nat (npts sp) <= it_max it)%Z -> npts sp <= fuel ->
  (b <= val s_max)%Q -> (2 * b < - val s_lowest)%Q ->
  (forall i, i < n -> draw_ok val (c_sqrt cm) (tab (sp_sdim sp) (gauss i))) ->
  exists f, kd_forest_make alg it cm m fuel gauss sp leaf_size n = Ok f
    /\ kf_space f = sp /\ length (kf_data f) = n /\ Forall (reflected_tree val sp) (kf_data f).
Proof.
  intros Hn NE HZ HF B1 B2 DR.
  assert (UN : forall k, k < n -> unit_vector (map val (random_normal cm (gauss k) (sp_sdim sp)))).
  { intros k Hk. apply (normalize_unit val EL FL). apply DR. exact Hk. }
  destruct (build_loop_total alg it cm fuel sp (max_leaf_size leaf_size) bounds_from_space sliding_midpoint_max_side
              gauss n 0) as (ts & E).
  { intros k Hk. unfold build_rkd_one. set (r := random_normal cm (gauss k) (sp_sdim sp)).
    assert (LR : length r = sp_sdim sp) by apply random_normal_length.
    destruct (rotate_points_ok r (sp_pts sp)) as (ys & Ey).
    { rewrite LR. apply (proj2 WF). }
    assert (Es : rotate_space r sp = Ok (Space (sp_sdim sp) ys)) by (unfold rotate_space; rewrite Ey; reflexivity).
    rewrite Es. cbn [bind].
    pose proof (rotate_space_wf _ _ _ WF LR Es) as [WFs Ns].
    pose proof (rotated_bound r _ (UN k ltac:(lia)) LR Es) as RB.
    destruct (build_total (fun _ => True) (exact_ord val EL) (Space (sp_sdim sp) ys) WFs (all_coords_true _) alg SL
      (no_overflow val) Topological it fuel (max_leaf_size leaf_size) bounds_from_space sliding_midpoint_max_side)
      as (t & Et); auto.
    - apply exact_range; auto.
    - eapply all_coords_impl; [|exact RB]. intros. apply bound_good; auto.
    - cbn. auto.
    - discriminate.
    - intros Z. rewrite Z in Ns. destruct (sp_pts sp); [congruence|discriminate].
    - rewrite Ns. exact HZ.
    - rewrite Ns. exact HF.
    - rewrite Et. cbn [bind]. eauto. }
  assert (E0 : build_rkd_tree alg it cm fuel sp (max_leaf_size leaf_size) bounds_from_space sliding_midpoint_max_side
            gauss n = Ok ts).
  { unfold build_rkd_tree. rewrite guard_true by (apply Nat.ltb_lt; auto). exact E. }
  exists (KdForest sp m ts). unfold kd_forest_make. rewrite E0. split; [reflexivity|]. cbn.
  apply build_rkd_inv in E0 as (_ & L & F). split; auto. split; auto.
  eapply Forall_impl; [|exact F]. intros t (k & Hk & B). eapply reflected; [|exact B].
  destruct B as (-> & _). auto.
Qed.

(** ** Searches *)
Variables (f : kd_forest T) (q : list T) (budget : nat).
Hypotheses (HM : kd_forest_make alg it cm metric_l2_squared fuel gauss sp leaf_size n = Ok f)
  (UN : Forall (fun t => unit_vector (map val (rk_rotation t))) (kf_data f))
  (B1 : (b <= val s_max)%Q) (B2 : (b <= - val s_lowest)%Q)
  (LQ : length q = sp_sdim sp).
Let D := dist_to val L2Squared sp q.

Lemma rotated_dist t p i : unit_vector (map val (rk_rotation t)) -> length (rk_rotation t) = sp_sdim sp ->
  rotate_space (rk_rotation t) sp = Ok (rk_space t) -> rotate_point (rk_rotation t) q = Ok p -> i < npts sp ->
  (val (m_dist metric_l2_squared p (nth i (sp_pts (rk_space t)) [])) == D i)%Q.
Proof.
  intros U LR R2 Ep Hi.
  pose proof (rotate_space_inv _ _ _ R2) as [_ F].
  apply (rotate_point_reflect val EL FL) in Ep as [_ Fp]; [|lia].
  rewrite (dist_of_val val EL L2Squared) by discriminate. unfold D, dist_to. cbn [dist_of].
  assert (Ei : rotate_point (rk_rotation t) (nth i (sp_pts sp) []) = Ok (nth i (sp_pts (rk_space t)) [])).
  { revert Hi. unfold npts. clear - F. revert i. induction F as [|x y xs ys E F IH]; intros [|i] Hi; cbn in *; try lia; auto.
    apply IH. lia. }
  assert (Li : length (nth i (sp_pts sp) []) = length (rk_rotation t)) by (rewrite LR; apply pts_len, nth_In; exact Hi).
  apply (rotate_point_reflect val EL FL) in Ei as [_ Fi]; auto.
  rewrite (sum_dist_sq_wd _ _ _ _ Fp Fi). apply reflect_dist; auto; rewrite !map_length; lia.
Qed.

Context {V : Type} (vis : visitor T V) (Inv : V -> Prop).
Hypothesis VIS : forall st i d, i < npts sp -> (val d == D i)%Q -> Inv st ->
  Inv (v_visit vis i d st) /\ (val (v_max vis (v_visit vis i d st)) <= val (v_max vis st))%Q.

Definition exact_shows (s : list (nat * T)) : Prop :=
  NoDup (map fst s) /\ length s <= budget * Z.to_nat leaf_size
  /\ Forall (fun x => fst x < npts sp /\ (val (snd x) == D (fst x))%Q) s.

Lemma shown_inv s : Forall (fun x => fst x < npts sp /\ (val (snd x) == D (fst x))%Q) s ->
  forall v, Inv v -> Inv (shown_to vis s v) /\ (val (v_max vis (shown_to vis s v)) <= val (v_max vis v))%Q.
Proof.
  induction 1 as [|[i d] s [H1 H2] F IH]; intros v Hv; cbn.
  - split; auto. apply Qle_refl.
  - cbn in *. destruct (VIS v i d H1 H2 Hv) as [A B]. destruct (IH _ A) as [A' B']. split; auto.
    eapply Qle_trans; eauto.
Qed.

Lemma exact_one_tree t k v0 : Inv v0 -> unit_vector (map val (rk_rotation t)) ->
  built alg it cm fuel sp (max_leaf_size leaf_size) bounds_from_space sliding_midpoint_max_side gauss k t ->
  exists p s, rotate_point (rk_rotation t) q = Ok p
    /\ priority_search pq metric_l2_squared vis (rk_space t) (kd_indices (rk_tree t)) p budget (kd_root (rk_tree t)) v0
       = Ok (shown_to vis s v0)
    /\ exact_shows s /\ (0 < budget -> (0 <= val (v_max vis v0))%Q -> s <> [])
    /\ (npts sp <= budget -> forall j, j < npts sp -> In j (map fst s) \/ (val (v_max vis (shown_to vis s v0)) <= D j)%Q).
Proof.
  intros Hv0 U (R1 & R2 & R3).
  assert (LR : length (rk_rotation t) = sp_sdim sp) by (rewrite R1; apply random_normal_length).
  destruct (rotate_point_ok (rk_rotation t) q) as (p & Ep & Lp); [lia|].
  pose proof (rotate_space_wf _ _ _ WF LR R2) as [WFs Ns].
  pose proof (rotate_space_inv _ _ _ R2) as [Es _].
  assert (RB : all_coords (representable val) (rk_space t)).
  { eapply all_coords_impl; [|eapply rotated_bound; eauto]. intros. apply bound_rep; auto. }
  assert (DD : forall i, i < npts sp -> (val (m_dist metric_l2_squared p (sp_at (rk_space t) i)) == D i)%Q).
  { intros i Hi. apply rotated_dist; auto. }
  destruct (priority_spec val EL metric_l2_squared (fun _ => sq_diff) (rk_space t) WFs RB p ltac:(lia)
    (l2_terms val EL) (fun k v => ltac:(unfold sq_diff; ring)) alg SL it fuel _ _ _ sliding_ne (rk_tree t) R3
    vis pq QL Inv) with (budget := budget) (v0 := v0) as (shown & rest & P & E & NE & F & W); auto.
  { intros st i Hi Hst. rewrite Ns in Hi. apply VIS; auto. }
  exists p, (map (fun i => (i, m_dist metric_l2_squared p (sp_at (rk_space t) i))) shown).
  split; auto. split; [rewrite E, shown_visits; reflexivity|].
  assert (ND : NoDup (shown ++ rest)) by (eapply Permutation_NoDup; [symmetry; exact P|apply seq_NoDup]).
  assert (IN : forall i, In i (shown ++ rest) <-> i < npts sp).
  { intros i. unfold npts. rewrite <- Ns, <- In_seq0. split; apply Permutation_in; auto. symmetry; auto. }
  split; [split; [|split]|split].
  - rewrite map_fst_pair. eapply NoDup_app_l; eauto.
  - rewrite map_length. apply W. eapply (built_leaves (fun _ => True)); eauto. apply (exact_ord val EL).
  - apply Forall_forall. intros x Hx. apply in_map_iff in Hx as (i & <- & Hi). cbn.
    assert (i < npts sp) by (apply IN, in_or_app; auto). split; [auto|apply DD; auto].
  - intros Hb Hz. specialize (NE Hb Hz). destruct shown; [congruence|discriminate].
  - intros Hb j Hj. rewrite map_fst_pair. apply IN in Hj as Hj'. apply in_app_iff in Hj' as [Hj'|Hj']; auto. right.
    rewrite <- shown_visits. eapply Qle_trans; [apply F; [rewrite Ns; exact Hb|exact Hj']|].
    rewrite <- (DD j Hj). unfold D_low.
    rewrite (term_sum_dist val EL L2Squared); cbn [valid_for]; auto; try lia.
    + rewrite (dist_of_val val EL L2Squared) by discriminate. apply Qle_refl.
    + destruct WFs as [_ W']. rewrite Forall_forall in W'. unfold sp_at. apply W', nth_In. rewrite Ns. exact Hj.
Qed.

Lemma exact_trees : forall ts, Forall (fun t => unit_vector (map val (rk_rotation t))) ts ->
  Forall (fun t => exists k, k < n /\ built alg it cm fuel sp (max_leaf_size leaf_size) bounds_from_space
       sliding_midpoint_max_side gauss k t) ts ->
  forall v0, Inv v0 -> exists ss, forest_loop pq metric_l2_squared vis budget q ts v0 = Ok (shown_to vis (concat ss) v0)
    /\ length ss = length ts /\ Forall exact_shows ss
    /\ (ts <> [] -> 0 < budget -> (0 <= val (v_max vis v0))%Q -> concat ss <> [])
    /\ (npts sp <= budget -> Forall (fun s => forall j, j < npts sp ->
          In j (map fst s) \/ (val (v_max vis (shown_to vis (concat ss) v0)) <= D j)%Q) ss).
Proof.
  induction ts as [|t ts IH]; intros F1 F2 v0 H0; cbn [forest_loop].
  - exists []. repeat split; auto.
  - inversion F1 as [|? ? A1 C1]; inversion F2 as [|? ? A2 C2]; subst. destruct A2 as (k & _ & A2).
    destruct (exact_one_tree t k v0 H0 A1 A2) as (p & s & E1 & E2 & TS & NE & ALL).
    rewrite E1. cbn [bind]. rewrite E2. cbn [bind].
    destruct (shown_inv s (proj2 (proj2 TS)) v0 H0) as [HI' _].
    destruct (IH C1 C2 (shown_to vis s v0) HI') as (ss & E3 & L & TSS & _ & ALLS).
    exists (s :: ss). cbn [concat length]. rewrite shown_app.
    split; [exact E3|]. split; [auto|]. split; [constructor; auto|]. split.
    + intros _ Hb Hz. specialize (NE Hb Hz). destruct s; [congruence|discriminate].
    + intros Hb. constructor; [|exact (ALLS Hb)]. intros j Hj. destruct (ALL Hb j Hj) as [H|H]; auto. right.
      eapply Qle_trans; [|exact H]. apply shown_inv; auto.
      rewrite Forall_concat. eapply Forall_impl; [|exact TSS]. intros s' (_ & _ & H'). exact H'.
Qed.

Lemma forest_exact v0 : Inv v0 -> exists ss,
  forest_search_nearest pq f vis q budget v0 = Ok (shown_to vis (concat ss) v0)
  /\ length ss = n /\ Forall exact_shows ss
  /\ (0 < budget -> (0 <= val (v_max vis v0))%Q -> concat ss <> [])
  /\ (npts sp <= budget -> Forall (fun s => forall j, j < npts sp ->
        In j (map fst s) \/ (val (v_max vis (shown_to vis (concat ss) v0)) <= D j)%Q) ss).
Proof.
  intros H0. pose proof HM as H. apply forest_make_inv in H as (_ & Em & Hn & L & F).
  unfold forest_search_nearest. rewrite Em.
  destruct (exact_trees (kf_data f) UN F v0 H0) as (ss & E & L' & TS & NE & ALL). exists ss.
  split; auto. split; [congruence|]. split; auto. split; auto.
  intros. apply NE; auto. destruct (kf_data f); [cbn in L; lia|discriminate].
Qed.

End Exact.
