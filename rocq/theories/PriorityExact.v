(** Priority search with exact arithmetic: box distances are lower bounds. *)
From Coq Require Import List ZArith QArith Qabs Bool Arith Permutation Lia Lqa.
From Verif Require Import Base ModelBox ModelBuild ModelSearch Spec ModelCover ModelForest SpecForest Lemmas Instances
  BuildProofs BuildOrder BuildShape BuildThms SearchProofs CellThms PriorityThms.
Import ListNotations.
Local Open Scope nat_scope.

Section Hull.
Context {T : Type} {S : Scalar T} (val : T -> Q) (EL : exact_laws S val).
Variables (m : metric T) (t : nat -> Q -> Q -> Q).
Variables (sp : space T) (WF : wf_space sp) (q : list T).
Let n := sp_sdim sp.
Hypothesis LQ : length q = n.
Hypothesis ET : euclidean_terms val m t.
Hypothesis T0 : forall k v, (t k v v == 0)%Q.
Local Notation x i k := (val (coord sp k i)).
Local Notation qv k := (val (get q k)).

(** [y] lies in the bounding box of the points [l]. *)
Definition hull (l : list nat) (y : nat -> Q) : Prop :=
  forall k, k < n -> exists i i', In i l /\ In i' l /\ (x i k <= y k <= x i' k)%Q.
Definition LB_hull (d : T) (l : list nat) : Prop :=
  forall y, hull l y -> (val d <= sumN n (fun k => t k (qv k) (y k)))%Q.

Lemma hull_point l j : In j l -> hull l (fun k => x j k).
Proof. intros H k Hk. exists j, j. repeat split; auto; lra. Qed.

Lemma LB_hull_low d l j : LB_hull d l -> In j l -> (val d <= D_low val t sp q j)%Q.
Proof. intros H Hj. apply (H (fun k => x j k) (hull_point l j Hj)). Qed.

Lemma LB_hull_incl d l l' : LB_hull d l -> incl l' l -> LB_hull d l'.
Proof.
  intros H I y Hy. apply H. intros k Hk. destruct (Hy k Hk) as (i & i' & A & B & C). exists i, i'. auto.
Qed.

Lemma LB_hull_start l : LB_hull s_zero l.
Proof.
  intros y _. rewrite (el_zero _ _ EL). apply sumN_nonneg. intros. apply (et_nonneg _ _ _ ET).
Qed.

Definition R_priority (br : branch_double T) (l r : list nat) : Prop :=
  l <> [] /\ r <> [] /\ tight_branch val sp Topological br l r
  /\ (val (bd_left_max br) <= val (bd_right_min br))%Q.

Lemma LB_hull_step br l r d : R_priority br l r -> LB_hull d (l ++ r) ->
  let v := get q (bd_split_dim br) in
  LB_hull (s_add (s_sub d (old_off m br v)) (new_off m br v)) (if goes_left br v then r else l).
Proof.
  intros (Nl & Nr & (Hd & [MX _] & [MN _] & [[Lmn (il & Il & El)] [Rmx (ir & Ir & Er)]]) & Ho) HL v y Hy.
  cbn [br_split_dim br_left_max br_right_min] in *.
  set (sd := bd_split_dim br) in *.
  change (forall i, In i l -> (x i sd <= val (bd_left_max br))%Q) in MX.
  change (forall i, In i r -> (val (bd_right_min br) <= x i sd)%Q) in MN.
  change (forall i, In i l -> (val (bd_left_min br) <= x i sd)%Q) in Lmn.
  change (forall i, In i r -> (x i sd <= val (bd_right_max br))%Q) in Rmx.
  change (x il sd == val (bd_left_min br))%Q in El. change (x ir sd == val (bd_right_max br))%Q in Er.
  rewrite (el_add _ _ EL), (el_sub _ _ EL).
  (* moving coordinate sd to [c] stays in the hull of both sides *)
  assert (K : forall c, (val (bd_left_min br) <= c <= val (bd_right_max br))%Q ->
     (val d <= sumN n (fun k => t k (qv k) (y k)) - t sd (val v) (y sd) + t sd (val v) c)%Q).
  { intros c Hc. eapply Qle_trans; [apply (HL (fun k => if k =? sd then c else y k))|].
    - intros k Hk. destruct (Nat.eqb_spec k sd) as [->|Hne].
      + exists il, ir. split; [apply in_or_app; auto|]. split; [apply in_or_app; auto|]. rewrite El, Er. lra.
      + destruct (Hy k Hk) as (i & i' & A & B & C). exists i, i'.
        destruct (goes_left br v); repeat split; try (apply in_or_app; auto); apply C.
    - rewrite (sumN_update n (fun k => t k (qv k) (y k)) (fun k => t k (qv k) (if k =? sd then c else y k)) sd); auto.
      + rewrite Nat.eqb_refl. apply Qle_refl.
      + intros k Hk Hne. apply Nat.eqb_neq in Hne. rewrite Hne. reflexivity. }
  pose proof (MX il Il) as A1. pose proof (MN ir Ir) as A2. pose proof (Lmn il Il) as A3. pose proof (Rmx ir Ir) as A4.
  unfold old_off, new_off. destruct (goes_left br v) eqn:EG; unfold goes_left in EG.
  - apply (ltb_val val EL) in EG. rewrite !(el_sub _ _ EL), (el_add _ _ EL), (el_zero _ _ EL) in EG.
    assert (N1 : (t sd (val v) (val (bd_right_min br)) <= t sd (val v) (y sd))%Q).
    { apply (et_mono _ _ _ ET). left. destruct (Hy sd Hd) as (i & i' & A & B & C & _).
      pose proof (MN i A). lra. }
    rewrite (et_app _ _ _ ET sd).
    destruct (s_ltb (bd_left_min br) v) eqn:E2.
    + apply (ltb_val val EL) in E2. specialize (K (val v) ltac:(lra)). rewrite (T0 sd (val v)) in K.
      rewrite (el_zero _ _ EL). lra.
    + apply (ltb_val_false val EL) in E2. rewrite (et_app _ _ _ ET sd).
      specialize (K (val (bd_left_min br)) ltac:(lra)). lra.
  - apply (ltb_val_false val EL) in EG. rewrite !(el_sub _ _ EL), (el_add _ _ EL), (el_zero _ _ EL) in EG.
    assert (N1 : (t sd (val v) (val (bd_left_max br)) <= t sd (val v) (y sd))%Q).
    { apply (et_mono _ _ _ ET). right. destruct (Hy sd Hd) as (i & i' & A & B & _ & C).
      pose proof (MX i' B). lra. }
    rewrite (et_app _ _ _ ET sd).
    destruct (s_ltb v (bd_right_max br)) eqn:E2.
    + apply (ltb_val val EL) in E2. specialize (K (val v) ltac:(lra)). rewrite (T0 sd (val v)) in K.
      rewrite (el_zero _ _ EL). lra.
    + apply (ltb_val_false val EL) in E2. rewrite (et_app _ _ _ ET sd).
      specialize (K (val (bd_right_max br)) ltac:(lra)). lra.
Qed.

End Hull.

Section Main.
Context {T : Type} {S : Scalar T} (val : T -> Q) (EL : exact_laws S val).
Variables (m : metric T) (t : nat -> Q -> Q -> Q) (sp : space T) (WF : wf_space sp)
  (REP : all_coords (representable val) sp) (q : list T).
Hypothesis LQ : length q = sp_sdim sp.
Hypothesis ET : euclidean_terms val m t.
Hypothesis T0 : forall k v, (t k v v == 0)%Q.
Variables (alg : std_algos) (SL : std_laws alg) (it : index_type) (fuel : nat) (stop : stop_condition)
  (bnds : start_bounds T) (ru : rule) (Hru : ru <> midpoint_max_side) (tr : kd_tree_data Topological T).
Hypothesis HB : build Topological alg it fuel sp stop bnds ru = Ok tr.
Let N := length (sp_pts sp).

Lemma priority_spans lo hi nd b l : node_spans (R_order val sp Topological ru lo hi) nd b l ->
  every_branch (fun _ nl nr => 1 <= node_points nl /\ 1 <= node_points nr) nd ->
  node_spans (R_priority val sp) nd b l.
Proof.
  induction 1 as [b l|br nl nr b l r H1 IH1 H2 IH2 HR]; intros EB; constructor.
  all: cbn [every_branch] in EB; destruct EB as ([A B] & EB1 & EB2); auto.
  rewrite node_points_len in A, B. rewrite (node_spans_len _ _ _ _ H1) in A. rewrite (node_spans_len _ _ _ _ H2) in B.
  assert (Nl : l <> []) by (apply length_nonnil; lia).
  assert (Nr : r <> []) by (apply length_nonnil; lia).
  split; [|split; [|split]]; auto.
  - eapply order_tight; eauto.
  - destruct HR as (lb & rb & d & F). rewrite (of_br _ _ _ _ _ _ _ _ _ _ _ _ F). cbn.
    apply (of_order _ _ _ _ _ _ _ _ _ _ _ _ F).
Qed.

Lemma build_priority : Permutation (kd_indices tr) (seq 0 N)
  /\ node_spans (R_priority val sp) (kd_root tr) 0 (kd_indices tr) /\ 0 < N.
Proof.
  pose proof HB as H.
  pose proof (build_nonempty (fun _ => True) (exact_ord val EL) sp WF (all_coords_true sp) alg SL _ _ _ _ _ _ _ Hru H) as (_ & _ & EB & _).
  split; [|split].
  - pose proof H as H0.
    apply (build_holds (fun _ => True) (exact_ord val EL) sp WF (all_coords_true sp) alg SL) in H0 as [P _]; auto.
    congruence.
  - apply build_inv in H as (_ & [Hn HD] & bx' & H & _).
    apply (create_node_order val EL sp WF REP alg SL Topological ru it stop
           (fun _ => val s_lowest) (fun _ => val s_max)) in H.
    + destruct H as (_ & _ & _ & _ & NS). eapply priority_spans; eauto.
    + intros i d Hi Hd. apply (ok_coord (representable val) sp WF REP); auto.
    + apply box_from_bounds_wf.
    + congruence.
    + left. apply length_nonnil. rewrite seq_length. lia.
  - apply build_inv in H as (_ & [Hn HD] & _). exact Hn.
Qed.

Lemma spans_leaves {B} (R : B -> list nat -> list nat -> Prop) nd b l :
  (forall br l r, R br l r -> l <> [] /\ r <> []) -> node_spans R nd b l -> l <> [] -> leaves nd <= length l.
Proof.
  intros HR. induction 1 as [b l|br nl nr b l r H1 IH1 H2 IH2 H]; intros NE; cbn [leaves].
  - destruct l; [congruence|simpl; lia].
  - destruct (HR _ _ _ H). rewrite app_length. specialize (IH1 ltac:(auto)). specialize (IH2 ltac:(auto)). lia.
Qed.

Context {V : Type} (vis : visitor T V) (pq : pqueue T) (QL : queue_laws S pq).
Variable Inv : V -> Prop.
Hypothesis VIS : forall st i, i < N -> Inv st -> Inv (v_visit vis i (m_dist m q (sp_at sp i)) st)
  /\ (val (v_max vis (v_visit vis i (m_dist m q (sp_at sp i)) st)) <= val (v_max vis st))%Q.

Lemma exact_queue_order l : strict_weak (fun a b : queue_pair T => s_ltb (fst a) (fst b)) l.
Proof.
  constructor.
  - intros x _. apply (ltb_val_false val EL). apply Qle_refl.
  - intros x y z _ _ _ A B. apply (ltb_val val EL) in A, B. apply (ltb_val val EL). lra.
  - intros x y z _ _ _ A B. apply (ltb_val_false val EL) in A, B. apply (ltb_val_false val EL). lra.
Qed.

Lemma priority_spec budget v0 : Inv v0 -> exists shown rest, Permutation (shown ++ rest) (seq 0 N)
  /\ priority_search pq m vis sp (kd_indices tr) q budget (kd_root tr) v0 = Ok (visits m vis sp q shown v0)
  /\ (0 < budget -> (0 <= val (v_max vis v0))%Q -> shown <> [])
  /\ (N <= budget -> forall j, In j rest ->
        (val (v_max vis (visits m vis sp q shown v0)) <= D_low val t sp q j)%Q)
  /\ (forall w, leaves_le w (kd_root tr) -> length shown <= budget * w).
Proof.
  intros HI. destruct build_priority as (P & NS & HN).
  assert (IS : forall i, In i (kd_indices tr) <-> i < N).
  { intros i. split; intros H.
    - apply (Permutation_in _ P) in H. apply In_seq0 in H; auto.
    - apply (Permutation_in _ (Permutation_sym P)). apply In_seq0; auto. }
  assert (NE : kd_indices tr <> []).
  { intros E. rewrite E in P. apply Permutation_nil in P. destruct N; [lia|discriminate]. }
  destruct (loop_spec pq QL m vis sp (kd_indices tr) q (R_priority val sp) Inv
    (fun st j => (val (v_max vis st) <= D_low val t sp q j)%Q) (LB_hull val t sp q) (kd_indices tr)
    (fun a b => (val a <= val b)%Q)) with
    (budget := budget) (es := [((s_zero, kd_root tr), kd_indices tr)]) (st := v0)
    as (shown & rest & Pm & E & NT & F & W).
  - intros st i Hi Hin. apply VIS; auto. apply IS; auto.
  - intros st i j Hi Hin HF. eapply Qle_trans; [|exact HF]. apply VIS; auto. apply IS; auto.
  - apply LB_hull_incl.
  - intros d l st HL _ HM j Hj. apply (ltb_val_false val EL) in HM.
    eapply Qle_trans; [exact HM|]. eapply LB_hull_low; eauto.
  - intros d d' l st HL _ Hd HM j Hj. apply (ltb_val val EL) in HM. 
    pose proof (LB_hull_low val t sp q d' l j HL Hj). lra.
  - intros br l r (_ & _ & (Hd & _) & _). rewrite LQ. exact Hd.
  - intros br l r (A & B & _). auto.
  - intros l x r EP y [<-|Hy]; [apply Qle_refl|]. apply (ltb_val_false val EL).
    apply (ql_least _ _ QL _ _ _ EP (exact_queue_order l) y Hy).
  - intros br l r d HR _ HL. apply LB_hull_step; auto.
  - constructor; [|constructor]. cbn. split; [eapply LB_hull_start; eauto|]. split; [apply incl_refl|].
    split; [apply Forall_forall; intros i Hi; apply in_space_lt; apply IS; auto|].
    exists [], []. rewrite app_nil_r. auto.
  - auto.
  - cbn [points map concat snd] in Pm. unfold points in Pm. cbn in Pm. rewrite app_nil_r in Pm.
    exists shown, rest. split; [rewrite Pm; auto|]. split; [exact E|]. split.
    + intros Hb Hz. eapply NT; [lia|reflexivity|auto|]. apply (ltb_val_false val EL).
      rewrite (el_zero _ _ EL). exact Hz.
    + split; [|intros w Hw; apply W; constructor; auto].
      intros Hb. apply F. unfold total. cbn. unfold entry_leaves. cbn. rewrite Nat.add_0_r.
      pose proof (spans_leaves (R_priority val sp) (kd_root tr) 0 (kd_indices tr)) as L.
      apply Permutation_length in P. rewrite seq_length in P.
      eapply Nat.le_trans; [apply L; auto|rewrite P; exact Hb]. intros br l r (A & B & _). auto.
Qed.

End Main.

(** For any scalar type: no undefined behaviour, every point at most once. *)
Section Any.
Context {T : Type} {S : Scalar T} (ok : T -> Prop) (OL : ord_laws S ok).
Variables (m : metric T) (sp : space T) (WF : wf_space sp) (OKS : all_coords ok sp) (q : list T).
Hypothesis LQ : length q = sp_sdim sp.
Variables (alg : std_algos) (SL : std_laws alg) (it : index_type) (fuel : nat) (stop : stop_condition)
  (bnds : start_bounds T) (ru : rule) (Hru : ru <> midpoint_max_side) (tr : kd_tree_data Topological T).
Hypothesis HB : build Topological alg it fuel sp stop bnds ru = Ok tr.
Context {V : Type} (vis : visitor T V) (pq : pqueue T) (QL : queue_laws S pq).
Let N := length (sp_pts sp).

Definition R_any (br : branch_double T) (l r : list nat) : Prop :=
  l <> [] /\ r <> [] /\ bd_split_dim br < sp_sdim sp.

Lemma any_spans nd b l : node_spans (R_holds ok sp Topological) nd b l ->
  every_branch (fun _ nl nr => 1 <= node_points nl /\ 1 <= node_points nr) nd ->
  node_spans R_any nd b l.
Proof.
  induction 1 as [b l|br nl nr b l r H1 IH1 H2 IH2 HR]; intros EB; constructor.
  all: cbn [every_branch] in EB; destruct EB as ([A B] & EB1 & EB2); auto.
  rewrite node_points_len in A, B. rewrite (node_spans_len _ _ _ _ H1) in A. rewrite (node_spans_len _ _ _ _ H2) in B.
  split; [apply length_nonnil; lia|]. split; [apply length_nonnil; lia|].
  destruct HR as (lb & rb & d & -> & Hd & _). exact Hd.
Qed.

Lemma priority_any budget v0 : exists shown rest, Permutation (shown ++ rest) (seq 0 N)
  /\ priority_search pq m vis sp (kd_indices tr) q budget (kd_root tr) v0 = Ok (visits m vis sp q shown v0)
  /\ (0 < budget -> s_ltb (v_max vis v0) s_zero = false -> shown <> [])
  /\ (forall w, leaves_le w (kd_root tr) -> length shown <= budget * w).
Proof.
  pose proof (build_nonempty ok OL sp WF OKS alg SL _ _ _ _ _ _ _ Hru HB) as (_ & _ & EB & _).
  pose proof (build_inv _ _ _ _ _ _ _ _ _ HB) as (_ & [HN _] & _).
  pose proof HB as HB'. apply (build_holds ok OL sp WF OKS alg SL) in HB' as [P NS]; [|congruence].
  apply any_spans in NS; auto. fold N in P, HN.
  assert (IS : forall i, In i (kd_indices tr) <-> i < N).
  { intros i. split; intros H.
    - apply (Permutation_in _ P) in H. apply In_seq0 in H; auto.
    - apply (Permutation_in _ (Permutation_sym P)). apply In_seq0; auto. }
  assert (NE : kd_indices tr <> []).
  { intros E. rewrite E in P. apply Permutation_nil in P. destruct N; [lia|discriminate]. }
  destruct (loop_spec pq QL m vis sp (kd_indices tr) q R_any (fun _ => True)
    (fun _ _ => True) (fun _ _ => True) (kd_indices tr) (fun _ _ => True)) with
    (budget := budget) (es := [((s_zero, kd_root tr), kd_indices tr)]) (st := v0)
    as (shown & rest & Pm & E & NT & F & W); auto.
  - intros br l r (_ & _ & Hd). rewrite LQ. exact Hd.
  - intros br l r (A & B & _). auto.
  - constructor; [|constructor]. cbn. split; [auto|]. split; [apply incl_refl|].
    split; [apply Forall_forall; intros i Hi; apply in_space_lt; apply IS; auto|].
    exists [], []. rewrite app_nil_r. auto.
  - unfold points in Pm. cbn in Pm. rewrite app_nil_r in Pm.
    exists shown, rest. split; [rewrite Pm; auto|]. split; [exact E|]. split.
    + intros Hb Hz. eapply NT; [lia|reflexivity|auto|auto].
    + intros w Hw. apply W. constructor; auto.
Qed.

End Any.
