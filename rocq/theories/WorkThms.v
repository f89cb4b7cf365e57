(** Proofs about which leaves a search looks at. *)
From Coq Require Import List ZArith QArith Qabs Bool Arith Permutation Lia Lqa.
From Verif Require Import Base ModelBox ModelBuild ModelSearch Spec Lemmas Instances
  BuildProofs BuildOrder BuildShape BuildThms SearchProofs SearchThms Metrics Visitors QueryThms BoxThms
  TopThms MetricThms UserThms MoreThms CellThms SpecLoad LoadThms SpecWork.
Import ListNotations.
Local Open Scope nat_scope.

Lemma app_split {A} (l1 l2 : list A) : forall a x b, l1 ++ l2 = a ++ x :: b ->
  (exists b', l1 = a ++ x :: b') \/ (exists a', a = l1 ++ a' /\ l2 = a' ++ x :: b).
Proof.
  induction l1 as [|y l1 IH]; cbn [app]; intros a x b E.
  - right. exists a. auto.
  - destruct a as [|y' a]; cbn [app] in E; injection E as -> E.
    + left. exists l1. reflexivity.
    + apply IH in E as [(b' & ->)|(a' & -> & ->)].
      * left. exists b'. reflexivity.
      * right. exists a'. auto.
Qed.

Lemma every_branch_at_and {B} (P R : B -> list nat -> list nat -> Prop) indices nd :
  every_branch_at P indices nd -> every_branch_at R indices nd ->
  every_branch_at (fun br l r => P br l r /\ R br l r) indices nd.
Proof. induction nd; cbn [every_branch_at]; intuition. Qed.

Lemma leaves_nodup l : forall a c, consecutive a l c -> Forall (fun '(b, e) => b < e) l ->
  NoDup l /\ Forall (fun '(b, e) => a <= b) l.
Proof.
  induction l as [|[b e] l IH]; intros a c H F; [split; constructor|].
  inversion H as [|? b0 ? ? Hab Hr]; subst. inversion F as [|? ? Hbe F']; subst.
  destruct (IH _ _ Hr F') as [N G]. split.
  - constructor; auto. intros I. rewrite Forall_forall in G. specialize (G _ I). cbn in G. lia.
  - constructor; [lia|]. eapply Forall_impl; [|exact G]. intros [x y]; lia.
Qed.

Lemma levels_intervals {B} (nd : node B) : forall h, Forall (fun '(_, len) => 1 <= len) (leaf_levels h nd) ->
  Forall (fun '(b, e) => b < e) (leaf_intervals nd).
Proof.
  induction nd as [b e|br l IHl r IHr]; cbn [leaf_levels leaf_intervals]; intros h F.
  - inversion F; subst. constructor; [lia|constructor].
  - apply Forall_app in F as [F1 F2]. apply Forall_app. split; eauto.
Qed.

Lemma NoDup_app_disjoint {A} (l1 l2 : list A) : NoDup (l1 ++ l2) -> NoDup l1 /\ NoDup l2 /\ (forall x, In x l1 -> In x l2 -> False).
Proof.
  induction l1 as [|x l1 IH]; cbn [app]; intros H; [repeat split; auto; constructor|].
  inversion H as [|? ? N D]; subst. destruct (IH D) as (A1 & A2 & A3). repeat split; auto.
  - constructor; auto. intros I. apply N, in_or_app; auto.
  - intros y [->|I] J; [apply N, in_or_app; auto|eauto].
Qed.
Lemma NoDup_app_intro {A} (l1 l2 : list A) : NoDup l1 -> NoDup l2 -> (forall x, In x l1 -> In x l2 -> False) -> NoDup (l1 ++ l2).
Proof.
  induction l1 as [|x l1 IH]; cbn [app]; intros H1 H2 H3; auto. inversion H1; subst. constructor.
  - intros I. apply in_app_or in I as [I|I]; auto. apply (H3 x); cbn; auto.
  - apply IH; auto. intros y I J. apply (H3 y); cbn; auto.
Qed.

Section Work.
Context {T : Type} {S : Scalar T} (val : T -> Q) (EL : exact_laws S val) {V : Type}.
Variables (m : metric T) (t : nat -> Q -> Q -> Q) (sp : space T) (indices : list nat) (q : list T)
  (vis : visitor T V).
Hypotheses (ET : euclidean_terms val m t) (FI : Forall (fun i => i < npts sp) indices) (LQ : length q = sp_sdim sp).
Let n := sp_sdim sp.
Let qp := place val q.
Let R (br : branch_single T) (l r : list nat) : Prop :=
  tight_branch val sp Euclidean br l r /\ true_branch val m sp Euclidean br l r.

Let dist (z : nat -> Q) : Q := sumN n (fun k => t k (qp k) (z k)).

(** The part of the offsets: where the nearest corner is. *)
Definition slack (z : nat -> Q) (pts : list nat) (k : nat) : Prop :=
  (z k == qp k \/ (qp k < z k /\ forall j, In j pts -> z k <= coord_val val sp j k)
   \/ (z k < qp k /\ forall j, In j pts -> coord_val val sp j k <= z k))%Q.

Record at_node (z : nat -> Q) (pts : list nat) (o : list T) (d : T) : Prop := {
  an_len : length o = n;
  an_off : forall k, k < n -> (val (nth k o s_zero) == t k (qp k) (z k))%Q;
  an_dist : (val d == dist z)%Q;
  an_slack : forall k, k < n -> slack z pts k
}.

Definition moved (z z' : nat -> Q) (pts : list nat) : Prop :=
  forall k, k < n -> z' k = z k \/ exists j, In j pts /\ (z' k == coord_val val sp j k)%Q.

Notation Nd := (node (branch_data Euclidean T)).
Notation cell := (@in_cell T val Euclidean).

Record outcome (nd : Nd) (z : nat -> Q) (v : V) (ls : list (nat * nat)) : Prop := {
  oc_incl : incl ls (leaf_intervals nd);
  oc_nodup : NoDup ls;
  oc_first : exists b e rest, ls = (b, e) :: rest /\ cell qp b e nd /\ cell z b e nd;
  oc_rest : forall before b e after, ls = before ++ (b, e) :: after -> before <> [] ->
    exists z', cell z' b e nd /\ moved z z' (node_indices indices nd)
      /\ (dist z' <= val (v_max vis (shown m sp indices q vis v before)))%Q
}.

Lemma shown_app v l1 l2 : shown m sp indices q vis v (l1 ++ l2)
  = shown m sp indices q vis (shown m sp indices q vis v l1) l2.
Proof. unfold shown, points_in. rewrite flat_map_app, fold_left_app. reflexivity. Qed.

Lemma dist_upd z k x : k < n -> (dist (upd z k x) == dist z - t k (qp k) (z k) + t k (qp k) x)%Q.
Proof.
  intros Hk. unfold dist.
  rewrite (sumN_update n (fun k => t k (qp k) (z k)) _ k Hk).
  - unfold upd. rewrite Nat.eqb_refl. reflexivity.
  - intros j Hj N. unfold upd. apply Nat.eqb_neq in N. rewrite N. reflexivity.
Qed.

Lemma node_indices_branch (br : branch_single T) (l r : Nd) :
  node_indices indices (Branch br l r) = node_indices indices l ++ node_indices indices r.
Proof. unfold node_indices. cbn [leaf_intervals]. apply flat_map_app. Qed.

(** One side of a branch, the nearer one or the further. *)
Lemma combine (br : branch_single T) (nl nr : Nd) (gl : bool) z v ls1 ls2 x :
  NoDup (leaf_intervals (Branch (B := branch_data Euclidean T) br nl nr)) ->
  let near := if gl then nl else nr in
  let far := if gl then nr else nl in
  let k := bs_split_dim br in
  let z1 := upd z k x in
  k < n ->
  (forall z' b e, cell z' b e near -> (z' k = qp k \/ z' k = z k \/ exists j, In j (node_indices indices near) /\ (z' k == coord_val val sp j k)%Q) ->
     cell z' b e (Branch br nl nr)) ->
  (forall z' b e, cell z' b e far -> (z' k = x \/ exists j, In j (node_indices indices far) /\ (z' k == coord_val val sp j k)%Q) ->
     cell z' b e (Branch br nl nr)) ->
  (exists j, In j (node_indices indices far) /\ (x == coord_val val sp j k)%Q) ->
  outcome near z v ls1 ->
  (dist z1 <= val (v_max vis (shown m sp indices q vis v ls1)))%Q ->
  outcome far z1 (shown m sp indices q vis v ls1) ls2 ->
  outcome (Branch br nl nr) z v (ls1 ++ ls2).
Proof.
  intros ND near far k z1 Hk HN HF Hx [I1 D1 (b1 & e1 & r1 & E1 & C1 & C1') R1] HM [I2 D2 (b2 & e2 & r2 & E2 & C2 & C2') R2].
  assert (SN : incl (leaf_intervals near) (leaf_intervals (Branch (B := branch_data Euclidean T) br nl nr))).
  { unfold near. cbn [leaf_intervals]. destruct gl; intros y Hy; apply in_or_app; auto. }
  assert (SF : incl (leaf_intervals far) (leaf_intervals (Branch (B := branch_data Euclidean T) br nl nr))).
  { unfold far. cbn [leaf_intervals]. destruct gl; intros y Hy; apply in_or_app; auto. }
  assert (PN : incl (node_indices indices near) (node_indices indices (Branch (B := branch_data Euclidean T) br nl nr))).
  { rewrite node_indices_branch. unfold near. destruct gl; intros y Hy; apply in_or_app; auto. }
  assert (PF : incl (node_indices indices far) (node_indices indices (Branch (B := branch_data Euclidean T) br nl nr))).
  { rewrite node_indices_branch. unfold far. destruct gl; intros y Hy; apply in_or_app; auto. }
  assert (M1 : forall z', moved z1 z' (node_indices indices far) -> moved z z' (node_indices indices (Branch (B := branch_data Euclidean T) br nl nr))).
  { intros z' M j Hj. destruct (M j Hj) as [E|(i & Hi & E)]; [|right; eauto].
    unfold z1, upd in E. destruct (j =? k) eqn:Ej; auto. apply Nat.eqb_eq in Ej. subst j.
    right. destruct Hx as (i & Hi & Ex). exists i. split; auto. rewrite E. auto. }
  constructor.
  - intros y Hy. apply in_app_or in Hy as [Hy|Hy]; auto.
  - apply NoDup_app_intro; auto. intros y A B. apply I1 in A. apply I2 in B.
    apply NoDup_app_disjoint in ND as (_ & _ & DJ). unfold near, far in *. destruct gl; eapply DJ; eauto.
  - exists b1, e1, (r1 ++ ls2). rewrite E1. split; [reflexivity|]. split; apply HN; auto.
  - intros before b e after E NB. apply app_split in E as [(b' & E)|(a' & -> & E)].
    + destruct (R1 _ _ _ _ E NB) as (z' & C & M & L). exists z'. split.
      { apply HN; auto. }
      split; auto. intros j Hj. destruct (M j Hj) as [|(i & Hi & Ei)]; auto. right. eauto.
    + rewrite shown_app. destruct a' as [|y a'].
      * cbn [app] in E. rewrite E2 in E. injection E as <- <- <-. exists z1. split.
        { apply HF; auto. left. unfold z1, upd. rewrite Nat.eqb_refl. reflexivity. }
        split; [apply M1; intros j Hj; auto|]. exact HM.
      * destruct (R2 _ _ _ _ E ltac:(discriminate)) as (z' & C & M & L). exists z'. split.
        { apply HF; auto. destruct (M k Hk) as [Ez|]; auto. left. rewrite Ez. unfold z1, upd. rewrite Nat.eqb_refl. reflexivity. }
        split; auto.
Qed.

Lemma near_only (br : branch_single T) (nl nr : Nd) (gl : bool) z v ls1 :
  let near := if gl then nl else nr in
  let k := bs_split_dim br in
  k < n ->
  (forall z' b e, cell z' b e near -> (z' k = qp k \/ z' k = z k \/ exists j, In j (node_indices indices near) /\ (z' k == coord_val val sp j k)%Q) ->
     cell z' b e (Branch br nl nr)) ->
  outcome near z v ls1 -> outcome (Branch br nl nr) z v ls1.
Proof.
  intros near k Hk HN [I1 D1 (b1 & e1 & r1 & E1 & C1 & C1') R1].
  assert (SN : incl (leaf_intervals near) (leaf_intervals (Branch (B := branch_data Euclidean T) br nl nr))).
  { unfold near. cbn [leaf_intervals]. destruct gl; intros y Hy; apply in_or_app; auto. }
  assert (PN : incl (node_indices indices near) (node_indices indices (Branch (B := branch_data Euclidean T) br nl nr))).
  { rewrite node_indices_branch. unfold near. destruct gl; intros y Hy; apply in_or_app; auto. }
  constructor.
  - intros y Hy. auto.
  - auto.
  - exists b1, e1, r1. split; [auto|]. split; apply HN; auto.
  - intros before b e after E NB.
    destruct (R1 _ _ _ _ E NB) as (z' & C & M & L). exists z'. split.
    { apply HN; auto. }
    split; auto. intros j Hj. destruct (M j Hj) as [|(i & Hi & Ei)]; auto. right. eauto.
Qed.

Lemma work (nd : Nd) :
  Forall (fun '(b, e) => b <= length indices /\ e <= length indices) (leaf_intervals nd) ->
  NoDup (leaf_intervals nd) ->
  every_branch_at R indices nd ->
  forall z o d v, at_node z (node_indices indices nd) o d ->
  exists ls, search_gen m vis sp indices q (decide_euclidean m q) nd d (o, v) = Ok (o, shown m sp indices q vis v ls)
    /\ outcome nd z v ls.
Proof.
  induction nd as [b e|br nl IHl nr IHr]; intros FL ND FB z o d v AN.
  - exists [(b, e)]. cbn [leaf_intervals] in FL. pose proof (Forall_inv FL) as [Hb He].
    cbn [search_gen fst snd]. unfold slice. apply Nat.leb_le in Hb, He. rewrite Hb, He. cbn [andb bind].
    rewrite (visit_range_visits m vis sp q).
    2:{ apply Forall_forall. intros i Hi. unfold in_space, sp_size. apply Nat.ltb_lt.
        rewrite Forall_forall in FI. apply FI. eapply in_skipn, in_firstn; eauto. }
    cbn [bind]. split.
    { unfold shown, points_in. cbn [flat_map]. rewrite app_nil_r. reflexivity. }
    constructor.
    + cbn [leaf_intervals]. apply incl_refl.
    + constructor; [intros []|constructor].
    + exists b, e, []. split; [reflexivity|]. split; constructor.
    + intros [|y before] b' e' after E NB; [congruence|]. destruct before; discriminate.
  - cbn [leaf_intervals] in FL. pose proof ND as ND0. cbn [leaf_intervals] in ND0.
    apply NoDup_app_disjoint in ND0 as (NDl & NDr & _).
    cbn [every_branch_at] in FB. apply Forall_app in FL as [Fl Fr]. destruct FB as ((TI & TR) & Bl & Br).
    unfold tight_branch in TI. unfold true_branch in TR. cbn [br_split_dim br_left_max br_right_min] in TI.
    destruct TI as (Hk & [Lle (jl & Ijl & Ejl)] & [Rge (jr & Ijr & Ejr)] & _).
    destruct TR as (_ & _ & _ & LR).
    set (k := bs_split_dim br) in *. fold n in Hk.
    destruct AN as [Lo Ho Hd Hs]. rewrite node_indices_branch in Hs.
    cbn [search_gen]. unfold decide_euclidean at 1. fold k.
    rewrite (at_lt q k s_zero) by (rewrite LQ; exact Hk). cbn [bind].
    set (vq := nth k q s_zero) in *.
    assert (Q0 : qp k = val vq) by reflexivity.
    assert (SL : forall pts, incl pts (node_indices indices nl ++ node_indices indices nr) -> forall j, j < n -> slack z pts j).
    { intros pts Hp j Hj. destruct (Hs j Hj) as [A|[[A B]|[A B]]]; [left|right; left|right; right]; auto. }
    assert (AO : forall x, at_ o k = Ok x -> x = nth k o s_zero).
    { intros x E. rewrite (at_lt o k s_zero) in E by (rewrite Lo; exact Hk). congruence. }
    assert (step : forall (gl : bool) (xT : T),
      let near := if gl then nl else nr in
      let far := if gl then nr else nl in
      (forall z' b e, cell z' b e near -> (z' k = qp k \/ z' k = z k \/ exists j, In j (node_indices indices near) /\ (z' k == coord_val val sp j k)%Q) ->
         cell z' b e (Branch br nl nr)) ->
      (forall z' b e, cell z' b e far -> (z' k = val xT \/ exists j, In j (node_indices indices far) /\ (z' k == coord_val val sp j k)%Q) ->
         cell z' b e (Branch br nl nr)) ->
      (exists j, In j (node_indices indices far) /\ (val xT == coord_val val sp j k)%Q) ->
      (forall pts, incl pts (node_indices indices far) -> slack (upd z k (val xT)) pts k) ->
      exists ls, (do st1 <- search_gen m vis sp indices q (decide_euclidean m q) near d (o, v);
        do old_offset <- at_ (fst st1) k;
        let dist' := s_add (s_sub d old_offset) (m_app m (s_sub xT vq)) in
        if s_leb dist' (v_max vis (snd st1)) then
          do st2 <- search_gen m vis sp indices q (decide_euclidean m q) far dist'
                    (set_nth (fst st1) k (m_app m (s_sub xT vq)), snd st1);
          Ok (set_nth (fst st2) k old_offset, snd st2)
        else Ok st1) = Ok (o, shown m sp indices q vis v ls)
        /\ outcome (Branch br nl nr) z v ls).
    { intros gl xT near far HN HF Hx HS.
      assert (IHn : forall z o d v, at_node z (node_indices indices near) o d ->
        exists ls, search_gen m vis sp indices q (decide_euclidean m q) near d (o, v) = Ok (o, shown m sp indices q vis v ls)
          /\ outcome near z v ls) by (unfold near; destruct gl; auto).
      assert (IHf : forall z o d v, at_node z (node_indices indices far) o d ->
        exists ls, search_gen m vis sp indices q (decide_euclidean m q) far d (o, v) = Ok (o, shown m sp indices q vis v ls)
          /\ outcome far z v ls) by (unfold far; destruct gl; auto).
      clear IHl IHr.
      destruct (IHn z o d v) as (ls1 & E1 & O1).
      { constructor; auto. apply SL. unfold near. destruct gl; intros y Hy; apply in_or_app; auto. }
      rewrite E1. cbn [bind fst snd].
      rewrite (at_lt o k s_zero) by (rewrite Lo; exact Hk). cbn [bind]. cbv zeta.
      set (no := m_app m (s_sub xT vq)).
      assert (Eno : (val no == t k (qp k) (val xT))%Q) by (unfold no; rewrite (et_app _ _ _ ET k); rewrite Q0; reflexivity).
      set (d' := s_add (s_sub d (nth k o s_zero)) no).
      assert (Ed' : (val d' == dist (upd z k (val xT)))%Q).
      { unfold d'. rewrite (el_add _ _ EL), (el_sub _ _ EL), Hd, (Ho k Hk), Eno, (dist_upd z k (val xT) Hk). reflexivity. }
      destruct (s_leb d' (v_max vis (shown m sp indices q vis v ls1))) eqn:EB.
      - destruct (IHf (upd z k (val xT)) (set_nth o k no) d' (shown m sp indices q vis v ls1)) as (ls2 & E2 & O2).
        { constructor.
          - rewrite length_set_nth. exact Lo.
          - intros j Hj. unfold upd. destruct (j =? k) eqn:Ej.
            + apply Nat.eqb_eq in Ej. subst j. rewrite nth_set_nth_same by (rewrite Lo; exact Hk). exact Eno.
            + apply Nat.eqb_neq in Ej. rewrite nth_set_nth_other by auto. auto.
          - exact Ed'.
          - intros j Hj. destruct (Nat.eq_dec j k) as [->|Nj].
            + apply HS. apply incl_refl.
            + unfold slack. unfold upd. apply Nat.eqb_neq in Nj. rewrite Nj.
              apply (SL (node_indices indices far)); auto.
              unfold far. destruct gl; intros y Hy; apply in_or_app; auto. }
        rewrite E2. cbn [bind fst snd]. exists (ls1 ++ ls2). split.
        + rewrite shown_app. f_equal. f_equal. apply set_restore. apply at_lt. rewrite Lo. exact Hk.
        + eapply (combine br nl nr gl z v ls1 ls2 (val xT)); auto.
          apply (leb_val val EL) in EB. rewrite Ed' in EB. exact EB.
      - exists ls1. split; [reflexivity|]. eapply (near_only br nl nr gl z v ls1); auto. }
    assert (CT : forall x : bool, (if x then true else false) = x) by (intros []; reflexivity).
    destruct (s_ltb s_zero (s_sub (s_sub (s_add (bs_left_max br) (bs_right_min br)) vq) vq)) eqn:EB; cbn [bind].
    + apply (ltb_val val EL) in EB. rewrite !(el_sub _ _ EL), (el_add _ _ EL), (el_zero _ _ EL) in EB.
      apply (step true (bs_right_min br)); cbv zeta; clear step.
      * intros z' b e C Hz. apply cell_left; auto. cbn [br_split_dim br_left_max br_right_min]. fold k.
        destruct Hz as [->|[->|(j & Hj & Ej)]].
        -- rewrite Q0. lra.
        -- destruct (Hs k Hk) as [A|[[A B]|[A B]]].
           ++ rewrite A, Q0. lra.
           ++ specialize (B jl ltac:(apply in_or_app; auto)). lra.
           ++ rewrite Q0 in A. lra.
        -- rewrite Ej. specialize (Lle j Hj). lra.
      * intros z' b e C Hz. apply cell_right; auto. cbn [br_split_dim br_left_max br_right_min]. fold k.
        destruct Hz as [->|(j & Hj & Ej)]; [lra|]. rewrite Ej. specialize (Rge j Hj). lra.
      * exists jr. split; auto. symmetry. exact Ejr.
      * intros pts Hp. right. left. unfold upd. rewrite Nat.eqb_refl. split; [rewrite Q0; lra|]. intros j Hj. apply Rge. auto.
    + apply (ltb_val_false val EL) in EB. rewrite !(el_sub _ _ EL), (el_add _ _ EL), (el_zero _ _ EL) in EB.
      apply (step false (bs_left_max br)); cbv zeta; clear step.
      * intros z' b e C Hz. apply cell_right; auto. cbn [br_split_dim br_left_max br_right_min]. fold k.
        destruct Hz as [->|[->|(j & Hj & Ej)]].
        -- rewrite Q0. lra.
        -- destruct (Hs k Hk) as [A|[[A B]|[A B]]].
           ++ rewrite A, Q0. lra.
           ++ rewrite Q0 in A. lra.
           ++ specialize (B jr ltac:(apply in_or_app; auto)). lra.
        -- rewrite Ej. specialize (Rge j Hj). lra.
      * intros z' b e C Hz. apply cell_left; auto. cbn [br_split_dim br_left_max br_right_min]. fold k.
        destruct Hz as [->|(j & Hj & Ej)]; [lra|]. rewrite Ej. specialize (Lle j Hj). lra.
      * exists jl. split; auto. symmetry. exact Ejl.
      * intros pts Hp. unfold slack, upd. rewrite Nat.eqb_refl. rewrite Q0.
        destruct (Qlt_le_dec (val (bs_left_max br)) (val vq)) as [A|A].
        -- right. right. split; auto.
        -- left. lra.
Qed.
End Work.

(** * Trees that are made *)
Section Top.
Context {T : Type} {S : Scalar T} (val : T -> Q) (EL : exact_laws S val).
Variables (m : metric T) (t : nat -> Q -> Q -> Q) (sp : space T) (alg : std_algos) (SL : std_laws alg)
  (it : index_type) (fuel : nat) (stop : stop_condition) (bnds : start_bounds T) (ru : rule) (q : list T).
Hypotheses (MF : metric_fits val m t sp bnds q) (NM : ru <> midpoint_max_side).

Lemma made_facts data : build (m_cat m) alg it fuel sp stop bnds ru = Ok data ->
  tree_of val m sp data
  /\ every_branch_at (tight_branch val sp (m_cat m)) (kd_indices data) (kd_root data)
  /\ NoDup (leaf_intervals (kd_root data)).
Proof.
  intros HB. pose proof HB as HB1. pose proof HB as HB2.
  apply (build_order val EL sp (mf_space _ _ _ _ _ _ MF) (mf_range _ _ _ _ _ _ MF) m alg SL) in HB as [P N0]; auto.
  2: apply (mf_points _ _ _ _ _ _ MF).
  2: apply (mf_bounds _ _ _ _ _ _ MF).
  assert (NS : node_spans (true_branch val m sp (m_cat m)) (kd_root data) 0 (kd_indices data)).
  { eapply node_spans_impl; [exact N0|]. intros. apply true_branch_search. eapply R_order_search; eauto. }
  assert (CO : consecutive 0 (leaf_intervals (kd_root data)) (npts sp)).
  { apply spans_consecutive in NS. rewrite (Permutation_length P), seq_length in NS. exact NS. }
  split; [|split].
  - constructor; auto.
    pose proof (spans_every_branch sp _ _ _ _ NS [] [] eq_refl) as K. rewrite app_nil_r in K. exact K.
  - eapply build_tight; eauto; apply MF.
  - pose proof (build_nonempty (fun _ => True) (exact_ord val EL) sp (mf_space _ _ _ _ _ _ MF) (all_coords_true sp) alg SL _ _ _ _ _ _ _ NM HB2) as (LV & _).
    apply levels_intervals in LV. eapply leaves_nodup; eauto.
Qed.
End Top.

Lemma leaves_in_range {T} {S : Scalar T} (val : T -> Q) (m : metric T) (sp : space T) data : tree_of val m sp data ->
  Forall (fun '(b, e) => b <= length (kd_indices data) /\ e <= length (kd_indices data)) (leaf_intervals (kd_root data)).
Proof.
  intros [P C _]. rewrite (Permutation_length P), seq_length. revert C.
  generalize (leaf_intervals (kd_root data)) as l. generalize 0 as a, (npts sp) as c. intros a c l C.
  induction C as [|a b c l H C IH]; constructor; auto. apply consecutive_le in C. lia.
Qed.

Section Visited.
Context {T : Type} {S : Scalar T} (val : T -> Q) (EL : exact_laws S val).
Variables (m : metric T) (t : nat -> Q -> Q -> Q) (sp : space T) (alg : std_algos) (SL : std_laws alg)
  (it : index_type) (fuel : nat) (stop : stop_condition) (bnds : start_bounds T) (ru : rule) (q : list T)
  (tree : kd_tree T).
Hypotheses (EU : m_cat m = Euclidean) (NM : ru <> midpoint_max_side)
  (HM : kd_tree_make alg it m fuel sp stop bnds ru = Ok tree)
  (MF : metric_fits val m t sp bnds q) (TZ : forall k x, (t k x x == 0)%Q).
Local Notation root := (kd_root (kt_data tree)).
Local Notation indices := (kd_indices (kt_data tree)).

Lemma visited_cells {V} (vis : visitor T V) v0 : exists ls first rest,
  search_nearest tree vis q v0 = Ok (shown m sp indices q vis v0 ls)
  /\ NoDup ls /\ incl ls (leaf_intervals root)
  /\ ls = first :: rest /\ in_cell val (place val q) (fst first) (snd first) root
  /\ forall before leaf after, ls = before ++ leaf :: after -> before <> [] ->
     exists z, in_cell val z (fst leaf) (snd leaf) root
       /\ (sumN (sp_sdim sp) (fun k => t k (place val q k) (z k))
           <= val (v_max vis (shown m sp indices q vis v0 before)))%Q.
Proof.
  pose proof (mf_query _ _ _ _ _ _ MF) as LQ.
  assert (ET : euclidean_terms val m t).
  { pose proof (mf_terms _ _ _ _ _ _ MF) as TF. destruct TF as [|TT]; auto. pose proof (tt_cat _ _ _ TT). congruence. }
  apply kd_tree_make_inv in HM as (data & -> & HB). cbn [kt_data kt_metric kt_space] in *.
  destruct (made_facts val EL m t sp alg SL it fuel stop bnds ru q MF NM data HB) as (TO & TI & ND).
  pose proof (leaves_in_range val m sp data TO) as FL.
  destruct TO as [P CO TR].
  destruct m as [cat md ma ms]. cbn [m_cat] in *. subst cat.
  set (mm := {| m_cat := Euclidean; m_dist := md; m_app := ma; m_dim_space := ms |}) in *.
  assert (FI : Forall (fun i => i < npts sp) (kd_indices data)).
  { apply Forall_forall. intros i Hi. eapply Permutation_in in Hi; [|exact P]. apply in_seq in Hi. lia. }
  pose proof (every_branch_at_and _ _ _ _ TI TR) as BB.
  destruct (work val EL mm t sp (kd_indices data) q vis ET FI LQ (kd_root data) FL ND BB
    (place val q) (offsets0 sp) s_zero v0) as (ls & E & O).
  { constructor.
    - apply length_tab.
    - intros k Hk. unfold offsets0, tab. rewrite TZ.
      assert (Z : forall l j, nth j (map (fun _ : nat => (s_zero : T)) l) s_zero = s_zero).
      { intros l. induction l as [|a l IH]; intros [|j]; cbn [map nth]; auto. }
      rewrite Z. apply (el_zero _ _ EL).
    - rewrite (el_zero _ _ EL). symmetry. apply sumN_zero. intros k Hk. apply TZ.
    - intros k Hk. left. reflexivity. }
  destruct O as [I N (b & e & rest & E1 & C1 & _) RR].
  exists ls, (b, e), rest. split.
  { unfold search_nearest. cbn [kt_space kt_metric kt_data]. rewrite LQ, Nat.eqb_refl. cbn [guard bind].
    rewrite search_nearest_root_gen.
    match type of E with ?x = _ => match goal with |- bind ?y _ = _ => change y with x end end.
    rewrite E. reflexivity. }
  split; auto. split; auto. split; auto. split; auto.
  intros before [b' e'] after E2 NB. destruct (RR _ _ _ _ E2 NB) as (z & C & _ & L). exists z. split; auto.
Qed.

(** Every place is in the part of some leaf. *)
Lemma cells_cover z : exists leaf, In leaf (leaf_intervals root) /\ in_cell val z (fst leaf) (snd leaf) root.
Proof.
  generalize root as nd. clear. intros nd.
  induction nd as [b e|br l (lf & I & C) r (rf & J & D)]; cbn [leaf_intervals].
  - exists (b, e). split; [left; reflexivity|constructor].
  - destruct (Qlt_le_dec (2 * z (br_split_dim _ br)) (val (br_left_max _ br) + val (br_right_min _ br))) as [H|H].
    + exists lf. split; [apply in_or_app; auto|]. apply cell_left; auto. apply Qlt_le_weak; auto.
    + exists rf. split; [apply in_or_app; auto|]. apply cell_right; auto.
Qed.

(** The points of a leaf are in its part. *)
Lemma cells_points b e i : In (b, e) (leaf_intervals root) -> In i (points_in indices [(b, e)]) ->
  in_cell val (place val (nth i (sp_pts sp) [])) b e root.
Proof.
  apply kd_tree_make_inv in HM as (data & -> & HB). cbn [kt_data kt_metric kt_space] in *.
  destruct (made_facts val EL m t sp alg SL it fuel stop bnds ru q MF NM data HB) as ([_ _ TR] & TI & _).
  clear HB. destruct m as [cat md ma ms]. cbn [m_cat] in *. subst cat.
  set (mm := {| m_cat := Euclidean; m_dist := md; m_app := ma; m_dim_space := ms |}) in *.
  pose proof (every_branch_at_and _ _ _ _ TI TR) as BB. clear TI TR. revert BB.
  intros BB I HI. unfold points_in in HI. cbn [flat_map] in HI. rewrite app_nil_r in HI.
  revert BB I. generalize (kd_root data) as nd. intros nd.
  induction nd as [b' e'|br l IHl r IHr]; cbn [every_branch_at leaf_intervals].
  - intros _ [E|[]]. injection E as -> ->. constructor.
  - intros (((_ & [Lle _] & [Rge _] & _) & TR) & Bl & Br) I. unfold true_branch in TR. destruct TR as (_ & _ & _ & LR).
    cbn [br_split_dim br_left_max br_right_min] in *.
    apply in_app_or in I as [I|I].
    + apply cell_left; auto. cbn [br_split_dim br_left_max br_right_min].
      specialize (Lle i ltac:(unfold node_indices; apply in_flat_map; exists (b, e); auto)). unfold coord_val in Lle. unfold place. lra.
    + apply cell_right; auto. cbn [br_split_dim br_left_max br_right_min].
      specialize (Rge i ltac:(unfold node_indices; apply in_flat_map; exists (b, e); auto)). unfold coord_val in Rge. unfold place. lra.
Qed.
End Visited.

Section Builtin.
Context {T : Type} {S : Scalar T} (val : T -> Q) (EL : exact_laws S val).
Lemma visited_builtin em t sp alg (SL : std_laws alg) it fuel stop bnds ru q tree :
  (em = L1 /\ t = (fun _ => abs_diff) \/ em = L2Squared /\ t = (fun _ => sq_diff)) ->
  ru <> midpoint_max_side ->
  kd_tree_make alg it (metric_of em) fuel sp stop bnds ru = Ok tree -> usable val em sp bnds q ->
  m_cat (T := T) (metric_of em) = Euclidean /\ metric_fits val (metric_of em) t sp bnds q
  /\ forall k : nat, forall x, (t k x x == 0)%Q.
Proof.
  intros Hem NM HM US.
  pose proof (builtin_fits val EL em sp alg it fuel stop bnds ru tree q HM US) as MF.
  destruct Hem as [[-> ->]|[-> ->]]; (split; [reflexivity|]; split; [exact MF|]); intros _ x.
  - unfold abs_diff. rewrite Qabs_pos; lra.
  - unfold sq_diff. ring.
Qed.
End Builtin.
