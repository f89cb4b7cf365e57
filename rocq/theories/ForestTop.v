(** Theorems about the kd_forest in the form in which they are stated, and data
    for the examples. *)
From Coq Require Import List ZArith QArith Qabs Bool Arith Permutation Lia Lqa.
From Verif Require Import Base ModelBox ModelBuild ModelSearch Spec ModelCover ModelForest SpecForest Lemmas Instances
  BuildOrder Visitors Examples Reflect ForestThms.
Import ListNotations.
Local Open Scope nat_scope.

(** * The nearest neighbour among what is shown *)
Section Nn.
Context {T : Type} {S : Scalar T} (val : T -> Q) (EL : exact_laws S val).

Lemma nn_shown (l : list (nat * T)) : forall v0 : neighbor T,
  let r := shown_to visitor_nn l v0 in
  (r = v0 \/ exists x, In x l /\ r = Neighbor (fst x) (snd x) /\ (val (snd x) < val (n_distance v0))%Q)
  /\ (val (n_distance r) <= val (n_distance v0))%Q
  /\ forall x, In x l -> (val (n_distance r) <= val (snd x))%Q.
Proof.
  induction l as [|[i d] l IH]; intros v0; cbn zeta.
  - cbn. split; auto. split; [apply Qle_refl|intros ? []].
  - cbn [shown_to fold_left fst snd v_visit visitor_nn].
    set (v1 := if s_ltb d (n_distance v0) then Neighbor i d else v0).
    change (fold_left _ l v1) with (shown_to visitor_nn l v1).
    assert (H1 : (val (n_distance v1) <= val (n_distance v0))%Q /\ (val (n_distance v1) <= val d)%Q
      /\ (v1 = v0 \/ v1 = Neighbor i d /\ (val d < val (n_distance v0))%Q)).
    { unfold v1. destruct (s_ltb d (n_distance v0)) eqn:E; cbn [n_distance].
      - apply (ltb_val val EL) in E. split; [lra|]. split; [lra|auto].
      - apply (ltb_val_false val EL) in E. split; [lra|]. split; [lra|auto]. }
    destruct H1 as (A & B & C). destruct (IH v1) as (P1 & P2 & P3). cbn zeta in *.
    split; [|split].
    + destruct P1 as [->|(x & Hx & Ex & Lx)].
      * destruct C as [->|[-> L]]; auto. right. exists (i, d). cbn. auto.
      * right. exists x. split; [right; auto|]. split; auto. lra.
    + lra.
    + intros x [<-|Hx]; cbn; [lra|auto].
Qed.
End Nn.

Section Top.
Context {T : Type} {S : Scalar T} (val : T -> Q) (EL : exact_laws S val) (FL : field_laws S val).
Variables (pq : pqueue T) (QL : queue_laws S pq) (alg : std_algos) (SL : std_laws alg).
Variables (it : index_type) (cm : cmath T) (fuel : nat) (gauss : nat -> nat -> T) (sp : space T)
  (leaf_size : Z) (n : nat) (f : kd_forest T) (b : Q) (q : list T) (budget : nat).
Hypotheses (WF : wf_space sp) (HI : index_type_ok it) (HLS : (0 < leaf_size <= it_max it)%Z)
  (HM : kd_forest_make alg it cm metric_l2_squared fuel gauss sp leaf_size n = Ok f)
  (UN : Forall (fun t => unit_vector (map val (rk_rotation t))) (kf_data f))
  (NB : norms_le val b sp) (B1 : (b <= val s_max)%Q) (B2 : (b <= - val s_lowest)%Q)
  (LQ : length q = sp_sdim sp) (FIT : distances_fit val L2Squared sp q).
Let D := dist_to val L2Squared sp q.

Lemma nn_run nn0 : exists ss, forest_search_nn pq f q budget nn0
    = Ok (shown_to visitor_nn (concat ss) (Neighbor (n_index nn0) s_max))
  /\ Forall (fun x => fst x < npts sp /\ (val (snd x) == D (fst x))%Q) (concat ss)
  /\ (0 < budget -> concat ss <> [])
  /\ (npts sp <= budget -> forall j, j < npts sp -> In j (map fst (concat ss))
      \/ (val (n_distance (shown_to visitor_nn (concat ss) (Neighbor (n_index nn0) s_max))) <= D j)%Q).
Proof.
  pose proof HM as H. apply forest_make_inv in H as (_ & _ & Hn & _).
  destruct (forest_exact val EL FL pq QL alg SL it cm fuel gauss sp leaf_size n WF HI HLS b NB f q budget HM UN B1 B2 LQ
    visitor_nn (fun _ => True)) with (v0 := Neighbor (n_index nn0) (@s_max T S)) as (ss & E & L & TS & NE & ALL); auto.
  { intros st i d _ _ _. split; auto. cbn. destruct (s_ltb d (n_distance st)) eqn:E; cbn.
    - apply (ltb_val val EL) in E. lra.
    - lra. }
  exists ss. split; [exact E|]. split; [|split].
  - rewrite Forall_concat. eapply Forall_impl; [|exact TS]. intros s (_ & _ & A). exact A.
  - intros Hb. apply NE; auto. cbn. pose proof (el_max _ _ EL). lra.
  - intros Hb j Hj. specialize (ALL Hb). destruct ss as [|s ss]; [cbn in L; lia|].
    inversion ALL as [|? ? A _]; subst. destruct (A j Hj) as [A'|A']; [left|right; exact A'].
    cbn [concat]. rewrite map_app. apply in_or_app; auto.
Qed.

Lemma top_any_budget nn0 : 0 < budget -> exists i d, forest_search_nn pq f q budget nn0 = Ok (Neighbor i d)
  /\ i < npts sp /\ (val d == D i)%Q.
Proof.
  intros Hb. destruct (nn_run nn0) as (ss & E & G & NE & _). specialize (NE Hb). rewrite E.
  destruct (nn_shown val EL (concat ss) (Neighbor (n_index nn0) s_max)) as (P1 & P2 & P3). cbn zeta in *.
  rewrite Forall_forall in G. destruct P1 as [P1|(x & Hx & Ex & _)].
  - exfalso. destruct (concat ss) as [|x l]; [congruence|]. rewrite P1 in P3. cbn [n_distance] in P3.
    specialize (P3 x (or_introl eq_refl)). destruct (G x (or_introl eq_refl)) as [G1 G2].
    specialize (FIT _ G1). fold D in FIT. unfold D in *. lra.
  - destruct (G x Hx) as [G1 G2]. exists (fst x), (snd x). rewrite Ex. auto.
Qed.

Lemma top_exhaustive nn0 : npts sp <= budget -> 0 < npts sp ->
  exists i d, forest_search_nn pq f q budget nn0 = Ok (Neighbor i d)
  /\ (val d == D i)%Q /\ is_nearest (npts sp) D i.
Proof.
  intros Hb Hp. destruct (nn_run nn0) as (ss & E & G & NE & ALL). specialize (NE ltac:(lia)). specialize (ALL Hb).
  rewrite E. destruct (nn_shown val EL (concat ss) (Neighbor (n_index nn0) s_max)) as (P1 & P2 & P3). cbn zeta in *.
  rewrite Forall_forall in G. destruct P1 as [P1|(x & Hx & Ex & _)].
  - exfalso. destruct (concat ss) as [|x l]; [congruence|]. rewrite P1 in P3. cbn [n_distance] in P3.
    specialize (P3 x (or_introl eq_refl)). destruct (G x (or_introl eq_refl)) as [G1 G2].
    specialize (FIT _ G1). fold D in FIT. unfold D in *. lra.
  - destruct (G x Hx) as [G1 G2]. exists (fst x), (snd x). split; [rewrite Ex; auto|]. split; auto. split; auto.
    intros j Hj. rewrite Ex in *. cbn [n_distance] in *. rewrite <- G2. destruct (ALL j Hj) as [A|A]; [|exact A].
    apply in_map_iff in A as (y & <- & Hy). destruct (G y Hy) as [_ G3]. rewrite <- G3. auto.
Qed.

End Top.

(** No leaves visited: the output keeps its index. *)
Lemma top_zero {T} {S : Scalar T} (pq : pqueue T) (alg : std_algos) it (cm : cmath T) m fuel gauss (sp : space T)
  leaf_size n f q nn0 :
  kd_forest_make alg it cm m fuel gauss sp leaf_size n = Ok f -> length q = sp_sdim sp ->
  forest_search_nn pq f q 0 nn0 = Ok (Neighbor (n_index nn0) s_max).
Proof.
  intros HM LQ. apply forest_make_inv in HM as (_ & _ & _ & _ & F). unfold forest_search_nn, forest_search_nearest.
  change (Neighbor (n_index nn0) s_max) with (visitor_nn_init nn0). generalize (visitor_nn_init nn0) as v.
  induction F as [|t ts (k & _ & R1 & _) F IH]; intros v; cbn [forest_loop]; auto.
  destruct (rotate_point_ok (rk_rotation t) q) as (p & Ep & _); [rewrite R1, random_normal_length; auto|].
  rewrite Ep. cbn [bind]. unfold priority_search. cbn [priority_loop fst snd].
  destruct (pq_pop pq _) as [[[d nd] qu]|]; cbn [bind]; apply IH.
Qed.

Lemma top_no_trees {T} {S : Scalar T} (alg : std_algos) it (cm : cmath T) m fuel gauss (sp : space T) leaf_size :
  kd_forest_make alg it cm m fuel gauss sp leaf_size 0 = Ub UbAssert.
Proof. reflexivity. Qed.
