(** Answers of the built-in visitors for any search that shows the visitor every
    point that is closer than its final bound. *)
From Coq Require Import List ZArith QArith Qabs Bool Arith Permutation Sorted Lia.
From Verif Require Import Base ModelBox ModelBuild ModelSearch Spec ModelCover SpecCover Lemmas
  BuildProofs SearchProofs Visitors QueryThms.
Import ListNotations.
Local Open Scope nat_scope.

Section OrdQuery.
Context {T : Type} {S : Scalar T} {ok : T -> Prop} (OL : ord_laws S ok).
Variables (m : metric T) (sp : space T) (q : list T).
Let N := length (sp_pts sp).
Let D (i : nat) : T := m_dist m q (sp_at sp i).
Hypothesis OKD : forall i, ok (D i).

(** What a search guarantees. *)
Definition contract (run : forall V, visitor T V -> V -> res V) : Prop :=
  forall V (vis : visitor T V) (Inv : V -> Prop) v0,
    Inv v0 -> (forall st, Inv st -> ok (v_max vis st)) ->
    (forall st i, i < N -> Inv st -> Inv (v_visit vis i (D i) st)
       /\ s_leb (v_max vis (v_visit vis i (D i) st)) (v_max vis st) = true) ->
    exists tr rest, Permutation (tr ++ rest) (seq 0 N)
      /\ run V vis v0 = Ok (visits m vis sp q tr v0)
      /\ forall j, In j rest -> s_leb (v_max vis (visits m vis sp q tr v0)) (D j) = true.

Variable run : forall V, visitor T V -> V -> res V.
Hypothesis RUN : contract run.
Hypothesis N0 : 0 < N.
Hypothesis FIT : forall j, j < N -> s_ltb (D j) s_max = true.

(** [f] is the possibly scaled distance. *)
Variable f : nat -> T.
Hypotheses (OKF : forall i, ok (f i)) (FD : forall i, i < N -> s_leb (f i) (D i) = true).

Lemma fit_not j : j < N -> s_leb s_max (D j) = true -> False.
Proof.
  intros Hj H. specialize (FIT j Hj). rewrite (ol_lt _ _ OL) in FIT by (auto; apply (ol_max _ _ OL)).
  rewrite H in FIT. discriminate.
Qed.

Lemma fit_f j : j < N -> s_leb s_max (f j) = true -> False.
Proof.
  intros Hj H. apply (fit_not j Hj). eapply (leb_trans ok OL); [| | |exact H|]; auto. apply (ol_max _ _ OL).
Qed.

Lemma ord_nn_answer vis v0 :
  (forall st i, v_visit vis i (D i) st = nn_step f st i) ->
  (forall st, v_max vis st = n_distance st) ->
  n_distance v0 = s_max ->
  exists i, i < N /\ run _ vis v0 = Ok (as_neighbor f i)
    /\ forall j, j < N -> s_leb (f i) (D j) = true.
Proof.
  intros E1 E2 E3.
  destruct (RUN _ vis (fun st => ok (n_distance st)) v0) as (tr & rest & P & E & F).
  - rewrite E3. apply (ol_max _ _ OL).
  - intros st H. rewrite E2. auto.
  - intros st i Hi H. rewrite !E2, E1. unfold nn_step.
    destruct (s_ltb (f i) (n_distance st)) eqn:L; cbn [n_distance as_neighbor].
    + split; auto. apply (ltb_leb ok OL); auto.
    + split; auto. apply (leb_refl ok OL); auto.
  - assert (EV : forall l st, visits m vis sp q l st = fold_left (nn_step f) l st).
    { induction l as [|i l IH]; intros st; auto. cbn. fold (D i). rewrite E1. apply IH. }
    rewrite EV in *. apply perm_in_seq in P as (Ptr & Prest & Pall & _).
    destruct (nn_minimal f OL OKF tr v0) as (A & B & C); [rewrite E3; apply (ol_max _ _ OL)|].
    cbn zeta in *. destruct (nn_genuine f tr v0) as [G|(i & Hi & G)].
    + exfalso. rewrite G in *. destruct (Pall 0 N0) as [H|H].
      * specialize (C 0 H). rewrite E3 in C. apply (fit_f 0); auto.
      * specialize (F 0 H). rewrite E2, E3 in F. apply (fit_not 0); auto.
    + exists i. split; auto. split; [rewrite E, G; reflexivity|]. rewrite G in *. cbn in C.
      intros j Hj. destruct (Pall j Hj) as [H|H].
      * eapply (leb_trans ok OL); [| | |apply C; auto|apply FD]; auto.
      * specialize (F j H). rewrite E2 in F. exact F.
Qed.

Lemma ord_radius_answer r vis : ok r ->
  (forall st i, v_visit vis i (D i) st = radius_step f r st i) ->
  (forall st, v_max vis st = r) ->
  exists l, run _ vis [] = Ok l
    /\ NoDup (map n_index l)
    /\ (forall x, In x l -> n_index x < N /\ n_distance x = f (n_index x) /\ s_ltb (n_distance x) r = true)
    /\ (forall i, i < N -> s_ltb (D i) r = true -> In i (map n_index l)).
Proof.
  intros Or E1 E2.
  destruct (RUN _ vis (fun _ => True) []) as (tr & rest & P & E & F); auto.
  - intros st _. rewrite E2. auto.
  - intros st i _ _. rewrite !E2. split; auto. apply (leb_refl ok OL); auto.
  - assert (EV : forall l st, visits m vis sp q l st = fold_left (radius_step f r) l st).
    { induction l as [|i l IH]; intros st; auto. cbn. fold (D i). rewrite E1. apply IH. }
    rewrite EV, radius_result in E. rewrite EV in F. apply perm_in_seq in P as (Ptr & Prest & Pall & ND & _).
    eexists. split; [exact E|]. cbn [app]. rewrite map_map. cbn [n_index as_neighbor]. rewrite map_id.
    split; [apply NoDup_filter; auto|]. split.
    + intros x Hx. apply in_map_iff in Hx as (j & <- & Hj). cbn. apply filter_In in Hj as [Hj L]. auto.
    + intros i Hi L. apply filter_In. destruct (Pall i Hi) as [H|H].
      * split; auto. rewrite (ol_lt _ _ OL) in * by auto. apply negb_true_iff. apply negb_true_iff in L.
        destruct (s_leb r (f i)) eqn:K; auto.
        rewrite (leb_trans ok OL r (f i) (D i)) in L; auto.
      * specialize (F i H). rewrite E2 in F. rewrite (ol_lt _ _ OL), F in L by auto. discriminate.
Qed.

Lemma ord_knn_answer vis l0 :
  (forall st i, v_visit vis i (D i) st = knn_step f st i) ->
  (forall st, v_max vis st = knn_max st) ->
  0 < length l0 -> knn_max (l0, 0) = s_max ->
  exists st l, run _ vis (l0, 0) = Ok st
    /\ l = firstn (Nat.min (length l0) N) (fst st)
    /\ length (fst st) = length l0
    /\ length l = Nat.min (length l0) N
    /\ skipn (Nat.min (length l0) N) (fst st) = skipn (Nat.min (length l0) N) l0
    /\ NoDup (map n_index l)
    /\ StronglySorted (fun x y => s_leb (n_distance x) (n_distance y) = true) l
    /\ (forall x, In x l -> n_index x < N /\ n_distance x = f (n_index x))
    /\ (forall x j, In x l -> j < N -> ~ In j (map n_index l) -> s_leb (n_distance x) (D j) = true).
Proof.
  intros E1 E2 H0 HX.
  destruct (RUN _ vis (fun st => exists tr kept dropped, knn_holds f l0 tr st kept dropped /\ knn_sorted f st kept dropped) (l0, 0))
    as (tr & rest & P & E & F).
  { exists [], [], []. split; [apply knn_start|]. constructor; simpl; try tauto. constructor. }
  { intros st (tr & kept & dropped & H & HS). rewrite E2.
    destruct (le_lt_dec (length l0) (length kept)) as [L|L].
    - destruct (exists_last (l := kept)) as (X & o & EX). { apply length_nonnil. lia. }
      subst kept. rewrite (knn_max_full _ _ _ _ _ _ _ H); auto.
      pose proof (kh_le _ _ _ _ _ _ H). lia.
    - rewrite (knn_max_short _ _ _ _ _ _ H) by auto. rewrite HX. apply (ol_max _ _ OL). }
  { intros st i Hi (tr & kept & dropped & H & HS). rewrite E1, !E2.
    destruct (knn_order_step f OL OKF l0 tr st kept dropped i H0 HX H HS) as (k' & d' & A' & B' & C'). eauto 8. }
  assert (EV : forall l st, visits m vis sp q l st = fold_left (knn_step f) l st).
  { induction l as [|i l IH]; intros st; auto. cbn [visits fold_left]. unfold visits in IH. fold (D i). rewrite E1. apply IH. }
  rewrite EV in *.
  destruct (knn_order f OL OKF l0 tr H0 HX) as (kept & dropped & A & B).
  set (st := fold_left (knn_step f) tr (l0, 0)) in *.
  exists st. eexists. split; [exact E|]. split; [reflexivity|]. split; [apply (kh_len _ _ _ _ _ _ A)|].
  pose proof P as P0. apply perm_in_seq in P as (Ptr & Prest & Pall & ND & Pdis).
  assert (Hk : forall i, In i kept -> i < N).
  { intros i Hi. apply Ptr. eapply Permutation_in; [apply (kh_perm _ _ _ _ _ _ A)|]. apply in_or_app; auto. }
  assert (Hd : forall i, In i dropped -> i < N).
  { intros i Hi. apply Ptr. eapply Permutation_in; [apply (kh_perm _ _ _ _ _ _ A)|]. apply in_or_app; auto. }
  assert (NDk : NoDup kept).
  { eapply NoDup_app_l. eapply Permutation_NoDup; [symmetry; apply (kh_perm _ _ _ _ _ _ A)|auto]. }
  assert (LK : length kept = Nat.min (length l0) N).
  { pose proof (kh_le _ _ _ _ _ _ A) as L.
    assert (LN : length kept + length dropped + length rest = N).
    { apply Permutation_length in P0. rewrite app_length, seq_length in P0.
      pose proof (Permutation_length (kh_perm _ _ _ _ _ _ A)) as L2. rewrite app_length in L2. lia. }
    destruct (le_lt_dec (length l0) (length kept)) as [L1|L1]; [lia|].
    pose proof (knn_max_short f l0 tr st kept dropped A L1) as M. rewrite HX in M.
    assert (dropped = []) as ->.
    { destruct dropped as [|i dr]; auto. exfalso.
      pose proof (ks_dropped _ _ _ _ B i (or_introl eq_refl)) as K. rewrite M in K.
      apply (fit_f i); auto. apply Hd. left; auto. }
    assert (rest = []) as ->.
    { destruct rest as [|i dr]; auto. exfalso.
      pose proof (F i (or_introl eq_refl)) as K. rewrite E2, M in K.
      apply (fit_not i); auto. apply Prest. left; auto. }
    simpl in LN. lia. }
  rewrite <- LK. pose proof (kh_first _ _ _ _ _ _ A) as F1. pose proof (kh_rest _ _ _ _ _ _ A) as F2.
  rewrite (kh_active _ _ _ _ _ _ A) in F1, F2. rewrite F1. split; [rewrite map_length; auto|].
  split; [exact F2|]. rewrite map_map. cbn [n_index as_neighbor]. rewrite map_id. split; auto.
  split; [|split].
  - pose proof (ks_sorted _ _ _ _ B) as SS. clear - SS.
    induction SS as [|a l SS IH FA]; cbn; constructor; auto. rewrite Forall_forall in *.
    intros x Hx. apply in_map_iff in Hx as (j & <- & Hj). apply (FA j Hj).
  - intros x Hx. apply in_map_iff in Hx as (j & <- & Hj). cbn. auto.
  - intros x j Hx Hj Hn. apply in_map_iff in Hx as (i & <- & Hi). cbn.
    assert (OKM : ok (knn_max st) /\ s_leb (f i) (knn_max st) = true).
    { destruct (le_lt_dec (length l0) (length kept)) as [L|L].
      - destruct (exists_last (l := kept)) as (X & o & EX). { apply length_nonnil. lia. }
        subst kept. pose proof (kh_le _ _ _ _ _ _ A).
        rewrite (knn_max_full _ _ _ _ _ _ _ A) by lia. split; auto.
        apply in_app_or in Hi as [Hi|[<-|[]]]; [|apply (leb_refl ok OL); auto].
        pose proof (ks_sorted _ _ _ _ B) as SS. apply StronglySorted_app_inv in SS as (_ & _ & K).
        apply (K i o); simpl; auto.
      - rewrite (knn_max_short _ _ _ _ _ _ A) by auto. rewrite HX. split; [apply (ol_max _ _ OL)|].
        apply (ltb_leb ok OL); auto; [apply (ol_max _ _ OL)|]. apply (ks_max _ _ _ _ B i Hi). }
    destruct OKM as [O1 O2].
    destruct (Pall j Hj) as [H|H].
    + eapply Permutation_in in H; [|symmetry; apply (kh_perm _ _ _ _ _ _ A)].
      apply in_app_or in H as [H|H]; [tauto|].
      pose proof (ks_dropped _ _ _ _ B j H) as K.
      eapply (leb_trans ok OL); [| | |exact O2|]; auto. eapply (leb_trans ok OL); [| | |exact K|]; auto.
    + pose proof (F j H) as K. rewrite E2 in K. eapply (leb_trans ok OL); [| | |exact O2|]; auto.
Qed.
End OrdQuery.
