(** Answers of the query functions on constructed trees. *)
From Coq Require Import List ZArith QArith Qabs Qminmax Bool Arith Permutation Sorted Lia Lqa.
From Verif Require Import Base ModelBox ModelBuild ModelSearch Spec Lemmas Instances
  BuildProofs BuildOrder BuildShape BuildThms SearchProofs SearchThms Metrics Visitors.
Import ListNotations.
Local Open Scope nat_scope.

Lemma perm_in_seq (a b : list nat) n : Permutation (a ++ b) (seq 0 n) ->
  (forall i, In i a -> i < n) /\ (forall i, In i b -> i < n)
  /\ (forall i, i < n -> In i a \/ In i b) /\ NoDup a /\ (forall i, In i a -> In i b -> False).
Proof.
  intros P.
  assert (ND : NoDup (a ++ b)) by (eapply Permutation_NoDup; [symmetry; exact P|apply seq_NoDup]).
  split; [|split; [|split; [|split]]].
  - intros i Hi. apply In_seq0. eapply Permutation_in; [exact P|]. apply in_or_app; auto.
  - intros i Hi. apply In_seq0. eapply Permutation_in; [exact P|]. apply in_or_app; auto.
  - intros i Hi. apply in_app_or. eapply Permutation_in; [symmetry; exact P|]. apply In_seq0; auto.
  - eapply NoDup_app_l; eauto.
  - intros i Ha Hb. eapply NoDup_app_disj; eauto.
Qed.

Section Query.
Context {T : Type} {S : Scalar T} (val : T -> Q) (EL : exact_laws S val).
Variables (sp : space T) (WF : wf_space sp) (REP : all_coords (representable val) sp).
Let n := sp_sdim sp.
Let N := length (sp_pts sp).
Variables (m : metric T) (alg : std_algos) (SL : std_laws alg) (t : nat -> Q -> Q -> Q).
Hypothesis HT : terms_for val m t.
Variables (it : index_type) (fuel : nat) (stop : stop_condition) (bnds : start_bounds T) (ru : rule).
Variables (tree : kd_tree T) (q : list T).
Hypotheses (HM : kd_tree_make alg it m fuel sp stop bnds ru = Ok tree)
  (HP : Forall (point_ok val m n) (sp_pts sp)) (HB : bounds_ok val m n bnds)
  (LQ : length q = n) (HQ : point_ok val m n q).

Let D (i : nat) : Q := val (m_dist m q (sp_at sp i)).
Let DL (i : nat) : Q := D_low val t sp q i.
Let OL := exact_ord val EL.

Lemma tree_fields : kt_space tree = sp /\ kt_metric tree = m.
Proof. apply kd_tree_make_inv in HM as (data & -> & _). auto. Qed.

Lemma tree_nonempty : 0 < N.
Proof.
  apply kd_tree_make_inv in HM as (data & _ & HBd). apply build_inv in HBd as (_ & [H _] & _). exact H.
Qed.

(** One neighbour; [f] is the possibly scaled distance. *)
Lemma query_nn (f : nat -> T) vis v0 :
  (forall st i, v_visit vis i (m_dist m q (sp_at sp i)) st = nn_step f st i) ->
  (forall st, v_max vis st = n_distance st) ->
  n_distance v0 = s_max ->
  exists tr rest r, Permutation (tr ++ rest) (seq 0 N)
    /\ search_nearest tree vis q v0 = Ok r
    /\ (r = v0 \/ exists i, In i tr /\ r = as_neighbor f i)
    /\ (forall j, In j tr -> (val (n_distance r) <= val (f j))%Q)
    /\ (forall j, In j rest -> (val (n_distance r) < DL j)%Q).
Proof.
  intros E1 E2 E3.
  destruct (search_nearest_contract val EL sp WF REP m alg SL vis q t (fun _ => True)) with
    (it := it) (fuel := fuel) (stop := stop) (bnds := bnds) (ru := ru) (tree := tree) (v0 := v0)
    as (tr & rest & P & E & _ & F); auto.
  { intros st i _ _. rewrite !E2. unfold D_of. rewrite E1. unfold nn_step.
    destruct (s_ltb _ _) eqn:L; [|lra]. apply (ltb_val val EL) in L. cbn. lra. }
  assert (EV : forall l st, visits m vis sp q l st = fold_left (nn_step f) l st).
  { induction l as [|i l IH]; intros st; auto. cbn. rewrite E1. apply IH. }
  rewrite EV in *. exists tr, rest, (fold_left (nn_step f) tr v0).
  split; auto. split; auto. split; [apply nn_genuine|]. split.
  - intros j Hj. apply (leb_val val EL).
    apply (nn_minimal f OL (fun _ => I) tr v0 I); auto.
  - intros j Hj. specialize (F j Hj). rewrite E2 in F. auto.
Qed.

(** [k] neighbours. *)
Lemma query_knn (f : nat -> T) vis l0 :
  (forall st i, v_visit vis i (m_dist m q (sp_at sp i)) st = knn_step f st i) ->
  (forall st, v_max vis st = knn_max st) ->
  0 < length l0 -> knn_max (l0, 0) = s_max ->
  exists tr rest st kept dropped, Permutation (tr ++ rest) (seq 0 N)
    /\ search_nearest tree vis q (l0, 0) = Ok st
    /\ knn_holds f l0 tr st kept dropped /\ knn_sorted f st kept dropped
    /\ (forall j, In j rest -> (val (knn_max st) < DL j)%Q).
Proof.
  intros E1 E2 H0 HX.
  destruct (search_nearest_contract val EL sp WF REP m alg SL vis q t
    (fun st => exists tr kept dropped, knn_holds f l0 tr st kept dropped /\ knn_sorted f st kept dropped)) with
    (it := it) (fuel := fuel) (stop := stop) (bnds := bnds) (ru := ru) (tree := tree) (v0 := (l0, 0))
    as (tr & rest & P & E & _ & F); auto.
  { intros st i (tr & kept & dropped & A & B) _. unfold D_of. rewrite E1.
    destruct (knn_order_step f OL (fun _ => I) l0 tr st kept dropped i H0 HX A B) as (k' & d' & A' & B' & _).
    eauto. }
  { intros st i (tr & kept & dropped & A & B) _. unfold D_of. rewrite E1, !E2.
    destruct (knn_order_step f OL (fun _ => I) l0 tr st kept dropped i H0 HX A B) as (k' & d' & _ & _ & C).
    apply (leb_val val EL); auto. }
  { exists [], [], []. split; [apply knn_start|]. constructor; simpl; try tauto. constructor. }
  assert (EV : forall l st, visits m vis sp q l st = fold_left (knn_step f) l st).
  { induction l as [|i l IH]; intros st; auto. cbn [visits fold_left]. unfold visits in IH. rewrite E1. apply IH. }
  rewrite EV in *.
  destruct (knn_order f OL (fun _ => I) l0 tr H0 HX) as (kept & dropped & A & B).
  exists tr, rest, (fold_left (knn_step f) tr (l0, 0)), kept, dropped. repeat (split; auto).
  intros j Hj. specialize (F j Hj). rewrite E2 in F. auto.
Qed.

(** Radius. *)
Lemma query_radius (f : nat -> T) r vis :
  (forall st i, v_visit vis i (m_dist m q (sp_at sp i)) st = radius_step f r st i) ->
  (forall st, v_max vis st = r) ->
  exists tr rest, Permutation (tr ++ rest) (seq 0 N)
    /\ search_nearest tree vis q [] = Ok (map (as_neighbor f) (filter (fun i => s_ltb (f i) r) tr))
    /\ (forall j, In j rest -> (val r < DL j)%Q).
Proof.
  intros E1 E2.
  destruct (search_nearest_contract val EL sp WF REP m alg SL vis q t (fun _ => True)) with
    (it := it) (fuel := fuel) (stop := stop) (bnds := bnds) (ru := ru) (tree := tree) (v0 := @nil (neighbor T))
    as (tr & rest & P & E & _ & F); auto.
  { intros st i _ _. rewrite !E2. lra. }
  assert (EV : forall l st, visits m vis sp q l st = fold_left (radius_step f r) l st).
  { induction l as [|i l IH]; intros st; auto. cbn [visits fold_left]. unfold visits in IH. rewrite E1. apply IH. }
  rewrite EV, radius_result in E. exists tr, rest. split; auto. split; auto.
  intros j Hj. specialize (F j Hj). rewrite E2 in F. auto.
Qed.

(** * Exact results *)
Section Exact.
Hypothesis EX : forall j, j < N -> (DL j == D j)%Q.
Hypothesis FIT : forall j, j < N -> (D j < val s_max)%Q.

Lemma nn_exact nn0 : exists i d, search_nn tree q nn0 = Ok (Neighbor i d)
  /\ (val d == D i)%Q /\ is_nearest N D i.
Proof.
  destruct (query_nn (fun i => m_dist m q (sp_at sp i)) visitor_nn (visitor_nn_init nn0))
    as (tr & rest & r & P & E & G & A & B); auto.
  apply perm_in_seq in P as (Ptr & Prest & Pall & _).
  unfold search_nn. rewrite E. pose proof tree_nonempty as H0.
  assert (K : exists i, In i tr /\ r = as_neighbor (fun i => m_dist m q (sp_at sp i)) i).
  { destruct G as [->|G]; auto. cbn in A, B.
    destruct (Pall 0 H0) as [H|H].
    - specialize (A _ H). specialize (FIT _ H0). unfold D in FIT. lra.
    - specialize (B _ H). specialize (FIT _ H0). rewrite EX in B by auto. lra. }
  destruct K as (i & Hi & ->). exists i, (m_dist m q (sp_at sp i)). split; [reflexivity|].
  split; [reflexivity|]. split; [auto|]. intros j Hj. cbn in A, B.
  destruct (Pall j Hj) as [H|H].
  - apply (A j H).
  - specialize (B j H). rewrite EX in B by auto. unfold D at 1. lra.
Qed.

Lemma radius_exact r : exists l,
  search_nearest tree (visitor_radius r) q [] = Ok l
  /\ filter_answer N (fun i => (D i < val r)%Q) D (answers val l).
Proof.
  destruct (query_radius (fun i => m_dist m q (sp_at sp i)) r (visitor_radius r)) as (tr & rest & P & E & B); auto.
  eexists. split; [exact E|].
  apply perm_in_seq in P as (Ptr & Prest & Pall & ND & _).
  unfold answers. rewrite map_map. cbn.
  constructor.
  - rewrite map_map. cbn. rewrite map_id. apply NoDup_filter. auto.
  - intros i d Hi. apply in_map_iff in Hi as (j & Ej & Hj). injection Ej as <- <-.
    apply filter_In in Hj as [Hj L]. apply (ltb_val val EL) in L. split; auto. split; auto. reflexivity.
  - intros i Hi HR. rewrite map_map. cbn. rewrite map_id. apply filter_In.
    destruct (Pall i Hi) as [H|H].
    + split; auto. apply (ltb_val val EL). exact HR.
    + specialize (B i H). rewrite EX in B by auto. lra.
Qed.

(** A range of [k] slots. *)
Lemma knn_exact l0 : 0 < length l0 -> knn_max (l0, 0) = s_max ->
  exists st, search_nearest tree visitor_knn q (l0, 0) = Ok st
  /\ length (fst st) = length l0
  /\ knn_answer N (length l0) D (answers val (firstn (Nat.min (length l0) N) (fst st)))
  /\ skipn (Nat.min (length l0) N) (fst st) = skipn (Nat.min (length l0) N) l0.
Proof.
  intros H0 HX. set (f := fun i => m_dist m q (sp_at sp i)).
  destruct (query_knn f visitor_knn l0) as (tr & rest & st & kept & dropped & P & E & A & B & F); auto.
  exists st. split; auto. split; [apply (kh_len _ _ _ _ _ _ A)|].
  pose proof P as P0. apply perm_in_seq in P as (Ptr & Prest & Pall & ND & Pdis).
  assert (Hk : forall i, In i kept -> i < N).
  { intros i Hi. apply Ptr. eapply Permutation_in; [apply (kh_perm _ _ _ _ _ _ A)|]. apply in_or_app; auto. }
  assert (Hd : forall i, In i dropped -> i < N).
  { intros i Hi. apply Ptr. eapply Permutation_in; [apply (kh_perm _ _ _ _ _ _ A)|]. apply in_or_app; auto. }
  assert (NDk : NoDup kept).
  { eapply NoDup_app_l. eapply Permutation_NoDup; [symmetry; apply (kh_perm _ _ _ _ _ _ A)|auto]. }
  assert (LK : length kept = Nat.min (length l0) N).
  { pose proof (kh_le _ _ _ _ _ _ A) as L.
    assert (LN : length kept + length dropped + length rest = N).
    { apply Permutation_length in P0. rewrite app_length, seq_length in P0.
      pose proof (Permutation_length (kh_perm _ _ _ _ _ _ A)) as L2. rewrite app_length in L2. lia. }
    destruct (le_lt_dec (length l0) (length kept)) as [L1|L1]; [lia|].
    pose proof (knn_max_short f l0 tr st kept dropped A L1) as M. rewrite HX in M.
    assert (dropped = []) as ->.
    { destruct dropped as [|i dr]; auto. exfalso.
      pose proof (ks_dropped _ _ _ _ B i (or_introl eq_refl)) as K. rewrite M in K.
      apply (leb_val val EL) in K. specialize (FIT i (Hd i (or_introl eq_refl))). unfold D in FIT. unfold f in K. lra. }
    assert (rest = []) as ->.
    { destruct rest as [|i dr]; auto. exfalso.
      pose proof (F i (or_introl eq_refl)) as K. rewrite M in K.
      pose proof (Prest i (or_introl eq_refl)) as Hi. rewrite EX in K by auto. specialize (FIT i Hi). lra. }
    simpl in LN. lia. }
  rewrite <- LK. pose proof (kh_first _ _ _ _ _ _ A) as F1. pose proof (kh_rest _ _ _ _ _ _ A) as F2.
  rewrite (kh_active _ _ _ _ _ _ A) in F1, F2. split; [|exact F2]. rewrite F1.
  unfold answers. rewrite map_map. cbn.
  constructor.
  - rewrite map_length. auto.
  - rewrite map_map. cbn. rewrite map_id. auto.
  - intros i d Hi. apply in_map_iff in Hi as (j & Ej & Hj). injection Ej as <- <-. split; auto. reflexivity.
  - rewrite map_map. cbn. pose proof (ks_sorted _ _ _ _ B) as SS. clear - SS EL.
    induction SS as [|a l SS IH FA]; cbn; constructor; auto. rewrite Forall_forall in *.
    intros x Hx. apply in_map_iff in Hx as (j & <- & Hj). apply (leb_val val EL). apply (FA j Hj).
  - intros i d j Hi Hj Hn. apply in_map_iff in Hi as (i' & Ej & Hi'). injection Ej as <- <-.
    rewrite map_map in Hn. cbn in Hn. rewrite map_id in Hn.
    assert (KM : (val (f i') <= val (knn_max st))%Q /\ (val (knn_max st) <= D j)%Q).
    { split.
      - destruct (le_lt_dec (length l0) (length kept)) as [L1|L1].
        + destruct (exists_last (l := kept)) as (X & o & EX'). { apply length_nonnil. lia. }
          subst kept. pose proof (kh_le _ _ _ _ _ _ A).
          rewrite (knn_max_full _ _ _ _ _ _ _ A) by lia.
          apply in_app_or in Hi' as [Hi'|[<-|[]]]; [|lra].
          pose proof (ks_sorted _ _ _ _ B) as SS. apply StronglySorted_app_inv in SS as (_ & _ & K).
          apply (leb_val val EL). apply (K i' o); simpl; auto.
        + rewrite (knn_max_short _ _ _ _ _ _ A) by auto. rewrite HX.
          pose proof (ks_max _ _ _ _ B i' Hi') as K. apply (ltb_val val EL) in K. lra.
      - destruct (Pall j Hj) as [H|H].
        + eapply Permutation_in in H; [|symmetry; apply (kh_perm _ _ _ _ _ _ A)].
          apply in_app_or in H as [H|H]; [tauto|].
          pose proof (ks_dropped _ _ _ _ B j H) as K. apply (leb_val val EL) in K. exact K.
        + pose proof (F j H) as K. rewrite EX in K by auto. lra. }
    eapply Qle_trans; apply KM.
Qed.

(** * Approximate results *)
Section Approx.
Hypothesis FL : field_laws S val.
Variable e : T.
Hypothesis E1 : (1 <= val e)%Q.
Let s := val (s_div s_one e).
Let f (i : nat) : T := s_mul (m_dist m q (sp_at sp i)) (s_div s_one e).

Lemma e_inv_props : (0 < s)%Q /\ (s <= 1)%Q /\ (s * val e == 1)%Q.
Proof.
  assert (H : (s == 1 / val e)%Q).
  { unfold s. rewrite (fl_div _ _ FL) by lra. rewrite (el_one _ _ EL). reflexivity. }
  assert (H1 : (s * val e == 1)%Q) by (rewrite H; field; lra).
  assert (H2 : (0 < s)%Q).
  { rewrite H. apply Qlt_shift_div_l; lra. }
  split; auto. split; auto. rewrite H. apply Qle_shift_div_r; lra.
Qed.

Lemma f_val i : (val (f i) == D i * s)%Q.
Proof. unfold f. rewrite (el_mul _ _ EL). reflexivity. Qed.

Lemma D_nonneg j : j < N -> (0 <= D j)%Q.
Proof.
  intros Hj. rewrite <- EX by auto. unfold DL, D_low, term_sum. apply sumN_nonneg. intros k _.
  destruct HT as [H|H]; [apply (et_nonneg _ _ _ H)|apply (tt_nonneg _ _ _ H)].
Qed.

Lemma scaled_div x : (x * s == x / val e)%Q.
Proof. destruct e_inv_props as (_ & _ & H). rewrite <- (Qmult_1_r x) at 2. rewrite <- H. field. lra. Qed.

Lemma scaled_le a b : (a * s <= b * s -> a <= b)%Q.
Proof. destruct e_inv_props as (H & _). intros K. apply Qmult_le_r in K; auto. Qed.

Lemma scaled_le_self j : j < N -> (D j * s <= D j)%Q.
Proof. intros Hj. pose proof (D_nonneg j Hj). destruct e_inv_props as (A & B & _). nra. Qed.

Lemma scaled_bound a b : (a * s <= b -> a <= val e * b)%Q.
Proof.
  intros H. destruct e_inv_props as (A & B & C).
  assert (K : (a * s * val e <= b * val e)%Q) by (apply Qmult_le_compat_r; lra).
  rewrite <- Qmult_assoc, C in K. lra.
Qed.

Lemma nn_approx nn0 : exists i d, search_nn_approx tree q e nn0 = Ok (Neighbor i d)
  /\ i < N /\ (val d == D i / val e)%Q /\ forall j, j < N -> (D i <= val e * D j)%Q.
Proof.
  destruct (query_nn f (visitor_approximate_nn e) (visitor_nn_init nn0))
    as (tr & rest & r & P & E & G & A & B); auto.
  apply perm_in_seq in P as (Ptr & Prest & Pall & _).
  unfold search_nn_approx. rewrite E. pose proof tree_nonempty as H0.
  assert (K : exists i, In i tr /\ r = as_neighbor f i).
  { destruct G as [->|G]; auto. cbn in A, B. specialize (FIT _ H0).
    destruct (Pall 0 H0) as [H|H].
    - specialize (A _ H). rewrite f_val in A. pose proof (scaled_le_self 0 H0). lra.
    - specialize (B _ H). rewrite EX in B by auto. lra. }
  destruct K as (i & Hi & ->). exists i, (f i). split; [reflexivity|].
  split; [auto|]. split; [rewrite f_val; apply scaled_div|]. intros j Hj. cbn in A, B.
  apply scaled_bound. rewrite <- f_val.
  destruct (Pall j Hj) as [H|H].
  - specialize (A j H). rewrite (f_val j) in A. pose proof (scaled_le_self j Hj). lra.
  - specialize (B j H). rewrite EX in B by auto. lra.
Qed.

Lemma radius_approx r : exists l,
  search_nearest tree (visitor_approximate_radius e r) q [] = Ok l
  /\ NoDup (map n_index l)
  /\ (forall x, In x l -> n_index x < N /\ (D (n_index x) < val r)%Q /\ (val (n_distance x) == D (n_index x) / val e)%Q)
  /\ (forall i, i < N -> (D i < val r)%Q -> (D i <= val r / val e)%Q -> In i (map n_index l)).
Proof.
  destruct (query_radius f (s_mul r (s_div s_one e)) (visitor_approximate_radius e r))
    as (tr & rest & P & E & B); auto.
  eexists. split; [exact E|].
  apply perm_in_seq in P as (Ptr & Prest & Pall & ND & _).
  assert (RV : (val (s_mul r (s_div s_one e)) == val r * s)%Q) by (rewrite (el_mul _ _ EL); reflexivity).
  destruct e_inv_props as (S0 & S1 & S2).
  assert (LT : forall i, s_ltb (f i) (s_mul r (s_div s_one e)) = true <-> (D i < val r)%Q).
  { intros i. rewrite (ltb_val val EL), f_val, RV. split; intros H; nra. }
  rewrite map_map. cbn [n_index as_neighbor]. rewrite map_id. split; [apply NoDup_filter; auto|]. split.
  - intros x Hx. apply in_map_iff in Hx as (j & <- & Hj). cbn [n_index n_distance as_neighbor].
    apply filter_In in Hj as [Hj L]. apply LT in L. split; auto. split; auto.
    rewrite f_val. apply scaled_div.
  - intros i Hi H1 H2. apply filter_In. rewrite LT.
    destruct (Pall i Hi) as [H|H]; auto. exfalso.
    specialize (B i H). rewrite EX in B by auto. rewrite RV, scaled_div in B. lra.
Qed.

(** Number of list elements below a bound. *)
Definition below (v : Q) (l : list Q) : list Q := filter (fun x => negb (Qle_bool v x)) l.
Lemma below_spec v x : negb (Qle_bool v x) = true <-> (x < v)%Q.
Proof. apply negb_Qle_bool_lt. Qed.

Lemma sorted_nth_below ds : StronglySorted Qle ds -> forall p v, p < length ds -> (nth p ds 0 < v)%Q ->
  p < length (below v ds).
Proof.
  induction 1 as [|a l SS IH FA]; intros p v Hp Hv; simpl in Hp; [lia|].
  unfold below. cbn [filter].
  assert (Ha : (a < v)%Q).
  { destruct p; auto. cbn in Hv. rewrite Forall_forall in FA.
    specialize (FA (nth p l 0%Q) ltac:(apply nth_In; lia)). lra. }
  apply below_spec in Ha. rewrite Ha. cbn [length]. destruct p; [lia|].
  cbn in Hv. specialize (IH p v ltac:(lia) Hv). unfold below in IH. lia.
Qed.

Lemma NoDup_incl_seq_length (a b : list nat) : NoDup a -> incl a b -> length a <= length b.
Proof. apply NoDup_incl_length. Qed.

Lemma nth_bound (g : nat -> Q) ds v (near : list nat) p : sorted_distances N g ds ->
  (forall j, j < N -> (g j < v)%Q -> In j near) -> length near <= p -> p < N -> (v <= nth p ds 0)%Q.
Proof.
  intros [P SS] H L Hp. destruct (Qlt_le_dec (nth p ds 0%Q) v) as [K|K]; auto. exfalso.
  assert (LD : length ds = N) by (rewrite (Permutation_length P), map_length, seq_length; auto).
  apply sorted_nth_below in K; auto; [|lia].
  assert (LB : length (below v ds) = length (filter (fun j => negb (Qle_bool v (g j))) (seq 0 N))).
  { unfold below.
    assert (PF : Permutation (filter (fun x => negb (Qle_bool v x)) ds)
                   (filter (fun x => negb (Qle_bool v x)) (map g (seq 0 N)))).
    { clear - P. induction P; cbn; auto; repeat destruct (negb _); auto; try constructor; auto.
      etransitivity; eauto. }
    rewrite (Permutation_length PF). clear.
    induction (seq 0 N); cbn; auto. destruct (negb _); cbn; rewrite ?IHl; auto. }
  assert (LI : length (filter (fun j => negb (Qle_bool v (g j))) (seq 0 N)) <= length near).
  { apply NoDup_incl_length; [apply NoDup_filter, seq_NoDup|]. intros j Hj. apply filter_In in Hj as [Hj1 Hj2].
    apply In_seq0 in Hj1. apply below_spec in Hj2. auto. }
  lia.
Qed.

Lemma knn_approx l0 : 0 < length l0 -> knn_max (l0, 0) = s_max ->
  exists st l, search_nearest tree (visitor_approximate_knn e) q (l0, 0) = Ok st
  /\ l = firstn (Nat.min (length l0) N) (fst st)
  /\ length (fst st) = length l0
  /\ length l = Nat.min (length l0) N
  /\ NoDup (map n_index l)
  /\ StronglySorted Qle (map (fun x => val (n_distance x)) l)
  /\ (forall x, In x l -> n_index x < N /\ (val (n_distance x) == D (n_index x) / val e)%Q)
  /\ (forall ds p x, sorted_distances N D ds -> nth_error l p = Some x ->
       (D (n_index x) <= val e * nth p ds 0)%Q).
Proof.
  intros H0 HX.
  destruct (query_knn f (visitor_approximate_knn e) l0) as (tr & rest & st & kept & dropped & P & E & A & B & F); auto.
  exists st. eexists. split; [exact E|]. split; [reflexivity|]. split; [apply (kh_len _ _ _ _ _ _ A)|].
  pose proof P as P0. apply perm_in_seq in P as (Ptr & Prest & Pall & ND & Pdis).
  assert (Hk : forall i, In i kept -> i < N).
  { intros i Hi. apply Ptr. eapply Permutation_in; [apply (kh_perm _ _ _ _ _ _ A)|]. apply in_or_app; auto. }
  assert (Hd : forall i, In i dropped -> i < N).
  { intros i Hi. apply Ptr. eapply Permutation_in; [apply (kh_perm _ _ _ _ _ _ A)|]. apply in_or_app; auto. }
  assert (NDk : NoDup kept).
  { eapply NoDup_app_l. eapply Permutation_NoDup; [symmetry; apply (kh_perm _ _ _ _ _ _ A)|auto]. }
  assert (LK : length kept = Nat.min (length l0) N).
  { pose proof (kh_le _ _ _ _ _ _ A) as L.
    assert (LN : length kept + length dropped + length rest = N).
    { apply Permutation_length in P0. rewrite app_length, seq_length in P0.
      pose proof (Permutation_length (kh_perm _ _ _ _ _ _ A)) as L2. rewrite app_length in L2. lia. }
    destruct (le_lt_dec (length l0) (length kept)) as [L1|L1]; [lia|].
    pose proof (knn_max_short f l0 tr st kept dropped A L1) as M. rewrite HX in M.
    assert (dropped = []) as ->.
    { destruct dropped as [|i dr]; auto. exfalso.
      pose proof (ks_dropped _ _ _ _ B i (or_introl eq_refl)) as K. rewrite M in K.
      apply (leb_val val EL) in K. rewrite f_val in K.
      pose proof (Hd i (or_introl eq_refl)) as Hi. pose proof (scaled_le_self i Hi). specialize (FIT i Hi). lra. }
    assert (rest = []) as ->.
    { destruct rest as [|i dr]; auto. exfalso.
      pose proof (F i (or_introl eq_refl)) as K. rewrite M in K.
      pose proof (Prest i (or_introl eq_refl)) as Hi. rewrite EX in K by auto. specialize (FIT i Hi). lra. }
    simpl in LN. lia. }
  rewrite <- LK. pose proof (kh_first _ _ _ _ _ _ A) as F1. rewrite (kh_active _ _ _ _ _ _ A) in F1.
  rewrite F1. rewrite !map_map. cbn [n_index n_distance as_neighbor]. rewrite map_id, map_length.
  pose proof (ks_sorted _ _ _ _ B) as SS.
  split; auto. split; auto. split; [|split].
  - clear - SS EL. induction SS as [|a l SS IH FA]; cbn; constructor; auto. rewrite Forall_forall in *.
    intros x Hx. apply in_map_iff in Hx as (j & <- & Hj). apply (leb_val val EL). apply (FA j Hj).
  - intros x Hx. apply in_map_iff in Hx as (j & <- & Hj). cbn [n_index n_distance as_neighbor]. split; auto.
    rewrite f_val. apply scaled_div.
  - intros ds p x HS Hp. rewrite nth_error_map in Hp.
    destruct (nth_error kept p) as [i|] eqn:Ei; [|discriminate]. injection Hp as <-. cbn [n_index as_neighbor].
    apply scaled_bound. rewrite <- f_val.
    assert (Lp : p < length kept) by (apply nth_error_Some; congruence).
    apply nth_error_split in Ei as (K1 & K2 & EK & LK1).
    rewrite EK in SS. apply StronglySorted_app_inv in SS as (_ & SS2 & _).
    apply StronglySorted_inv in SS2 as [_ FA]. rewrite Forall_forall in FA.
    apply (nth_bound D ds (val (f i)) K1 p HS); try lia.
    intros j Hj HL. pose proof (scaled_le_self j Hj) as HD. rewrite <- f_val in HD.
    assert (KM : (val (f i) <= val (knn_max st))%Q).
    { destruct (le_lt_dec (length l0) (length kept)) as [L1|L1].
      - destruct (exists_last (l := kept)) as (X & o & EX'). { apply length_nonnil. lia. }
        rewrite EX' in A, L1. pose proof (kh_le _ _ _ _ _ _ A).
        rewrite (knn_max_full _ _ _ _ _ _ _ A) by lia.
        assert (Ho : In o (i :: K2)).
        { rewrite EK in EX'. destruct (exists_last (l := i :: K2)) as (Y & o' & EY); [discriminate|].
          rewrite EY in EX'. rewrite app_assoc in EX'. apply app_inj_tail in EX' as [_ <-].
          rewrite EY. apply in_or_app; simpl; auto. }
        destruct Ho as [<-|Ho]; [lra|]. apply (leb_val val EL). apply (FA o Ho).
      - rewrite (knn_max_short _ _ _ _ _ _ A) by auto. rewrite HX.
        assert (Hi : In i kept) by (rewrite EK; apply in_or_app; simpl; auto).
        pose proof (ks_max _ _ _ _ B i Hi) as K. apply (ltb_val val EL) in K. lra. }
    destruct (Pall j Hj) as [H|H].
    + eapply Permutation_in in H; [|symmetry; apply (kh_perm _ _ _ _ _ _ A)].
      apply in_app_or in H as [H|H].
      * rewrite EK in H. apply in_app_or in H as [H|[<-|H]]; auto; [lra|].
        specialize (FA j H). apply (leb_val val EL) in FA. lra.
      * pose proof (ks_dropped _ _ _ _ B j H) as K. apply (leb_val val EL) in K. lra.
    + pose proof (F j H) as K. rewrite EX in K by auto. lra.
Qed.
End Approx.
End Exact.
End Query.
