(** Answers of the public query functions in exact arithmetic, for any search
    that meets the contract of OrdQuery.v. *)
From Coq Require Import List ZArith QArith Qabs Bool Arith Permutation Sorted Lia Lqa.
From Verif Require Import Base ModelBox ModelBuild ModelSearch Spec ModelCover SpecCover Lemmas
  BuildProofs BuildOrder BuildThms Instances SearchProofs SearchThms Metrics Visitors QueryThms TopThms OrdQuery.
Import ListNotations.
Local Open Scope nat_scope.

Lemma sorted_val {T} {S : Scalar T} (val : T -> Q) (EL : exact_laws S val) (l : list (neighbor T)) :
  StronglySorted (fun a b => s_leb (n_distance a) (n_distance b) = true) l ->
  StronglySorted Qle (map (fun x => val (n_distance x)) l).
Proof.
  intros St. induction St as [|a m St IH F]; simpl; constructor; auto.
  rewrite Forall_map. rewrite Forall_forall in *. intros b Hb. apply (leb_val val EL). auto.
Qed.

Section ExactQuery.
Context {T : Type} {S : Scalar T} (val : T -> Q) (EL : exact_laws S val).
Variables (m : metric T) (sp : space T) (q : list T).
Let N := length (sp_pts sp).
Let D (i : nat) : Q := val (m_dist m q (sp_at sp i)).
Variable run : forall V, visitor T V -> V -> res V.
Hypothesis RUN : contract (ok := fun _ => True) m sp q run.
Hypothesis N0 : 0 < N.
Let OL := exact_ord val EL.

Let f0 (i : nat) : T := m_dist m q (sp_at sp i).
Lemma f0_le i : i < N -> s_leb (f0 i) (m_dist m q (sp_at sp i)) = true.
Proof. intros _. apply (leb_refl _ OL); exact I. Qed.

Lemma eq_radius r : exists l, run _ (visitor_radius r) [] = Ok l
  /\ filter_answer N (fun i => (D i < val r)%Q) D (answers val l).
Proof.
  destruct (ord_radius_answer OL m sp q (fun _ => I) run RUN f0 (fun _ => I) f0_le r (visitor_radius r) I)
    as (l & E & ND & G & C); auto.
  exists l. split; auto. unfold answers. constructor.
  - rewrite map_map. exact ND.
  - intros i d Hi. apply in_map_iff in Hi as (x & Ex & Hx). injection Ex as <- <-.
    destruct (G x Hx) as (A & B & L). apply (ltb_val val EL) in L. rewrite B in *. split; auto. split; auto. reflexivity.
  - intros i Hi HR. rewrite map_map. apply C; auto. apply (ltb_val val EL). exact HR.
Qed.

Lemma eq_radius_sort (alg : std_algos) (SL : std_laws alg) r (sort : bool) : exists l,
  (do n <- run _ (visitor_radius r) []; Ok (if sort then std_sort alg _ neighbor_lt n else n)) = Ok l
  /\ filter_answer N (fun i => (D i < val r)%Q) D (answers val l)
  /\ (sort = true -> StronglySorted Qle (map (fun x => val (n_distance x)) l)).
Proof.
  destruct (eq_radius r) as (l & E & A). rewrite E. cbn [bind]. eexists. split; [reflexivity|].
  destruct sort; [|split; [auto|discriminate]].
  destruct (sort_result (fun _ => True) OL alg SL l) as [P St]; auto.
  split; [eapply filter_answer_perm; eauto|]. intros _. apply (sorted_val val EL); auto.
Qed.

Section Fit.
Hypothesis FIT : forall j, j < N -> (D j < val s_max)%Q.
Lemma fit_b j : j < N -> s_ltb (m_dist m q (sp_at sp j)) s_max = true.
Proof. intros Hj. apply (ltb_val val EL). apply FIT; auto. Qed.

Lemma eq_nn nn0 : exists i d, run _ visitor_nn (visitor_nn_init nn0) = Ok (Neighbor i d)
  /\ (val d == D i)%Q /\ is_nearest N D i.
Proof.
  destruct (ord_nn_answer OL m sp q (fun _ => I) run RUN N0 fit_b f0 (fun _ => I) f0_le visitor_nn (visitor_nn_init nn0))
    as (i & Hi & E & A); auto.
  exists i, (f0 i). split; [exact E|]. split; [reflexivity|]. split; auto. intros j Hj. apply (leb_val val EL). auto.
Qed.

Lemma eq_knn_range range : 0 < length range ->
  exists out, (do st0 <- visitor_knn_init range; do st <- run _ visitor_knn st0; Ok (fst st)) = Ok out
  /\ length out = length range
  /\ knn_answer N (length range) D (answers val (firstn N out))
  /\ (forall p, N <= p -> p < length range - 1 -> nth_error out p = nth_error range p)
  /\ (N < length range -> forall old, nth_error range (length range - 1) = Some old ->
        nth_error out (length range - 1) = Some (Neighbor (n_index old) s_max)).
Proof.
  intros HL. destruct (knn_init_ok range HL) as (l0 & EI & L0 & M0 & K1 & K2).
  rewrite EI. cbn [bind].
  destruct (ord_knn_answer OL m sp q (fun _ => I) run RUN N0 fit_b f0 (fun _ => I) f0_le visitor_knn l0)
    as (st & l & E & El & L & Ll & B & ND & St & G & C); auto; [lia|].
  rewrite E. cbn [bind]. fold N in El, Ll, B, G, C.
  exists (fst st). split; auto. split; [lia|].
  assert (NE : forall p, N <= p -> N < length l0 -> nth_error (fst st) p = nth_error l0 p).
  { intros p Hp Hlt. rewrite Nat.min_r in B by lia.
    rewrite <- (firstn_skipn N (fst st)), <- (firstn_skipn N l0).
    rewrite !nth_error_app2 by (rewrite firstn_length; lia).
    rewrite !firstn_length, B, !Nat.min_l by lia. reflexivity. }
  split; [|split].
  - assert (EF : firstn N (fst st) = l).
    { rewrite El. destruct (Nat.le_gt_cases (length range) N) as [Hc|Hc].
      - rewrite Nat.min_l by lia. rewrite !firstn_all2 by lia. reflexivity.
      - rewrite Nat.min_r by lia. reflexivity. }
    rewrite EF. unfold answers. constructor.
    + rewrite map_length, Ll, L0. reflexivity.
    + rewrite map_map. exact ND.
    + intros i d Hi. apply in_map_iff in Hi as (x & Ex & Hx). injection Ex as <- <-.
      destruct (G x Hx) as (G1 & G2). split; auto. rewrite G2. reflexivity.
    + rewrite map_map. apply (sorted_val val EL). exact St.
    + intros i d j Hi Hj Hn. apply in_map_iff in Hi as (x & Ex & Hx). injection Ex as <- <-.
      rewrite map_map in Hn. apply (leb_val val EL). apply C; auto.
  - intros p Hp Hlt. rewrite NE by lia. apply K1. auto.
  - intros Hlt old Ho. rewrite NE by lia. apply K2. auto.
Qed.

Lemma eq_knn k knn0 : 0 < k -> exists out,
  (do st0 <- visitor_knn_init (vector_resize knn0 (Nat.min k N)); do st <- run _ visitor_knn st0; Ok (fst st)) = Ok out
  /\ knn_answer N k D (answers val out).
Proof.
  intros Hk. destruct (eq_knn_range (vector_resize knn0 (Nat.min k N))) as (out & E & L & A & _).
  { rewrite length_resize. lia. }
  rewrite length_resize in *. exists out. split; auto.
  rewrite firstn_all2 in A by lia.
  destruct A as [A1 A2 A3 A4 A5]. constructor; auto. rewrite A1. lia.
Qed.
End Fit.

(** * Approximate answers *)
Section Approx.
Hypothesis FL : field_laws S val.
Variable e : T.
Hypothesis E1 : (1 <= val e)%Q.
Hypothesis POS : forall j, j < N -> (0 <= D j)%Q.
Let s := val (s_div s_one e).
Let f (i : nat) : T := s_mul (m_dist m q (sp_at sp i)) (s_div s_one e).

Lemma eq_f_val i : (val (f i) == D i * s)%Q.
Proof. unfold f. rewrite (el_mul _ _ EL). reflexivity. Qed.

Lemma f_le_D i : i < N -> s_leb (f i) (m_dist m q (sp_at sp i)) = true.
Proof.
  intros Hi. apply (leb_val val EL). rewrite eq_f_val. fold (D i).
  destruct (e_inv_props val EL FL e E1) as (A & B & _). fold s in A, B. specialize (POS i Hi). nra.
Qed.

Lemma eq_approx_radius r : exists l, run _ (visitor_approximate_radius e r) [] = Ok l
  /\ NoDup (map n_index l)
  /\ (forall x, In x l -> n_index x < N /\ (D (n_index x) < val r)%Q
         /\ (val (n_distance x) == D (n_index x) / val e)%Q)
  /\ (forall i, i < N -> (D i < val r / val e)%Q -> In i (map n_index l)).
Proof.
  destruct (ord_radius_answer OL m sp q (fun _ => I) run RUN f (fun _ => I) f_le_D
    (s_mul r (s_div s_one e)) (visitor_approximate_radius e r) I) as (l & E & ND & G & C); auto.
  assert (RV : (val (s_mul r (s_div s_one e)) == val r * s)%Q) by (rewrite (el_mul _ _ EL); reflexivity).
  destruct (e_inv_props val EL FL e E1) as (S0 & S1 & S2). fold s in S0, S1, S2.
  exists l. split; auto. split; auto. split.
  - intros x Hx. destruct (G x Hx) as (A & B & L). split; auto. apply (ltb_val val EL) in L. rewrite B in *.
    rewrite eq_f_val, RV in L. split; [nra|]. rewrite eq_f_val. apply (scaled_div val EL FL e E1).
  - intros i Hi HR. apply C; auto. apply (ltb_val val EL). rewrite RV. fold (D i).
    unfold s. rewrite (scaled_div val EL FL e E1). exact HR.
Qed.

Lemma eq_approx_radius_sort (alg : std_algos) (SL : std_laws alg) r (sort : bool) : exists l,
  (do n <- run _ (visitor_approximate_radius e r) []; Ok (if sort then std_sort alg _ neighbor_lt n else n)) = Ok l
  /\ NoDup (map n_index l)
  /\ (forall x, In x l -> n_index x < N /\ (D (n_index x) < val r)%Q
         /\ (val (n_distance x) == D (n_index x) / val e)%Q)
  /\ (forall i, i < N -> (D i < val r / val e)%Q -> In i (map n_index l))
  /\ (sort = true -> StronglySorted Qle (map (fun x => val (n_distance x)) l)).
Proof.
  destruct (eq_approx_radius r) as (l & E & A & B & C). rewrite E. cbn [bind]. eexists. split; [reflexivity|].
  destruct sort; [|split; [auto|split; [auto|split; [auto|discriminate]]]].
  destruct (sort_result (fun _ => True) OL alg SL l) as [P St]; auto.
  assert (P2 := Permutation_map (fun x : neighbor T => n_index x) P).
  split; [eapply Permutation_NoDup; [symmetry; exact P2|auto]|].
  split; [intros x Hx; apply B; eapply Permutation_in; eauto|].
  split; [intros i Hi H1; eapply Permutation_in; [symmetry; exact P2|]; apply C; auto|].
  intros _. apply (sorted_val val EL); auto.
Qed.

Hypothesis FIT : forall j, j < N -> (D j < val s_max)%Q.

Lemma eq_approx_nn nn0 : exists i d,
  run _ (visitor_approximate_nn e) (visitor_nn_init nn0) = Ok (Neighbor i d)
  /\ i < N /\ (val d == D i / val e)%Q /\ forall j, j < N -> (D i <= val e * D j)%Q.
Proof.
  destruct (ord_nn_answer OL m sp q (fun _ => I) run RUN N0 (fit_b FIT) f (fun _ => I) f_le_D
    (visitor_approximate_nn e) (visitor_nn_init nn0)) as (i & Hi & E & A); auto.
  exists i, (f i). split; [exact E|]. split; auto. split.
  - rewrite eq_f_val. apply (scaled_div val EL FL e E1).
  - intros j Hj. apply (scaled_bound val EL FL e E1). fold s. rewrite <- eq_f_val. apply (leb_val val EL). auto.
Qed.

Lemma eq_approx_knn_range range : 0 < length range ->
  exists l, (do st0 <- visitor_knn_init range; do st <- run _ (visitor_approximate_knn e) st0; Ok (fst st)) = Ok l
  /\ length l = length range
  /\ NoDup (map n_index (firstn N l))
  /\ StronglySorted Qle (map (fun x => val (n_distance x)) (firstn N l))
  /\ (forall x, In x (firstn N l) -> n_index x < N /\ (val (n_distance x) == D (n_index x) / val e)%Q)
  /\ (forall ds p x, sorted_distances N D ds -> nth_error (firstn N l) p = Some x ->
       (D (n_index x) <= val e * nth p ds 0)%Q).
Proof.
  intros HL. destruct (knn_init_ok range HL) as (l0 & EI & L0 & M0 & K1 & K2).
  rewrite EI. cbn [bind].
  destruct (ord_knn_answer OL m sp q (fun _ => I) run RUN N0 (fit_b FIT) f (fun _ => I) f_le_D
    (visitor_approximate_knn e) l0) as (st & l & E & El & L & Ll & B & ND & St & G & C); auto; [lia|].
  rewrite E. cbn [bind]. fold N in El, Ll, B, G, C.
  exists (fst st). split; auto. split; [lia|].
  assert (EF : firstn N (fst st) = l).
  { rewrite El. destruct (Nat.le_gt_cases (length range) N) as [Hc|Hc].
    - rewrite Nat.min_l by lia. rewrite !firstn_all2 by lia. reflexivity.
    - rewrite Nat.min_r by lia. reflexivity. }
  rewrite EF. split; auto. split; [apply (sorted_val val EL); auto|]. split.
  - intros x Hx. destruct (G x Hx) as [G1 G2]. split; auto. rewrite G2, eq_f_val. apply (scaled_div val EL FL e E1).
  - intros ds p x HS Hp. apply (scaled_bound val EL FL e E1). fold s.
    assert (Hx : In x l) by (eapply nth_error_In; eauto).
    destruct (G x Hx) as [G1 G2]. rewrite <- eq_f_val, <- G2.
    assert (Lp : p < length l) by (apply nth_error_Some; congruence).
    apply nth_error_split in Hp as (X1 & X2 & EX & LX).
    apply (nth_bound sp (repeat s_zero (sp_sdim sp)) (repeat_length _ _) D ds (val (n_distance x)) (map n_index X1) p HS);
      [|rewrite map_length; lia|fold N; lia].
    intros j Hj HD. destruct (in_dec Nat.eq_dec j (map n_index l)) as [Hin|Hn].
    + apply in_map_iff in Hin as (y & Ey & Hy). rewrite EX in Hy.
      apply in_app_or in Hy as [Hy|[Hy|Hy]]; [apply in_map_iff; eauto| |]; exfalso.
      * subst y. subst j. rewrite G2 in HD. pose proof (f_le_D _ Hj) as K. apply (leb_val val EL) in K. fold (D (n_index x)) in K. lra.
      * rewrite EX in St. apply StronglySorted_app_inv in St as (_ & St & _).
        apply StronglySorted_inv in St as [_ FA]. rewrite Forall_forall in FA. specialize (FA y Hy).
        apply (leb_val val EL) in FA. destruct (G y) as [Y1 Y2]; [rewrite EX; apply in_or_app; simpl; auto|].
        rewrite Y2 in FA. subst j. pose proof (f_le_D _ Hj) as K. apply (leb_val val EL) in K.
        fold (D (n_index y)) in K. lra.
    + exfalso. specialize (C x j Hx Hj Hn). apply (leb_val val EL) in C. fold (D j) in C. lra.
Qed.

Lemma eq_approx_knn k knn0 : 0 < k ->
  exists l, (do st0 <- visitor_knn_init (vector_resize knn0 (Nat.min k N));
             do st <- run _ (visitor_approximate_knn e) st0; Ok (fst st)) = Ok l
  /\ length l = Nat.min k N
  /\ NoDup (map n_index l)
  /\ StronglySorted Qle (map (fun x => val (n_distance x)) l)
  /\ (forall x, In x l -> n_index x < N /\ (val (n_distance x) == D (n_index x) / val e)%Q)
  /\ (forall ds p x, sorted_distances N D ds -> nth_error l p = Some x ->
       (D (n_index x) <= val e * nth p ds 0)%Q).
Proof.
  intros Hk. destruct (eq_approx_knn_range (vector_resize knn0 (Nat.min k N))) as (out & E & L & A).
  { rewrite length_resize. lia. }
  rewrite length_resize in *. exists out. split; auto. split; auto.
  rewrite firstn_all2 in A by lia. exact A.
Qed.
End Approx.
End ExactQuery.
