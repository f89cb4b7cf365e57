(** Queries on constructed cover trees. *)
From Coq Require Import List ZArith QArith Qabs Bool Arith Permutation Sorted Lia Lqa.
From Verif Require Import Base ModelBox ModelBuild ModelSearch Spec ModelCover SpecCover Lemmas
  Instances BuildProofs BuildOrder BuildThms SearchProofs SearchThms Metrics MetricThms Visitors QueryThms TopThms
  OrdQuery ExactQuery CoverThms CoverTerm CoverSearch.
Import ListNotations.
Local Open Scope nat_scope.

(** * Every point once, and valid cover distances *)
Section Shape.
Context {T : Type} {S : Scalar T}.

Lemma cover_make_bounds ok (OL : ord_laws S ok) cm alg (SL : std_laws alg) shuffle (SH : shuffles shuffle)
  (m : metric T) fuel sp base (t : cover_tree T) :
  (forall x y, In x (sp_pts sp) -> In y (sp_pts sp) -> ok (m_dist m x y)) ->
  cover_tree_make cm alg shuffle m fuel sp base = Ok t ->
  forall n j, node_of n (ct_root t) -> In j (stored n) ->
    s_leb (m_dist m (nth (cn_index n) (sp_pts sp) []) (nth j (sp_pts sp) [])) (cn_max_distance n) = true.
Proof.
  intros OKP HM. 
  destruct (cover_make_inv _ _ _ _ _ _ _ _ SL SH HM) as (N0 & ES & EM & P & r0 & ER).
  (* the nodes of a tree over the space only refer to its points *)
  assert (IN : forall j, In j (stored (ct_root t)) -> j < length (sp_pts sp)).
  { intros j Hj. apply In_seq0. eapply Permutation_in; [exact P|auto]. }
  rewrite ER in IN |- *. clear ER P HM.
  assert (K : forall n : cover_node T, (forall j, In j (stored n) -> j < length (sp_pts sp)) ->
    forall c, c < length (sp_pts sp) -> ok (max_distance m sp n (sp_at sp c))
    /\ forall j, In j (stored n) -> s_leb (m_dist m (sp_at sp c) (sp_at sp j)) (max_distance m sp n (sp_at sp c)) = true).
  { induction n as [l md i cs F] using cover_ind. intros IN' c Hc. cbn [max_distance stored] in *.
    set (x := sp_at sp c). assert (Hx : In x (sp_pts sp)) by (apply nth_In; auto).
    set (g := fun mx c => std_max mx (max_distance m sp c x)).
    assert (OKI : forall j, In j (i :: flat_map stored cs) -> ok (m_dist m x (sp_at sp j))).
    { intros j Hj. apply OKP; auto. apply nth_In. auto. }
    assert (KK : forall cs a, ok a -> (forall j, In j (flat_map stored cs) -> ok (m_dist m x (sp_at sp j))) ->
      Forall (fun n => ok (max_distance m sp n x)
        /\ forall j, In j (stored n) -> s_leb (m_dist m x (sp_at sp j)) (max_distance m sp n x) = true) cs ->
      ok (fold_left g cs a) /\ s_leb a (fold_left g cs a) = true
      /\ forall j, In j (flat_map stored cs) -> s_leb (m_dist m x (sp_at sp j)) (fold_left g cs a) = true).
    { clear - OL. induction cs as [|n cs IH]; intros a Ha OKI F; cbn [fold_left flat_map] in *.
      - split; auto. split; [apply (leb_refl ok OL); auto|intros ? []].
      - inversion F as [|? ? [O B] Fcs]; subst.
        assert (Og : ok (g a n)) by (apply std_max_ok; auto).
        destruct (IH (g a n) Og) as (O2 & B2 & C2); auto.
        { intros j Hj. apply OKI. apply in_or_app; auto. }
        split; auto. split.
        + eapply (leb_trans ok OL); [| | |apply (std_max_l ok OL)|exact B2]; auto.
        + intros j Hj. pose proof (OKI j Hj) as Oj. apply in_app_or in Hj as [Hj|Hj]; auto.
          eapply (leb_trans ok OL); [| | |apply (B j Hj)|]; auto.
          eapply (leb_trans ok OL); [| | |apply (std_max_r ok OL)|exact B2]; auto. }
    destruct (KK cs (cn_dist m sp x (CoverNode l md i cs))) as (A & B & C); auto.
    { apply (OKI i). left; auto. }
    { intros j Hj. apply OKI. right; auto. }
    { rewrite Forall_forall in *. intros n Hn. apply F; auto. intros j Hj. apply IN'. right. apply in_flat_map. eauto. }
    split; auto. intros j [<-|Hj]; auto. }
  assert (L : forall n : cover_node T, (forall j, In j (stored n) -> j < length (sp_pts sp)) ->
    forall a j, node_of a (update_max_distance m sp n) -> In j (stored a) ->
      s_leb (m_dist m (sp_at sp (cn_index a)) (sp_at sp j)) (cn_max_distance a) = true).
  { induction n as [l md i cs F] using cover_ind. intros IN' a j Ha Hj. cbn [update_max_distance] in Ha.
    inversion Ha as [|? ? ? ? c Hc Hac]; subst.
    - cbn [cn_index cn_max_distance]. apply K; auto.
      { apply IN'. left; auto. }
      cbn [stored] in *. destruct Hj as [Hj|Hj]; [left; auto|right].
      apply in_flat_map in Hj as (c & Hc & Hj). apply in_map_iff in Hc as (c0 & <- & Hc0).
      rewrite update_stored in Hj. apply in_flat_map. eauto.
    - apply in_map_iff in Hc as (c0 & <- & Hc0). rewrite Forall_forall in F. apply (F c0); auto.
      intros k Hk. apply IN'. cbn [stored]. right. apply in_flat_map. eauto. }
  intros n j Hn Hj. apply (L r0); auto.
  intros k Hk. apply IN. rewrite update_stored. auto.
Qed.
End Shape.

(** * Answers *)
Section Answers.
Context {T : Type} {S : Scalar T} (val : T -> Q) (EL : exact_laws S val).
Variables (cm : cmath T) (alg : std_algos) (SL : std_laws alg) (shuffle : list nat -> list nat)
  (SH : shuffles shuffle) (m : metric T) (fuel : nat) (sp : space T) (base : T) (t : cover_tree T) (q : list T).
Hypotheses (HM : cover_tree_make cm alg shuffle m fuel sp base = Ok t)
  (LQ : length q = sp_sdim sp) (TRI : triangle val m sp q).
Let N := npts sp.
Let D := metric_to val m sp q.
Let OL := exact_ord val EL.

Lemma cover_triangle : triangle_ord (fun _ => True) m sp q.
Proof.
  intros c p r Hc Hp _ H. split; auto. apply (leb_val val EL) in H. apply (leb_val val EL).
  rewrite (el_sub _ _ EL). specialize (TRI c p Hc Hp). lra.
Qed.

Lemma cover_exact_contract : contract (ok := fun _ => True) m sp q (fun V vis v0 => cover_search alg t vis q v0).
Proof.
  destruct (cover_make_inv _ _ _ _ _ _ _ _ SL SH HM) as (N0 & ES & EM & P & r0 & ER).
  apply (cover_contract OL alg SL m sp q); auto.
  - intros i j. split; exact I.
  - exact cover_triangle.
  - rewrite ER. apply update_bounded; auto.
Qed.

Lemma cover_N0 : 0 < length (sp_pts sp).
Proof. apply (cover_make_inv _ _ _ _ _ _ _ _ SL SH HM). Qed.
Lemma cover_space : ct_space t = sp.
Proof. apply (cover_make_inv _ _ _ _ _ _ _ _ SL SH HM). Qed.

Let RUN := cover_exact_contract.
Let N0 := cover_N0.

Lemma cover_radius_answer r sort : exists l, cover_search_radius alg t q r sort = Ok l
  /\ filter_answer N (fun i => (D i < val r)%Q) D (answers val l)
  /\ (sort = true -> StronglySorted Qle (map (fun x => val (n_distance x)) l)).
Proof. exact (eq_radius_sort val EL m sp q _ RUN alg SL r sort). Qed.

Lemma cover_radius_approx_answer e r sort : field_laws S val -> (1 <= val e)%Q ->
  (forall j, j < N -> (0 <= D j)%Q) ->
  exists l, cover_search_radius_approx alg t q r e sort = Ok l
  /\ NoDup (map n_index l)
  /\ (forall x, In x l -> n_index x < N /\ (D (n_index x) < val r)%Q
         /\ (val (n_distance x) == D (n_index x) / val e)%Q)
  /\ (forall i, i < N -> (D i < val r / val e)%Q -> In i (map n_index l))
  /\ (sort = true -> StronglySorted Qle (map (fun x => val (n_distance x)) l)).
Proof. intros FL E1 POS. exact (eq_approx_radius_sort val EL m sp q _ RUN FL e E1 POS alg SL r sort). Qed.

Section Fit.
Hypothesis FIT : forall j, j < N -> (D j < val s_max)%Q.

Lemma cover_nn_answer nn0 : exists i d, cover_search_nn alg t q nn0 = Ok (Neighbor i d)
  /\ (val d == D i)%Q /\ is_nearest N D i.
Proof. exact (eq_nn val EL m sp q _ RUN N0 FIT nn0). Qed.

Lemma cover_knn_range_answer range : 0 < length range ->
  exists out, cover_search_knn_range alg t q range = Ok out /\ length out = length range
  /\ knn_answer N (length range) D (answers val (firstn N out))
  /\ (forall p, N <= p -> p < length range - 1 -> nth_error out p = nth_error range p)
  /\ (N < length range -> forall old, nth_error range (length range - 1) = Some old ->
        nth_error out (length range - 1) = Some (Neighbor (n_index old) s_max)).
Proof. exact (eq_knn_range val EL m sp q _ RUN N0 FIT range). Qed.

Lemma cover_knn_answer k knn0 : 0 < k ->
  exists out, cover_search_knn alg t q k knn0 = Ok out /\ knn_answer N k D (answers val out).
Proof.
  intros Hk. unfold cover_search_knn. rewrite cover_space.
  exact (eq_knn val EL m sp q _ RUN N0 FIT k knn0 Hk).
Qed.

Lemma cover_nn_approx_answer e nn0 : field_laws S val -> (1 <= val e)%Q ->
  (forall j, j < N -> (0 <= D j)%Q) ->
  exists i d, cover_search_nn_approx alg t q e nn0 = Ok (Neighbor i d)
  /\ i < N /\ (val d == D i / val e)%Q /\ forall j, j < N -> (D i <= val e * D j)%Q.
Proof. intros FL E1 POS. exact (eq_approx_nn val EL m sp q _ RUN N0 FL e E1 POS FIT nn0). Qed.

Lemma cover_knn_approx_answer e k knn0 : field_laws S val -> (1 <= val e)%Q ->
  (forall j, j < N -> (0 <= D j)%Q) -> 0 < k ->
  exists l, cover_search_knn_approx alg t q k e knn0 = Ok l
  /\ length l = Nat.min k N
  /\ NoDup (map n_index l)
  /\ StronglySorted Qle (map (fun x => val (n_distance x)) l)
  /\ (forall x, In x l -> n_index x < N /\ (val (n_distance x) == D (n_index x) / val e)%Q)
  /\ (forall ds p x, sorted_distances N D ds -> nth_error l p = Some x ->
       (D (n_index x) <= val e * nth p ds 0)%Q).
Proof.
  intros FL E1 POS Hk. unfold cover_search_knn_approx. rewrite cover_space.
  exact (eq_approx_knn val EL m sp q _ RUN N0 FL e E1 POS FIT k knn0 Hk).
Qed.
End Fit.
End Answers.

(** * Metrics that satisfy the triangle inequality *)
Section Tri.
Context {T : Type} {S : Scalar T} (val : T -> Q) (EL : exact_laws S val).

Lemma triangle_exact em (sp : space T) q : em = L1 \/ em = SO2 ->
  wf_space sp -> Forall (fun p => valid_for em (map val p)) (sp_pts sp) ->
  length q = sp_sdim sp -> valid_for em (map val q) ->
  triangle val (metric_of em) sp q
  /\ (forall p, In p (sp_pts sp) -> (0 <= val (m_dist (metric_of em) q p))%Q).
Proof.
  intros He [_ W] V LQ VQ. rewrite Forall_forall in W, V. split.
  - intros c p Hc Hp.
    pose proof (metric_triangle val EL em q p c He ltac:(rewrite LQ, W; auto) ltac:(rewrite !W; auto) VQ (V p Hp) (V c Hc)) as K.
    destruct (metric_axioms val EL em p c ltac:(rewrite !W; auto) (V p Hp) (V c Hc)) as (E & _). rewrite <- E. exact K.
  - intros p Hp. destruct (metric_axioms val EL em q p ltac:(rewrite LQ, W; auto) VQ (V p Hp)) as (_ & K & _). exact K.
Qed.

Lemma triangle_lpinf (sp : space T) q : wf_space sp -> length q = sp_sdim sp ->
  triangle val metric_lpinf sp q
  /\ (forall p, In p (sp_pts sp) -> (0 <= val (m_dist metric_lpinf q p))%Q).
Proof.
  intros [_ W] LQ. rewrite Forall_forall in W. split.
  - intros c p Hc Hp.
    assert (L1 : length q = length p) by (rewrite LQ, W; auto).
    assert (L2 : length p = length c) by (rewrite !W; auto).
    destruct (lpinf_axioms val EL q p c L1 L2) as (_ & _ & _ & K).
    destruct (lpinf_axioms val EL p c c L2 eq_refl) as (E & _). rewrite E in K. exact K.
  - intros p Hp. destruct (lpinf_axioms val EL q p p ltac:(rewrite LQ, W; auto) eq_refl) as (_ & K & _). exact K.
Qed.
End Tri.
