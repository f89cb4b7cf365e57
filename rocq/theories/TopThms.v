(** From the generic query lemmas to statements about the public functions. *)
From Coq Require Import List ZArith QArith Qabs Qminmax Bool Arith Permutation Sorted Lia Lqa.
From Verif Require Import Base ModelBox ModelBuild ModelSearch Spec Lemmas Instances
  BuildProofs BuildOrder BuildShape BuildThms SearchProofs SearchThms Metrics Visitors QueryThms BoxThms.
Import ListNotations.
Local Open Scope nat_scope.

(** * Replacing distance functions by equal ones *)
Lemma is_nearest_ext N (D D' : nat -> Q) i : (forall j, j < N -> (D j == D' j)%Q) ->
  is_nearest N D i -> is_nearest N D' i.
Proof. intros E [H1 H2]. split; auto. intros j Hj. rewrite <- !E by auto. auto. Qed.

Lemma knn_answer_ext N k (D D' : nat -> Q) a : (forall j, j < N -> (D j == D' j)%Q) ->
  knn_answer N k D a -> knn_answer N k D' a.
Proof.
  intros E [H1 H2 H3 H4 H5]. constructor; auto.
  - intros i d Hi. destruct (H3 i d Hi) as [A B]. split; auto. rewrite <- E; auto.
  - intros i d j Hi Hj Hn. rewrite <- E by auto. eauto.
Qed.

Lemma filter_answer_ext N (P P' : nat -> Prop) (D D' : nat -> Q) a : (forall j, j < N -> (D j == D' j)%Q) ->
  (forall j, j < N -> (P j <-> P' j)) ->
  filter_answer N P D a -> filter_answer N P' D' a.
Proof.
  intros E EP [H1 H2 H3]. constructor; auto.
  - intros i d Hi. destruct (H2 i d Hi) as (A & B & C). split; auto. split; [apply EP; auto|]. rewrite <- E; auto.
  - intros i Hi HP. apply H3; auto. apply EP; auto.
Qed.

Lemma sorted_map_ext {A} (f g : A -> Q) l : (forall x, In x l -> (f x == g x)%Q) ->
  StronglySorted Qle (map f l) -> StronglySorted Qle (map g l).
Proof.
  induction l as [|x l IH]; simpl; intros E H; [constructor|].
  inversion H as [|? ? H1 H2]; subst. constructor; [apply IH; auto|].
  rewrite Forall_map in *. rewrite Forall_forall in *. intros y Hy.
  rewrite <- (E x), <- (E y); auto.
Qed.

Lemma sorted_distances_ext N (D D' : nat -> Q) ds : (forall j, j < N -> (D j == D' j)%Q) ->
  sorted_distances N D ds ->
  exists ds', sorted_distances N D' ds' /\ forall p, (nth p ds 0 == nth p ds' 0)%Q.
Proof.
  intros E [P St]. apply Permutation_map_inv in P as (is_ & -> & P).
  assert (B : forall x, In x is_ -> (D x == D' x)%Q).
  { intros x Hx. apply E. apply In_seq0. eapply Permutation_in; [symmetry; exact P|]. auto. }
  exists (map D' is_). split; [split|].
  - apply Permutation_map. symmetry; auto.
  - eapply sorted_map_ext; [|exact St]. auto.
  - intros p. clear St P. revert p. induction is_ as [|x l IH]; intros [|p]; simpl; try reflexivity.
    + apply B; simpl; auto.
    + apply IH. intros; apply B; simpl; auto.
Qed.

Lemma nth_error_set_nth_other {A} (l : list A) i j x : i <> j -> nth_error (set_nth l i x) j = nth_error l j.
Proof.
  revert i j. induction l as [|a l IH]; intros [|i] [|j] H; simpl; auto; try lia.
Qed.
Lemma nth_error_set_nth_same {A} (l : list A) i x : i < length l -> nth_error (set_nth l i x) i = Some x.
Proof.
  revert i. induction l as [|a l IH]; intros [|i] H; simpl in *; auto; try lia. apply IH. lia.
Qed.

Section Init.
Context {T : Type} {S : Scalar T}.

Lemma length_resize (l : list (neighbor T)) k : length (vector_resize l k) = k.
Proof. unfold vector_resize. rewrite app_length, firstn_length, repeat_length. lia. Qed.

Lemma last_set_nth (l : list (neighbor T)) x d : 0 < length l -> last (set_nth l (length l - 1) x) d = x.
Proof.
  intros H. destruct (exists_last (l := l)) as (l' & y & ->).
  { intros ->. simpl in H. lia. }
  rewrite app_length. cbn [length]. replace (length l' + 1 - 1) with (length l') by lia.
  assert (E : set_nth (l' ++ [y]) (length l') x = l' ++ [x]).
  { clear. induction l' as [|a l' IH]; simpl; auto. rewrite IH. reflexivity. }
  rewrite E. apply last_last.
Qed.

(** The slot range after the constructor of the knn visitor. *)
Lemma knn_init_ok (l : list (neighbor T)) : 0 < length l ->
  exists l0, visitor_knn_init l = Ok (l0, 0) /\ length l0 = length l /\ knn_max (l0, 0) = s_max
    /\ (forall p, p < length l - 1 -> nth_error l0 p = nth_error l p)
    /\ (forall old, nth_error l (length l - 1) = Some old ->
          nth_error l0 (length l - 1) = Some (Neighbor (n_index old) s_max)).
Proof.
  intros H. destruct l as [|a l]; [simpl in H; lia|].
  unfold visitor_knn_init. set (r := a :: l) in *.
  eexists. split; [reflexivity|]. split; [apply length_set_nth|]. split.
  - unfold knn_max. cbn [fst]. rewrite last_set_nth by auto. reflexivity.
  - split.
    + intros p Hp. rewrite nth_error_set_nth_other by lia. reflexivity.
    + intros old Ho.
      assert (EL : last r (Neighbor 0 s_max) = old).
      { destruct (exists_last (l := r)) as (l' & y & E); [discriminate|].
        rewrite E in *. rewrite last_last. rewrite app_length in Ho. cbn [length] in Ho.
        replace (length l' + 1 - 1) with (length l' + 0) in Ho by lia.
        rewrite nth_error_app2 in Ho by lia. replace (length l' + 0 - length l') with 0 in Ho by lia.
        simpl in Ho. congruence. }
      rewrite EL. rewrite nth_error_set_nth_same by lia. reflexivity.
Qed.
End Init.

(** * Exact metrics *)
Section Top.
Context {T : Type} {S : Scalar T} (val : T -> Q) (EL : exact_laws S val).
Variables (em : exact_metric) (sp : space T) (alg : std_algos) (SL : std_laws alg)
  (it : index_type) (fuel : nat) (stop : stop_condition) (bnds : start_bounds T) (ru : rule)
  (tree : kd_tree T) (q : list T).
Hypotheses (HM : kd_tree_make alg it (metric_of em) fuel sp stop bnds ru = Ok tree)
  (US : usable val em sp bnds q).
Let n := sp_sdim sp.
Let N := npts sp.
Let D := dist_to val em sp q.
Let D' (i : nat) : Q := val (m_dist (metric_of em) q (sp_at sp i)).

Lemma point_len i : i < N -> length (nth i (sp_pts sp) []) = n.
Proof.
  intros Hi. destruct US as [[_ W] _ _ _ _ _]. rewrite Forall_forall in W. apply W. apply nth_In. auto.
Qed.

Lemma point_valid i : i < N -> valid_for em (map val (nth i (sp_pts sp) [])).
Proof.
  intros Hi. destruct US as [_ _ V _ _ _]. rewrite Forall_forall in V. apply V. apply nth_In. auto.
Qed.

Lemma dist_eq i : i < N -> (D' i == D i)%Q.
Proof.
  intros Hi. unfold D', D, dist_to. apply dist_of_val; auto.
  pose proof (point_valid i Hi) as V. pose proof (us_query_valid _ _ _ _ _ US) as VQ.
  intros Eem. rewrite Eem in V, VQ. cbn [valid_for] in *. rewrite !map_length in *. unfold sp_at. tauto.
Qed.

Lemma low_eq i : i < N -> (D_low val (terms_of em) sp q i == D' i)%Q.
Proof.
  intros Hi. rewrite dist_eq by auto. unfold D, dist_to, D_low.
  apply (term_sum_dist val EL em n).
  - apply (us_query _ _ _ _ _ US).
  - apply point_len; auto.
  - apply (us_query_valid _ _ _ _ _ US).
  - apply point_valid; auto.
Qed.

Lemma points_ok : Forall (point_ok val (metric_of em) n) (sp_pts sp).
Proof.
  destruct US as [[_ W] _ V _ _ _]. rewrite Forall_forall in *. intros p Hp.
  apply (valid_point val EL em); auto. 
Qed.

Lemma bounds_dim_ok : bounds_dim sp bnds = true.
Proof.
  apply kd_tree_make_inv in HM as (data & _ & HB). apply build_inv in HB as (_ & (_ & H) & _). exact H.
Qed.

Lemma bnds_ok : bounds_ok val (metric_of em) n bnds.
Proof.
  pose proof bounds_dim_ok as HD. destruct US as [_ _ _ VB _ _]. destruct bnds as [|mn mx]; cbn [bounds_ok]; auto.
  cbn [bounds_dim] in HD. apply andb_prop in HD as [L1 L2]. apply Nat.eqb_eq in L1, L2.
  destruct VB as [A B]. split; apply (valid_point val EL em); auto.
Qed.

Lemma query_ok : point_ok val (metric_of em) n q.
Proof. apply (valid_point val EL em); [apply (us_query _ _ _ _ _ US)|apply (us_query_valid _ _ _ _ _ US)]. Qed.

Lemma size_pos : 0 < N.
Proof.
  apply kd_tree_make_inv in HM as (data & _ & HB). apply build_inv in HB as (_ & (H & _) & _). exact H.
Qed.

Lemma tree_space : kt_space tree = sp.
Proof. apply kd_tree_make_inv in HM as (data & -> & _). reflexivity. Qed.

Section Fit.
Hypothesis FIT : distances_fit val em sp q.
Lemma fit' : forall j, j < N -> (D' j < val s_max)%Q.
Proof. intros j Hj. rewrite dist_eq by auto. apply FIT; auto. Qed.

Lemma top_nn nn0 : exists i d, search_nn tree q nn0 = Ok (Neighbor i d)
  /\ (val d == D i)%Q /\ is_nearest N D i.
Proof.
  destruct (nn_exact val EL sp (us_space _ _ _ _ _ US) (us_range _ _ _ _ _ US) (metric_of em) alg SL
    (terms_of em) (exact_terms val EL em) it fuel stop bnds ru tree q HM points_ok bnds_ok
    (us_query _ _ _ _ _ US) query_ok low_eq fit' nn0) as (i & d & E & V & I).
  exists i, d. split; auto. split.
  - rewrite V. apply dist_eq. apply I.
  - eapply is_nearest_ext; [|exact I]. intros; apply dist_eq; auto.
Qed.

Lemma top_knn_range range : 0 < length range ->
  exists out, search_knn_range tree q range = Ok out /\ length out = length range
  /\ knn_answer N (length range) D (answers val (firstn N out))
  /\ (forall p, N <= p -> p < length range - 1 -> nth_error out p = nth_error range p)
  /\ (N < length range -> forall old, nth_error range (length range - 1) = Some old ->
        nth_error out (length range - 1) = Some (Neighbor (n_index old) s_max)).
Proof.
  intros HL. destruct (knn_init_ok range HL) as (l0 & EI & L0 & M0 & K1 & K2).
  destruct (knn_exact val EL sp (us_space _ _ _ _ _ US) (us_range _ _ _ _ _ US) (metric_of em) alg SL
    (terms_of em) (exact_terms val EL em) it fuel stop bnds ru tree q HM points_ok bnds_ok
    (us_query _ _ _ _ _ US) query_ok low_eq fit' l0) as (st & E & L & A & B); [lia|auto|].
  unfold search_knn_range. rewrite EI. cbn [bind]. rewrite E. cbn [bind].
  exists (fst st). split; auto. split; [lia|]. fold (npts sp) in A, B. fold N in A, B.
  assert (NE : forall p, N <= p -> N < length l0 -> nth_error (fst st) p = nth_error l0 p).
  { intros p Hp Hlt. rewrite Nat.min_r in B by lia.
    rewrite <- (firstn_skipn N (fst st)), <- (firstn_skipn N l0).
    rewrite !nth_error_app2 by (rewrite firstn_length; lia).
    rewrite !firstn_length, B, !Nat.min_l by lia. reflexivity. }
  split; [|split].
  - rewrite L0 in A. eapply knn_answer_ext; [intros; apply dist_eq; auto|].
    destruct (Nat.le_gt_cases (length range) N) as [Hc|Hc].
    + rewrite Nat.min_l in A by lia. rewrite firstn_all2 in A by lia. rewrite firstn_all2 by lia. exact A.
    + rewrite Nat.min_r in A by lia. exact A.
  - intros p Hp Hlt. rewrite NE by lia. apply K1. auto.
  - intros Hlt old Ho. rewrite NE by lia. apply K2. auto.
Qed.

Lemma top_knn k knn0 : 0 < k ->
  exists out, search_knn tree q k knn0 = Ok out /\ knn_answer N k D (answers val out).
Proof.
  intros Hk. pose proof size_pos as HN.
  unfold search_knn. rewrite tree_space. fold (npts sp). change (sp_size sp) with N.
  destruct (top_knn_range (vector_resize knn0 (Nat.min k N))) as (out & E & L & A & _).
  { rewrite length_resize. lia. }
  rewrite length_resize in *. exists out. split; auto.
  rewrite firstn_all2 in A by lia.
  destruct A as [A1 A2 A3 A4 A5]. constructor; auto. rewrite A1. lia.
Qed.

Lemma top_radius_raw r : exists l,
  search_nearest tree (visitor_radius r) q [] = Ok l
  /\ filter_answer N (fun i => (D i < val r)%Q) D (answers val l).
Proof.
  destruct (radius_exact val EL sp (us_space _ _ _ _ _ US) (us_range _ _ _ _ _ US) (metric_of em) alg SL
    (terms_of em) (exact_terms val EL em) it fuel stop bnds ru tree q HM points_ok bnds_ok
    (us_query _ _ _ _ _ US) query_ok low_eq r) as (l & E & A).
  exists l. split; auto. eapply filter_answer_ext; [| |exact A].
  - intros; apply dist_eq; auto.
  - intros j Hj. cbn beta. fold (D' j). rewrite dist_eq by auto. reflexivity.
Qed.

Lemma top_approx_nn e nn0 : field_laws S val -> (1 <= val e)%Q ->
  exists i d, search_nn_approx tree q e nn0 = Ok (Neighbor i d)
  /\ i < N /\ (val d == D i / val e)%Q /\ forall j, j < N -> (D i <= val e * D j)%Q.
Proof.
  intros FL E1.
  destruct (nn_approx val EL sp (us_space _ _ _ _ _ US) (us_range _ _ _ _ _ US) (metric_of em) alg SL
    (terms_of em) (exact_terms val EL em) it fuel stop bnds ru tree q HM points_ok bnds_ok
    (us_query _ _ _ _ _ US) query_ok low_eq fit' FL e E1 nn0) as (i & d & E & I & V & A).
  exists i, d. split; auto. split; auto. split.
  - rewrite V. fold (D' i). rewrite dist_eq by auto. reflexivity.
  - intros j Hj. rewrite <- !dist_eq by auto. apply A; auto.
Qed.

Lemma top_approx_knn e k knn0 : field_laws S val -> (1 <= val e)%Q -> 0 < k ->
  exists l, search_knn_approx tree q k e knn0 = Ok l
  /\ length l = Nat.min k N
  /\ NoDup (map n_index l)
  /\ StronglySorted Qle (map (fun x => val (n_distance x)) l)
  /\ (forall x, In x l -> n_index x < N /\ (val (n_distance x) == D (n_index x) / val e)%Q)
  /\ (forall ds p x, sorted_distances N D ds -> nth_error l p = Some x ->
       (D (n_index x) <= val e * nth p ds 0)%Q).
Proof.
  intros FL E1 Hk. pose proof size_pos as HN.
  unfold search_knn_approx, search_knn_range_approx. rewrite tree_space. change (sp_size sp) with N.
  destruct (knn_init_ok (vector_resize knn0 (Nat.min k N))) as (l0 & EI & L0 & M0 & _).
  { rewrite length_resize. lia. }
  rewrite length_resize in L0.
  destruct (knn_approx val EL sp (us_space _ _ _ _ _ US) (us_range _ _ _ _ _ US) (metric_of em) alg SL
    (terms_of em) (exact_terms val EL em) it fuel stop bnds ru tree q HM points_ok bnds_ok
    (us_query _ _ _ _ _ US) query_ok low_eq fit' FL e E1 l0) as (st & l & E & -> & L & L' & ND & St & G & B); [lia|auto|].
  rewrite EI. cbn [bind]. rewrite E. cbn [bind]. exists (fst st). split; auto.
  fold (npts sp) in L', ND, St, G, B. fold N in L', ND, St, G, B.
  assert (EF : firstn (Nat.min (length l0) N) (fst st) = fst st) by (apply firstn_all2; lia).
  rewrite EF in L', ND, St, G, B.
  split; [lia|].
  split; auto. split; auto. split.
  - intros x Hx. destruct (G x Hx) as [G1 G2]. split; auto. rewrite G2. fold (D' (n_index x)).
    rewrite dist_eq by auto. reflexivity.
  - intros ds p x Hs Hx.
    destruct (sorted_distances_ext N D D' ds) as (ds' & Hs' & En); auto.
    { intros; symmetry; apply dist_eq; auto. }
    rewrite En. rewrite <- dist_eq; [apply (B ds' p x); auto|].
    apply nth_error_In in Hx. apply (G x Hx).
Qed.

Lemma top_approx_radius_raw e r : field_laws S val -> (1 <= val e)%Q ->
  exists l, search_nearest tree (visitor_approximate_radius e r) q [] = Ok l
  /\ NoDup (map n_index l)
  /\ (forall x, In x l -> n_index x < N /\ (D (n_index x) < val r)%Q
         /\ (val (n_distance x) == D (n_index x) / val e)%Q)
  /\ (forall i, i < N -> (D i < val r)%Q -> (D i <= val r / val e)%Q -> In i (map n_index l)).
Proof.
  intros FL E1.
  destruct (radius_approx val EL sp (us_space _ _ _ _ _ US) (us_range _ _ _ _ _ US) (metric_of em) alg SL
    (terms_of em) (exact_terms val EL em) it fuel stop bnds ru tree q HM points_ok bnds_ok
    (us_query _ _ _ _ _ US) query_ok low_eq FL e E1 r) as (l & E & ND & G & C).
  exists l. split; auto. split; auto. split.
  - intros x Hx. destruct (G x Hx) as (A & B & F). split; auto. fold (D' (n_index x)) in B, F.
    rewrite dist_eq in B, F by auto. auto.
  - intros i Hi H1 H2. rewrite <- dist_eq in H1, H2 by auto. apply C; auto.
Qed.
End Fit.
End Top.

(** * Sorting the result of a radius search *)
Section Sort.
Context {T : Type} {S : Scalar T} (ok : T -> Prop) (OL : ord_laws S ok).
Variables (alg : std_algos) (SL : std_laws alg).

Lemma neighbor_strict_weak (l : list (neighbor T)) : (forall x, In x l -> ok (n_distance x)) ->
  strict_weak neighbor_lt l.
Proof.
  intros H. unfold neighbor_lt. constructor; intros.
  - apply (leb_not_ltb ok OL); auto. apply (leb_refl ok OL); auto.
  - destruct (s_ltb (n_distance x) (n_distance z)) eqn:E; auto.
    apply (ltb_leb ok OL) in H3; auto. apply (ltb_false ok OL) in E; auto.
    rewrite (ol_lt _ _ OL) in H4 by auto.
    rewrite (leb_trans ok OL (n_distance z) (n_distance x) (n_distance y)) in H4; auto; discriminate.
  - apply (ltb_false ok OL) in H3, H4; auto. apply (leb_not_ltb ok OL); auto.
    eapply (leb_trans ok OL); [| | | exact H4 | exact H3]; auto.
Qed.

Lemma sort_result (l : list (neighbor T)) : (forall x, In x l -> ok (n_distance x)) ->
  Permutation (std_sort alg _ neighbor_lt l) l
  /\ StronglySorted (fun a b => s_leb (n_distance a) (n_distance b) = true) (std_sort alg _ neighbor_lt l).
Proof.
  intros H. pose proof (neighbor_strict_weak l H) as SW.
  pose proof (sl_sort_perm _ SL _ _ _ SW) as P. split; auto.
  pose proof (sl_sort_sorted _ SL _ _ _ SW) as St.
  assert (H' : forall x, In x (std_sort alg _ neighbor_lt l) -> ok (n_distance x)).
  { intros x Hx. apply H. eapply Permutation_in; eauto. }
  clear P SW H. induction St as [|a r St IH F]; constructor.
  - apply IH. intros; apply H'; simpl; auto.
  - rewrite Forall_forall in *. intros b Hb. apply (ltb_false ok OL); try (apply H'; simpl; auto).
    apply F; auto.
Qed.

Lemma top_sort tree q r l : search_radius alg tree q r false = Ok l ->
  (forall x, In x l -> ok (n_distance x)) ->
  exists l', search_radius alg tree q r true = Ok l' /\ Permutation l' l
    /\ StronglySorted (fun a b => s_leb (n_distance a) (n_distance b) = true) l'.
Proof.
  unfold search_radius. intros H HO. okbind H. injection H as <-. cbn [bind].
  eexists. split; [reflexivity|]. apply sort_result; auto.
Qed.

Lemma top_sort_approx tree q r e l : search_radius_approx alg tree q r e false = Ok l ->
  (forall x, In x l -> ok (n_distance x)) ->
  exists l', search_radius_approx alg tree q r e true = Ok l' /\ Permutation l' l
    /\ StronglySorted (fun a b => s_leb (n_distance a) (n_distance b) = true) l'.
Proof.
  unfold search_radius_approx. intros H HO. okbind H. injection H as <-. cbn [bind].
  eexists. split; [reflexivity|]. apply sort_result; auto.
Qed.
End Sort.

Lemma filter_answer_perm {T} (val : T -> Q) N P D (l l' : list (neighbor T)) : Permutation l' l ->
  filter_answer N P D (answers val l) -> filter_answer N P D (answers val l').
Proof.
  intros HP [A B C].
  assert (HP' : Permutation (answers val l') (answers val l)) by (apply Permutation_map; auto).
  assert (HP2 := Permutation_map fst HP').
  constructor.
  - eapply Permutation_NoDup; [symmetry; exact HP2|auto].
  - intros i d Hi. apply B. eapply Permutation_in; eauto.
  - intros i Hi Hp. eapply Permutation_in; [symmetry; exact HP2|auto].
Qed.

Section TopRadius.
Context {T : Type} {S : Scalar T} (val : T -> Q) (EL : exact_laws S val).
Variables (em : exact_metric) (sp : space T) (alg : std_algos) (SL : std_laws alg)
  (it : index_type) (fuel : nat) (stop : stop_condition) (bnds : start_bounds T) (ru : rule)
  (tree : kd_tree T) (q : list T).
Hypotheses (HM : kd_tree_make alg it (metric_of em) fuel sp stop bnds ru = Ok tree)
  (US : usable val em sp bnds q).
Let D := dist_to val em sp q.
Let N := npts sp.

Lemma top_radius r sort : exists l,
  search_radius alg tree q r sort = Ok l
  /\ filter_answer N (fun i => (D i < val r)%Q) D (answers val l)
  /\ (sort = true -> StronglySorted Qle (map (fun x => val (n_distance x)) l)).
Proof.
  destruct (top_radius_raw val EL em sp alg SL it fuel stop bnds ru tree q HM US r) as (l & E & A).
  unfold search_radius. rewrite E. cbn [bind]. eexists. split; [reflexivity|].
  destruct sort; [|split; [auto|discriminate]].
  destruct (sort_result (fun _ => True) (exact_ord val EL) alg SL l) as [P St]; auto.
  split; [eapply filter_answer_perm; eauto|]. intros _.
  clear P. induction St as [|a m St IH F]; simpl; constructor; auto.
  rewrite Forall_map. rewrite Forall_forall in *. intros b Hb. apply (leb_val val EL). auto.
Qed.

Lemma top_approx_radius e r sort : field_laws S val -> (1 <= val e)%Q ->
  exists l, search_radius_approx alg tree q r e sort = Ok l
  /\ NoDup (map n_index l)
  /\ (forall x, In x l -> n_index x < N /\ (D (n_index x) < val r)%Q
         /\ (val (n_distance x) == D (n_index x) / val e)%Q)
  /\ (forall i, i < N -> (D i < val r)%Q -> (D i <= val r / val e)%Q -> In i (map n_index l))
  /\ (sort = true -> StronglySorted Qle (map (fun x => val (n_distance x)) l)).
Proof.
  intros FL E1.
  destruct (top_approx_radius_raw val EL em sp alg SL it fuel stop bnds ru tree q HM US e r FL E1)
    as (l & E & A & B & C).
  unfold search_radius_approx. rewrite E. cbn [bind]. eexists. split; [reflexivity|].
  destruct sort; [|split; [auto|split; [auto|split; [auto|discriminate]]]].
  destruct (sort_result (fun _ => True) (exact_ord val EL) alg SL l) as [P St]; auto.
  assert (P2 := Permutation_map (fun x : neighbor T => n_index x) P).
  split; [eapply Permutation_NoDup; [symmetry; exact P2|auto]|].
  split; [intros x Hx; apply B; eapply Permutation_in; eauto|].
  split; [intros i Hi H1 H2; eapply Permutation_in; [symmetry; exact P2|]; apply C; auto|].
  intros _. clear P P2. induction St as [|a m St IH F]; simpl; constructor; auto.
  rewrite Forall_map. rewrite Forall_forall in *. intros b Hb. apply (leb_val val EL). auto.
Qed.
End TopRadius.
