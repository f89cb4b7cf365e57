(** Comparing the answers of several searches. *)
From Coq Require Import List ZArith QArith Bool Arith Permutation Sorted Lia Lqa.
From Verif Require Import Base ModelBox ModelBuild ModelSearch Spec SpecCompare Lemmas BuildThms TopThms BoxThms.
Import ListNotations.
Local Open Scope nat_scope.

(** * Answers *)
Lemma sorted_nth (l : list Q) : StronglySorted Qle l -> forall a b, a <= b < length l -> (nth a l 0 <= nth b l 0)%Q.
Proof.
  induction 1 as [|x l HS IH HF]; intros a b H; cbn [length] in H; [lia|].
  destruct a as [|a], b as [|b]; cbn [nth]; try lia.
  - apply Qle_refl.
  - rewrite Forall_forall in HF. apply HF. apply nth_In. lia.
  - apply IH. lia.
Qed.

Lemma in_firstn_nth {A} (d : A) (l : list A) p x : In x (firstn p l) -> exists a, a < p /\ a < length l /\ nth a l d = x.
Proof.
  revert p. induction l as [|y l IH]; intros p H; [rewrite firstn_nil in H; destruct H|].
  destruct p as [|p]; [destruct H|]. cbn [firstn In] in H. destruct H as [->|H].
  - exists 0. cbn. repeat split; lia || auto.
  - destruct (IH p H) as (a & A1 & A2 & A3). exists (S a). cbn. repeat split; lia || auto.
Qed.
Lemma nth_in_firstn {A} (d : A) (l : list A) p a : a < p -> a < length l -> In (nth a l d) (firstn p l).
Proof.
  revert p a. induction l as [|y l IH]; intros p a H1 H2; cbn [length] in H2; [lia|].
  destruct p as [|p]; [lia|]. destruct a as [|a]; cbn; auto. right. apply IH; lia.
Qed.

Lemma NoDup_firstn {A} (l : list A) : forall p, NoDup l -> NoDup (firstn p l).
Proof.
  induction l as [|x l IH]; intros [|p] H; cbn; try constructor; inversion H; subst; auto.
  intros I. apply H2. eapply (in_firstn_nth x) in I as (a & _ & A2 & <-). apply nth_In. auto.
Qed.

Section Knn.
Variables (n1 n2 k1 k2 : nat) (D1 D2 : nat -> Q) (f : nat -> nat) (a1 a2 : list (nat * Q)).
Hypotheses (K1 : knn_answer n1 k1 D1 a1) (K2 : knn_answer n2 k2 D2 a2).
Hypotheses (F1 : forall i, i < n1 -> f i < n2) (F2 : forall i j, i < n1 -> j < n1 -> f i = f j -> i = j)
  (F3 : forall i, i < n1 -> (D2 (f i) <= D1 i)%Q).

Let nd (a : list (nat * Q)) p := nth p (map snd a) 0%Q.
Let ni (a : list (nat * Q)) p := nth p (map fst a) 0.

Lemma nth_pair (a : list (nat * Q)) p : p < length a -> In (ni a p, nd a p) a.
Proof.
  intros H. unfold ni, nd. change 0 with (fst (0, 0%Q)). change 0%Q with (snd (0, 0%Q)) at 2. rewrite !map_nth.
  rewrite <- surjective_pairing. apply nth_In. auto.
Qed.

Lemma knn_le p : p < length a1 -> p < length a2 -> (nd a2 p <= nd a1 p)%Q.
Proof.
  intros P1 P2. destruct (Qlt_le_dec (nd a1 p) (nd a2 p)) as [H|H]; auto. exfalso.
  set (im := map f (firstn (S p) (map fst a1))).
  assert (L : length im = S p) by (unfold im; rewrite map_length, firstn_length, map_length; lia).
  assert (G1 : forall i, In i (firstn (S p) (map fst a1)) -> i < n1 /\ (D1 i < nd a2 p)%Q).
  { intros i Hi. apply (in_firstn_nth 0) in Hi as (a & A1 & A2 & <-). rewrite map_length in A2.
    pose proof (nth_pair a1 a A2) as IP. apply (ka_genuine _ _ _ _ K1) in IP as [B1 B2].
    split; [exact B1|]. fold (ni a1 a). rewrite <- B2.
    pose proof (sorted_nth _ (ka_sorted _ _ _ _ K1) a p) as ST. rewrite map_length in ST. specialize (ST ltac:(lia)).
    unfold nd in *. eapply Qle_lt_trans; [exact ST|exact H]. }
  assert (ND : NoDup im).
  { unfold im.
    assert (N0 : NoDup (firstn (S p) (map fst a1))).
    { apply NoDup_firstn. apply (ka_nodup _ _ _ _ K1). }
    revert N0 G1. generalize (firstn (S p) (map fst a1)). clear - F2. induction l as [|x l IH]; intros N0 G; cbn; constructor.
    - intros I. apply in_map_iff in I as (y & E & Hy). apply F2 in E; [|apply G; cbn; auto|apply G; cbn; auto].
      subst. inversion N0; contradiction.
    - inversion N0; subst. apply IH; auto. intros i Hi. apply G. cbn; auto. }
  assert (IC : incl im (firstn p (map fst a2))).
  { intros y Hy. apply in_map_iff in Hy as (i & <- & Hi). apply G1 in Hi as [I1 I2].
    assert (DL : (D2 (f i) < nd a2 p)%Q) by (eapply Qle_lt_trans; [apply F3; auto|auto]).
    destruct (in_dec Nat.eq_dec (f i) (map fst a2)) as [X|X].
    - apply (In_nth _ _ 0) in X as (b & B1 & B2). rewrite map_length in B1.
      destruct (lt_dec b p) as [Y|Y]; [rewrite <- B2; apply nth_in_firstn; rewrite ?map_length; auto|exfalso].
      pose proof (nth_pair a2 b B1) as IP. apply (ka_genuine _ _ _ _ K2) in IP as [_ C2]. unfold ni in C2. rewrite B2 in C2.
      pose proof (sorted_nth _ (ka_sorted _ _ _ _ K2) p b) as ST. rewrite map_length in ST. specialize (ST ltac:(lia)).
      unfold nd in *. rewrite C2 in ST. apply (Qlt_irrefl (D2 (f i))). eapply Qlt_le_trans; [exact DL|exact ST].
    - exfalso. pose proof (nth_pair a2 p P2) as IP.
      pose proof (ka_nearest _ _ _ _ K2 _ _ (f i) IP (F1 i I1) X) as C.
      apply (Qlt_irrefl (D2 (f i))). eapply Qlt_le_trans; [exact DL|exact C]. }
  pose proof (NoDup_incl_length ND IC) as C. rewrite L, firstn_length, map_length in C. lia.
Qed.
End Knn.

Lemma Forall2_nth {A B} (R : A -> B -> Prop) (da : A) (db : B) (l : list A) : forall l',
  length l = length l' -> (forall p, p < length l -> R (nth p l da) (nth p l' db)) -> Forall2 R l l'.
Proof.
  induction l as [|x l IH]; intros [|y l'] HL H; try discriminate; constructor.
  - apply (H 0). cbn. lia.
  - apply IH; [cbn in HL; lia|]. intros p Hp. apply (H (S p)). cbn. lia.
Qed.

(** The distances of the [k1] nearest are the first of those of the [k2] nearest. *)
Lemma knn_prefix n k1 k2 D1 D2 f g a1 a2 : knn_answer n k1 D1 a1 -> knn_answer n k2 D2 a2 -> k1 <= k2 ->
  (forall i, i < n -> f i < n /\ (D2 (f i) <= D1 i)%Q) -> (forall i j, i < n -> j < n -> f i = f j -> i = j) ->
  (forall i, i < n -> g i < n /\ (D1 (g i) <= D2 i)%Q) -> (forall i j, i < n -> j < n -> g i = g j -> i = j) ->
  Forall2 Qeq (map snd a1) (firstn k1 (map snd a2)).
Proof.
  intros K1 K2 HK HF HFi HG HGi. pose proof (ka_length _ _ _ _ K1) as L1. pose proof (ka_length _ _ _ _ K2) as L2.
  apply (Forall2_nth _ 0%Q 0%Q).
  - rewrite firstn_length, !map_length. lia.
  - intros p Hp. rewrite map_length in Hp.
    assert (E : nth p (firstn k1 (map snd a2)) 0%Q = nth p (map snd a2) 0%Q).
    { rewrite <- (firstn_skipn k1 (map snd a2)) at 2. rewrite app_nth1; auto. rewrite firstn_length, map_length. lia. }
    rewrite E. apply Qle_antisym.
    + apply (knn_le n n k2 k1 D2 D1 g a2 a1 K2 K1); auto; try lia; intros i Hi; apply HG; auto.
    + apply (knn_le n n k1 k2 D1 D2 f a1 a2 K1 K2); auto; try lia; intros i Hi; apply HF; auto.
Qed.

(** * Point sets *)
Section Points.
Context {A : Type} (d : A).

Lemma map_nth_seq (l : list A) : map (fun i => nth i l d) (seq 0 (length l)) = l.
Proof.
  apply nth_ext with (d := nth 0 l d) (d' := d); [rewrite map_length, seq_length; reflexivity|].
  intros p Hp. rewrite map_length, seq_length in Hp.
  rewrite (map_nth (fun i => nth i l d) _ 0). rewrite seq_nth; auto.
Qed.

Lemma filter_perm (b : A -> bool) (l l' : list A) : Permutation l l' -> Permutation (filter b l) (filter b l').
Proof.
  induction 1; cbn; auto.
  - destruct (b x); auto.
  - destruct (b x), (b y); auto. apply perm_swap.
  - etransitivity; eauto.
Qed.

Lemma filter_map_comm {B} (f : B -> A) (b : A -> bool) (l : list B) :
  filter b (map f l) = map f (filter (fun x => b (f x)) l).
Proof. induction l; cbn; auto. destruct (b (f a)); cbn; rewrite IHl; auto. Qed.

(** Exactly the points satisfying [b], each once. *)
Lemma answer_points (b : A -> bool) (pts : list A) (ans : list nat) :
  NoDup ans -> (forall i, In i ans <-> i < length pts /\ b (nth i pts d) = true) ->
  Permutation (map (fun i => nth i pts d) ans) (filter b pts).
Proof.
  intros ND H.
  assert (E : filter b pts = map (fun i => nth i pts d) (filter (fun i => b (nth i pts d)) (seq 0 (length pts))))
    by (rewrite <- (filter_map_comm (fun i => nth i pts d)), map_nth_seq; reflexivity).
  rewrite E. apply Permutation_map.
  apply NoDup_Permutation; auto.
  - apply NoDup_filter, seq_NoDup.
  - intros i. rewrite filter_In, in_seq, H. intuition lia.
Qed.

Lemma embed_perm (l l' : list A) extra : Permutation (l ++ extra) l' ->
  exists f, (forall i, i < length l -> f i < length l' /\ nth (f i) l' d = nth i l d)
    /\ (forall i j, i < length l -> j < length l -> f i = f j -> i = j).
Proof.
  intros P. symmetry in P. apply (Permutation_nth _ _ d) in P as (HL & f & B & I & E).
  rewrite app_length in *. exists f. split.
  - intros i Hi. split; [apply B; lia|]. rewrite <- E by lia. apply app_nth1. auto.
  - intros i j Hi Hj. apply I; lia.
Qed.
End Points.

(** * Searches *)
Section Search.
Context {T : Type} {S : Scalar T} (val : T -> Q) (EL : exact_laws S val).
Variables (em : exact_metric) (q : list T).

Lemma nn_of alg sp tree nn0 : tree_over val em alg sp q tree -> distances_fit val em sp q ->
  exists i d, search_nn tree q nn0 = Ok (Neighbor i d) /\ (val d == dist_to val em sp q i)%Q
    /\ is_nearest (npts sp) (dist_to val em sp q) i.
Proof. intros (SL & it & fuel & stop & bnds & ru & HM & US) FIT. eapply (top_nn val EL em); eauto. Qed.

Lemma knn_of alg sp tree k knn0 : tree_over val em alg sp q tree -> distances_fit val em sp q -> 0 < k ->
  exists out, search_knn tree q k knn0 = Ok out
    /\ knn_answer (npts sp) k (dist_to val em sp q) (answers val out).
Proof. intros (SL & it & fuel & stop & bnds & ru & HM & US) FIT Hk. eapply (top_knn val EL em); eauto. Qed.

Lemma radius_of alg sp tree r sort : tree_over val em alg sp q tree ->
  exists l, search_radius alg tree q r sort = Ok l
    /\ filter_answer (npts sp) (fun i => (dist_to val em sp q i < val r)%Q) (dist_to val em sp q) (answers val l)
    /\ (sort = true -> StronglySorted Qle (distances val l)).
Proof. intros (SL & it & fuel & stop & bnds & ru & HM & US). eapply (top_radius val EL em); eauto. Qed.

Lemma answers_fst (l : list (neighbor T)) : map fst (answers val l) = map n_index l.
Proof. unfold answers. rewrite map_map. reflexivity. Qed.
Lemma answers_snd (l : list (neighbor T)) : map snd (answers val l) = distances val l.
Proof. unfold answers, distances. rewrite map_map. reflexivity. Qed.

Lemma pos_of alg sp tree : tree_over val em alg sp q tree -> 0 < npts sp.
Proof.
  intros (SL & it & fuel & stop & bnds & ru & HM & US). apply kd_tree_make_inv in HM as (data & _ & HB).
  apply build_inv in HB as (_ & (H & _) & _). exact H.
Qed.

Section Two.
Variables (alg1 alg2 : std_algos) (sp1 sp2 : space T) (tree1 tree2 : kd_tree T) (extra : list (list T)).
Hypotheses (T1 : tree_over val em alg1 sp1 q tree1) (T2 : tree_over val em alg2 sp2 q tree2)
  (PM : Permutation (sp_pts sp1 ++ extra) (sp_pts sp2)).

Lemma embed : exists f, (forall i, i < npts sp1 -> f i < npts sp2 /\ (dist_to val em sp2 q (f i) = dist_to val em sp1 q i))
  /\ (forall i j, i < npts sp1 -> j < npts sp1 -> f i = f j -> i = j).
Proof.
  destruct (embed_perm [] _ _ _ PM) as (f & F1 & F2). exists f. split; auto.
  intros i Hi. destruct (F1 i Hi) as [A B]. split; auto. unfold dist_to. rewrite B. reflexivity.
Qed.

Lemma more_nn nn1 nn2 : distances_fit val em sp1 q -> distances_fit val em sp2 q ->
  exists i1 d1 i2 d2, search_nn tree1 q nn1 = Ok (Neighbor i1 d1) /\ search_nn tree2 q nn2 = Ok (Neighbor i2 d2)
    /\ (val d2 <= val d1)%Q.
Proof.
  intros F1 F2. destruct (nn_of _ _ _ nn1 T1 F1) as (i1 & d1 & E1 & V1 & [N1 _]).
  destruct (nn_of _ _ _ nn2 T2 F2) as (i2 & d2 & E2 & V2 & [_ N2]).
  exists i1, d1, i2, d2. split; auto. split; auto. rewrite V1, V2.
  destruct embed as (f & Hf & _). destruct (Hf i1 N1) as [A <-]. apply N2; auto.
Qed.

Lemma more_knn k knn1 knn2 : distances_fit val em sp1 q -> distances_fit val em sp2 q -> 0 < k ->
  exists out1 out2, search_knn tree1 q k knn1 = Ok out1 /\ search_knn tree2 q k knn2 = Ok out2
    /\ length out1 <= length out2
    /\ forall p x1 x2, nth_error out1 p = Some x1 -> nth_error out2 p = Some x2 ->
         (val (n_distance x2) <= val (n_distance x1))%Q.
Proof.
  intros F1 F2 Hk. destruct (knn_of _ _ _ k knn1 T1 F1 Hk) as (o1 & E1 & K1).
  destruct (knn_of _ _ _ k knn2 T2 F2 Hk) as (o2 & E2 & K2).
  exists o1, o2. split; auto. split; auto.
  pose proof (ka_length _ _ _ _ K1) as L1. pose proof (ka_length _ _ _ _ K2) as L2. unfold answers in L1, L2.
  rewrite map_length in L1, L2. pose proof (Permutation_length PM) as PL. rewrite app_length in PL. unfold npts in L1, L2.
  split; [lia|]. intros p x1 x2 X1 X2. destruct embed as (f & Hf & Hi).
  pose proof (knn_le _ _ _ _ _ _ f _ _ K1 K2 (fun i H => proj1 (Hf i H)) Hi) as K.
  assert (F3 : forall i, i < npts sp1 -> (dist_to val em sp2 q (f i) <= dist_to val em sp1 q i)%Q)
    by (intros i H; rewrite (proj2 (Hf i H)); apply Qle_refl).
  specialize (K F3 p). cbv beta zeta in K. rewrite !answers_snd in K. unfold answers in K. rewrite !map_length in K.
  assert (P1 : p < length o1) by (apply nth_error_Some; congruence).
  assert (P2 : p < length o2) by (apply nth_error_Some; congruence).
  specialize (K P1 P2). unfold distances in K.
  rewrite (nth_error_nth (map (fun x => val (n_distance x)) o1) p 0%Q (map_nth_error (fun x => val (n_distance x)) p o1 X1)) in K.
  rewrite (nth_error_nth (map (fun x => val (n_distance x)) o2) p 0%Q (map_nth_error (fun x => val (n_distance x)) p o2 X2)) in K.
  exact K.
Qed.

End Two.

(** The points found, as a part of the list of all points. *)
Lemma radius_points sp l r :
  filter_answer (npts sp) (fun i => (dist_to val em sp q i < val r)%Q) (dist_to val em sp q) (answers val l) ->
  Permutation (points_of sp l)
    (filter (fun p => if Qlt_le_dec (dist_of em (map val q) (map val p)) (val r) then true else false) (sp_pts sp)).
Proof.
  intros A. unfold points_of, points_at. apply answer_points.
  - rewrite <- answers_fst. apply (fa_nodup _ _ _ _ A).
  - intros i. rewrite <- answers_fst. split.
    + intros Hi. apply in_map_iff in Hi as ([j d] & E & Hi). cbn in E. subst j.
      destruct (fa_genuine _ _ _ _ A _ _ Hi) as (L & W & _). split; auto.
      unfold dist_to in W. destruct (Qlt_le_dec _ _) as [|X]; auto. exfalso. apply (Qlt_not_le _ _ W X).
    + intros [L W]. apply (fa_complete _ _ _ _ A); auto. unfold dist_to.
      destruct (Qlt_le_dec _ _) as [X|X]; [auto|discriminate].
Qed.

Lemma same_nn alg1 alg2 sp1 sp2 tree1 tree2 nn1 nn2 :
  tree_over val em alg1 sp1 q tree1 -> tree_over val em alg2 sp2 q tree2 -> Permutation (sp_pts sp1) (sp_pts sp2) ->
  distances_fit val em sp1 q -> distances_fit val em sp2 q ->
  exists i1 d1 i2 d2, search_nn tree1 q nn1 = Ok (Neighbor i1 d1) /\ search_nn tree2 q nn2 = Ok (Neighbor i2 d2)
    /\ (val d1 == val d2)%Q.
Proof.
  intros T1 T2 PM F1 F2.
  destruct (more_nn alg1 alg2 sp1 sp2 tree1 tree2 [] T1 T2 ltac:(rewrite app_nil_r; auto) nn1 nn2 F1 F2)
    as (i1 & d1 & i2 & d2 & E1 & E2 & L1).
  destruct (more_nn alg2 alg1 sp2 sp1 tree2 tree1 [] T2 T1 ltac:(rewrite app_nil_r; symmetry; auto) nn2 nn1 F2 F1)
    as (i2' & d2' & i1' & d1' & E2' & E1' & L2).
  rewrite E1 in E1'. rewrite E2 in E2'. injection E1' as <- <-. injection E2' as <- <-.
  exists i1, d1, i2, d2. split; auto. split; auto. apply Qle_antisym; auto.
Qed.

Lemma same_knn alg1 alg2 sp1 sp2 tree1 tree2 k1 k2 knn1 knn2 :
  tree_over val em alg1 sp1 q tree1 -> tree_over val em alg2 sp2 q tree2 -> Permutation (sp_pts sp1) (sp_pts sp2) ->
  distances_fit val em sp1 q -> distances_fit val em sp2 q -> 0 < k1 <= k2 ->
  exists out1 out2, search_knn tree1 q k1 knn1 = Ok out1 /\ search_knn tree2 q k2 knn2 = Ok out2
    /\ Forall2 Qeq (distances val out1) (firstn k1 (distances val out2)).
Proof.
  intros T1 T2 PM F1 F2 Hk.
  destruct (knn_of _ _ _ k1 knn1 T1 F1 ltac:(lia)) as (o1 & E1 & K1).
  destruct (knn_of _ _ _ k2 knn2 T2 F2 ltac:(lia)) as (o2 & E2 & K2).
  exists o1, o2. split; auto. split; auto.
  destruct (embed sp1 sp2 [] ltac:(rewrite app_nil_r; auto)) as (f & Hf & Hi).
  destruct (embed sp2 sp1 [] ltac:(rewrite app_nil_r; symmetry; auto)) as (g & Hg & Hj).
  pose proof (Permutation_length PM) as PL. unfold npts in *. rewrite <- PL in *.
  rewrite <- !answers_snd. eapply (knn_prefix _ k1 k2 _ _ f g); eauto; try lia.
  - intros i H. destruct (Hf i H) as [A B]. split; auto. rewrite B. apply Qle_refl.
  - intros i H. destruct (Hg i H) as [A B]. split; auto. rewrite B. apply Qle_refl.
Qed.

Lemma more_radius alg1 alg2 sp1 sp2 tree1 tree2 extra r s1 s2 :
  tree_over val em alg1 sp1 q tree1 -> tree_over val em alg2 sp2 q tree2 ->
  Permutation (sp_pts sp1 ++ extra) (sp_pts sp2) ->
  exists l1 l2 more, search_radius alg1 tree1 q r s1 = Ok l1 /\ search_radius alg2 tree2 q r s2 = Ok l2
    /\ incl more extra /\ Permutation (points_of sp1 l1 ++ more) (points_of sp2 l2).
Proof.
  intros T1 T2 PM. destruct (radius_of _ _ _ r s1 T1) as (l1 & E1 & A1 & _).
  destruct (radius_of _ _ _ r s2 T2) as (l2 & E2 & A2 & _).
  eexists l1, l2, (filter _ extra). split; auto. split; auto. split; [intros x Hx; apply filter_In in Hx; apply Hx|].
  rewrite (radius_points _ _ _ A1), (radius_points _ _ _ A2), <- filter_app. apply filter_perm. auto.
Qed.

Lemma same_radius alg1 alg2 sp1 sp2 tree1 tree2 r s1 s2 :
  tree_over val em alg1 sp1 q tree1 -> tree_over val em alg2 sp2 q tree2 -> Permutation (sp_pts sp1) (sp_pts sp2) ->
  exists l1 l2, search_radius alg1 tree1 q r s1 = Ok l1 /\ search_radius alg2 tree2 q r s2 = Ok l2
    /\ Permutation (points_of sp1 l1) (points_of sp2 l2)
    /\ (sp1 = sp2 -> Permutation (map n_index l1) (map n_index l2)).
Proof.
  intros T1 T2 PM. destruct (radius_of _ _ _ r s1 T1) as (l1 & E1 & A1 & _).
  destruct (radius_of _ _ _ r s2 T2) as (l2 & E2 & A2 & _).
  exists l1, l2. split; auto. split; auto. split.
  - rewrite (radius_points _ _ _ A1), (radius_points _ _ _ A2). apply filter_perm. auto.
  - intros <-. rewrite <- !answers_fst. apply NoDup_Permutation; [apply (fa_nodup _ _ _ _ A1)|apply (fa_nodup _ _ _ _ A2)|].
    intros i. split; intros H; apply in_map_iff in H as ([j d] & E & H); cbn in E; subst j.
    + destruct (fa_genuine _ _ _ _ A1 _ _ H) as (L & W & _). apply (fa_complete _ _ _ _ A2); auto.
    + destruct (fa_genuine _ _ _ _ A2 _ _ H) as (L & W & _). apply (fa_complete _ _ _ _ A1); auto.
Qed.

(** A radius search finds a first part of what the k nearest are. *)
Lemma filter_is_knn n P r (D : nat -> Q) ans : (forall i, P i <-> (D i < r)%Q) ->
  filter_answer n P D ans -> StronglySorted Qle (map snd ans) -> knn_answer n (length ans) D ans.
Proof.
  intros HP A ST. constructor; auto.
  - rewrite Nat.min_l; auto. rewrite <- (map_length fst).
    rewrite <- (seq_length n 0). apply NoDup_incl_length; [apply (fa_nodup _ _ _ _ A)|].
    intros i Hi. apply in_map_iff in Hi as ([j d] & E & Hi). cbn in E. subst j. apply in_seq.
    destruct (fa_genuine _ _ _ _ A _ _ Hi) as (L & _). lia.
  - apply (fa_nodup _ _ _ _ A).
  - intros i d Hi. destruct (fa_genuine _ _ _ _ A _ _ Hi) as (L & _ & E). auto.
  - intros i d j Hi Hj NI. destruct (fa_genuine _ _ _ _ A _ _ Hi) as (L & W & E).
    destruct (Qlt_le_dec (D j) r) as [X|X]; [exfalso; apply NI; apply (fa_complete _ _ _ _ A); auto; apply HP; auto|].
    rewrite E. apply HP in W. lra.
Qed.

Lemma radius_prefix alg sp tree r k knn0 : tree_over val em alg sp q tree -> distances_fit val em sp q -> 0 < k ->
  exists l out, search_radius alg tree q r true = Ok l /\ search_knn tree q k knn0 = Ok out
    /\ Forall2 Qeq (firstn k (distances val l)) (firstn (length l) (distances val out))
    /\ forall x, In x out -> ((val (n_distance x) < val r)%Q <-> In (n_index x) (map n_index l)).
Proof.
  intros TO FIT Hk. destruct (radius_of _ _ _ r true TO) as (l & E & A & ST). specialize (ST eq_refl).
  destruct (knn_of _ _ _ k knn0 TO FIT Hk) as (out & E2 & K2). exists l, out. split; auto. split; auto. split.
  - rewrite <- answers_snd in ST.
    pose proof (filter_is_knn _ _ (val r) _ _ (fun i => iff_refl _) A ST) as K1.
    assert (LL : length (answers val l) = length l) by (unfold answers; apply map_length).
    assert (ID : forall i, i < npts sp -> (fun x : nat => x) i < npts sp /\ (dist_to val em sp q i <= dist_to val em sp q i)%Q)
      by (intros i Hi; split; [auto|apply Qle_refl]).
    rewrite <- !answers_snd. pose proof (ka_length _ _ _ _ K2) as L2. rewrite LL in *.
    destruct (Nat.le_gt_cases (length l) k) as [C|C].
    + rewrite (firstn_all2 (map snd (answers val l))) by (rewrite map_length; lia).
      apply (knn_prefix _ _ k _ _ (fun x => x) (fun x => x) _ _ K1 K2 C); auto.
    + rewrite (firstn_all2 (map snd (answers val out))) by (rewrite map_length; lia).
      pose proof (knn_prefix _ _ _ _ _ (fun x => x) (fun x => x) _ _ K2 K1 ltac:(lia) ID ltac:(auto) ID ltac:(auto)) as FF.
      clear - FF. revert FF. generalize (map snd (answers val out)) as a, (firstn k (map snd (answers val l))) as b.
      intros a b FF. induction FF; constructor; auto. symmetry. auto.
  - intros [i d] Hx. cbn [n_index n_distance].
    assert (Hi : In (i, val d) (answers val out)) by (apply in_map_iff; exists (Neighbor i d); auto).
    destruct (ka_genuine _ _ _ _ K2 _ _ Hi) as [L G]. rewrite <- answers_fst. split; intros H.
    + apply (fa_complete _ _ _ _ A); auto. rewrite <- G. auto.
    + apply in_map_iff in H as ([j e] & X & H). cbn in X. subst j. destruct (fa_genuine _ _ _ _ A _ _ H) as (_ & W & _).
      rewrite G. auto.
Qed.

Lemma nn_first alg sp tree k knn0 nn0 : tree_over val em alg sp q tree -> distances_fit val em sp q -> 0 < k ->
  exists i d x out, search_nn tree q nn0 = Ok (Neighbor i d) /\ search_knn tree q k knn0 = Ok (x :: out)
    /\ (val d == val (n_distance x))%Q.
Proof.
  intros TO FIT Hk. destruct (nn_of _ _ _ nn0 TO FIT) as (i & d & E & V & [L N]).
  destruct (knn_of _ _ _ k knn0 TO FIT Hk) as (out & E2 & K2). pose proof (pos_of _ _ _ TO) as P.
  pose proof (ka_length _ _ _ _ K2) as LN. unfold answers in LN. rewrite map_length in LN.
  destruct out as [|x out]; [cbn in LN; lia|]. exists i, d, x, out. split; auto. split; auto.
  assert (Hx : In (n_index x, val (n_distance x)) (answers val (x :: out))) by (left; reflexivity).
  destruct (ka_genuine _ _ _ _ K2 _ _ Hx) as [Lx Gx]. rewrite V. apply Qle_antisym.
  - rewrite Gx. auto.
  - destruct (in_dec Nat.eq_dec i (map fst (answers val (x :: out)))) as [I|I].
    + apply in_map_iff in I as ([j e] & X & I). cbn in X. subst j. destruct (ka_genuine _ _ _ _ K2 _ _ I) as [_ Gi].
      rewrite <- Gi. pose proof (ka_sorted _ _ _ _ K2) as ST. cbn [answers map snd] in ST. inversion ST as [|? ? _ FA]; subst.
      destruct I as [I|I]; [injection I as <- <-; apply Qle_refl|].
      rewrite Forall_forall in FA. apply FA. apply in_map_iff. exists (i, e); auto.
    + apply (ka_nearest _ _ _ _ K2 _ _ i Hx L I).
Qed.
End Search.

(** * Box search *)
Section Box.
Context {T : Type} {S : Scalar T} (ok : T -> Prop) (OL : ord_laws S ok).

Definition inside_b (mn mx p : list T) : bool :=
  forallb (fun d => s_leb (nth d mn s_zero) (nth d p s_zero) && s_leb (nth d p s_zero) (nth d mx s_zero)) (seq 0 (length mn)).
Lemma inside_b_spec mn mx p : inside_b mn mx p = true <-> inside mn mx p.
Proof.
  unfold inside_b, inside. rewrite forallb_forall. split.
  - intros H d Hd. specialize (H d). apply andb_prop. apply H. apply in_seq. lia.
  - intros H d Hd. apply in_seq in Hd. apply andb_true_intro. apply H. lia.
Qed.

Lemma same_box sp1 sp2 m1 m2 alg1 alg2 it1 it2 fuel1 fuel2 stop1 stop2 bnds1 bnds2 ru1 ru2 tree1 tree2 mn mx :
  wf_space sp1 -> all_coords ok sp1 -> wf_space sp2 -> all_coords ok sp2 -> std_laws alg1 -> std_laws alg2 ->
  kd_tree_make alg1 it1 m1 fuel1 sp1 stop1 bnds1 ru1 = Ok tree1 ->
  kd_tree_make alg2 it2 m2 fuel2 sp2 stop2 bnds2 ru2 = Ok tree2 ->
  bounds_coords ok sp1 bnds1 -> bounds_enclose sp1 bnds1 -> bounds_coords ok sp2 bnds2 -> bounds_enclose sp2 bnds2 ->
  (ru1 = midpoint_max_side -> mid_ok S ok) -> (ru2 = midpoint_max_side -> mid_ok S ok) ->
  m_cat m1 = Euclidean -> m_cat m2 = Euclidean ->
  length mn = sp_sdim sp1 -> length mx = sp_sdim sp1 -> sp_sdim sp2 = sp_sdim sp1 -> Forall ok mn -> Forall ok mx ->
  Permutation (sp_pts sp1) (sp_pts sp2) ->
  exists a1 a2, search_box tree1 mn mx = Ok a1 /\ search_box tree2 mn mx = Ok a2
    /\ Permutation (points_at sp1 a1) (points_at sp2 a2)
    /\ (sp1 = sp2 -> Permutation a1 a2).
Proof.
  intros W1 O1 W2 O2 S1 S2 M1 M2 B1 E1 B2 E2 R1 R2 C1 C2 L1 L2 SD F1 F2 PM.
  destruct (search_box_euclidean ok OL sp1 W1 O1 alg1 S1 m1 it1 fuel1 stop1 bnds1 ru1 tree1 mn mx) as (a1 & H1 & N1 & A1); auto.
  destruct (search_box_euclidean ok OL sp2 W2 O2 alg2 S2 m2 it2 fuel2 stop2 bnds2 ru2 tree2 mn mx) as (a2 & H2 & N2 & A2); auto; try congruence.
  exists a1, a2. split; auto. split; auto. split.
  - unfold points_at. rewrite (answer_points [] (inside_b mn mx) (sp_pts sp1) a1); auto.
    2:{ intros i. rewrite A1, inside_b_spec. reflexivity. }
    rewrite (answer_points [] (inside_b mn mx) (sp_pts sp2) a2); auto.
    2:{ intros i. rewrite A2, inside_b_spec. reflexivity. }
    apply filter_perm. auto.
  - intros ->. apply NoDup_Permutation; auto. intros i. rewrite A1, A2. reflexivity.
Qed.
End Box.
