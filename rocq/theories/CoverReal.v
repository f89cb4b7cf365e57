(** Cover trees over real coordinates with the Euclidean distance, and cover
    trees when only the order of the scalars is known. *)
From Coq Require Import List ZArith Reals Bool Arith Permutation Sorted Lia Lra Rgeom.
From Verif Require Import Base ModelBox ModelBuild ModelSearch Spec ModelCover SpecCover SpecReal Lemmas
  BuildProofs SearchProofs Visitors QueryThms TopThms OrdQuery CoverThms CoverTerm CoverSearch.
Import ListNotations.
Local Open Scope nat_scope.

Section OrdAnswers.
Context {T : Type} {S : Scalar T} (ok : T -> Prop) (OL : ord_laws S ok).
Variables (cm : cmath T) (alg : std_algos) (SL : std_laws alg) (shuffle : list nat -> list nat)
  (SH : shuffles shuffle) (m : metric T) (fuel : nat) (sp : space T) (base : T) (t : cover_tree T) (q : list T).
Hypotheses (HM : cover_tree_make cm alg shuffle m fuel sp base = Ok t)
  (LQ : length q = sp_sdim sp) (OK : distances_ok ok m sp q) (TRI : triangle_ord ok m sp q).
Let N := npts sp.
Let D (i : nat) : T := m_dist m q (nth i (sp_pts sp) []).

Lemma cover_ord_contract : contract (ok := ok) m sp q (fun V vis v0 => cover_search alg t vis q v0).
Proof.
  destruct (cover_make_inv _ _ _ _ _ _ _ _ SL SH HM) as (N0 & ES & EM & P & r0 & ER).
  apply (cover_contract OL alg SL m sp q); auto.
  rewrite ER. apply update_bounded; auto. intros i j. apply (OK i j).
Qed.
Let N0 : 0 < length (sp_pts sp) := proj1 (cover_make_inv _ _ _ _ _ _ _ _ SL SH HM).
Let OKD i : ok (D i) := proj1 (OK i i).
Let RUN := cover_ord_contract.
Lemma D_le i : i < length (sp_pts sp) -> s_leb (D i) (m_dist m q (sp_at sp i)) = true.
Proof. intros _. apply (leb_refl ok OL). apply OKD. Qed.

Lemma cover_ord_radius r sort : ok r -> exists l, cover_search_radius alg t q r sort = Ok l
  /\ ord_radius N D r l
  /\ (sort = true -> StronglySorted (fun a b => s_leb (n_distance a) (n_distance b) = true) l).
Proof.
  intros Or.
  destruct (ord_radius_answer OL m sp q OKD _ RUN D OKD D_le r (visitor_radius r) Or) as (l & E & ND & G & C); auto.
  unfold cover_search_radius. rewrite E. cbn [bind]. eexists. split; [reflexivity|].
  destruct sort; [|split; [constructor; auto|discriminate]].
  destruct (sort_result ok OL alg SL l) as [P St].
  { intros x Hx. destruct (G x Hx) as (_ & -> & _). apply OKD. }
  assert (P2 := Permutation_map (fun x : neighbor T => n_index x) P).
  split; auto. constructor.
  - eapply Permutation_NoDup; [symmetry; exact P2|auto].
  - intros x Hx. apply G. eapply Permutation_in; eauto.
  - intros i Hi H1. eapply Permutation_in; [symmetry; exact P2|]. apply C; auto.
Qed.

Hypothesis FIT : forall j, j < N -> s_ltb (D j) s_max = true.

Lemma cover_ord_nn nn0 : exists i, cover_search_nn alg t q nn0 = Ok (Neighbor i (D i)) /\ ord_nearest N D i.
Proof.
  destruct (ord_nn_answer OL m sp q OKD _ RUN N0 FIT D OKD D_le visitor_nn (visitor_nn_init nn0))
    as (i & Hi & E & A); auto.
  exists i. split; [exact E|]. split; auto.
Qed.

Lemma cover_ord_knn k knn0 : 0 < k ->
  exists out, cover_search_knn alg t q k knn0 = Ok out /\ ord_knn N k D out.
Proof.
  intros Hk. unfold cover_search_knn, cover_search_knn_range.
  assert (ES : ct_space t = sp) by apply (cover_make_inv _ _ _ _ _ _ _ _ SL SH HM). rewrite ES.
  change (sp_size sp) with N. assert (H0 : 0 < N) by exact N0.
  destruct (knn_init_ok (vector_resize knn0 (Nat.min k N))) as (l0 & EI & L0 & M0 & _).
  { rewrite length_resize. lia. }
  rewrite length_resize in L0. rewrite EI. cbn [bind].
  destruct (ord_knn_answer OL m sp q OKD _ RUN N0 FIT D OKD D_le visitor_knn l0)
    as (st & l & E & El & L & Ll & B & ND & St & G & C); auto; [lia|].
  rewrite E. cbn [bind]. fold (npts sp) in El, Ll, B, G, C. fold N in El, Ll, B, G, C.
  assert (EF : fst st = l) by (rewrite El; symmetry; apply firstn_all2; lia).
  exists (fst st). split; auto. rewrite EF. constructor; auto. lia.
Qed.
End OrdAnswers.

(** * Real numbers *)
Local Open Scope R_scope.

Section Real.
Variable mx : R.
Local Instance RS : Scalar R := R_scalar mx.

Lemma R_leb x y : s_leb (Scalar := RS) x y = true <-> x <= y.
Proof. cbn. destruct (Rle_dec x y); split; auto; discriminate. Qed.
Lemma R_ltb x y : s_ltb (Scalar := RS) x y = true <-> x < y.
Proof. cbn. destruct (Rlt_dec x y); split; auto; discriminate. Qed.

Lemma R_ord : ord_laws RS (fun _ => True).
Proof.
  constructor; auto.
  - intros x y _ _. cbn. destruct (Rlt_dec x y), (Rle_dec y x); auto; lra.
  - intros x y _ _. rewrite !R_leb. lra.
  - intros x y z _ _ _. rewrite !R_leb. lra.
Qed.

Lemma R_counts_up : counts_up RS.
Proof.
  intros a b. destruct (archimed (b - a)) as [A _]. exists (Z.to_nat (up (b - a))).
  assert (V : forall K, Nat.iter K (fun x => s_add (Scalar := RS) x s_one) a = a + INR K).
  { induction K as [|K IH]; [cbn; ring|].
    change (Nat.iter (Datatypes.S K) (fun x => s_add (Scalar := RS) x s_one) a)
      with (Nat.iter K (fun x => s_add (Scalar := RS) x s_one) a + 1). rewrite IH, S_INR. ring. }
  rewrite V. destruct (s_ltb _ _) eqn:E; auto. apply R_ltb in E. exfalso.
  assert (B : IZR (up (b - a)) <= INR (Z.to_nat (up (b - a)))).
  { rewrite INR_IZR_INZ. apply IZR_le. lia. }
  lra.
Qed.

Variable cm : cmath R.
Hypothesis SQ : forall x, 0 <= x -> c_sqrt cm x = sqrt x.
Let m : metric R := metric_l2 (S := RS) cm.

Lemma sum_op_sq (x : list R) : forall y a,
  fold_left (fun d '(u, v) => s_add (Scalar := RS) d (squared_r1_distance (S := RS) u v)) (combine x y) a = a + sum_sq x y.
Proof.
  induction x as [|u x IH]; intros y a; cbn [combine fold_left sum_sq]; [ring|].
  destruct y as [|v y]; cbn [combine fold_left]; [ring|]. rewrite IH. cbn. unfold squared. cbn. ring.
Qed.

Lemma sum_sq_nonneg (x : list R) : forall y, 0 <= sum_sq x y.
Proof.
  induction x as [|u x IH]; intros [|v y]; cbn; try lra. specialize (IH y). pose proof (Rle_0_sqr (u - v)) as H.
  unfold Rsqr in H. lra.
Qed.

Lemma l2_dist x y : m_dist m x y = euclid x y.
Proof.
  unfold m, metric_l2. cbn [m_dist]. unfold sum_op. rewrite sum_op_sq.
  change (@s_zero R RS) with 0. rewrite Rplus_0_l. apply SQ. apply sum_sq_nonneg.
Qed.

Lemma euclid_triangle : forall x y z : list R, length x = length y -> length y = length z ->
  euclid x z <= euclid x y + euclid y z.
Proof.
  unfold euclid. induction x as [|a x IH]; intros [|b y] [|c z] L1 L2; cbn in L1, L2; try lia; cbn [sum_sq].
  - rewrite sqrt_0. lra.
  - specialize (IH y z ltac:(lia) ltac:(lia)).
    set (B := sqrt (sum_sq x y)) in *. set (C := sqrt (sum_sq y z)) in *. set (A := sqrt (sum_sq x z)) in *.
    assert (EA : sum_sq x z = A * A) by (symmetry; apply sqrt_sqrt, sum_sq_nonneg).
    assert (EB : sum_sq x y = B * B) by (symmetry; apply sqrt_sqrt, sum_sq_nonneg).
    assert (EC : sum_sq y z = C * C) by (symmetry; apply sqrt_sqrt, sum_sq_nonneg).
    assert (PA : 0 <= A) by apply sqrt_pos. assert (PB : 0 <= B) by apply sqrt_pos. assert (PC : 0 <= C) by apply sqrt_pos.
    rewrite EA, EB, EC. clear EA EB EC.
    pose proof (Rgeom.triangle 0 0 (a - c) (B + C) (a - b) B) as T. unfold dist_euc, Rsqr in T.
    eapply Rle_trans; [|eapply Rle_trans; [exact T|]].
    + apply sqrt_le_1_alt. nra.
    + apply Req_le. f_equal; f_equal; ring.
Qed.

Lemma euclid_sym x : forall y, euclid x y = euclid y x.
Proof.
  unfold euclid. intros y. f_equal. revert y. induction x as [|a x IH]; intros [|b y]; cbn; auto. rewrite IH. ring.
Qed.

Lemma real_triangle sp q : wf_space sp -> length q = sp_sdim sp ->
  triangle_ord (S := RS) (fun _ => True) m sp q.
Proof.
  intros [_ W] LQ c p r Hc Hp _ H. split; auto. rewrite Forall_forall in W.
  apply R_leb in H. apply R_leb. rewrite !l2_dist in *. change (s_sub (Scalar := RS) (euclid q c) r) with (euclid q c - r).
  pose proof (euclid_triangle q p c ltac:(rewrite LQ, W; auto) ltac:(rewrite !W; auto)) as K.
  rewrite (euclid_sym p c) in K. lra.
Qed.

Variables (alg : std_algos) (SL : std_laws alg) (shuffle : list nat -> list nat) (SH : shuffles shuffle)
  (fuel : nat) (sp : space R) (base : R) (t : cover_tree R) (q : list R).
Hypotheses (HM : cover_tree_make (S := RS) cm alg shuffle m fuel sp base = Ok t)
  (WF : wf_space sp) (LQ : length q = sp_sdim sp).
Let N := npts sp.
Let D := euclid_to sp q.

Lemma D_eq i : m_dist m q (nth i (sp_pts sp) []) = D i.
Proof. apply l2_dist. Qed.

Lemma real_radius r sort : exists l, cover_search_radius (S := RS) alg t q r sort = Ok l
  /\ NoDup (map n_index l)
  /\ (forall x, In x l -> (n_index x < N)%nat /\ n_distance x = D (n_index x) /\ D (n_index x) < r)
  /\ (forall i, (i < N)%nat -> D i < r -> In i (map n_index l))
  /\ (sort = true -> StronglySorted Rle (map n_distance l)).
Proof.
  destruct (cover_ord_radius (fun _ => True) R_ord cm alg SL shuffle SH m fuel sp base t q HM LQ)
    with (r := r) (sort := sort) as (l & E & [ND G C] & St); auto.
  { split; exact I. } { apply real_triangle; auto. }
  exists l. split; auto. split; auto. split; [|split].
  - intros x Hx. destruct (G x Hx) as (A & B & L). rewrite D_eq in B. split; auto. split; auto.
    rewrite <- B. apply R_ltb. exact L.
  - intros i Hi HL. apply C; auto. apply R_ltb. rewrite D_eq. exact HL.
  - intros Hs. specialize (St Hs). clear - St. induction St as [|a l St IH F]; cbn; constructor; auto.
    rewrite Forall_map. rewrite Forall_forall in *. intros b Hb. apply R_leb. apply F; auto.
Qed.

Hypothesis FIT : forall j, (j < N)%nat -> D j < mx.

Lemma real_fit j : (j < npts sp)%nat -> s_ltb (Scalar := RS) (m_dist m q (nth j (sp_pts sp) [])) s_max = true.
Proof. intros Hj. apply R_ltb. rewrite D_eq. apply FIT; auto. Qed.

Lemma real_nn nn0 : exists i, cover_search_nn (S := RS) alg t q nn0 = Ok (Neighbor i (D i))
  /\ (i < N)%nat /\ forall j, (j < N)%nat -> D i <= D j.
Proof.
  destruct (cover_ord_nn (fun _ => True) R_ord cm alg SL shuffle SH m fuel sp base t q HM LQ)
    with (nn0 := nn0) as (i & E & Hi & A); auto.
  { split; exact I. } { apply real_triangle; auto. } { apply real_fit. }
  exists i. split; [rewrite E, D_eq; reflexivity|]. split; auto. intros j Hj. rewrite <- !D_eq. apply R_leb. apply A; auto.
Qed.

Lemma real_knn k knn0 : (0 < k)%nat -> exists out, cover_search_knn (S := RS) alg t q k knn0 = Ok out
  /\ length out = Nat.min k N
  /\ NoDup (map n_index out)
  /\ (forall x, In x out -> (n_index x < N)%nat /\ n_distance x = D (n_index x))
  /\ StronglySorted Rle (map n_distance out)
  /\ (forall x j, In x out -> (j < N)%nat -> ~ In j (map n_index out) -> n_distance x <= D j).
Proof.
  intros Hk.
  destruct (cover_ord_knn (fun _ => True) R_ord cm alg SL shuffle SH m fuel sp base t q HM LQ)
    with (k := k) (knn0 := knn0) as (out & E & [L ND G St C]); auto.
  { split; exact I. } { apply real_triangle; auto. } { apply real_fit. }
  exists out. split; auto. split; auto. split; auto. split; [|split].
  - intros x Hx. destruct (G x Hx) as [A B]. rewrite D_eq in B. auto.
  - clear - St. induction St as [|a l St IH F]; cbn; constructor; auto.
    rewrite Forall_map. rewrite Forall_forall in *. intros b Hb. apply R_leb. apply F; auto.
  - intros x j Hx Hj Hn. rewrite <- D_eq. apply R_leb. apply C; auto.
Qed.
End Real.
