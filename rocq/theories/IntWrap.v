(** Signed integers whose arithmetic wraps around: what is reported. *)
From Coq Require Import List ZArith Bool Arith Lia.
From Verif Require Import Base ModelBox ModelBuild ModelSearch ModelInt Spec SpecInt Lemmas SearchThms SafeThms
  IntThms IntTop IntEx.
Import ListNotations.
Local Open Scope nat_scope.

Section SignedGenuine.
Variable (bits : Z).
Hypothesis Hbits : (2 <= bits)%Z.
Local Notation I := (Signed bits (wrap_signed bits)).
Local Notation half := (2 ^ (bits - 1))%Z.

Lemma pow_half : (2 ^ bits = 2 * half)%Z /\ (2 <= half)%Z.
Proof.
  split.
  - replace bits with (Z.succ (bits - 1)) at 1 by lia. apply Z.pow_succ_r. lia.
  - change 2%Z with (2 ^ 1)%Z at 1. apply Z.pow_le_mono_r; lia.
Qed.

Local Notation represents := (wraps_to bits).

Lemma wrap_represents x : represents x (wrap_signed bits x).
Proof.
  destruct pow_half as [P1 P2]. unfold wrap_signed. pose proof (Z.mod_pos_bound (x + half) (2 ^ bits) ltac:(lia)).
  split; [lia|]. exists (- ((x + half) / 2 ^ bits))%Z. rewrite Z.mod_eq by lia. lia.
Qed.
Lemma fit_represents x : represents x (int_fit (- half) (half - 1) (wrap_signed bits) x).
Proof.
  unfold int_fit. destruct (Z.leb_spec (- half) x), (Z.leb_spec x (half - 1)); cbn [andb]; try apply wrap_represents.
  split; [lia|]. exists 0%Z. lia.
Qed.

Lemma signed_dist q p : represents (sq_dist q p) (m_dist (@metric_l2_squared Z I) q p).
Proof.
  destruct pow_half as [P1 P2]. cbn [m_dist metric_l2_squared]. unfold sum_op.
  assert (G : forall l acc x, represents x acc -> represents (x + fold_right (fun '(a, b) s => (a - b) * (a - b) + s) 0 l)%Z
    (fold_left (fun d '(a, b) => @s_add Z I d (@squared_r1_distance Z I a b)) l acc)).
  { induction l as [|[a b] l IH]; intros acc x R; cbn [fold_left fold_right].
    - rewrite Z.add_0_r. exact R.
    - rewrite Z.add_assoc. apply IH.
      unfold squared_r1_distance, squared. cbn [s_add s_mul s_sub Signed Int_scalar].
      destruct (fit_represents (a - b)%Z) as [_ [k1 E1]].
      set (u := int_fit _ _ _ (a - b)%Z) in *.
      destruct (fit_represents (u * u)%Z) as [_ [k2 E2]]. set (w := int_fit _ _ _ (u * u)%Z) in *.
      destruct (fit_represents (acc + w)%Z) as [B [k3 E3]]. split; [exact B|].
      destruct R as [_ [k0 E0]]. exists (k3 + k0 + k2 + 2 * (a - b) * k1 + k1 * k1 * 2 ^ bits)%Z.
      rewrite E3, E0, E2, E1. ring. }
  assert (E : fold_right (fun '(a, b) s => (a - b) * (a - b) + s)%Z 0%Z (combine q p) = sq_dist q p).
  { clear. revert p. induction q as [|a q IH]; intros [|b p]; cbn; auto. rewrite IH. reflexivity. }
  rewrite <- E. rewrite <- (Z.add_0_l (fold_right _ _ _)). apply G. split; [cbn; lia|]. exists 0%Z. reflexivity.
Qed.

Variables (sp : space Z) (WF : wf_space sp) (AC : all_coords (int_value (- half) (half - 1)) sp).
Variables (alg : std_algos) (SL : std_laws alg).
Variables (it : index_type) (fuel : nat) (stop : stop_condition) (bnds : start_bounds Z) (ru : rule) (tree : kd_tree Z).
Hypothesis HT : @kd_tree_make Z I alg it (@metric_l2_squared Z I) fuel sp stop bnds ru = Ok tree.
Hypothesis HB : bounds_coords (int_value (- half) (half - 1)) sp bnds.
Variables (q : list Z) (LQ : length q = sp_sdim sp).

Lemma signed_ord : ord_laws I (int_value (- half) (half - 1)).
Proof. pose proof pow_half. apply int_ord; lia. Qed.

Lemma signed_nn nn0 : exists r, @search_nn Z I tree q nn0 = Ok r
  /\ (r = Neighbor (n_index nn0) (half - 1)%Z
      \/ (n_index r < npts sp /\ represents (sq_dist q (nth (n_index r) (sp_pts sp) [])) (n_distance r))).
Proof.
  pose proof pow_half.
  destruct (@genuine_nn Z I _ signed_ord sp WF AC alg SL (@metric_l2_squared Z I)
    it fuel stop bnds ru tree HT) with (q := q) (nn0 := nn0) as (r & R & G); auto.
  - intros _. split; auto. apply int_mid_ok; lia.
  - discriminate.
  - exists r. split; auto. destruct G as [G|[G1 G2]]; auto. right. split; auto.
    rewrite G2. apply signed_dist.
Qed.

Lemma signed_radius r : exists l, @search_radius Z I alg tree q r false = Ok l
  /\ NoDup (map n_index l)
  /\ forall n, In n l -> n_index n < npts sp /\ (n_distance n < r)%Z
       /\ represents (sq_dist q (nth (n_index n) (sp_pts sp) [])) (n_distance n).
Proof.
  pose proof pow_half.
  destruct (@genuine_radius Z I _ signed_ord sp WF AC alg SL (@metric_l2_squared Z I)
    it fuel stop bnds ru tree HT) with (q := q) (r := r) as (l & kept & R & ND & K & L); auto.
  - intros _. split; auto. apply int_mid_ok; lia.
  - discriminate.
  - exists l. split; auto. rewrite L. split.
    + rewrite map_map. cbn [n_index]. rewrite map_id. exact ND.
    + intros n Hn. apply in_map_iff in Hn as (i & <- & Hi). destruct (K i Hi) as [K1 K2]. cbn [n_index n_distance].
      split; auto. split; [apply Z.ltb_lt; exact K2|]. apply signed_dist.
Qed.
End SignedGenuine.
