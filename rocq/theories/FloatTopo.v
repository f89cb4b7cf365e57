(** Nearest neighbour search with a topological metric in floating point: how
    far rounding can make the search skip a point. *)
From Coq Require Import List ZArith Reals Bool Arith Permutation Lia Lra.
From Flocq Require Import Core.Core IEEE754.BinarySingleNaN Plus_error Relative.
From Verif Require Import Base ModelBox ModelBuild ModelSearch Spec Lemmas BuildProofs
  BuildShape BuildThms SearchProofs OrdThms Floats FloatThms FloatSearch.
Import ListNotations.
Local Open Scope R_scope.

Section Search.
Variables (prec emax : Z).
Context (Hprec : Prec_gt_0 prec) (Hmax : Prec_lt_emax prec emax) (P2 : (2 <= prec)%Z).
Local Notation F := (binary_float prec emax).
Local Notation fin := (finite prec emax).
Local Notation fexp := (SpecFloat.fexp prec emax).
Local Notation emin := (SpecFloat.emin prec emax).
Local Notation rnd := (round radix2 fexp ZnearestE).
Local Notation fmt := (generic_format radix2 fexp).
Local Notation pow2 := (bpow radix2).
Local Existing Instance SF.
Let ve := vexp prec emax Hprec.
Local Existing Instance ve.
Local Notation u := (bpow radix2 (- prec)).

(** Distance of a number to a segment: that to its nearer end. *)
Definition boxR (t : R -> R -> R) (mn mx v : R) : R :=
  if Rlt_dec v mn then Rmin (t v mn) (t v mx)
  else if Rlt_dec mx v then Rmin (t v mn) (t v mx) else 0.

(** Metrics: a sum of terms, one per coordinate.  [okR k] are the numbers allowed
    in dimension [k]; [dtR k] is the computed term of two of them. *)
Record topo_float (m : metric F) (n : nat) (okR : nat -> R -> Prop) (dtR : nat -> R -> R -> R) (B : R) : Prop := {
  tm_cat : m_cat m = Topological;
  tm_dist : forall x y : list F, length x = n -> length y = n ->
    (forall k, (k < n)%nat -> fin (get x k) /\ okR k (B2R (get x k))) ->
    (forall k, (k < n)%nat -> fin (get y k) /\ okR k (B2R (get y k))) ->
    exists ts : list F, length ts = n
      /\ (forall k, (k < n)%nat -> fin (get ts k) /\ B2R (get ts k) = dtR k (B2R (get x k)) (B2R (get y k)))
      /\ (fin (fold_left s_add ts s_zero) -> fin (m_dist m x y))
      /\ B2R (m_dist m x y) = B2R (fold_left s_add ts s_zero);
  tm_bound : forall k x y, (k < n)%nat -> okR k x -> okR k y -> 0 <= dtR k x y <= B;
  tm_box : forall k (mn mx v : F), (k < n)%nat -> fin mn -> fin mx -> fin v ->
    okR k (B2R mn) -> okR k (B2R mx) -> okR k (B2R v) -> B2R mn <= B2R mx ->
    exists r : F, box_distance m mn mx v k = Ok r /\ fin r
      /\ B2R r = boxR (dtR k) (B2R mn) (B2R mx) (B2R v);
  tm_concave : forall k v a c b, (k < n)%nat -> okR k v -> okR k a -> okR k b ->
    (v < a \/ b < v) -> a <= c <= b -> Rmin (dtR k v a) (dtR k v b) <= dtR k v c
}.

Variables (m : metric F) (sp : space F) (WF : wf_space sp).
Let n := sp_sdim sp.
Let N := length (sp_pts sp).
Variables (okR : nat -> R -> Prop) (dtR : nat -> R -> R -> R) (B : R) (TM : topo_float m n okR dtR B).
Hypothesis N1 : (0 < n)%nat.
Definition okF (k : nat) (x : F) : Prop := fin x /\ okR k (B2R x).
Hypothesis COORDS : forall j k, (j < N)%nat -> (k < n)%nat -> okF k (coord sp k j).
Variable q : list F.
Hypotheses (LQ : length q = n) (HQ : forall k, (k < n)%nat -> okF k (get q k)).
Hypotheses (FIT : INR n * B <= pow2 (emax - 3)) (NU : INR n * u <= / 2).

Lemma B_nonneg_t : 0 <= B.
Proof.
  destruct (HQ 0%nat N1) as [_ H]. destruct (tm_bound _ _ _ _ _ TM 0%nat _ _ N1 H H). lra.
Qed.
Lemma u_bounds_t : 0 < u <= / 4.
Proof. apply u_bounds; auto. Qed.

(** The computed term of point [j] in dimension [k]. *)
Definition termt (j k : nat) : R := dtR k (B2R (get q k)) (B2R (coord sp k j)).
(** The computed distance of point [j]. *)
Definition Dhatt (j : nat) : F := m_dist m q (sp_at sp j).

Lemma termt_bounds j k : (j < N)%nat -> (k < n)%nat -> 0 <= termt j k <= B.
Proof. intros. apply (tm_bound _ _ _ _ _ TM); auto; [apply HQ; auto|apply COORDS; auto]. Qed.

(** ** Sums that are computed exactly: one dimension, or terms on a grid. *)
Variable g : Z.
Definition gridt (x : R) : Prop := exists z : Z, x = IZR z * pow2 g.
Definition exactlyt : Prop :=
  n = 1%nat
  \/ ((emin <= g)%Z /\ INR n * B < pow2 (g + prec)
      /\ forall j k, (j < N)%nat -> (k < n)%nat -> gridt (termt j k)).

Lemma gridt_plus x y : gridt x -> gridt y -> gridt (x + y).
Proof. intros [a ->] [b ->]. exists (a + b)%Z. rewrite plus_IZR. ring. Qed.
Lemma gridt_minus x y : gridt x -> gridt y -> gridt (x - y).
Proof. intros [a ->] [b ->]. exists (a - b)%Z. rewrite minus_IZR. ring. Qed.
Lemma gridt_0 : gridt 0. Proof. exists 0%Z. ring. Qed.
Lemma gridt_fmt x : (emin <= g)%Z -> gridt x -> Rabs x < pow2 (g + prec) -> fmt x.
Proof.
  intros Hg [z ->] H. apply (generic_format_FLT radix2 emin prec).
  exists (Float radix2 z g); auto. cbn.
  rewrite Rabs_mult, (Rabs_pos_eq (pow2 g)), Z.add_comm, bpow_plus in H by apply bpow_ge_0.
  apply Rmult_lt_reg_r in H; [|apply bpow_gt_0].
  rewrite <- abs_IZR in H. rewrite <- IZR_Zpower in H by (pose proof (prec_pos prec Hprec); lia).
  apply lt_IZR in H. exact H.
Qed.

(** ** Distances to segments *)
Lemma boxR_nonneg k mn mx v : (k < n)%nat -> okR k mn -> okR k mx -> okR k v -> 0 <= boxR (dtR k) mn mx v.
Proof.
  intros Hk H1 H2 H3. unfold boxR.
  destruct (tm_bound _ _ _ _ _ TM k v mn Hk H3 H1). destruct (tm_bound _ _ _ _ _ TM k v mx Hk H3 H2).
  destruct (Rlt_dec v mn), (Rlt_dec mx v); try apply Rmin_glb; auto; lra.
Qed.
Lemma boxR_le_B k mn mx v : (k < n)%nat -> okR k mn -> okR k mx -> okR k v -> boxR (dtR k) mn mx v <= B.
Proof.
  intros Hk H1 H2 H3. unfold boxR. pose proof B_nonneg_t.
  destruct (tm_bound _ _ _ _ _ TM k v mn Hk H3 H1). pose proof (Rmin_l (dtR k v mn) (dtR k v mx)).
  destruct (Rlt_dec v mn), (Rlt_dec mx v); lra.
Qed.
Lemma boxR_low k mn mx v c : (k < n)%nat -> okR k mn -> okR k mx -> okR k v -> okR k c -> mn <= c <= mx ->
  boxR (dtR k) mn mx v <= dtR k v c.
Proof.
  intros Hk H1 H2 H3 H4 Hc. unfold boxR. pose proof (tm_bound _ _ _ _ _ TM k v c Hk H3 H4).
  destruct (Rlt_dec v mn); [|destruct (Rlt_dec mx v)]; try lra; apply (tm_concave _ _ _ _ _ TM); auto.
Qed.
Lemma boxR_mono k mn mx v a b : (k < n)%nat -> okR k mn -> okR k mx -> okR k v -> okR k a -> okR k b ->
  mn <= a -> a <= b -> b <= mx -> boxR (dtR k) mn mx v <= boxR (dtR k) a b v.
Proof.
  intros Hk H1 H2 H3 H4 H5 La Lab Lb.
  pose proof (boxR_low k mn mx v a Hk H1 H2 H3 H4 ltac:(lra)) as Xa.
  pose proof (boxR_low k mn mx v b Hk H1 H2 H3 H5 ltac:(lra)) as Xb.
  unfold boxR at 2.
  destruct (Rlt_dec v a); [apply Rmin_glb; auto|]. destruct (Rlt_dec b v); [apply Rmin_glb; auto|].
  unfold boxR. destruct (Rlt_dec v mn); [lra|]. destruct (Rlt_dec mx v); lra.
Qed.
Lemma boxR_ends k mn mx v : boxR (dtR k) mn mx v = 0
  \/ boxR (dtR k) mn mx v = dtR k v mn \/ boxR (dtR k) mn mx v = dtR k v mx.
Proof.
  unfold boxR, Rmin. destruct (Rlt_dec v mn), (Rlt_dec mx v), (Rle_dec (dtR k v mn) (dtR k v mx)); auto.
Qed.

(** ** The computed distance *)
Lemma fold_sumt (ts : list F) : forall i acc s,
  (forall t, In t ts -> fin t /\ 0 <= B2R t <= B) ->
  fin acc -> (1 - u) ^ i * s <= B2R acc <= (1 + u) ^ i * s -> 0 <= s <= INR i * B ->
  (i + length ts <= n)%nat ->
  let r := fold_left s_add ts acc in
  let s' := s + fold_right Rplus 0 (map B2R ts) in
  fin r /\ (1 - u) ^ (i + length ts) * s' <= B2R r <= (1 + u) ^ (i + length ts) * s'
  /\ ((emin <= g)%Z -> INR n * B < pow2 (g + prec) -> (forall t, In t ts -> gridt (B2R t)) ->
      gridt s -> B2R acc = s -> B2R r = s').
Proof.
  pose proof u_bounds_t as [U0 U1].
  induction ts as [|t ts IH]; intros i acc s Ht Fa Ha Hs Hi.
  - cbn [fold_left map fold_right length]. rewrite Nat.add_0_r, Rplus_0_r. auto.
  - destruct (Ht t (or_introl eq_refl)) as [Ft Bt]. cbn [length] in Hi.
    assert (FA := fmt_B2R prec emax acc). assert (FT := fmt_B2R prec emax t).
    pose proof B_nonneg_t as B0.
    assert (Hp : (1 + u) ^ i <= 2).
    { apply pow_upper; try lra. eapply Rle_trans; [|exact NU]. apply Rmult_le_compat_r; [lra|].
      apply le_INR. lia. }
    assert (Hin : INR i + 1 <= INR n) by (rewrite <- S_INR; apply le_INR; lia).
    pose proof (pos_INR i) as I0.
    destruct (pow_prod u ltac:(lra) ltac:(lra) i) as [L0 _]. pose proof (pow_ge_1 u ltac:(lra) i) as L1.
    assert (A0 : 0 <= B2R acc) by (eapply Rle_trans; [|apply Ha]; apply Rmult_le_pos; lra).
    assert (AB : B2R acc + B2R t <= pow2 (emax - 2)).
    { replace (emax - 2)%Z with (emax - 3 + 1)%Z by ring. rewrite (pow_double).
      assert (B2R acc <= 2 * (INR i * B)) by nra. nra. }
    assert (RB : Rabs (rnd (B2R acc + B2R t)) <= pow2 (emax - 2)).
    { apply rnd_pow; auto.
      - pose proof (prec_emax prec emax Hmax). rewrite emin_eq. lia.
      - rewrite Rabs_pos_eq; lra. }
    destruct (add_R prec emax Hprec Hmax acc t Fa Ft) as [Fs Es].
    { apply (lt_emax emax _ (emax - 2)); auto. lia. }
    destruct (rnd_plus prec emax Hprec (B2R acc) (B2R t) FA FT) as (d & Hd & Ed).
    apply Rabs_le_inv in Hd.
    assert (HB : (1 - u) ^ (i + 1) * (s + B2R t) <= B2R (s_add acc t) <= (1 + u) ^ (i + 1) * (s + B2R t)).
    { rewrite Es, Ed, !pow_add, !pow_1.
      assert (L2 : (1 - u) ^ i <= 1).
      { replace 1 with (1 ^ i) at 2 by apply pow1. apply pow_incr. lra. }
      split.
      - apply Rle_trans with ((1 - u) ^ i * (s + B2R t) * (1 - u)); [lra|].
        apply Rmult_le_compat; try nra.
      - apply Rle_trans with ((1 + u) ^ i * (s + B2R t) * (1 + u)); [|lra].
        apply Rmult_le_compat; try nra. }
    destruct (IH (i + 1)%nat (s_add acc t) (s + B2R t)) as (R1 & R2 & R3); auto.
    { intros t' Ht'. apply Ht. right; auto. }
    { rewrite plus_INR. cbn [INR]. split; nra. }
    { lia. }
    cbn zeta in *. cbn [fold_left map fold_right length].
    replace (i + S (length ts))%nat with (i + 1 + length ts)%nat by lia.
    rewrite <- Rplus_assoc. split; [exact R1|]. split; [exact R2|].
    intros Hg HN HG Gs Eas. apply R3; auto.
    { intros t' Ht'. apply HG. right; auto. }
    { apply gridt_plus; auto. apply HG. left; auto. }
    rewrite Es, Eas. apply rnd_fmt; auto.
    apply gridt_fmt; auto.
    { apply gridt_plus; auto. apply HG. left; auto. }
    rewrite Rabs_pos_eq by lra. eapply Rle_lt_trans; [|exact HN]. nra.
Qed.

Lemma ts_get (ts : list F) k f : length ts = k -> (forall i, (i < k)%nat -> B2R (get ts i) = f i) ->
  map B2R ts = map f (seq 0 k).
Proof.
  revert k f. induction ts as [|t ts IH]; intros k f <- H; [reflexivity|].
  cbn [length seq map]. f_equal.
  - apply (H 0%nat). cbn; lia.
  - rewrite <- seq_shift, map_map. apply IH; auto. intros i Hi. apply (H (Datatypes.S i)). cbn; lia.
Qed.

Lemma Dhatt_bounds j : (j < N)%nat ->
  fin (Dhatt j)
  /\ (1 - u) ^ n * sumR n (termt j) <= B2R (Dhatt j) <= (1 + u) ^ n * sumR n (termt j)
  /\ (exactlyt -> B2R (Dhatt j) = sumR n (termt j)).
Proof.
  intros Hj. unfold Dhatt.
  destruct (tm_dist _ _ _ _ _ TM q (sp_at sp j) LQ) as (ts & Lts & Hts & Fd & Ed).
  { apply (sp_at_length sp WF). apply in_space_lt; auto. }
  { exact HQ. } { intros k Hk. apply (COORDS j k Hj Hk). }
  rewrite Ed. clear Ed.
  assert (Ets : map B2R ts = map (termt j) (seq 0 n)).
  { apply ts_get; auto. intros k Hk. apply Hts; auto. }
  assert (Bts : forall t, In t ts -> fin t /\ 0 <= B2R t <= B).
  { intros t Ht. apply (In_nth _ _ s_zero) in Ht as (k & Hk & <-). rewrite Lts in Hk.
    destruct (Hts k Hk) as [A E]. split; [exact A|]. change (nth k ts s_zero) with (get ts k). rewrite E.
    apply (termt_bounds j k); auto. }
  destruct (fold_sumt ts 0 s_zero 0) as (A & C & D); auto.
  { reflexivity. } { rewrite R_zero. cbn. lra. } { cbn. lra. } { lia. }
  cbn zeta in *. rewrite Ets, Lts, Rplus_0_l in *. cbn [Nat.add] in *. fold (sumR n (termt j)) in *.
  split; [exact (Fd A)|]. clear Fd. split; auto. intros [H1|(Hg & HN & HG)].
  - clear A C D. revert Bts Lts Ets. rewrite H1. destruct ts as [|t [|]]; intros; try discriminate.
    cbn in Ets. injection Ets as Ets. unfold sumR. cbn [seq map fold_right fold_left]. rewrite Rplus_0_r, <- Ets.
    destruct (Bts t (or_introl eq_refl)) as [Ft Bt].
    destruct (add_R prec emax Hprec Hmax s_zero t) as [_ E]; auto.
    { reflexivity. }
    { rewrite R_zero, Rplus_0_l, rnd_fmt by (auto; apply fmt_B2R).
      rewrite Rabs_pos_eq by lra. pose proof (R_range prec emax Hprec Hmax t).
      rewrite Rabs_pos_eq in H by lra. eapply Rle_lt_trans; [exact H|]. apply max_lt_pow; auto. }
    rewrite E, R_zero, Rplus_0_l. apply rnd_fmt; auto. apply fmt_B2R.
  - apply D; auto; [|apply gridt_0].
    intros t Ht. apply (In_nth _ _ s_zero) in Ht as (k & Hk & <-). rewrite Lts in Hk.
    destruct (Hts k Hk) as [_ E]. change (nth k ts s_zero) with (get ts k). rewrite E.
    apply (HG j k); auto.
Qed.

(** ** The search *)
Variable top : nat.    (* the height of the tree *)
Hypothesis HU : INR (2 * top) * u <= / 2.

Record LBt (s : nat) (o : list F) (d : F) (l : list nat) : Prop := {
  lt_len : length o = n;
  lt_off : forall k, (k < n)%nat -> fin (get o k) /\ 0 <= B2R (get o k) <= B;
  lt_fin : fin d;
  lt_err : Rabs (B2R d - sumR n (fun k => B2R (get o k)))
           <= ((1 + u) ^ (2 * s) - 1) * sumR n (fun k => B2R (get o k));
  lt_exact : exactlyt -> B2R d = sumR n (fun k => B2R (get o k));
  lt_grid : (forall j k, (j < N)%nat -> (k < n)%nat -> gridt (termt j k)) ->
            forall k, (k < n)%nat -> gridt (B2R (get o k));
  lt_low : forall j k, In j l -> (k < n)%nat -> B2R (get o k) <= termt j k;
  lt_box : forall i j k, In i l -> In j l -> (k < n)%nat -> B2R (coord sp k i) <= B2R (coord sp k j) ->
    B2R (get o k) <= boxR (dtR k) (B2R (coord sp k i)) (B2R (coord sp k j)) (B2R (get q k));
  lt_in : forall j, In j l -> (j < N)%nat
}.

Lemma LBt_incl s o d l l' : LBt s o d l -> incl l' l -> LBt s o d l'.
Proof. intros [] H. constructor; auto. Qed.

Lemma gridt_sum k f : (forall i, (i < k)%nat -> gridt (f i)) -> gridt (sumR k f).
Proof.
  induction k; intros H; [apply gridt_0|]. rewrite sumR_S. apply gridt_plus; auto.
Qed.

Lemma LBt_start l : incl l (seq 0 N) -> LBt 0 (offsets0 sp) s_zero l.
Proof.
  intros Hl.
  assert (Z : forall k, (k < n)%nat -> get (offsets0 sp) k = (s_zero : F)).
  { intros k Hk. unfold offsets0, get. rewrite nth_tab by auto. reflexivity. }
  assert (S0 : sumR n (fun k => B2R (get (offsets0 sp) k)) = 0).
  { rewrite (sumR_ext n _ (fun _ => 0)) by (intros; rewrite Z by auto; reflexivity).
    clear. induction n; [reflexivity|]. rewrite sumR_S, IHn0. lra. }
  constructor.
  - apply length_tab.
  - intros k Hk. rewrite Z by auto. split; [reflexivity|]. rewrite R_zero. pose proof B_nonneg_t. lra.
  - reflexivity.
  - rewrite S0, R_zero. rewrite Rminus_0_r, Rabs_R0. lra.
  - intros _. rewrite S0. reflexivity.
  - intros _ k Hk. rewrite Z by auto. rewrite R_zero. apply gridt_0.
  - intros j k Hj Hk. rewrite Z by auto. rewrite R_zero. apply termt_bounds; auto.
    apply Hl in Hj. apply in_seq in Hj. lia.
  - intros i j k Hi Hj Hk HL. rewrite Z by auto. rewrite R_zero.
    assert (In_N : forall x, In x l -> (x < N)%nat) by (intros x Hx; apply Hl in Hx; apply in_seq in Hx; lia).
    apply boxR_nonneg; [auto|apply (COORDS i k); auto|apply (COORDS j k); auto|apply HQ; auto].
  - intros j Hj. apply Hl in Hj. apply in_seq in Hj. lia.
Qed.

Lemma LBt_step s o d l l' sd no old :
  (s < top)%nat -> LBt s o d l -> incl l' l -> (sd < n)%nat -> at_ o sd = Ok old ->
  fin no -> 0 <= B2R no <= B -> B2R old <= B2R no ->
  ((forall j k, (j < N)%nat -> (k < n)%nat -> gridt (termt j k)) -> gridt (B2R no)) ->
  (forall j, In j l' -> B2R no <= termt j sd) ->
  (forall i j, In i l' -> In j l' -> B2R (coord sp sd i) <= B2R (coord sp sd j) ->
     B2R no <= boxR (dtR sd) (B2R (coord sp sd i)) (B2R (coord sp sd j)) (B2R (get q sd))) ->
  LBt (s + 1) (set_nth o sd no) (s_add (s_sub d old) no) l'.
Proof.
  intros Hs [A1 A2 A3 A4 A5 A6 A7 A9 A8] HI Hsd Ho Fno Bno Hon Gno Lno Bxo.
  pose proof u_bounds_t as [U0 U1]. pose proof B_nonneg_t as B0.
  set (S := sumR n (fun k => B2R (get o k))) in *.
  assert (Eold : get o sd = old).
  { apply at_ok in Ho. unfold get. apply nth_error_nth. exact Ho. }
  destruct (A2 sd Hsd) as [Fold Bold]. rewrite Eold in *.
  assert (ES : sumR n (fun k => B2R (get (set_nth o sd no) k)) = S - B2R old + B2R no).
  { rewrite (sumR_update n (fun k => B2R (get o k)) (fun k => B2R (get (set_nth o sd no) k)) sd); auto.
    - rewrite get_set_same by lia. rewrite Eold. reflexivity.
    - intros k Hk Hne. rewrite get_set_other by auto. reflexivity. }
  assert (Sold : B2R old <= S).
  { rewrite <- Eold. unfold S. apply (sumR_ge_one n (fun k => B2R (get o k))); auto. intros k Hk. apply A2; auto. }
  assert (SB : S <= INR n * B) by (apply sumR_bound; intros k Hk; apply A2; auto).
  assert (P2s : (1 + u) ^ (2 * s) <= 2).
  { eapply Rle_trans; [apply (pow_mono u) with (k := (2 * top)%nat); [lra|lia]|].
    apply pow_upper; auto; lra. }
  pose proof (pow_ge_1 u ltac:(lra) (2 * s)) as P1s.
  assert (D0 : 0 <= B2R d <= 2 * S).
  { apply Rabs_le_inv in A4. nra. }
  set (P := (1 + u) ^ (2 * s)) in *.
  assert (Fd := fmt_B2R prec emax d). assert (FoF := fmt_B2R prec emax old). assert (FnF := fmt_B2R prec emax no).
  assert (Em : (emin <= emax - 2)%Z) by (pose proof (prec_emax prec emax Hmax); rewrite emin_eq; lia).
  assert (E32 : pow2 (emax - 2) = 2 * pow2 (emax - 3)).
  { replace (emax - 2)%Z with (emax - 3 + 1)%Z by ring. apply (pow_double). }
  assert (E21 : pow2 (emax - 1) = 2 * pow2 (emax - 2)).
  { replace (emax - 1)%Z with (emax - 2 + 1)%Z by ring. apply (pow_double). }
  assert (Bn : B <= INR n * B).
  { assert (1 <= INR n) by (change 1 with (INR 1); apply le_INR; lia). nra. }
  assert (RA : Rabs (rnd (B2R d - B2R old)) <= pow2 (emax - 2)).
  { apply rnd_pow; auto. apply Rabs_le. lra. }
  destruct (sub_R prec emax Hprec Hmax d old A3 Fold) as [Fa Ea].
  { apply (lt_emax emax _ (emax - 2)); auto. lia. }
  assert (FaF := fmt_B2R prec emax (s_sub d old)).
  assert (RB : Rabs (rnd (B2R (s_sub d old) + B2R no)) <= pow2 (emax - 1)).
  { apply rnd_pow; [auto|lia|]. rewrite Ea. apply Rabs_le_inv in RA. apply Rabs_le. lra. }
  destruct (add_R prec emax Hprec Hmax (s_sub d old) no Fa Fno) as [Fr Er].
  { apply (lt_emax emax _ (emax - 1)); auto. lia. }
  assert (X : exactlyt -> B2R (s_add (s_sub d old) no) = S - B2R old + B2R no).
  { intros EX. specialize (A5 EX). rewrite Er, Ea, A5.
    destruct EX as [H1|(Hg & HN & HG)].
    - assert (S = B2R old) as ->.
      { unfold S. rewrite H1. assert (sd = 0%nat) as Esd by lia. rewrite <- Eold, Esd. unfold sumR. cbn. lra. }
      replace (B2R old - B2R old) with 0 by ring. rewrite rnd_0, !Rplus_0_l by auto. apply rnd_fmt; auto.
    - assert (GS : gridt S) by (apply gridt_sum; auto).
      assert (Go : gridt (B2R old)) by (rewrite <- Eold; auto).
      rewrite (rnd_fmt prec emax (S - B2R old)).
      2:{ apply gridt_fmt; auto. { apply gridt_minus; auto. } rewrite Rabs_pos_eq; lra. }
      apply rnd_fmt; auto. apply gridt_fmt; auto. { apply gridt_plus; [apply gridt_minus|]; auto. }
      rewrite Rabs_pos_eq by lra. rewrite <- ES. eapply Rle_lt_trans; [|exact HN].
      apply sumR_bound. intros k Hk. destruct (Nat.eq_dec sd k) as [<-|Hne].
      + rewrite get_set_same by lia. lra.
      + rewrite get_set_other by auto. apply A2; auto. }
  constructor.
  - rewrite length_set_nth. auto.
  - intros k Hk. destruct (Nat.eq_dec sd k) as [<-|Hne].
    + rewrite get_set_same by lia. auto.
    + rewrite get_set_other by auto. auto.
  - exact Fr.
  - rewrite ES, Er, Ea.
    destruct (rnd_minus prec emax Hprec (B2R d) (B2R old) Fd FoF) as (e1 & H1 & Q1).
    destruct (rnd_plus prec emax Hprec (B2R (s_sub d old)) (B2R no) FaF FnF) as (e2 & H2 & Q2).
    rewrite Ea in Q2. rewrite Q2, Q1.
    replace (2 * (s + 1))%nat with (2 * s + 2)%nat by lia. rewrite pow_add. fold P.
    set (r := S - B2R old). set (v := B2R no) in *. set (E := B2R d - S) in *.
    replace (B2R d - B2R old) with (E + r) by (unfold E, r; ring).
    fold E in A4. clearbody E.
    assert (R0 : 0 <= r) by (unfold r; lra).
    assert (SS : S <= r + v) by (unfold r; lra).
    clearbody r v. clear - A4 H1 H2 R0 SS P1s U0 U1 Bno Sold Bold. destruct Bno as [V0 _].
    replace (((E + r) * (1 + e1) + v) * (1 + e2) - (r + v))
      with (E * ((1 + e1) * (1 + e2)) + r * ((1 + e1) * (1 + e2) - 1) + v * e2) by ring.
    assert (Q : Rabs ((1 + e1) * (1 + e2) - 1) <= (1 + u) ^ 2 - 1).
    { replace ((1 + e1) * (1 + e2) - 1) with (e1 + e2 + e1 * e2) by ring.
      eapply Rle_trans; [apply Rabs_triang|]. rewrite Rabs_mult.
      assert (Rabs (e1 + e2) <= 2 * u) by (eapply Rle_trans; [apply Rabs_triang|lra]).
      assert (Rabs e1 * Rabs e2 <= u * u).
      { apply Rmult_le_compat; auto using Rabs_pos. }
      cbn [pow]. lra. }
    assert (Q' : Rabs ((1 + e1) * (1 + e2)) <= (1 + u) ^ 2).
    { replace ((1 + e1) * (1 + e2)) with (1 + ((1 + e1) * (1 + e2) - 1)) by ring.
      eapply Rle_trans; [apply Rabs_triang|]. rewrite Rabs_R1. lra. }
    eapply Rle_trans; [apply Rabs_triang|].
    eapply Rle_trans; [apply Rplus_le_compat_r, Rabs_triang|].
    rewrite (Rabs_mult E), (Rabs_mult r), (Rabs_mult v), (Rabs_pos_eq r), (Rabs_pos_eq v) by auto.
    set (W := (1 + u) ^ 2) in *.
    assert (W1 : 1 + u <= W) by (unfold W; cbn [pow]; nra).
    assert (T1 : Rabs E * Rabs ((1 + e1) * (1 + e2)) <= (P - 1) * (r + v) * W).
    { apply Rmult_le_compat; auto using Rabs_pos. eapply Rle_trans; [exact A4|].
      apply Rmult_le_compat_l; lra. }
    assert (T2 : r * Rabs ((1 + e1) * (1 + e2) - 1) <= r * (W - 1)) by (apply Rmult_le_compat_l; auto).
    assert (T3 : v * Rabs e2 <= v * (W - 1)).
    { apply Rmult_le_compat_l; auto. lra. }
    replace ((P * W - 1) * (r + v)) with ((P - 1) * (r + v) * W + r * (W - 1) + v * (W - 1)) by ring.
    lra.
  - intros EX. rewrite ES. auto.
  - intros G k Hk. destruct (Nat.eq_dec sd k) as [<-|Hne].
    + rewrite get_set_same by lia. auto.
    + rewrite get_set_other by auto. auto.
  - intros j k Hj Hk. destruct (Nat.eq_dec sd k) as [<-|Hne].
    + rewrite get_set_same by lia. auto.
    + rewrite get_set_other by auto. auto.
  - intros i j k Hi Hj Hk HL. destruct (Nat.eq_dec sd k) as [<-|Hne].
    + rewrite get_set_same by lia. auto.
    + rewrite get_set_other by auto. auto.
  - intros j Hj. apply A8, HI, Hj.
Qed.

Lemma step_topo s br l r o d :
  (s < top)%nat -> R_tight fin sp Topological br l r -> incl (l ++ r) (seq 0 N) -> LBt s o d (l ++ r) ->
  exists sd gl no old, decide_topological m q br = Ok (sd, gl, no) /\ at_ o sd = Ok old
    /\ LBt (s + 1) (set_nth o sd no) (s_add (s_sub d old) no) (if gl : bool then r else l).
Proof.
  intros Hs (lb & rb & sd & [-> Hd W1 W2 O1 O2 Ho1 Ho2 T1 T2 Hord]) HI HL.
  cbn [set_branch]. unfold decide_topological.
  cbn [bd_split_dim bd_left_min bd_left_max bd_right_min bd_right_max].
  assert (Ilr : forall i, In i l \/ In i r -> (i < N)%nat).
  { intros i Hi. assert (In i (seq 0 N)) by (apply HI, in_or_app; auto). apply in_seq in H. lia. }
  fold n in Hd. rewrite (at_lt q _ s_zero) by lia. cbn [bind]. fold (get q sd).
  set (v := get q sd). destruct (HQ sd Hd) as [Fv Ov]. fold v in Fv, Ov.
  assert (LE : forall x y : F, fin x -> fin y -> s_leb x y = true -> B2R x <= B2R y).
  { intros x y Fx Fy H. apply leb_R in H; auto. }
  (* the sides of a tight box are coordinates of points *)
  assert (SIDES : forall bx pts, (forall i, In i pts -> (i < N)%nat) -> ok_box fin n bx -> holds sp bx pts -> touches sp bx pts ->
    fin (get (box_min bx) sd) /\ fin (get (box_max bx) sd)
    /\ (forall i, In i pts -> B2R (get (box_min bx) sd) <= B2R (coord sp sd i) <= B2R (get (box_max bx) sd))
    /\ exists a b, In a pts /\ In b pts /\ B2R (get (box_min bx) sd) = B2R (coord sp sd a)
       /\ B2R (get (box_max bx) sd) = B2R (coord sp sd b)).
  { intros bx pts Hp Ob Hb Tb. destruct (Ob sd Hd) as [Fn Fx]. split; [exact Fn|]. split; [exact Fx|].
    assert (IN : forall i, In i pts -> B2R (get (box_min bx) sd) <= B2R (coord sp sd i) <= B2R (get (box_max bx) sd)).
    { intros i Hi. destruct (Hb i Hi sd Hd) as [X Y]. destruct (COORDS i sd (Hp i Hi) Hd) as [Fi _]. split; apply LE; auto. }
    split; [exact IN|]. destruct (Tb sd Hd) as [(a & Ha & La) (b & Hb' & Lb)]. exists a, b.
    split; [exact Ha|]. split; [exact Hb'|].
    destruct (COORDS a sd (Hp a Ha) Hd) as [Fa _]. destruct (COORDS b sd (Hp b Hb') Hd) as [Fb _].
    apply LE in La; auto. apply LE in Lb; auto. pose proof (IN a Ha). pose proof (IN b Hb'). split; lra. }
  destruct (SIDES lb l ltac:(auto) O1 Ho1 T1) as (Fl1 & Fl2 & Il & a1 & b1 & Ha1 & Hb1 & Ea1 & Eb1).
  destruct (SIDES rb r ltac:(auto) O2 Ho2 T2) as (Fr1 & Fr2 & Ir & a2 & b2 & Ha2 & Hb2 & Ea2 & Eb2).
  clear SIDES.
  assert (Cx : forall i, (i < N)%nat -> okR sd (B2R (coord sp sd i))) by (intros i Hi; apply COORDS; auto).
  destruct (tm_box _ _ _ _ _ TM sd (get (box_min lb) sd) (get (box_max lb) sd) v Hd Fl1 Fl2 Fv) as (d1 & E1 & Fd1 & R1).
  { rewrite Ea1. auto. } { rewrite Eb1. auto. } { exact Ov. } { specialize (Il a1 Ha1). lra. }
  destruct (tm_box _ _ _ _ _ TM sd (get (box_min rb) sd) (get (box_max rb) sd) v Hd Fr1 Fr2 Fv) as (d2 & E2 & Fd2 & R2).
  { rewrite Ea2. auto. } { rewrite Eb2. auto. } { exact Ov. } { specialize (Ir a2 Ha2). lra. }
  rewrite E1, E2. cbn [bind].
  assert (Eo : at_ o sd = Ok (get o sd)) by (apply at_lt; rewrite (lt_len _ _ _ _ HL); auto).
  do 4 eexists. split; [reflexivity|]. split; [exact Eo|].
  assert (STEP : forall (no : F) pts a b, incl pts (l ++ r) -> fin no ->
    B2R no = boxR (dtR sd) (B2R (coord sp sd a)) (B2R (coord sp sd b)) (B2R v) ->
    In a pts -> In b pts ->
    (forall i, In i pts -> B2R (coord sp sd a) <= B2R (coord sp sd i) <= B2R (coord sp sd b)) ->
    LBt (s + 1) (set_nth o sd no) (s_add (s_sub d (get o sd)) no) pts).
  { intros no pts a b HI' Fno Eno Ha Hb HR.
    assert (Hp : forall i, In i pts -> (i < N)%nat) by (intros i Hi; apply Ilr, in_app_or, HI', Hi).
    assert (Oa := Cx a (Hp a Ha)). assert (Ob := Cx b (Hp b Hb)).
    assert (AB : B2R (coord sp sd a) <= B2R (coord sp sd b)) by (apply HR; auto).
    eapply LBt_step; eauto; rewrite ?Eno.
    - split; [apply boxR_nonneg; auto|apply boxR_le_B; auto].
    - apply (lt_box _ _ _ _ HL); auto.
    - intros G. destruct (boxR_ends sd (B2R (coord sp sd a)) (B2R (coord sp sd b)) (B2R v)) as [->|[->| ->]].
      + apply gridt_0. + apply (G a sd); auto. + apply (G b sd); auto.
    - intros j Hj. apply boxR_low; auto.
    - intros i j Hi Hj Hij. destruct (HR i Hi), (HR j Hj). apply boxR_mono; auto. }
  rewrite Ea1, Eb1 in R1. rewrite Ea2, Eb2 in R2.
  destruct (s_ltb d1 d2).
  - apply (STEP d2 r a2 b2); auto.
    + intros x Hx. apply in_or_app; auto.
    + intros i Hi. rewrite <- Ea2, <- Eb2. auto.
  - apply (STEP d1 l a1 b1); auto.
    + intros x Hx. apply in_or_app; auto.
    + intros i Hi. rewrite <- Ea1, <- Eb1. auto.
Qed.

(** The factor by which a skippedt point may still be nearer. *)
Definition skippedt (x : F) (j : nat) : Prop :=
  (1 - u) ^ n * B2R x < (1 + u) ^ (2 * top) * B2R (Dhatt j) /\ (exactlyt -> B2R x < B2R (Dhatt j)).

Lemma prune_topo s o d l x j : (s <= top)%nat -> LBt s o d l -> fin x -> s_leb d x = false ->
  In j l -> skippedt x j.
Proof.
  intros Hs [A1 A2 A3 A4 A5 A6 A7 A9 A8] Fx EL Hj. pose proof (A8 j Hj) as HjN. apply leb_R_false in EL; auto.
  pose proof u_bounds_t as [U0 U1].
  destruct (Dhatt_bounds j HjN) as (D1 & D2 & D3).
  set (S := sumR n (fun k => B2R (get o k))) in *.
  assert (ST : S <= sumR n (termt j)) by (apply sumR_le; intros k Hk; apply A7; auto).
  assert (S0 : 0 <= S) by (apply sumR_nonneg; intros k Hk; apply A2; auto).
  split.
  - apply Rabs_le_inv in A4.
    assert (PM := pow_mono u ltac:(lra) (2 * s) (2 * top) ltac:(lia)).
    assert (X : B2R x < (1 + u) ^ (2 * top) * S) by nra.
    assert (LP : 0 < (1 - u) ^ n) by (apply pow_lt; lra).
    assert (UP : 0 <= (1 + u) ^ (2 * top)) by (apply pow_le; lra).
    apply Rlt_le_trans with ((1 - u) ^ n * ((1 + u) ^ (2 * top) * S)).
    { apply Rmult_lt_compat_l; auto. }
    rewrite <- Rmult_assoc, (Rmult_comm ((1 - u) ^ n)), Rmult_assoc.
    apply Rmult_le_compat_l; auto.
    eapply Rle_trans; [|apply D2]. apply Rmult_le_compat_l; lra.
  - intros EX. rewrite D3 by auto. rewrite A5 in EL by auto. lra.
Qed.

Section Visitor.
Context {V : Type} (vis : visitor F V).
Variable (Inv : V -> Prop).
Hypotheses
  (V_inv : forall st i, Inv st -> (i < N)%nat -> Inv (v_visit vis i (Dhatt i) st))
  (V_fin : forall st, Inv st -> fin (v_max vis st))
  (V_mono : forall st i, Inv st -> (i < N)%nat ->
     B2R (v_max vis (v_visit vis i (Dhatt i) st)) <= B2R (v_max vis st)).

Lemma search_topo c (root : node (branch_data c F)) idx v0 : m_cat m = c ->
  node_spans (R_tight fin sp c) root 0 idx -> Permutation idx (seq 0 N) ->
  (node_height root <= top)%nat -> Inv v0 ->
  exists tr rest, Permutation (tr ++ rest) (seq 0 N)
    /\ search_nearest_root m c vis sp idx q root v0 = Ok (visits m vis sp q tr v0)
    /\ Inv (visits m vis sp q tr v0)
    /\ forall j, In j rest -> skippedt (v_max vis (visits m vis sp q tr v0)) j.
Proof.
  intros Hc NS P HT HI. rewrite (tm_cat _ _ _ _ _ TM) in Hc. subst c.
  assert (Hin : forall i, In i idx <-> (i < N)%nat).
  { intros i. rewrite <- In_seq0. split; apply Permutation_in; auto; symmetry; auto. }
  destruct (search_gen_levels m vis sp idx q (R_tight fin sp Topological) (decide_topological m q)
              Inv (fun st j => skippedt (v_max vis st) j) LBt top idx) with
    (nd := root) (b := 0%nat) (l := idx) (s := 0%nat) (pre := @nil nat) (post := @nil nat)
    (o := offsets0 sp) (d := s_zero (Scalar := SF prec emax Hprec Hmax)) (st := v0)
    as (tr & rest & Pt & E & HF); auto.
  - intros st i HIs Hi. apply V_inv; auto. apply Hin; auto.
  - intros st i j HIs Hi [S1 S2]. apply Hin in Hi. specialize (V_mono st i HIs Hi).
    pose proof u_bounds_t as [U0 U1]. unfold Dhatt in *. split.
    + eapply Rle_lt_trans; [|exact S1]. apply Rmult_le_compat_l; auto. apply pow_le. lra.
    + intros EX. eapply Rle_lt_trans; [exact V_mono|exact (S2 EX)].
  - intros. eapply LBt_incl; eauto.
  - intros s o d l st Hs HL HIs EL j Hj. eapply prune_topo; eauto.
  - intros s br l r o d Hs HR Hi HL. apply step_topo; auto.
    intros x Hx. apply In_seq0, Hin, Hi, Hx.
  - rewrite app_nil_r. reflexivity.
  - apply Forall_forall. intros i Hi. apply in_space_lt. apply Hin; auto.
  - apply incl_refl.
  - apply LBt_start. intros x Hx. apply In_seq0, Hin, Hx.
  - exists tr, rest. split; [rewrite Pt; auto|]. split.
    + rewrite search_nearest_root_gen. cbn [decide]. rewrite E. reflexivity.
    + split; auto. apply (visits_inv m vis sp q Inv idx); auto.
      * intros st i HIs Hi. apply V_inv; auto. apply Hin; auto.
      * intros x Hx. eapply Permutation_in; [exact Pt|]. apply in_or_app; auto.
Qed.
End Visitor.
End Search.
