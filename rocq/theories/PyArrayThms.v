(** NumPy arrays as spaces, and batched queries. *)
From Coq Require Import List ZArith QArith Bool Arith Lia.
From Verif Require Import Base ModelBox ModelBuild ModelSearch ModelSerial ModelPython Spec SpecSerial SpecPython
  Lemmas SerialThms ParThms ParSearch PythonThms.
Import ListNotations.
Local Open Scope nat_scope.

Section Map.
Context {T : Type}.

Lemma map_points_ok (buf : list T) off sdim n : forall i, (n = 0 \/ off + (i + n) * sdim <= length buf) ->
  exists pts, map_points buf off sdim i n = Ok pts /\ length pts = n
    /\ forall m, m < n -> nth m pts [] = cells (off + (i + m) * sdim) sdim buf.
Proof.
  induction n as [|n IH]; intros i H; cbn [map_points].
  - exists []. repeat split; auto. intros; lia.
  - destruct H as [|H]; [discriminate|]. unfold map_point.
    rewrite guard_true by (apply Nat.leb_le; nia). cbn [bind].
    destruct (IH (S i)) as (pts & E & L & N). { right. nia. }
    rewrite E. cbn [bind]. eexists. split; [reflexivity|]. split; [cbn; auto|].
    intros [|m] Hm; cbn [nth].
    + rewrite Nat.add_0_r. reflexivity.
    + rewrite N by lia. f_equal. nia.
Qed.

Lemma addr2 (a : ndarray T) s0 s1 i j : nd_strides a = [s0; s1] ->
  nd_addr a [i; j] = (Z.of_nat (nd_off a) + Z.of_nat i * s0 + Z.of_nat j * s1)%Z.
Proof. intros E. unfold nd_addr. rewrite E. cbn [combine map fold_right fst snd]. lia. Qed.

Lemma nd_get_at (a : ndarray T) idx p : nd_addr a idx = Z.of_nat p -> nd_get a idx = nth_error (nd_buf a) p.
Proof. intros E. unfold nd_get. rewrite E. destruct (Z.ltb_spec (Z.of_nat p) 0); [lia|]. rewrite Nat2Z.id. reflexivity. Qed.

Lemma row_addr (a : ndarray T) r c i j : nd_shape a = [r; c] -> length (nd_strides a) = 2 ->
  is_row_major a = true -> i < r -> j < c -> nd_addr a [i; j] = Z.of_nat (nd_off a + i * c + j).
Proof.
  intros Es Ls R Hi Hj. destruct (nd_strides a) as [|s0 [|s1 [|? ?]]] eqn:Et; try discriminate Ls.
  rewrite (addr2 a s0 s1) by auto. unfold is_row_major, nd_empty in R. rewrite Es, Et in R.
  cbn [existsb combine rev app contiguous_from] in R.
  destruct (Nat.eqb_spec 0 r); [lia|]. destruct (Nat.eqb_spec 0 c); [lia|]. cbn [orb] in R.
  destruct (Nat.eqb_spec c 1) as [Ec|_]; destruct (Nat.eqb_spec r 1) as [Er|_].
  - subst. assert (i = 0) by lia. assert (j = 0) by lia. subst. lia.
  - rewrite andb_true_r in R. apply Z.eqb_eq in R. subst. assert (j = 0) by lia. subst. lia.
  - rewrite andb_true_r in R. apply Z.eqb_eq in R. subst. assert (i = 0) by lia. subst. lia.
  - apply andb_prop in R as [R1 R2]. rewrite andb_true_r in R2. apply Z.eqb_eq in R1, R2. subst. lia.
Qed.

Lemma col_addr (a : ndarray T) r c i j : nd_shape a = [r; c] -> length (nd_strides a) = 2 ->
  is_col_major a = true -> i < r -> j < c -> nd_addr a [i; j] = Z.of_nat (nd_off a + j * r + i).
Proof.
  intros Es Ls R Hi Hj. destruct (nd_strides a) as [|s0 [|s1 [|? ?]]] eqn:Et; try discriminate Ls.
  rewrite (addr2 a s0 s1) by auto. unfold is_col_major, nd_empty in R. rewrite Es, Et in R.
  cbn [existsb combine rev app contiguous_from] in R.
  destruct (Nat.eqb_spec 0 r); [lia|]. destruct (Nat.eqb_spec 0 c); [lia|]. cbn [orb] in R.
  destruct (Nat.eqb_spec r 1) as [Er|_]; destruct (Nat.eqb_spec c 1) as [Ec|_].
  - subst. assert (i = 0) by lia. assert (j = 0) by lia. subst. lia.
  - rewrite andb_true_r in R. apply Z.eqb_eq in R. subst. assert (i = 0) by lia. subst. lia.
  - rewrite andb_true_r in R. apply Z.eqb_eq in R. subst. assert (j = 0) by lia. subst. lia.
  - apply andb_prop in R as [R1 R2]. rewrite andb_true_r in R2. apply Z.eqb_eq in R1, R2. subst. lia.
Qed.

(** The whole of make_map. *)
Lemma make_map_spec dim (a : ndarray T) : nd_ok a ->
  if (length (nd_shape a) =? 2) && is_contiguous a
     && match dim with Some d => d =? nth (if is_row_major a then 1 else 0) (nd_shape a) 0 | None => true end
  then exists sp, make_map dim a = ret (PyArrayMap sp (is_row_major a)) /\ denotes a sp
  else make_map dim a = throw ExnInvalidArgument.
Proof.
  intros (Ls & Lo & Hin). unfold make_map.
  destruct (Nat.eqb_spec (length (nd_shape a)) 2) as [L2|L2]; [|reflexivity].
  destruct (is_contiguous a) eqn:Co; [|reflexivity]. cbn [negb andb throw_if ret pbind bind].
  destruct (nd_shape a) as [|r [|c [|? ?]]] eqn:Es; try discriminate L2.
  unfold inner_stride, outer_stride. rewrite Es.
  assert (Hget : forall i j, i < r -> j < c -> exists x, nd_get a [i; j] = Some x).
  { intros i j Hi Hj. apply Hin. repeat constructor; auto. }
  destruct (is_row_major a) eqn:R; cbn [at_ nth_error lift bind pbind nth].
  - replace (is_dim_compatible dim c) with (match dim with Some d => d =? c | None => true end) by reflexivity.
    destruct (match dim with Some d => d =? c | None => true end); [|reflexivity].
    cbn [negb throw_if ret pbind bind].
    assert (Ho : r = 0 \/ nd_off a + (0 + r) * c <= length (nd_buf a)).
    { destruct r as [|r']; [auto|]. right. destruct c as [|c']; [lia|].
      destruct (Hget r' c') as (x & E); try lia.
      rewrite (nd_get_at a _ _ (row_addr a _ _ r' c' Es Ls R ltac:(lia) ltac:(lia))) in E.
      assert (nd_off a + r' * S c' + c' < length (nd_buf a)) by (apply nth_error_Some; congruence). lia. }
    destruct (map_points_ok (nd_buf a) (nd_off a) c r 0 Ho) as (pts & E & L & N). rewrite E. cbn [lift bind pbind].
    eexists. split; [reflexivity|]. exists r, c. split; [auto|]. rewrite R. cbn [sp_sdim sp_pts].
    assert (Lp : forall i, i < r -> length (nth i pts []) = c).
    { intros i Hi. rewrite N by auto. apply length_cells. nia. }
    split. { apply Forall_forall. intros p Ip. apply (In_nth _ _ []) in Ip as (i & Hi & <-). apply Lp; lia. }
    split; [auto|]. split; [auto|]. intros i j Hi Hj. rewrite N by auto. rewrite nth_error_cells by auto.
    rewrite (nd_get_at a _ _ (row_addr a _ _ i j Es Ls R Hi Hj)). f_equal.
  - replace (is_dim_compatible dim r) with (match dim with Some d => d =? r | None => true end) by reflexivity.
    destruct (match dim with Some d => d =? r | None => true end); [|reflexivity].
    cbn [negb throw_if ret pbind bind].
    assert (C : is_col_major a = true) by (unfold is_contiguous in Co; rewrite R in Co; auto).
    assert (Ho : c = 0 \/ nd_off a + (0 + c) * r <= length (nd_buf a)).
    { destruct c as [|c']; [auto|]. right. destruct r as [|r']; [lia|].
      destruct (Hget r' c') as (x & E); try lia.
      rewrite (nd_get_at a _ _ (col_addr a _ _ r' c' Es Ls C ltac:(lia) ltac:(lia))) in E.
      assert (nd_off a + c' * S r' + r' < length (nd_buf a)) by (apply nth_error_Some; congruence). lia. }
    destruct (map_points_ok (nd_buf a) (nd_off a) r c 0 Ho) as (pts & E & L & N). rewrite E. cbn [lift bind pbind].
    eexists. split; [reflexivity|]. exists r, c. split; [auto|]. rewrite R. cbn [sp_sdim sp_pts].
    assert (Lp : forall i, i < c -> length (nth i pts []) = r).
    { intros i Hi. rewrite N by auto. apply length_cells. nia. }
    split. { apply Forall_forall. intros p Ip. apply (In_nth _ _ []) in Ip as (i & Hi & <-). apply Lp; lia. }
    split; [auto|]. split; [auto|]. intros i j Hi Hj. rewrite N by auto. rewrite nth_error_cells by auto.
    rewrite (nd_get_at a _ _ (col_addr a _ _ j i Es Ls C Hj Hi)). f_equal.
Qed.

Lemma denotes_unique (a : ndarray T) sp sp' : denotes a sp -> denotes a sp' -> sp = sp'.
Proof.
  intros (r & c & Es & F & H) (r' & c' & Es' & F' & H'). rewrite Es in Es'. injection Es' as <- <-.
  destruct sp as [d pts], sp' as [d' pts']. cbn [sp_sdim sp_pts] in *.
  destruct (is_row_major a); destruct H as (L & D & N), H' as (L' & D' & N'); subst.
  - f_equal. apply (nth_ext _ _ [] []); [auto|]. intros i Hi.
    assert (Li : length (nth i pts []) = c) by (rewrite Forall_forall in F; apply F, nth_In; auto).
    assert (Li' : length (nth i pts' []) = c) by (rewrite Forall_forall in F'; apply F', nth_In; lia).
    apply nth_error_ext. intros j. destruct (Nat.lt_ge_cases j c).
    + rewrite N, N' by auto. reflexivity.
    + rewrite !(proj2 (nth_error_None _ _)); auto; lia.
  - f_equal. apply (nth_ext _ _ [] []); [auto|]. intros i Hi.
    assert (Li : length (nth i pts []) = r) by (rewrite Forall_forall in F; apply F, nth_In; auto).
    assert (Li' : length (nth i pts' []) = r) by (rewrite Forall_forall in F'; apply F', nth_In; lia).
    apply nth_error_ext. intros j. destruct (Nat.lt_ge_cases j r).
    + rewrite N, N' by auto. reflexivity.
    + rewrite !(proj2 (nth_error_None _ _)); auto; lia.
Qed.
End Map.

(** * Parallel batches *)
Lemma nth_error_numbered {A B} (f : nat -> A -> B) (l : list A) i :
  nth_error (map (fun iq => f (fst iq) (snd iq)) (combine (seq 0 (length l)) l)) i = option_map (f i) (nth_error l i).
Proof.
  assert (G : forall s i, nth_error (map (fun iq => f (fst iq) (snd iq)) (combine (seq s (length l)) l)) i
    = option_map (f (s + i)) (nth_error l i)).
  { clear i. induction l as [|x l IH]; intros s i; cbn [length seq combine map].
    - destruct i; reflexivity.
    - destruct i as [|i]; cbn [nth_error].
      + cbn. rewrite Nat.add_0_r. reflexivity.
      + rewrite IH. cbn [nth_error]. replace (S s + i) with (s + S i) by lia. reflexivity. }
  apply G.
Qed.
Lemma length_numbered {A B} (f : nat -> A -> B) (l : list A) :
  length (map (fun iq => f (fst iq) (snd iq)) (combine (seq 0 (length l)) l)) = length l.
Proof. rewrite map_length, combine_length, seq_length. lia. Qed.

Section Batch.
Context {T : Type} {SC : Scalar T}.
Variable alg : std_algos.
Variables (t : kd_tree T) (Ht : m_cat (kt_metric t) = Euclidean).

Section Knn.
Variables (e : option T) (off k : nat) (qs : list (list T)) (buf : list (neighbor T)).
Hypothesis Hbuf : off + length qs * k <= length buf.
Let P i a := own (off + i * k) k a.
Let ps := knn_programs t e off k qs.

Lemma knn_nth i p : nth_error ps i = Some p ->
  exists q, nth_error qs i = Some q /\ p = knn_program t e off k i q.
Proof.
  unfold ps, knn_programs. rewrite (nth_error_numbered (fun i q => knn_program t e off k i q)).
  destruct (nth_error qs i) as [q|]; [|discriminate]. intros H. injection H as <-. eauto.
Qed.
Lemma knn_len : length ps = length qs.
Proof. apply (length_numbered (fun i q => knn_program t e off k i q)). Qed.

Lemma knn_within i p : nth_error ps i = Some p -> within (P i) (fun _ => True) p.
Proof. intros H. apply knn_nth in H as (q & _ & ->). apply knn_program_in. Qed.
Lemma knn_disjoint i j a : P i a -> P j a -> i = j.
Proof. unfold P, own. intros. nia. Qed.

Lemma knn_in i q : nth_error qs i = Some q -> off + i * k + k <= length buf.
Proof. intros H. assert (i < length qs) by (apply nth_error_Some; congruence). nia. Qed.

Lemma knn_for_spec sched buf' : par_for sched ps buf = Ok buf' ->
  length buf' = length buf
  /\ (forall i q, nth_error qs i = Some q ->
        range_search t e q (cells (off + i * k) k buf) = Ok (cells (off + i * k) k buf'))
  /\ (forall a, ~ (off <= a < off + length qs * k) -> nth_error buf' a = nth_error buf a).
Proof.
  intros H. apply (par_for_result ps buf P knn_within knn_disjoint) in H as (L & O & I). split; [auto|]. split.
  - intros i q Hq. pose proof (knn_in i q Hq) as Hi.
    destruct (nth_error ps i) as [p|] eqn:E.
    2:{ apply nth_error_None in E. rewrite knn_len in E. apply nth_error_None in E. congruence. }
    destruct (knn_nth i p E) as (q' & Hq' & Ep). rewrite Hq in Hq'. injection Hq' as <-. subst p.
    destruct (I i _ E) as (b & m & R & Ag).
    assert (Hk : 0 < k).
    { destruct (Nat.eq_dec k 0) as [Z|]; [|lia]. exfalso. clear - R Z. rewrite Z in R. cbn in R. discriminate R. }
    pose proof (knn_program_spec t e off k i q buf Ht Hk Hi) as C. unfold computes in C.
    destruct (range_search t e q _) as [c|w|]; [|congruence..].
    destruct C as (b' & m' & R' & E'). rewrite R in R'. injection R' as <- <-. rewrite <- E'.
    destruct (prun_within _ _ _ _ _ _ (knn_within i _ E) R) as (_ & Lm & _).
    f_equal. apply cells_agree; try lia. intros a Ha. apply Ag. exact Ha.
  - intros a Ha. apply O. intros i Hi. rewrite knn_len in Hi. unfold P, own. nia.
Qed.

Lemma knn_ok : (forall i q, nth_error qs i = Some q ->
    exists out, range_search t e q (cells (off + i * k) k buf) = Ok out) ->
  0 < k -> forall i p, nth_error ps i = Some p -> exists b m, prun p buf = Ok (b, m).
Proof.
  intros H Hk i p Hp. destruct (knn_nth i p Hp) as (q & Hq & ->). destruct (H i q Hq) as (out & E).
  pose proof (knn_program_spec t e off k i q buf Ht Hk (knn_in i q Hq)) as C. rewrite E in C.
  destruct C as (b & m & R & _). eauto.
Qed.

Lemma knn_for_unique s1 s2 m1 m2 : par_for s1 ps buf = Ok m1 -> par_for s2 ps buf = Ok m2 -> m1 = m2.
Proof.
  intros H1 H2.
  apply (par_for_result ps buf P knn_within knn_disjoint) in H1.
  apply (par_for_result ps buf P knn_within knn_disjoint) in H2.
  apply (loop_result_unique ps buf P); auto.
  intros a. destruct (Nat.eq_dec k 0) as [->|Hk]. { right. intros i _. unfold P, own. lia. }
  rewrite knn_len. destruct (le_lt_dec off a) as [L1|L1]; [|right; intros i _; unfold P, own; nia].
  destruct (lt_dec a (off + length qs * k)) as [L2|L2]; [|right; intros i Hi; unfold P, own; nia].
  left. exists ((a - off) / k).
  pose proof (Nat.div_mod (a - off) k Hk). pose proof (Nat.mod_upper_bound (a - off) k Hk).
  unfold P, own. set (d := (a - off) / k) in *. split; nia.
Qed.

Lemma knn_for_defined : (forall i q, nth_error qs i = Some q ->
    exists out, range_search t e q (cells (off + i * k) k buf) = Ok out) -> 0 < k ->
  (forall sched, par_for sched ps buf = OutOfFuel \/ exists m, par_for sched ps buf = Ok m)
  /\ exists N, forall sched, fair (length qs) N sched -> exists m, par_for sched ps buf = Ok m.
Proof.
  intros H Hk. split.
  - intros sched. apply (par_for_cases ps buf P knn_within knn_disjoint); auto. apply knn_ok; auto.
  - rewrite <- knn_len. apply (par_for_fair ps buf P knn_within knn_disjoint). apply knn_ok; auto.
Qed.

(** If one schedule works, all do. *)
Lemma knn_for_again sched m : par_for sched ps buf = Ok m ->
  (forall s, par_for s ps buf = OutOfFuel \/ par_for s ps buf = Ok m)
  /\ exists N, forall s, fair (length qs) N s -> par_for s ps buf = Ok m.
Proof.
  intros H. pose proof (par_for_result ps buf P knn_within knn_disjoint _ _ H) as (_ & _ & I).
  assert (OK : forall i p, nth_error ps i = Some p -> exists b m, prun p buf = Ok (b, m)).
  { intros i p Hp. destruct (I i p Hp) as (b & m' & R & _). eauto. }
  split.
  - intros s. destruct (par_for_cases ps buf P knn_within knn_disjoint s OK) as [|(m' & E)]; [auto|].
    right. rewrite E. f_equal. eapply knn_for_unique; eauto.
  - rewrite <- knn_len. destruct (par_for_fair ps buf P knn_within knn_disjoint OK) as (N & F).
    exists N. intros s Hs. destruct (F s Hs) as (m' & E). rewrite E. f_equal. eapply knn_for_unique; eauto.
Qed.
End Knn.

(** One vector per iteration. *)
Section Vectors.
Context {A : Type}.
Variables (ps : list (prog (list A) unit)) (buf : list (list A)).
Hypothesis Hw : forall i p, nth_error ps i = Some p -> within (fun a => a = i) (fun _ => True) p.
Hypothesis Hl : length buf = length ps.
Variable spec : nat -> res (list A).
Hypothesis Hs : forall i p, nth_error ps i = Some p -> computes (fun _ mem => nth i mem []) p buf (spec i).
Let P (i a : nat) := a = i.

Lemma vec_disjoint i j a : P i a -> P j a -> i = j.
Proof. unfold P. congruence. Qed.

Lemma vec_for_spec sched buf' : par_for sched ps buf = Ok buf' ->
  length buf' = length ps /\ forall i, i < length ps -> spec i = Ok (nth i buf' []).
Proof.
  intros H. apply (par_for_result ps buf P Hw vec_disjoint) in H as (L & O & I). split; [congruence|].
  intros i Hi. destruct (nth_error ps i) as [p|] eqn:E; [|apply nth_error_None in E; lia].
  destruct (I i p E) as (b & m & R & Ag). specialize (Hs i p E). unfold computes in Hs.
  destruct (spec i) as [c|w|]; [|congruence..]. destruct Hs as (b' & m' & R' & E').
  rewrite R in R'. injection R' as <- <-. rewrite <- E'. f_equal.
  destruct (prun_within _ _ _ _ _ _ (Hw i p E) R) as (_ & Lm & _).
  specialize (Ag i eq_refl). rewrite !(nth_error_nth' _ []) in Ag by lia. congruence.
Qed.

Lemma vec_unique s1 s2 m1 m2 : par_for s1 ps buf = Ok m1 -> par_for s2 ps buf = Ok m2 -> m1 = m2.
Proof.
  intros H1 H2. apply vec_for_spec in H1 as [L1 E1]. apply vec_for_spec in H2 as [L2 E2].
  apply (nth_ext _ _ [] []); [congruence|]. intros i Hi. specialize (E1 i ltac:(lia)). specialize (E2 i ltac:(lia)). congruence.
Qed.

Lemma vec_ok : (forall i, i < length ps -> exists c, spec i = Ok c) ->
  forall i p, nth_error ps i = Some p -> exists b m, prun p buf = Ok (b, m).
Proof.
  intros H i p E. specialize (Hs i p E). destruct (H i) as (c & Ec). { apply nth_error_Some. congruence. }
  rewrite Ec in Hs. destruct Hs as (b & m & R & _). eauto.
Qed.

Lemma vec_for_defined : (forall i, i < length ps -> exists c, spec i = Ok c) ->
  (forall sched, par_for sched ps buf = OutOfFuel \/ exists m, par_for sched ps buf = Ok m)
  /\ exists N, forall sched, fair (length ps) N sched -> exists m, par_for sched ps buf = Ok m.
Proof.
  intros H. split.
  - intros sched. apply (par_for_cases ps buf P Hw vec_disjoint). apply vec_ok; auto.
  - apply (par_for_fair ps buf P Hw vec_disjoint). apply vec_ok; auto.
Qed.

Lemma vec_for_again sched m : par_for sched ps buf = Ok m ->
  (forall s, par_for s ps buf = OutOfFuel \/ par_for s ps buf = Ok m)
  /\ exists N, forall s, fair (length ps) N s -> par_for s ps buf = Ok m.
Proof.
  intros H. pose proof (vec_for_spec _ _ H) as [_ E].
  destruct vec_for_defined as [D (N & F)]. { intros i Hi. eauto. }
  split.
  - intros s. destruct (D s) as [|(m' & Em)]; [auto|]. right. rewrite Em. f_equal. eapply vec_unique; eauto.
  - exists N. intros s Hf. destruct (F s Hf) as (m' & Em). rewrite Em. f_equal. eapply vec_unique; eauto.
Qed.
End Vectors.

Lemma length_resize_vectors {A} (l : list (list A)) n : length (resize_vectors l n) = n.
Proof. unfold resize_vectors. rewrite app_length, firstn_length, repeat_length. lia. Qed.

Section Radius.
Variables (r : T) (e : option T) (sort : bool) (qs : list (list T)) (buf : list (list (neighbor T))).
Hypothesis Hl : length buf = length qs.
Let ps := radius_programs alg t r e sort qs.
Let spec i := radius_search alg t r e sort (nth i qs []).

Lemma radius_len : length ps = length qs.
Proof. apply (length_numbered (fun i q => radius_program alg t r e sort i q)). Qed.
Lemma radius_nth i p : nth_error ps i = Some p -> i < length qs /\ p = radius_program alg t r e sort i (nth i qs []).
Proof.
  unfold ps, radius_programs. rewrite (nth_error_numbered (fun i q => radius_program alg t r e sort i q)).
  destruct (nth_error qs i) as [q|] eqn:E; [|discriminate]. intros H. injection H as <-.
  rewrite (nth_error_nth _ _ _ E). split; [apply nth_error_Some; congruence|auto].
Qed.
Lemma radius_within i p : nth_error ps i = Some p -> within (fun a => a = i) (fun _ => True) p.
Proof. intros H. apply radius_nth in H as [_ ->]. apply radius_program_in. Qed.
Lemma radius_computes i p : nth_error ps i = Some p -> computes (fun _ mem => nth i mem []) p buf (spec i).
Proof. intros H. apply radius_nth in H as [Hi ->]. apply radius_program_spec; auto. lia. Qed.

Lemma radius_for_spec sched buf' : par_for sched ps buf = Ok buf' ->
  length buf' = length qs /\ forall i, i < length qs -> spec i = Ok (nth i buf' []).
Proof.
  rewrite <- radius_len. apply vec_for_spec.
  - exact radius_within.
  - rewrite radius_len. auto.
  - exact radius_computes.
Qed.
Lemma radius_for_again sched m : par_for sched ps buf = Ok m ->
  (forall s, par_for s ps buf = OutOfFuel \/ par_for s ps buf = Ok m)
  /\ exists N, forall s, fair (length qs) N s -> par_for s ps buf = Ok m.
Proof.
  rewrite <- radius_len. eapply vec_for_again.
  - exact radius_within.
  - rewrite radius_len. auto.
  - exact radius_computes.
Qed.
Lemma radius_for_defined : (forall i, i < length qs -> exists c, spec i = Ok c) ->
  exists N, forall s, fair (length qs) N s -> exists m, par_for s ps buf = Ok m.
Proof.
  rewrite <- radius_len. intros H. eapply vec_for_defined; eauto.
  - exact radius_within.
  - exact radius_computes.
Qed.
End Radius.

Section Boxes.
Variables (qs : list (list T)) (n : nat) (buf : list (list nat)).
Hypothesis Hl : length buf = n.
Hypothesis Hn : n * 2 <= length qs.
Let ps := box_programs t qs n.
Let spec i := search_box t (nth (i * 2) qs []) (nth (i * 2 + 1) qs []).

Lemma box_len : length ps = n.
Proof. unfold ps, box_programs. rewrite map_length, seq_length. auto. Qed.
Lemma box_nth i p : nth_error ps i = Some p -> i < n /\ p = box_program t qs i.
Proof.
  intros H. assert (L : i < n) by (rewrite <- box_len; apply nth_error_Some; congruence). split; [auto|].
  unfold ps, box_programs in H. rewrite nth_error_map, (nth_error_nth' (seq 0 n) 0) in H by (rewrite seq_length; auto).
  rewrite seq_nth in H by auto. cbn in H. injection H as <-; reflexivity.
Qed.
Lemma box_within i p : nth_error ps i = Some p -> within (fun a => a = i) (fun _ => True) p.
Proof. intros H. apply box_nth in H as [_ ->]. apply box_program_in. Qed.
Lemma box_computes i p : nth_error ps i = Some p -> computes (fun _ mem => nth i mem []) p buf (spec i).
Proof.
  intros H. apply box_nth in H as [Hi ->]. pose proof (box_program_spec t qs i buf ltac:(lia)) as C.
  rewrite !(at_lt _ _ []) in C by lia. exact C.
Qed.

Lemma box_for_spec sched buf' : par_for sched ps buf = Ok buf' ->
  length buf' = n /\ forall i, i < n -> spec i = Ok (nth i buf' []).
Proof.
  rewrite <- box_len. apply vec_for_spec.
  - exact box_within.
  - rewrite box_len. auto.
  - exact box_computes.
Qed.
Lemma box_for_again sched m : par_for sched ps buf = Ok m ->
  (forall s, par_for s ps buf = OutOfFuel \/ par_for s ps buf = Ok m)
  /\ exists N, forall s, fair n N s -> par_for s ps buf = Ok m.
Proof.
  rewrite <- box_len. eapply vec_for_again.
  - exact box_within.
  - rewrite box_len. auto.
  - exact box_computes.
Qed.
Lemma box_for_defined : (forall i, i < n -> exists c, spec i = Ok c) ->
  exists N, forall s, fair n N s -> exists m, par_for s ps buf = Ok m.
Proof.
  intros H. pose proof (vec_for_defined ps buf box_within spec box_computes) as [_ D].
  { rewrite box_len. auto. }
  rewrite box_len in D. exact D.
Qed.
End Boxes.
End Batch.
