(** Proofs about the adaptors. *)
From Coq Require Import List ZArith QArith Bool Arith Lia.
From Verif Require Import Base ModelBox ModelBuild ModelSearch Spec ModelAdapt SpecAdapt TopThms.
Import ListNotations.
Local Open Scope Z_scope.

Section Views.
Context {T : Type} {S : Scalar T}.

Lemma firstn_tab (n : nat) : forall (l : list T), (n <= length l)%nat -> firstn n l = tab n (fun j => get l j).
Proof.
  unfold tab. induction n as [|n IH]; intros [|x l] H; cbn in *; try reflexivity; try lia.
  f_equal. rewrite IH by lia. rewrite <- seq_shift, map_map. reflexivity.
Qed.

Lemma get_skipn (p : nat) : forall (l : list T) j, get (skipn p l) j = get l (p + j)%nat.
Proof.
  unfold get. induction p as [|p IH]; intros [|x l] j; cbn [skipn Nat.add nth]; auto. destruct j; reflexivity.
Qed.

Lemma firstn_skipn_tab (l : list T) (p n : nat) :
  (p + n <= length l)%nat -> firstn n (skipn p l) = tab n (fun j => get l (p + j)%nat).
Proof.
  intros H. rewrite firstn_tab by (rewrite skipn_length; lia).
  unfold tab. apply map_ext. intros j. apply get_skipn.
Qed.

Lemma read_ok (mem : list T) (p : Z) (d : nat) :
  (1 <= d)%nat -> (forall j, (j < d)%nat -> 0 <= p + Z.of_nat j < Z.of_nat (length mem)) ->
  read_range mem p (Z.of_nat d) = Ok (coords_at mem (fun j => p + Z.of_nat j) d).
Proof.
  intros Hd H. pose proof (H 0%nat ltac:(lia)) as H0. pose proof (H (d - 1)%nat ltac:(lia)) as H1.
  unfold read_range.
  replace (0 <=? p) with true by (symmetry; apply Z.leb_le; lia).
  replace (0 <=? Z.of_nat d) with true by (symmetry; apply Z.leb_le; lia).
  replace (p + Z.of_nat d <=? Z.of_nat (length mem)) with true by (symmetry; apply Z.leb_le; lia).
  cbn [andb]. f_equal. rewrite Nat2Z.id, firstn_skipn_tab by lia.
  unfold coords_at, tab. apply map_ext_in. intros j Hj. apply in_seq in Hj.
  f_equal. rewrite Z2Nat.inj_add by lia. rewrite Nat2Z.id. reflexivity.
Qed.

Lemma read_short (mem : list T) (p : Z) (d : Z) :
  Z.of_nat (length mem) < p + d -> read_range mem p d = Ub UbIndex.
Proof.
  intros H. unfold read_range.
  replace (p + d <=? Z.of_nat (length mem)) with false by (symmetry; apply Z.leb_gt; lia).
  rewrite andb_false_r. reflexivity.
Qed.

Lemma view_points_ok (mem : list T) (t : space_traits) (addr : nat -> nat -> Z) (d : nat) :
  known_or (st_dim t) (st_sdim t) = Z.of_nat d -> (1 <= d)%nat ->
  forall n k,
  (forall i j, (i < k + n)%nat -> (j < d)%nat -> st_point t (Z.of_nat i) + Z.of_nat j = addr i j) ->
  in_memory mem addr (k + n) d ->
  view_points mem t (Z.of_nat k) n
  = Ok (map (fun i => tab d (fun j => get mem (Z.to_nat (addr i j)))) (seq k n)).
Proof.
  intros Hs Hd. induction n as [|n IH]; intros k Ha Hm; cbn [view_points seq map]; [reflexivity|].
  rewrite Hs. rewrite read_ok; auto.
  - cbn [bind]. replace (Z.of_nat k + 1) with (Z.of_nat (Datatypes.S k)) by lia.
    rewrite IH.
    + cbn [bind]. do 2 f_equal. unfold coords_at, tab. apply map_ext_in. intros j Hj. apply in_seq in Hj.
      rewrite Ha by lia. reflexivity.
    + intros i j Hi Hj. apply Ha; lia.
    + intros i j Hi Hj. apply Hm; lia.
  - intros j Hj. rewrite Ha by lia. apply Hm; lia.
Qed.

Lemma view_ok (mem : list T) (t : space_traits) (addr : nat -> nat -> Z) (n d : nat) :
  known_or (st_dim t) (st_sdim t) = Z.of_nat d -> (1 <= d)%nat -> st_size t = Z.of_nat n ->
  (forall i j, (i < n)%nat -> (j < d)%nat -> st_point t (Z.of_nat i) + Z.of_nat j = addr i j) ->
  in_memory mem addr n d -> view_space mem t = Ok (laid_out mem addr n d).
Proof.
  intros Hs Hd Hn Ha Hm. unfold view_space. rewrite Hn, Nat2Z.id.
  change 0 with (Z.of_nat 0). rewrite (view_points_ok mem t addr d Hs Hd n 0) by (cbn; auto).
  cbn [bind]. rewrite Hs, Nat2Z.id. reflexivity.
Qed.

Lemma view_short (mem : list T) (t : space_traits) (d : Z) :
  known_or (st_dim t) (st_sdim t) = d ->
  forall n k, (exists i, (i < n)%nat /\ Z.of_nat (length mem) < st_point t (k + Z.of_nat i) + d) ->
  exists w, view_points mem t k n = Ub w.
Proof.
  intros Hs. induction n as [|n IH]; intros k (i & Hi & H); [lia|].
  cbn [view_points]. rewrite Hs. destruct i as [|i].
  - rewrite read_short by (rewrite Z.add_0_r in H; exact H). cbn. eauto.
  - unfold read_range. destruct (_ && _); cbn; eauto.
    destruct (IH (k + 1)) as (w & E).
    + exists i. split; [lia|]. replace (k + 1 + Z.of_nat i) with (k + Z.of_nat (Datatypes.S i)) by lia. exact H.
    + rewrite E. cbn. eauto.
Qed.

Lemma view_short_ub (mem : list T) (t : space_traits) (d : Z) (i : nat) :
  known_or (st_dim t) (st_sdim t) = d -> Z.of_nat i < st_size t ->
  Z.of_nat (length mem) < st_point t (Z.of_nat i) + d -> exists w, view_space mem t = Ub w.
Proof.
  intros Hs Hi H. unfold view_space.
  destruct (view_short mem t d Hs (Z.to_nat (st_size t)) 0) as (w & E).
  - exists i. split; [lia|exact H].
  - rewrite E. cbn. eauto.
Qed.

Lemma known_says dim (d : nat) : dim_says dim d -> known_or dim (Z.of_nat d) = Z.of_nat d.
Proof. unfold known_or. intros [->| ->]; [destruct (_ =? _); reflexivity|reflexivity]. Qed.

Lemma storage_says dim data size (d : nat) :
  dim_says dim d -> space_map_storage dim data size (Z.of_nat d) = SpaceMap data size (Z.of_nat d).
Proof. unfold space_map_storage. intros [->| ->]; [destruct (_ =? _); reflexivity|reflexivity]. Qed.

Lemma size_mul_small a b : 0 <= a * b < 2 ^ 64 -> size_mul a b = a * b.
Proof. apply Z.mod_small. Qed.

Lemma ms_data_make dim data size : ms_data (map_make_size dim data size) = data.
Proof. unfold map_make_size, map_storage_make. destruct (_ =? _); reflexivity. Qed.

Lemma mul_le_total (i n d : nat) : (i < n)%nat -> Z.of_nat i * Z.of_nat d <= Z.of_nat n * Z.of_nat d.
Proof. intros. nia. Qed.

Theorem space_map_view (mem : list T) (dim data : Z) (n d : nat) :
  dim_ok d -> dim_says dim d -> Z.of_nat n * Z.of_nat d < 2 ^ 64 ->
  in_memory mem (row_major_addr data d) n d ->
  view_space mem (space_map_traits dim (space_map_make_sdim dim data (Z.of_nat n) (Z.of_nat d)))
  = Ok (laid_out mem (row_major_addr data d) n d).
Proof.
  intros [Hd _] Hs Hsz Hm. unfold space_map_make_sdim. rewrite storage_says by exact Hs.
  apply view_ok; cbn; auto using known_says.
  intros i j Hi Hj. unfold space_map_point. rewrite ms_data_make. unfold space_map_data. cbn.
  pose proof (mul_le_total i n d Hi). rewrite size_mul_small by nia. unfold row_major_addr. lia.
Qed.

Theorem space_map_view_fixed (mem : list T) (data : Z) (n d : nat) :
  dim_ok d -> Z.of_nat n * Z.of_nat d < 2 ^ 64 ->
  in_memory mem (row_major_addr data d) n d ->
  view_space mem (space_map_traits (Z.of_nat d) (space_map_make (Z.of_nat d) data (Z.of_nat n)))
  = Ok (laid_out mem (row_major_addr data d) n d).
Proof. intros H1 H2 H3. apply (space_map_view mem (Z.of_nat d) data n d); auto. left. reflexivity. Qed.

Theorem space_map_short (mem : list T) (dim data : Z) (n d : nat) :
  dim_ok d -> dim_says dim d -> Z.of_nat n * Z.of_nat d < 2 ^ 64 -> (1 <= n)%nat ->
  Z.of_nat (length mem) < data + Z.of_nat n * Z.of_nat d ->
  exists w, view_space mem (space_map_traits dim (space_map_make_sdim dim data (Z.of_nat n) (Z.of_nat d))) = Ub w.
Proof.
  intros [Hd _] Hs Hsz Hn Hl. unfold space_map_make_sdim. rewrite storage_says by exact Hs.
  apply (view_short_ub mem _ (Z.of_nat d) (n - 1)); cbn; auto using known_says; [lia|].
  unfold space_map_point. rewrite ms_data_make. unfold space_map_data. cbn.
  assert (E : Z.of_nat (n - 1) = Z.of_nat n - 1) by lia. rewrite E.
  assert (Z.of_nat n * Z.of_nat d = (Z.of_nat n - 1) * Z.of_nat d + Z.of_nat d) by ring.
  assert (0 <= (Z.of_nat n - 1) * Z.of_nat d) by nia.
  rewrite size_mul_small by lia. lia.
Qed.

Theorem array_view (mem : list T) (data stride member : Z) (n d : nat) :
  dim_ok d -> in_memory mem (fun i j => data + Z.of_nat i * stride + member + Z.of_nat j) n d ->
  view_space mem (array_traits (Z.of_nat d) data (Z.of_nat n) stride member)
  = Ok (laid_out mem (fun i j => data + Z.of_nat i * stride + member + Z.of_nat j) n d).
Proof.
  intros [Hd _] Hm. apply view_ok; cbn; auto. unfold known_or. destruct (_ =? _); reflexivity.
Qed.

Theorem matrix_space_view (mem : list T) (dim : Z) (n d : nat) :
  dim_ok d -> dim_says dim d -> Z.of_nat n * Z.of_nat d < 2 ^ 64 ->
  Z.of_nat (length mem) = matrix_space_elems dim (Z.of_nat n) (Z.of_nat d) ->
  view_space mem (matrix_space_traits dim (Z.of_nat n) (Z.of_nat d))
  = Ok (laid_out mem (row_major_addr 0 d) n d).
Proof.
  intros [Hd _] Hs Hsz. unfold matrix_space_elems, matrix_space_traits. rewrite (known_says dim d Hs).
  rewrite size_mul_small by nia. intros Hl. apply view_ok; cbn; auto using known_says.
  - intros i j Hi Hj. pose proof (mul_le_total i n d Hi). rewrite size_mul_small by nia. unfold row_major_addr. lia.
  - intros i j Hi Hj. unfold row_major_addr. rewrite Hl. nia.
Qed.

(** Points given by point_map. *)
Theorem point_map_view (mem : list T) (dim data : Z) (d : nat) :
  dim_ok d -> dim_says dim d -> (forall j, (j < d)%nat -> 0 <= data + Z.of_nat j < Z.of_nat (length mem)) ->
  view_point mem (point_map_traits dim (map_make_size dim data (Z.of_nat d)))
  = Ok (coords_at mem (fun j => data + Z.of_nat j) d).
Proof.
  intros [Hd _] Hs Hm. unfold view_point. cbn. rewrite ms_data_make.
  replace (known_or _ _) with (Z.of_nat d); [apply read_ok; auto|].
  symmetry. unfold map_make_size, map_storage_make, known_or. destruct Hs as [->| ->].
  - destruct (_ =? _); reflexivity.
  - rewrite Z.eqb_refl. reflexivity.
Qed.

(** * Eigen *)
Lemma eigen_known ct n : ct = -1 \/ ct = n -> known_or (eigen_dim ct) n = n.
Proof.
  unfold eigen_dim, known_or. intros [->|H].
  - reflexivity.
  - subst. destruct (n =? -1) eqn:E; [reflexivity|]. destruct (n =? dynamic_extent); reflexivity.
Qed.

Theorem eigen_view (mem : list T) (e : eigen) :
  eigen_ok e -> eg_inner e = 1 -> (1 <= eigen_sdim e)%nat ->
  in_memory mem (eigen_addr e) (eigen_npts e) (eigen_sdim e) ->
  view_space mem (eigen_space_traits e) = Ok (laid_out mem (eigen_addr e) (eigen_npts e) (eigen_sdim e)).
Proof.
  intros (Hr & Hc & Hr0 & Hc0) Hi Hd Hm. unfold eigen_space_traits, eigen_addr, eigen_npts, eigen_sdim, eigen_coeff in *.
  destruct (eg_row_major e) eqn:E; apply view_ok; cbn; auto; rewrite ?Z2Nat.id by lia; auto using eigen_known;
    unfold eigen_panel; rewrite E; cbn; intros i j Hi' Hj; rewrite Hi; lia.
Qed.

Lemma eigen_vec_ones (e : eigen) : eigen_vec_ok e ->
  eg_rows e * eg_cols e = (if eg_row_major e then eg_cols e else eg_rows e).
Proof.
  intros ((Hr & Hc & Hr0 & Hc0) & Hv). unfold eigen_is_vector in Hv.
  destruct (eg_row_major e); cbn in Hv.
  - apply Z.eqb_eq in Hv. nia.
  - rewrite orb_false_r in Hv. apply Z.eqb_eq in Hv. nia.
Qed.

Theorem eigen_point_view (mem : list T) (e : eigen) :
  eigen_vec_ok e -> eg_inner e = 1 -> (1 <= eigen_vec_size e)%nat ->
  (forall j, (j < eigen_vec_size e)%nat -> 0 <= eigen_vec_addr e j < Z.of_nat (length mem)) ->
  view_point mem (eigen_point_traits e) = Ok (coords_at mem (eigen_vec_addr e) (eigen_vec_size e)).
Proof.
  intros Hv Hi Hd Hm. pose proof (eigen_vec_ones e Hv) as E1. destruct Hv as ((Hr & Hc & Hr0 & Hc0) & Hv).
  unfold view_point. cbn. rewrite E1. unfold eigen_vec_size, eigen_vec_addr, eigen_vector_dim, eigen_coeff in *.
  rewrite Hi in *. destruct (eg_row_major e) eqn:E.
  - rewrite (eigen_known _ _ Hc). rewrite <- (Z2Nat.id (eg_cols e)) at 1 by lia. rewrite read_ok; auto.
    + f_equal. unfold coords_at. apply map_ext_in. intros j _. do 2 f_equal. lia.
    + intros j Hj. specialize (Hm j Hj). lia.
  - rewrite (eigen_known _ _ Hr). rewrite <- (Z2Nat.id (eg_rows e)) at 1 by lia. rewrite read_ok; auto.
    + f_equal. unfold coords_at. apply map_ext_in. intros j _. do 2 f_equal. lia.
    + intros j Hj. specialize (Hm j Hj). lia.
Qed.

(** * OpenCV *)
Theorem opencv_view (mem : list T) (dim : Z) (m : cv_mat) :
  cv_ok m -> cv_continuous m -> dim_ok (cv_width m) -> dim_says dim (cv_width m) ->
  in_memory mem (cv_addr m) (Z.to_nat (cv_rows m)) (cv_width m) ->
  view_space mem (opencv_traits dim m) = Ok (laid_out mem (cv_addr m) (Z.to_nat (cv_rows m)) (cv_width m)).
Proof.
  intros (Hr & Hc & Hch & Hst & Hsz) Hcont [Hd _] Hs Hm. unfold opencv_traits, opencv_mat_map, space_map_make_sdim.
  unfold cv_continuous in Hcont.
  assert (Hw : cv_step1 m = Z.of_nat (cv_width m)) by (unfold cv_width; rewrite Z2Nat.id; nia).
  rewrite Hw. rewrite storage_says by exact Hs. apply view_ok; cbn; auto using known_says.
  - rewrite Z2Nat.id by lia. reflexivity.
  - intros i j Hi Hj. unfold space_map_point. rewrite ms_data_make. unfold space_map_data. cbn.
    unfold cv_addr. rewrite Hw. rewrite size_mul_small; [lia|].
    assert (Z.of_nat i <= cv_rows m) by lia. nia.
Qed.

(** * The dimension may be known at compile time or not *)
Theorem dynamic_space_view (mem : list T) (t : space_traits) :
  st_dim t = st_sdim t \/ st_dim t = dynamic_extent ->
  view_space mem (dynamic_space_traits t) = view_space mem t.
Proof.
  intros H. assert (E : known_or (st_dim t) (st_sdim t) = st_sdim t).
  { unfold known_or. destruct H as [->| ->]; [destruct (_ =? _); reflexivity|reflexivity]. }
  assert (E2 : known_or dynamic_extent (st_sdim t) = st_sdim t) by reflexivity.
  unfold view_space. cbn [dynamic_space_traits st_dim st_sdim st_size]. rewrite E, E2.
  assert (P : forall n i, view_points mem (dynamic_space_traits t) i n = view_points mem t i n).
  { induction n as [|n IH]; intros i; cbn [view_points]; [reflexivity|].
    cbn [dynamic_space_traits st_dim st_sdim st_point]. rewrite E, E2.
    change (SpaceTraits dynamic_extent (st_sdim t) (st_size t) (st_point t)) with (dynamic_space_traits t).
    rewrite IH. reflexivity. }
  change (SpaceTraits dynamic_extent (st_sdim t) (st_size t) (st_point t)) with (dynamic_space_traits t).
  rewrite P. reflexivity.
Qed.

End Views.
