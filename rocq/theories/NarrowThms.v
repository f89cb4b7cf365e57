(** Searches over integers narrower than int are exact. *)
From Coq Require Import List ZArith QArith Qabs Bool Arith Permutation Sorted Lia Lqa.
From Verif Require Import Base ModelBox ModelBuild ModelSearch ModelInt ModelNarrow Spec SpecInt SpecNarrow Lemmas Instances
  BuildProofs BuildShape BuildThms SearchProofs QueryThms TopThms OrdThms OrdQuery ExactQuery IntThms IntTop.
Import ListNotations.
Local Open Scope nat_scope.

Section Narrow.
Variables (sgn : bool) (bits : Z) (iovf : Z -> Z) (a b : Z) (em : exact_metric) (sp : space Z)
  (bnds : start_bounds Z) (q : list Z).
Hypothesis NI : narrow_input sgn bits a b em sp bnds q.
Local Notation lo := (narrow_lo sgn bits).
Local Notation hi := (narrow_hi sgn bits).
Local Notation conv := (narrow_conv sgn bits).
Local Notation NS := (Narrow sgn bits).
Local Notation m := (narrow_metric_of sgn bits iovf em).
Let n := sp_sdim sp.
Let N := length (sp_pts sp).

Lemma pow_facts : (2 <= 2 ^ (bits - 1) /\ 2 ^ bits = 2 * 2 ^ (bits - 1) /\ 2 ^ bits <= 65536)%Z.
Proof.
  pose proof (na_bits _ _ _ _ _ _ _ _ NI) as H. split; [|split].
  - change 2%Z with (2 ^ 1)%Z at 1. apply Z.pow_le_mono_r; lia.
  - replace bits with (Z.succ (bits - 1)) at 1 by lia. rewrite Z.pow_succ_r by lia. reflexivity.
  - change 65536%Z with (2 ^ 16)%Z. apply Z.pow_le_mono_r; lia.
Qed.

Lemma range_facts : (- 65536 <= lo <= 0 /\ 1 <= hi <= 65535)%Z.
Proof. pose proof pow_facts as (H1 & H2 & H3). unfold narrow_lo, narrow_hi. destruct sgn; lia. Qed.

Lemma conv_value x : int_value lo hi (conv x).
Proof.
  pose proof pow_facts as (H1 & H2 & H3). unfold int_value, narrow_lo, narrow_hi, narrow_conv, wrap_signed.
  destruct sgn.
  - pose proof (Z.mod_pos_bound (x + 2 ^ (bits - 1)) (2 ^ bits) ltac:(lia)). lia.
  - pose proof (Z.mod_pos_bound x (2 ^ bits) ltac:(lia)). lia.
Qed.

Lemma conv_id x : (lo <= x <= hi)%Z -> conv x = x.
Proof.
  pose proof pow_facts as (H1 & H2 & H3). unfold narrow_lo, narrow_hi, narrow_conv, wrap_signed.
  destruct sgn; intros H; rewrite Z.mod_small by lia; lia.
Qed.

Lemma fit_value x : int_value lo hi (int_fit lo hi conv x).
Proof.
  unfold int_fit. destruct (Z.leb_spec lo x), (Z.leb_spec x hi); cbn [andb];
    [split; assumption|apply conv_value..].
Qed.

Lemma i_fit x : (- 2147483648 <= x <= 2147483647)%Z ->
  int_fit (- 2 ^ (32 - 1)) (2 ^ (32 - 1) - 1) iovf x = x.
Proof. intros H. apply fit_in. change (2 ^ (32 - 1))%Z with 2147483648%Z. lia. Qed.

(** ** One coordinate *)
Definition sq : bool := match em with L2Squared => true | _ => false end.
Definition term (x y : Z) : Z := if sq then ((x - y) * (x - y))%Z else Z.abs (x - y).
Definition cap : Z := if sq then ((b - a) * (b - a))%Z else (b - a)%Z.
Definition inside x := (a <= x <= b)%Z.

Lemma em_cases : em = L1 \/ em = L2Squared.
Proof. pose proof (na_room _ _ _ _ _ _ _ _ NI) as H. destruct em; auto; contradiction. Qed.

Lemma n_pos : 1 <= n.
Proof. apply (na_space _ _ _ _ _ _ _ _ NI). Qed.

Lemma q_inside k : k < n -> inside (nth k q 0%Z).
Proof.
  intros Hk. pose proof (na_query _ _ _ _ _ _ _ _ NI) as F. rewrite Forall_forall in F.
  apply F, nth_In. rewrite (na_length _ _ _ _ _ _ _ _ NI). exact Hk.
Qed.

Lemma ab : (a <= b)%Z.
Proof. pose proof (q_inside 0 n_pos) as H. unfold inside in H. lia. Qed.

Lemma room : (0 <= cap /\ Z.of_nat n * cap < hi)%Z.
Proof.
  pose proof (na_room _ _ _ _ _ _ _ _ NI) as H. pose proof ab as L. unfold cap, sq, n.
  destruct em_cases; subst em; split; try lia; nia.
Qed.

Lemma cap_hi : (cap < hi)%Z.
Proof. pose proof room as [H1 H2]. pose proof n_pos. nia. Qed.

Lemma diff_small x y : inside x -> inside y -> (- 131072 <= x - y <= 131072)%Z.
Proof.
  unfold inside. pose proof (na_range _ _ _ _ _ _ _ _ NI). pose proof range_facts. lia.
Qed.

Lemma term_range x y : inside x -> inside y -> (0 <= term x y <= cap)%Z.
Proof.
  unfold inside, term, cap. intros H1 H2. destruct sq; [|lia].
  apply (square_le (x - y) (b - a)). lia.
Qed.

Lemma app_term x y : inside x -> inside y ->
  conv (m_app m (i_sub iovf x y)) = term x y.
Proof.
  intros Hx Hy. pose proof (diff_small x y Hx Hy) as D. pose proof (term_range x y Hx Hy) as R.
  pose proof cap_hi. pose proof range_facts as RF.
  unfold narrow_metric_of. cbn [narrow_metric m_app].
  unfold i_sub, i_mul, i_abs. cbn [s_sub s_mul s_abs Signed Int_scalar]. fold sq. unfold term in *.
  rewrite (i_fit (x - y)) by lia. destruct sq; rewrite i_fit by lia; apply conv_id; lia.
Qed.

Lemma op_term x y : inside x -> inside y ->
  conv (if sq then i_mul iovf (i_sub iovf x y) (i_sub iovf x y) else i_abs iovf (i_sub iovf x y)) = term x y.
Proof. intros Hx Hy. rewrite <- app_term by auto. reflexivity. Qed.

(** ** Distances *)
Definition terms (x y : list Z) : list Z := map (fun '(u, v) => term u v) (combine x y).

Lemma dist_terms p : Forall inside p -> m_dist m q p = zsum (terms q p).
Proof.
  intros Fp. unfold narrow_metric_of. cbn [narrow_metric m_dist]. fold sq. unfold narrow_sum.
  pose proof room as [C0 C1]. pose proof range_facts as RF.
  assert (G : forall l k acc, Forall (fun '(u, v) => inside u /\ inside v) l ->
    (0 <= acc <= Z.of_nat k * cap)%Z -> k + length l <= n ->
    fold_left (fun d '(x, y) => conv (i_add iovf d
      (conv (if sq then i_mul iovf (i_sub iovf x y) (i_sub iovf x y) else i_abs iovf (i_sub iovf x y))))) l acc
    = (acc + zsum (map (fun '(u, v) => term u v) l))%Z).
  { induction l as [|[u v] l IH]; intros k acc F Ha Hk; cbn [fold_left map].
    - unfold zsum. cbn. lia.
    - pose proof (Forall_inv F) as Fab. pose proof (Forall_inv_tail F) as Fl. cbn beta iota in Fab.
      destruct Fab as [Fa Fb]. rewrite op_term by auto. pose proof (term_range u v Fa Fb) as T.
      cbn [length] in Hk.
      assert (0 <= acc + term u v <= Z.of_nat (S k) * cap)%Z by lia.
      assert (Z.of_nat (S k) * cap <= Z.of_nat n * cap)%Z by (apply Z.mul_le_mono_nonneg_r; lia).
      replace (conv (i_add iovf acc (term u v))) with (acc + term u v)%Z.
      + rewrite (IH (S k)); auto; [|lia]. unfold zsum. cbn [fold_right]. lia.
      + unfold i_add. cbn [s_add Signed Int_scalar]. rewrite i_fit by lia. symmetry. apply conv_id. lia. }
  unfold terms. rewrite (G _ 0); [lia| |cbn; lia|].
  - pose proof (na_query _ _ _ _ _ _ _ _ NI) as Fq. clear - Fp Fq. revert p Fp.
    induction Fq as [|x l Fx Fq IH]; intros p Fp; [constructor|].
    destruct Fp as [|y p Fy Fp]; cbn [combine]; constructor; auto.
  - rewrite combine_length. pose proof (na_length _ _ _ _ _ _ _ _ NI). unfold n. lia.
Qed.

Lemma at_inside i : Forall inside (sp_at sp i).
Proof.
  unfold sp_at. destruct (Nat.lt_ge_cases i N) as [H|H].
  - pose proof (na_coords _ _ _ _ _ _ _ _ NI) as AC. unfold all_coords in AC. rewrite Forall_forall in AC.
    apply AC, nth_In, H.
  - rewrite nth_overflow by auto. constructor.
Qed.

Lemma at_length i : i < N -> length (sp_at sp i) = n.
Proof.
  intros H. destruct (na_space _ _ _ _ _ _ _ _ NI) as [_ F]. rewrite Forall_forall in F. apply F, nth_In, H.
Qed.

Lemma coord_inside k i : i < N -> k < n -> inside (nth k (sp_at sp i) 0%Z).
Proof.
  intros Hi Hk. pose proof (at_inside i) as F. rewrite Forall_forall in F. apply F, nth_In. rewrite at_length; auto.
Qed.

Definition D (i : nat) : Z := m_dist m q (sp_at sp i).
Lemma D_terms i : D i = zsum (terms q (sp_at sp i)).
Proof. apply dist_terms, at_inside. Qed.

Lemma terms_le o : forall x y, length x = length o -> length y = length o ->
  (forall k, k < length o -> (nth k o 0 <= term (nth k x 0) (nth k y 0))%Z) ->
  (zsum o <= zsum (terms x y))%Z.
Proof.
  induction o as [|c o IH]; intros [|x xs] [|y ys] L1 L2 H; try discriminate.
  injection L1 as L1. injection L2 as L2.
  pose proof (H 0 ltac:(cbn; lia)) as H0. cbn [nth] in H0.
  specialize (IH xs ys L1 L2 (fun k Hk => H (S k) ltac:(cbn; lia))).
  unfold terms, zsum in *. cbn [combine map fold_right]. lia.
Qed.

Lemma D_hi i : (D i < hi)%Z.
Proof.
  rewrite D_terms. pose proof room as [C0 C1].
  assert (F : off_ok cap (terms q (sp_at sp i))).
  { unfold off_ok, terms. rewrite Forall_map. pose proof (na_query _ _ _ _ _ _ _ _ NI) as Fq.
    pose proof (at_inside i) as Fp. pose proof term_range as TR. revert Fp. generalize (sp_at sp i).
    clear - Fq TR. induction Fq as [|x l Fx Fq IH]; intros p Fp; [constructor|].
    destruct Fp as [|y p Fy Fp]; cbn [combine]; constructor; auto. }
  apply (zsum_range sp cap) in F. 
  replace (length (terms q (sp_at sp i))) with (Nat.min (length q) (length (sp_at sp i))) in F
    by (unfold terms; rewrite map_length, combine_length; reflexivity).
  pose proof (na_length _ _ _ _ _ _ _ _ NI) as Lq. fold n in Lq.
  assert (Z.of_nat (Nat.min (length q) (length (sp_at sp i))) * cap <= Z.of_nat n * cap)%Z
    by (apply Z.mul_le_mono_nonneg_r; lia). lia.
Qed.

Lemma D_exact i : (inject_Z (D i) == dist_to inject_Z em sp q i)%Q.
Proof.
  rewrite D_terms. unfold dist_to. change (nth i (sp_pts sp) []) with (sp_at sp i). generalize (sp_at sp i). intros p.
  assert (G : forall f, (forall x y, inject_Z (term x y) == f (inject_Z x) (inject_Z y))%Q ->
    forall l p, (inject_Z (zsum (terms l p)) == sum_dist f (map inject_Z l) (map inject_Z p))%Q).
  { clear. intros f Hf l. induction l as [|x l IH]; intros [|y p]; cbn [map sum_dist]; try reflexivity.
    unfold terms, zsum in *. cbn [combine map fold_right]. rewrite inject_Z_plus, Hf, IH. reflexivity. }
  assert (X : forall x y, (inject_Z x - inject_Z y == inject_Z (x - y))%Q).
  { intros. unfold Qminus. rewrite <- inject_Z_opp, <- inject_Z_plus. reflexivity. }
  destruct em_cases as [Ee|Ee]; pattern em at 1; rewrite Ee; cbn [dist_of]; apply G; intros x y;
    unfold term, sq; rewrite Ee.
  - unfold abs_diff. rewrite X. reflexivity.
  - unfold sq_diff. rewrite X, <- inject_Z_mult. reflexivity.
Qed.

(** ** The tree *)
Section Tree.
Variables (alg : std_algos) (SL : std_laws alg).
Variables (it : index_type) (fuel : nat) (stop : stop_condition) (ru : rule) (t : kd_tree_data Euclidean Z).
Hypothesis NM : ru <> midpoint_max_side.
Hypothesis HM : @kd_tree_make Z NS alg it m fuel sp stop bnds ru = Ok (KdTree sp m t).

Lemma made : @build Z NS Euclidean alg it fuel sp stop bnds ru = Ok t.
Proof.
  unfold kd_tree_make in HM. change (m_cat m) with Euclidean in HM.
  destruct (@build Z NS Euclidean alg it fuel sp stop bnds ru) as [x| |] eqn:E; cbn [bind] in HM; try discriminate.
  set (f := fun k : kd_tree Z => match kt_metric k as mm return (kd_tree_data (m_cat mm) Z -> kd_tree_data Euclidean Z) with
               | Metric c d g w => match c return (kd_tree_data c Z -> kd_tree_data Euclidean Z) with
                                   | Euclidean => fun x => x | Topological => fun _ => t end end (kt_data k)).
  assert (X : f (KdTree sp m x) = f (KdTree sp m t)) by congruence.
  cbn in X. rewrite X. reflexivity.
Qed.

Lemma N_pos : 0 < N.
Proof. pose proof made as H. apply build_inv in H as (_ & [H _] & _). exact H. Qed.

Lemma narrow_ord : ord_laws NS (int_value lo hi).
Proof. pose proof range_facts. apply int_ord; lia. Qed.

Lemma narrow_tight :
  Permutation (kd_indices t) (seq 0 N)
  /\ node_spans (R_tight (S := NS) (int_value lo hi) sp Euclidean) (kd_root t) 0 (kd_indices t).
Proof.
  refine (build_tight_any (int_value lo hi) narrow_ord _ _ _ sp (na_space _ _ _ _ _ _ _ _ NI) _ alg SL Euclidean it fuel stop bnds ru t NM
    (na_bounds _ _ _ _ _ _ _ _ NI) made).
  - intros x Hx. cbn [s_leb s_lowest s_max Narrow Int_scalar]. rewrite !Z.leb_le. exact Hx.
  - intros. apply fit_value.
  - intros. apply fit_value.
  - pose proof (na_coords _ _ _ _ _ _ _ _ NI) as AC. pose proof (na_range _ _ _ _ _ _ _ _ NI) as [R1 R2].
    unfold all_coords in *. eapply Forall_impl; [|exact AC]. intros p Fp. eapply Forall_impl; [|exact Fp].
    unfold int_value. intros; lia.
Qed.

(** ** The search *)

(** The operations by which the search updates distances. *)
Definition ZG : Scalar Z := {|
  s_zero := 0%Z; s_one := 1%Z; s_two := 2%Z; s_half := 0%Z; s_max := hi; s_lowest := lo;
  s_add := fun x y => conv (i_add iovf x y); s_sub := i_sub iovf;
  s_mul := i_mul iovf; s_div := Z.quot; s_abs := i_abs iovf; s_ltb := Z.ltb; s_leb := Z.leb |}.

Definition decide_narrow (br : branch_single Z) : res (nat * bool * Z) :=
  do v <- at_ q (bs_split_dim br);
  let go_left := (0 <? i_sub iovf (i_sub iovf (i_add iovf (bs_left_max br) (bs_right_min br)) v) v)%Z in
  Ok (bs_split_dim br, go_left,
      conv (m_app m (if go_left then i_sub iovf (bs_right_min br) v else i_sub iovf (bs_left_max br) v))).

Lemma narrow_gen {V} (vis : visitor Z V) indices nd : forall d st,
  search_nearest_narrow sgn bits iovf m vis sp indices q nd d st
  = @search_gen Z ZG V _ m vis sp indices q decide_narrow nd d st.
Proof.
  induction nd as [x e|br nl IHl nr IHr]; intros d st; [reflexivity|].
  cbn [search_nearest_narrow search_gen]. unfold decide_narrow at 1.
  destruct (at_ q (bs_split_dim br)) as [v| |]; cbn [bind]; [|reflexivity..].
  set (gl := (0 <? _)%Z).
  assert (E1 : forall d st, search_nearest_narrow sgn bits iovf m vis sp indices q (if gl then nl else nr) d st
    = @search_gen Z ZG V _ m vis sp indices q decide_narrow (if gl then nl else nr) d st) by (destruct gl; auto).
  assert (E2 : forall d st, search_nearest_narrow sgn bits iovf m vis sp indices q (if gl then nr else nl) d st
    = @search_gen Z ZG V _ m vis sp indices q decide_narrow (if gl then nr else nl) d st) by (destruct gl; auto).
  rewrite E1. destruct (search_gen _ _ _ _ _ _ _ d st) as [st1| |]; cbn [bind]; [|reflexivity..].
  destruct (at_ (fst st1) (bs_split_dim br)) as [old| |]; cbn [bind]; [|reflexivity..].
  cbn [s_add s_sub s_leb ZG]. destruct (_ <=? _)%Z; [|reflexivity]. rewrite E2. reflexivity.
Qed.

Definition LB (o : list Z) (d : Z) (l : list nat) : Prop :=
  off_ok cap o /\ length o = n /\ d = zsum o
  /\ forall j, In j l -> j < N -> forall k, k < n -> (nth k o 0 <= term (nth k q 0) (nth k (sp_at sp j) 0))%Z.

Lemma step br l r o d : R_tight (S := NS) (int_value lo hi) sp Euclidean br l r -> incl (l ++ r) (seq 0 N) -> LB o d (l ++ r) ->
  exists sd gl no old, decide_narrow br = Ok (sd, gl, no) /\ at_ o sd = Ok old
    /\ LB (set_nth o sd no) (@s_add Z ZG (@s_sub Z ZG d old) no) (if gl : bool then r else l).
Proof.
  intros (lb & rb & k & [Ebr Hk _ _ _ _ Hl Hr Tl Tr Od]) IN (OK & Lo & Ed & Low).
  fold n in Hk. subst br. cbn [set_branch].
  destruct (Tl k Hk) as [_ (i & Ii & Ei)]. destruct (Tr k Hk) as [(j & Ij & Ej) _].
  assert (IN' : forall x, In x (l ++ r) -> x < N) by (intros x Hx; apply IN, in_seq in Hx; lia).
  pose proof (coord_inside k i (IN' i (in_or_app _ _ _ (or_introl Ii))) Hk) as Ci.
  pose proof (coord_inside k j (IN' j (in_or_app _ _ _ (or_intror Ij))) Hk) as Cj.
  destruct (Hl i Ii k Hk) as [_ Ei']. destruct (Hr j Ij k Hk) as [Ej' _].
  unfold decide_narrow. cbn [bs_split_dim bs_left_max bs_right_min].
  rewrite (at_lt q k 0%Z) by (rewrite (na_length _ _ _ _ _ _ _ _ NI); exact Hk). cbn [bind].
  set (v := nth k q 0%Z). pose proof (q_inside k Hk) as Qv. fold v in Qv.
  set (lm := get (box_max lb) k) in *. set (rm := get (box_min rb) k) in *.
  unfold coord in Ei, Ej. unfold get in Ei, Ej, Ei', Ej'. cbn [s_leb s_zero Narrow Int_scalar] in Ei, Ej, Ei', Ej', Od.
  rewrite Z.leb_le in Ei, Ej, Ei', Ej', Od.
  assert (Il : inside lm) by (unfold lm, get, inside in *; cbn [s_zero Narrow Int_scalar] in *; lia).
  assert (Ir : inside rm) by (unfold rm, get, inside in *; cbn [s_zero Narrow Int_scalar] in *; lia).
  assert (GO : i_sub iovf (i_sub iovf (i_add iovf lm rm) v) v = (lm + rm - v - v)%Z).
  { unfold i_sub, i_add. cbn [s_sub s_add Signed Int_scalar].
    pose proof range_facts. pose proof (na_range _ _ _ _ _ _ _ _ NI). unfold inside in *.
    rewrite (i_fit (lm + rm)) by lia. rewrite (i_fit (lm + rm - v)) by lia. apply i_fit. lia. }
  rewrite GO.
  set (gl := (0 <? lm + rm - v - v)%Z).
  exists k, gl, (term (if gl then rm else lm) v), (nth k o 0%Z).
  split; [|split].
  - f_equal. f_equal. destruct gl; apply app_term; auto.
  - apply at_lt. rewrite Lo. exact Hk.
  - assert (Ig : inside (if gl then rm else lm)) by (destruct gl; auto).
    pose proof (term_range _ _ Ig Qv) as Tg. set (no := term _ v) in *.
    assert (OK' : off_ok cap (set_nth o k no)) by (apply set_nth_Forall; auto).
    assert (Eo : nth_error o k = Some (nth k o 0%Z)) by (apply nth_error_nth'; rewrite Lo; exact Hk).
    assert (L' : length (set_nth o k no) = n) by (rewrite length_set_nth; exact Lo).
    split; [exact OK'|]. split; [exact L'|]. split.
    + pose proof (zsum_set sp o k (nth k o 0%Z) no Eo) as ZS. rewrite <- Ed in ZS.
      pose proof (zsum_range sp cap _ OK') as ZR. rewrite L' in ZR.
      pose proof (zsum_range sp cap _ OK) as ZR0. rewrite Lo, <- Ed in ZR0.
      assert (O1 : (0 <= nth k o 0 <= cap)%Z).
      { unfold off_ok in OK. rewrite Forall_forall in OK. apply OK, nth_In. rewrite Lo. exact Hk. }
      pose proof room as [C0 C1]. pose proof cap_hi. pose proof range_facts as RF.
      cbn [s_add s_sub ZG]. unfold i_add, i_sub. cbn [s_add s_sub Signed Int_scalar].
      rewrite (i_fit (d - nth k o 0)%Z) by lia. rewrite i_fit by lia.
      rewrite ZS. apply conv_id. lia.
    + intros x Hx HxN k' Hk'. destruct (Nat.eq_dec k k') as [<-|Nk].
      * rewrite nth_set_nth_same by (rewrite Lo; exact Hk). fold v.
        assert (HX : if gl then (rm <= nth k (sp_at sp x) 0)%Z else (nth k (sp_at sp x) 0 <= lm)%Z).
        { destruct gl.
          - destruct (Hr x Hx k Hk) as [X _]. unfold get in X. cbn [s_leb s_zero Narrow Int_scalar] in X.
            rewrite Z.leb_le in X. exact X.
          - destruct (Hl x Hx k Hk) as [_ X]. unfold get in X. cbn [s_leb s_zero Narrow Int_scalar] in X.
            rewrite Z.leb_le in X. exact X. }
        unfold no, term. set (y := nth k (sp_at sp x) 0%Z) in *. unfold gl in *.
        destruct (Z.ltb_spec 0 (lm + rm - v - v)); destruct sq; nia.
      * rewrite nth_set_nth_other by auto. apply Low; auto. apply in_or_app. destruct gl; auto.
Qed.

Definition ZE : Scalar Z := Int_scalar (- (hi + 1)) hi (fun x => x).
Lemma ZE_exact : exact_laws ZE inject_Z.
Proof. pose proof range_facts. apply (E_exact (- (hi + 1)) hi); lia. Qed.

Definition run V (vis : visitor Z V) (v0 : V) : res V := search_narrow sgn bits iovf m sp t vis q v0.

Lemma narrow_contract : @contract Z ZE (fun _ => True) m sp q run.
Proof.
  intros V vis Inv v0 I0 _ IS. unfold run, search_narrow.
  rewrite (na_length _ _ _ _ _ _ _ _ NI), Nat.eqb_refl. cbn [guard bind].
  destruct narrow_tight as [P NSp].
  assert (ALL : forall i, In i (seq 0 N) -> i < length (sp_pts sp)) by (intros i Hi; apply in_seq in Hi; unfold N in Hi; lia).
  destruct (@search_gen_spec Z ZG V _ m vis sp (kd_indices t) q
    (R_tight (S := NS) (int_value lo hi) sp Euclidean) decide_narrow Inv (fun st j => (v_max vis st <= D j)%Z) 
    (fun o d l => LB o d l /\ incl l (seq 0 N)) (seq 0 N))
    with (nd := kd_root t) (b := 0) (l := kd_indices t) (pre := @nil nat) (post := @nil nat)
         (o := tab n (fun _ => 0%Z)) (d := 0%Z) (st := v0) as (tr & rest & Pt & E & F).
  - intros st i Hst Hi. apply IS; auto.
  - intros st i j Hst Hi Hj. destruct (IS st i (ALL i Hi) Hst) as [_ L].
    cbn [s_leb ZE Int_scalar] in L. rewrite Z.leb_le in L. fold (D i) in L |- *. lia.
  - intros o d l l' [(A & B & C & E) I] Hi. split; [|intros x Hx; auto]. repeat (split; auto).
  - intros o d l st [(A & B & C & E) I] _ HL j Hj. cbn [s_leb ZG] in HL. apply Z.leb_gt in HL.
    pose proof (ALL j (I j Hj)) as HjN.
    assert (X : (zsum o <= zsum (terms q (sp_at sp j)))%Z).
    { apply terms_le.
      - rewrite B. apply (na_length _ _ _ _ _ _ _ _ NI).
      - rewrite B. apply at_length, HjN.
      - intros k Hk. rewrite B in Hk. apply E; auto. }
    rewrite <- D_terms in X. lia.
  - intros br l r o d HR HI [HL _].
    destruct (step br l r o d HR HI HL) as (sd & gl & no & old & E1 & E2 & E3).
    exists sd, gl, no, old. split; [exact E1|]. split; [exact E2|]. split; [exact E3|].
    intros x Hx. apply HI, in_or_app. destruct gl; auto.
  - exact NSp.
  - rewrite app_nil_r. reflexivity.
  - reflexivity.
  - apply Forall_forall. intros i Hi. eapply Permutation_in in Hi; [|exact P]. apply ALL in Hi.
    unfold in_space, sp_size. apply Nat.ltb_lt. exact Hi.
  - intros x Hx. eapply Permutation_in; [exact P|exact Hx].
  - split; [|intros x Hx; eapply Permutation_in; [exact P|exact Hx]].
    pose proof room as [C0 _].
    assert (F0 : Forall (fun x => x = 0%Z) (tab n (fun _ => 0%Z))).
    { unfold tab. rewrite Forall_map, Forall_forall. auto. }
    split; [|split; [|split]].
    + unfold off_ok. eapply Forall_impl; [|exact F0]. intros x ->. lia.
    + unfold tab. rewrite map_length, seq_length. reflexivity.
    + induction F0 as [|x l -> F0 IH]; [reflexivity|]. unfold zsum in *. cbn [fold_right]. lia.
    + intros j Hj HjN k Hk. rewrite nth_tab by exact Hk.
      apply (term_range _ _ (q_inside k Hk) (coord_inside k j HjN Hk)).
  - exact I0.
  - exists tr, rest. split; [rewrite Pt; exact P|]. split.
    + pose proof (narrow_gen vis (kd_indices t) (kd_root t) 0%Z (tab n (fun _ => 0%Z), v0)) as G.
      exact (f_equal (fun r => do st <- r; Ok (snd st)) (eq_trans G E)).
    + intros j Hj. cbn [s_leb ZE Int_scalar]. rewrite Z.leb_le. apply F, Hj.
Qed.

(** ** Answers *)
Let D_ext : forall j, j < N -> (inject_Z (m_dist m q (sp_at sp j)) == dist_to inject_Z em sp q j)%Q :=
  fun j _ => D_exact j.
Lemma D_fit : forall j, j < length (sp_pts sp) -> (inject_Z (m_dist m q (sp_at sp j)) < inject_Z (@s_max Z ZE))%Q.
Proof. intros j _. rewrite <- Zlt_Qlt. apply D_hi. Qed.

Lemma narrow_nn nn0 : exists i d, search_nn_narrow sgn bits iovf m sp t q nn0 = Ok (Neighbor i d)
  /\ (inject_Z d == dist_to inject_Z em sp q i)%Q /\ is_nearest (npts sp) (dist_to inject_Z em sp q) i.
Proof.
  destruct (@eq_nn Z ZE inject_Z ZE_exact m sp q run narrow_contract N_pos D_fit nn0) as (i & d & E & V & A).
  exists i, d. split; [exact E|]. split; [rewrite V; apply D_exact|].
  eapply is_nearest_ext; [exact D_ext|exact A].
Qed.

Lemma narrow_knn k knn0 : 0 < k -> exists out, search_knn_narrow sgn bits iovf m sp t q k knn0 = Ok out
  /\ knn_answer (npts sp) k (dist_to inject_Z em sp q) (answers inject_Z out).
Proof.
  intros Hk. destruct (@eq_knn Z ZE inject_Z ZE_exact m sp q run narrow_contract N_pos D_fit k knn0 Hk) as (out & E & A).
  exists out. split; [exact E|]. eapply knn_answer_ext; [exact D_ext|exact A].
Qed.

Lemma narrow_radius r sort : exists l, search_radius_narrow sgn bits iovf alg m sp t q r sort = Ok l
  /\ filter_answer (npts sp) (fun i => (dist_to inject_Z em sp q i < inject_Z r)%Q) (dist_to inject_Z em sp q) (answers inject_Z l)
  /\ (sort = true -> StronglySorted Qle (map (fun x => inject_Z (n_distance x)) l)).
Proof.
  destruct (@eq_radius_sort Z ZE inject_Z ZE_exact m sp q run narrow_contract alg SL r sort) as (l & E & A & St).
  exists l. split; [exact E|]. split; [|exact St].
  eapply filter_answer_ext; [exact D_ext| |exact A].
  intros j Hj. cbn beta. rewrite <- (D_ext j Hj). reflexivity.
Qed.
End Tree.
End Narrow.
