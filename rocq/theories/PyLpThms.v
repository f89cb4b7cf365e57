(** Python trees with the metric LPInf. *)
From Coq Require Import List ZArith QArith Bool Arith Sorted Permutation Lia Lqa.
From Verif Require Import Base ModelBox ModelBuild ModelSearch ModelSerial ModelPython Spec SpecSerial SpecPython
  Lemmas BuildOrder BuildThms TopThms SafeThms ExtraThms BoxThms SerialThms ParThms ParSearch PythonThms PyArrayThms
  PyTopThms UserThms.
Import ListNotations.
Local Open Scope nat_scope.

Section LPInf.
Context {T : Type} {SC : Scalar T}.
Variable alg : std_algos.
Variable (val : T -> Q).
Hypothesis EL : exact_laws SC val.
Hypothesis SL : std_laws alg.

Lemma session_radius_lpinf pts sp leaf queries qs r sort :
  tree_args pts sp leaf -> all_coords (no_overflow val) sp -> query_args pts sp queries qs ->
  exists t, (forall fuel, length (sp_pts sp) <= fuel -> py_kd_tree alg fuel pts MetricLPInf leaf = ret t)
  /\ exists out N, (forall sched, fair (length (sp_pts qs)) N sched -> py_search_radius alg sched t queries r None sort = ret out)
  /\ (forall sched, py_search_radius alg sched t queries r None sort = OutOfFuel
        \/ py_search_radius alg sched t queries r None sort = ret out)
  /\ length out = length (sp_pts qs)
  /\ forall i q, nth_error (sp_pts qs) i = Some q -> exists l, nth_error out i = Some l
       /\ NoDup (map n_index l)
       /\ (forall x, In x l -> n_index x < npts sp
            /\ (val (n_distance x) == linf_dist (map val q) (map val (nth (n_index x) (sp_pts sp) [])))%Q
            /\ (linf_dist (map val q) (map val (nth (n_index x) (sp_pts sp) [])) < val r)%Q)
       /\ (forall i, i < npts sp -> (linf_dist (map val q) (map val (nth i (sp_pts sp) [])) < val r)%Q ->
            (inject_Z (Z.of_nat (sp_sdim sp)) * linf_dist (map val q) (map val (nth i (sp_pts sp) [])) <= val r)%Q ->
            In i (map n_index l)).
Proof.
  intros TA NO QA.
  destruct (py_make_total alg (fun _ => True) (no_overflow val) pts MetricLPInf leaf sp (exact_ord val EL) SL (exact_range val EL) TA
    (all_coords_true sp) NO) as (t & Hm).
  exists t. split; [auto|]. specialize (Hm _ (le_n _)). pose proof (tree_args_wf pts sp leaf TA) as WF.
  destruct TA as [[OKp _ DEp] _ _ _ _ _].
  destruct (py_make_inv _ _ _ _ _ _ _ OKp DEp Hm) as (Ht & _ & Hd & Hy & _). cbn [metric_impl] in Ht.
  destruct (bindings_made _ _ _ _ _ _ _ OKp DEp Hm) as [B _].
  pose proof QA as [PA Dt Dm]. pose proof PA as [OK _ DE].
  assert (Dim : forall q, In q (sp_pts qs) -> length q = sp_sdim sp).
  { intros q Hq. destruct DE as (r' & c & _ & F & _). rewrite Forall_forall in F. rewrite (F q Hq). auto. }
  assert (REP : all_coords (representable val) sp).
  { eapply Forall_impl; [|exact NO]. intros p Hp. eapply Forall_impl; [|exact Hp]. intros a [H _]. exact H. }
  assert (HS : forall q, In q (sp_pts qs) -> exists l, search_radius alg (pt_tree t) q r sort = Ok l
       /\ NoDup (map n_index l)
       /\ (forall x, In x l -> n_index x < npts sp
            /\ (val (n_distance x) == linf_dist (map val q) (map val (nth (n_index x) (sp_pts sp) [])))%Q
            /\ (linf_dist (map val q) (map val (nth (n_index x) (sp_pts sp) [])) < val r)%Q)
       /\ (forall i, i < npts sp -> (linf_dist (map val q) (map val (nth i (sp_pts sp) [])) < val r)%Q ->
            (inject_Z (Z.of_nat (sp_sdim sp)) * linf_dist (map val q) (map val (nth i (sp_pts sp) [])) <= val r)%Q ->
            In i (map n_index l))).
  { intros q Hq.
    destruct (@linf_radius_raw T SC val EL sp alg SL _ _ _ _ _ _ q Ht WF REP (Dim q Hq) r) as (l & E & A1 & A2 & A3).
    unfold search_radius. rewrite E. cbn [bind]. eexists. split; [reflexivity|].
    destruct sort; [|auto].
    assert (P : Permutation (std_sort alg _ neighbor_lt l) l).
    { apply (sl_sort_perm _ SL). apply (neighbor_strict_weak (fun _ => True) (exact_ord val EL)). auto. }
    split; [|split].
    - eapply Permutation_NoDup; [apply Permutation_map, Permutation_sym, P|auto].
    - intros x Hx. apply A2. eapply Permutation_in; [exact P|auto].
    - intros i H1 H2 H3. eapply Permutation_in; [apply Permutation_map, Permutation_sym, P|auto]. }
  set (buf := resize_vectors (A := neighbor T) [] (sp_size qs)).
  assert (L : length buf = length (sp_pts qs)) by apply length_resize_vectors.
  assert (Run : forall s, py_search_radius alg s t queries r None sort
    = lift (par_for s (radius_programs alg (pt_tree t) r None sort (sp_pts qs)) buf)).
  { intros s. unfold py_search_radius, py_search_radius_into. rewrite Dt, <- Hy.
    rewrite !(proj2 (dtype_eqb_eq _ _) eq_refl). cbn [negb throw_if ret pbind bind].
    rewrite (query_map pts sp queries qs QA t Hd). cbn [ret pbind bind pm_space]. reflexivity. }
  destruct (radius_for_defined alg (pt_tree t) (bindings_euclidean t B) r None sort (sp_pts qs) buf L) as (N0 & D).
  { intros i Hi. destruct (HS (nth i (sp_pts qs) [])) as (l & E & _); [apply nth_In; auto|]. eauto. }
  destruct (D (concat (repeat (seq 0 (length (sp_pts qs))) N0))) as (out & Eo); [apply fair_rounds|].
  assert (Er : py_search_radius alg (concat (repeat (seq 0 (length (sp_pts qs))) N0)) t queries r None sort = ret out)
    by (rewrite Run, Eo; reflexivity).
  destruct (radius_into_spec alg t queries qs r None [] sort _ out B OK DE Er) as (Lo & R & A1 & N & A2).
  exists out, N. split; [auto|]. split; [auto|]. split; [auto|].
  intros i q Hq. destruct (R i q Hq) as (l & El & Es). exists l. split; [auto|].
  destruct (HS q (nth_error_In _ _ Hq)) as (l' & El' & F). cbn [radius_search] in Es. rewrite El' in Es. injection Es as <-. auto.
Qed.
End LPInf.
