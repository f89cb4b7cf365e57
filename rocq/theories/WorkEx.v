(** Which leaves a search looks at: the built-in metrics and an example. *)
From Coq Require Import List ZArith QArith Bool Arith Lia.
From Verif Require Import Base ModelBox ModelBuild ModelSearch Spec Instances Examples SpecWork WorkThms.
Import ListNotations.
Local Open Scope nat_scope.

Lemma visited_builtin_cells (T : Type) (S : Scalar T) (val : T -> Q) (EL : exact_laws S val)
    (em : exact_metric) (t : nat -> Q -> Q -> Q) (sp : space T) (alg : std_algos) (SL : std_laws alg)
    (it : index_type) (fuel : nat) (stop : stop_condition) (bnds : start_bounds T) (ru : rule)
    (q : list T) (tree : kd_tree T) :
  em = L1 /\ t = (fun _ => abs_diff) \/ em = L2Squared /\ t = (fun _ => sq_diff) ->
  ru <> midpoint_max_side ->
  kd_tree_make alg it (metric_of em) fuel sp stop bnds ru = Ok tree -> usable val em sp bnds q ->
  forall (V : Type) (vis : visitor T V) (v0 : V),
  let root := kd_root (kt_data tree) in
  let see := shown (metric_of em) sp (kd_indices (kt_data tree)) q vis v0 in
  exists leaves first rest,
  search_nearest tree vis q v0 = Ok (see leaves)
  /\ NoDup leaves /\ incl leaves (leaf_intervals root)
  /\ leaves = first :: rest /\ in_cell val (place val q) (fst first) (snd first) root
  /\ forall before leaf after, leaves = before ++ leaf :: after -> before <> [] ->
     exists z, in_cell val z (fst leaf) (snd leaf) root
       /\ (sumN (sp_sdim sp) (fun k => t k (place val q k) (z k)) <= val (v_max vis (see before)))%Q.
Proof.
  intros Hem NM HM US V vis v0.
  destruct (visited_builtin val EL em t sp alg SL it fuel stop bnds ru q tree Hem NM HM US) as (C & MF & TZ).
  exact (visited_cells val EL (metric_of em) t sp alg SL it fuel stop bnds ru q tree C NM HM MF TZ vis v0).
Qed.

Lemma parts_of_space (T : Type) (S : Scalar T) (val : T -> Q) (EL : exact_laws S val)
    (m : metric T) (t : nat -> Q -> Q -> Q) (sp : space T) (alg : std_algos) (SL : std_laws alg)
    (it : index_type) (fuel : nat) (stop : stop_condition) (bnds : start_bounds T) (ru : rule)
    (q : list T) (tree : kd_tree T) :
  m_cat m = Euclidean -> ru <> midpoint_max_side ->
  kd_tree_make alg it m fuel sp stop bnds ru = Ok tree -> metric_fits val m t sp bnds q ->
  let root := kd_root (kt_data tree) in
  (forall z : nat -> Q, exists leaf, In leaf (leaf_intervals root) /\ in_cell val z (fst leaf) (snd leaf) root)
  /\ forall b e i, In (b, e) (leaf_intervals root) -> In i (points_in (kd_indices (kt_data tree)) [(b, e)]) ->
     in_cell val (place val (nth i (sp_pts sp) [])) b e root.
Proof.
  intros C NM HM MF root. split.
  - intros z. exact (cells_cover val tree z).
  - intros b e i. exact (cells_points val EL m t sp alg SL it fuel stop bnds ru q tree C NM HM MF b e i).
Qed.

Lemma counter_counts {T} {S : Scalar T} (m : metric T) sp q : forall l (v0 : neighbor T * nat),
  snd (fold_left (fun st i => v_visit visitor_nn_counter i (m_dist m q (nth i (sp_pts sp) [])) st) l v0)
  = snd v0 + length l.
Proof.
  induction l as [|i l IH]; intros [nn c]; cbn [fold_left length]; [cbn; lia|].
  rewrite IH. unfold visitor_nn_counter at 1. cbn [v_visit]. destruct (s_ltb _ _); cbn [snd]; lia.
Qed.

Lemma points_in_length idx ls : Forall (fun lf => length (points_in idx [lf]) = 1) ls -> length (points_in idx ls) = length ls.
Proof.
  induction 1 as [|lf ls H F IH]; auto. unfold points_in in *. cbn [flat_map] in *.
  rewrite app_nil_r in H. destruct lf as [b e]. rewrite app_length, H, IH. reflexivity.
Qed.

Lemma c138_example : exists data, let tree := KdTree ex_sp metric_l2_squared data in
  kd_tree_make std_example it_int metric_l2_squared 9 ex_sp (max_leaf_size 1) bounds_from_space
    sliding_midpoint_max_side = Ok tree
  /\ usable qv L2Squared ex_sp bounds_from_space [2; 2]%Q
  /\ length (leaf_intervals (kd_root data)) = 7
  /\ exists a b, search_nearest tree visitor_nn_counter [2; 2]%Q (Neighbor 9 s_max, 0)
       = Ok (shown metric_l2_squared ex_sp (kd_indices data) [2; 2]%Q visitor_nn_counter (Neighbor 9 s_max, 0) [a; b])
     /\ in_cell qv (place qv [2; 2]%Q) (fst a) (snd a) (kd_root data)
     /\ exists z, in_cell qv z (fst b) (snd b) (kd_root data)
       /\ (sumN 2 (fun k => sq_diff (place qv [2; 2]%Q k) (z k))
           <= n_distance (fst (shown metric_l2_squared ex_sp (kd_indices data) [2; 2]%Q visitor_nn_counter
                (Neighbor 9 s_max, 0%nat) [a])))%Q.
Proof.
  assert (B : exists data, build Euclidean std_example it_int 9 ex_sp (max_leaf_size 1) bounds_from_space sliding_midpoint_max_side = Ok data
    /\ length (leaf_intervals (kd_root data)) = 7
    /\ forallb (fun lf => length (points_in (kd_indices data) [lf]) =? 1) (leaf_intervals (kd_root data)) = true
    /\ search_nearest (KdTree ex_sp metric_l2_squared data) visitor_nn_counter [2; 2]%Q (Neighbor 9 s_max, 0) = Ok (Neighbor 4 0%Q, 2)).
  { eexists. split; [vm_compute; reflexivity|]. repeat split; vm_compute; reflexivity. }
  destruct B as (data & HB & L7 & One & Cnt). exists data. cbv zeta.
  assert (HM : kd_tree_make std_example it_int metric_l2_squared 9 ex_sp (max_leaf_size 1) bounds_from_space
    sliding_midpoint_max_side = Ok (KdTree ex_sp metric_l2_squared data)) by (apply make_ok; exact HB).
  assert (US : usable qv L2Squared ex_sp bounds_from_space [2; 2]%Q) by (apply ex_usable_l2; reflexivity).
  split; [exact HM|]. split; [exact US|]. split; [exact L7|].
  destruct (visited_builtin_cells Q QD qv QD_exact L2Squared (fun _ => sq_diff) ex_sp std_example std_example_laws
    it_int 9 (max_leaf_size 1) bounds_from_space sliding_midpoint_max_side [2; 2]%Q (KdTree ex_sp metric_l2_squared data)
    (or_intror (conj eq_refl eq_refl)) ltac:(discriminate) HM US _ visitor_nn_counter (Neighbor 9 s_max, 0))
    as (ls & first & rest & E & ND & I & E1 & C1 & RR).
  cbn [kt_data] in *.
  assert (L2 : length ls = 2).
  { rewrite <- (points_in_length (kd_indices data) ls).
    - rewrite Cnt in E. apply (f_equal (fun r => match r with Ok v => snd v | _ => 0 end)) in E. cbn [snd] in E.
      unfold shown in E. rewrite counter_counts in E. cbn [snd Nat.add] in E. symmetry. exact E.
    - apply Forall_forall. intros lf Hl. rewrite forallb_forall in One. apply Nat.eqb_eq, One, I, Hl. }
  destruct ls as [|a [|b [|? ?]]]; try discriminate L2. injection E1 as <- <-.
  exists a, b. split; [exact E|]. split; [exact C1|].
  exact (RR [a] b [] eq_refl ltac:(discriminate)).
Qed.
