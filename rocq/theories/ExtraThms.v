(** Fuel, divergence, empty leaves and other facts about single calls. *)
From Coq Require Import List ZArith QArith Qabs Bool Arith Permutation Sorted Lia Lqa.
From Verif Require Import Base ModelBox ModelBuild ModelSearch Spec Lemmas Instances
  BuildProofs BuildOrder BuildShape BuildThms SearchProofs SearchThms BoxThms TopThms UniqThms CellThms.
Import ListNotations.
Local Open Scope nat_scope.

Section Fuel.
Context {T : Type} {S : Scalar T}.
Variables (c : category) (alg : std_algos) (ru : rule) (it : index_type) (stop : stop_condition) (sp : space T).
Local Notation cn := (create_node c alg ru it stop sp).

(** More fuel does not change the outcome of a finished run. *)
Lemma create_node_fuel fuel : forall fuel' depth off seg bx r, fuel <= fuel' ->
  cn fuel depth off seg bx = r -> r <> OutOfFuel -> cn fuel' depth off seg bx = r.
Proof.
  induction fuel as [|fuel IH]; intros fuel' depth off seg bx r Hf H NO; [cbn in H; congruence|].
  destruct fuel' as [|fuel']; [lia|]. cbn [create_node] in H |- *.
  destruct (is_leaf it stop depth (length seg)); auto.
  destruct (splitter alg ru sp seg bx) as [[[[l r0] d] v]|w|]; cbn [bind] in H |- *; auto.
  destruct (cn fuel (depth + 1) off l (box_set_max bx d v)) as [[[nl sl] lb]|w|] eqn:E1; cbn [bind] in H.
  - rewrite (IH fuel' _ _ _ _ _ ltac:(lia) E1) by congruence. cbn [bind].
    destruct (cn fuel (depth + 1) (off + length l) r0 (box_set_min bx d v)) as [[[nr sr] rb]|w|] eqn:E2; cbn [bind] in H.
    + rewrite (IH fuel' _ _ _ _ _ ltac:(lia) E2) by congruence. exact H.
    + rewrite (IH fuel' _ _ _ _ _ ltac:(lia) E2) by congruence. exact H.
    + congruence.
  - rewrite (IH fuel' _ _ _ _ _ ltac:(lia) E1) by congruence. exact H.
  - congruence.
Qed.

Lemma build_fuel fuel fuel' bnds t : fuel <= fuel' ->
  build c alg it fuel sp stop bnds ru = Ok t -> build c alg it fuel' sp stop bnds ru = Ok t.
Proof.
  intros Hf H. unfold build in *. okbind H. okbind H. okbind H. okbind H. okbind H.
  cbn [bind]. rewrite (create_node_fuel _ _ _ _ _ _ _ Hf E3) by congruence. exact H.
Qed.

(** A stop value that no number of points satisfies: no run finishes. *)
Lemma create_node_never v : stop = max_leaf_size v -> (it_cast it v < 0)%Z ->
  forall fuel depth off seg bx y, cn fuel depth off seg bx <> Ok y.
Proof.
  intros -> Hv. induction fuel as [|fuel IH]; intros depth off seg bx y H; [discriminate|].
  cbn [create_node is_leaf] in H. destruct (Z.leb_spec (Z.of_nat (length seg)) (it_cast it v)); [lia|].
  okbind H. destruct a as [[[l r] d] w]. okbind H. eapply IH; eauto.
Qed.

Lemma build_never fuel v bnds t : (it_cast it v < 0)%Z -> stop = max_leaf_size v ->
  build c alg it fuel sp stop bnds ru <> Ok t.
Proof.
  intros Hv Es H. apply build_inv in H as (_ & _ & bx' & H & _).
  eapply create_node_never; eauto.
Qed.

(** Coincident points: the partition puts all of them on one side. *)
Hypothesis SL : std_laws alg.
Lemma midpoint_never m :
  forall fuel depth off seg bx y, (it_cast it m < Z.of_nat (length seg))%Z ->
  (forall i j, In i seg -> In j seg -> sp_at sp i = sp_at sp j) ->
  create_node c alg midpoint_max_side it (max_leaf_size m) sp fuel depth off seg bx <> Ok y.
Proof.
  induction fuel as [|fuel IH]; intros depth off seg bx y Hl HE H; [discriminate|].
  cbn [create_node is_leaf] in H.
  destruct (Z.leb_spec (Z.of_nat (length seg)) (it_cast it m)); [lia|].
  cbn [splitter] in H. okbind H. destruct a as [[[l r] d] w].
  unfold split_midpoint in E. okbind E. destruct a as [d' delta].
  destruct (std_partition _ _ _) as [a b] eqn:Ep. injection E as <- <- <- <-.
  apply (partition_facts alg SL) in Ep as (P & A & B).
  assert (Ia : forall i, In i a -> In i seg) by (intros; eapply Permutation_in; [exact P|]; apply in_or_app; auto).
  assert (Ib : forall i, In i b -> In i seg) by (intros; eapply Permutation_in; [exact P|]; apply in_or_app; auto).
  assert (PL := Permutation_length P). rewrite app_length in PL.
  okbind H. destruct a0 as [[nl sl] lb]. okbind H. destruct a0 as [[nr sr] rb]. destruct a as [|x a].
  - eapply (IH _ _ b); [| |exact E1]; [simpl in PL; lia|intros; apply HE; auto].
  - destruct b as [|z b].
    + eapply (IH _ _ (x :: a)); [| |exact E]; [cbn [length] in *; lia|intros; apply HE; auto].
    + specialize (A x (or_introl eq_refl)). specialize (B z (or_introl eq_refl)).
      unfold coord in A, B. rewrite (HE x z (Ia x (or_introl eq_refl)) (Ib z (or_introl eq_refl))) in A. congruence.
Qed.
End Fuel.

Section NoUb.
Context {T : Type} {S : Scalar T} (ok : T -> Prop) (OL : ord_laws S ok).
Variables (sp : space T) (WF : wf_space sp) (OKS : all_coords ok sp).
Variables (alg : std_algos) (SL : std_laws alg).
Variables (good : T -> Prop) (RL : range_laws S good) (GOODS : all_coords good sp).

(** The midpoint rule has no undefined behaviour; it may only run forever. *)
Lemma midpoint_no_ub c it stop fuel : forall depth off seg bx w, box_wf (sp_sdim sp) bx ->
  good_box sp good bx -> Forall (fun i => in_space sp i = true) seg ->
  create_node c alg midpoint_max_side it stop sp fuel depth off seg bx <> Ub w.
Proof.
  induction fuel as [|fuel IH]; intros depth off seg bx w W G F H; [discriminate|].
  cbn [create_node] in H. destruct (is_leaf it stop depth (length seg)) eqn:EL.
  - rewrite guard_true in H by (apply forallb_in_space; auto). discriminate.
  - destruct (splitter_total ok OL sp WF OKS alg SL midpoint_max_side good RL GOODS seg bx W G F) as (l & r & d & v & E & Gv).
    { congruence. }
    rewrite E in H. cbn [bind] in H.
    apply (splitter_facts ok OL sp WF OKS alg SL) in E; auto.
    assert (F' : Forall (fun i => in_space sp i = true) (l ++ r)).
    { eapply Permutation_Forall'; [symmetry; apply (sf_perm _ _ _ _ _ _ _ _ _ E)|auto]. }
    apply Forall_app in F' as [Fl Fr].
    destruct (create_node _ _ _ _ _ _ fuel _ off l _) as [[[nl sl] lb]|w1|] eqn:E1; cbn [bind] in H.
    + destruct (create_node _ _ _ _ _ _ fuel _ _ r _) as [[[nr sr] rb]|w2|] eqn:E2; cbn [bind] in H; try discriminate.
      eapply IH; [| | |exact E2]; auto; [apply box_set_min_wf; auto|apply (good_set_min sp good); auto].
    + eapply IH; [| | |exact E1]; auto; [apply box_set_max_wf; auto|apply (good_set_max sp good); auto].
    + discriminate.
Qed.

(** More than [m] coincident points: construction runs forever. *)
Lemma midpoint_diverges c it fuel m bnds : index_type_ok it -> (0 < m <= it_max it)%Z ->
  bounds_coords good sp bnds ->
  (forall p p', In p (sp_pts sp) -> In p' (sp_pts sp) -> p = p') ->
  (m < Z.of_nat (length (sp_pts sp)) <= it_max it)%Z ->
  build c alg it fuel sp (max_leaf_size m) bnds midpoint_max_side = OutOfFuel.
Proof.
  intros Hi Hm GB HE Hn.
  assert (NE : sp_pts sp <> []) by (apply length_nonnil; lia).
  unfold build, sp_size. cbn [stop_assert].
  rewrite guard_true by (apply Z.ltb_lt; lia). cbn [bind].
  rewrite guard_true by (apply Nat.ltb_lt; lia). cbn [bind].
  rewrite guard_true by (apply Z.leb_le; lia). cbn [bind].
  rewrite guard_true by (eapply bounds_coords_dim; eauto). cbn [bind].
  destruct (create_node _ _ _ _ _ _ _ _ _ _ _) as [[[nd s] b]|w|] eqn:E; cbn [bind]; auto; exfalso.
  - eapply midpoint_never in E; eauto.
    + rewrite it_cast_fits by (auto; lia). rewrite seq_length. lia.
    + intros i j Ii Ij. apply In_seq0 in Ii, Ij. apply HE; apply nth_In; auto.
  - eapply midpoint_no_ub in E; eauto.
    + apply box_from_bounds_wf.
    + apply (box_from_bounds_good good RL); auto.
    + apply seq_in_space.
Qed.

(** No construction is undefined with the rule midpoint. *)
Lemma midpoint_build_no_ub c it fuel stop bnds w : stop_fits it stop ->
  bounds_coords good sp bnds -> sp_pts sp <> [] -> (Z.of_nat (length (sp_pts sp)) <= it_max it)%Z ->
  build c alg it fuel sp stop bnds midpoint_max_side <> Ub w.
Proof.
  intros Hs GB NE Hn.
  assert (0 < length (sp_pts sp)) by (destruct (sp_pts sp); simpl; [congruence|lia]).
  unfold build, sp_size.
  rewrite guard_true by (destruct stop; cbn in *; auto; apply Z.ltb_lt; lia). cbn [bind].
  rewrite guard_true by (apply Nat.ltb_lt; lia). cbn [bind].
  rewrite guard_true by (apply Z.leb_le; lia). cbn [bind].
  rewrite guard_true by (eapply bounds_coords_dim; eauto). cbn [bind].
  destruct (create_node _ _ _ _ _ _ _ _ _ _ _) as [[[nd s] b]|w'|] eqn:E; cbn [bind]; try discriminate.
  exfalso. eapply midpoint_no_ub in E; eauto.
  - apply box_from_bounds_wf.
  - apply (box_from_bounds_good good RL); auto.
  - apply seq_in_space.
Qed.
End NoUb.

(** * leaf_ranges *)
Lemma leaf_levels_lens {B} (nd : node B) h h' : map snd (leaf_levels h nd) = map snd (leaf_levels h' nd).
Proof.
  revert h h'. induction nd as [b e|br l IHl r IHr]; intros; cbn [leaf_levels map]; auto.
  rewrite !map_app. f_equal; auto.
Qed.

Lemma spans_leaf_ranges_empty {B} R (nd : node B) b l : node_spans R nd b l ->
  forall pre post acc, b = length pre -> In 0 (map snd (leaf_levels 0 nd)) ->
  insert_leaf_range (pre ++ l ++ post) nd acc = Ub UbNull.
Proof.
  assert (AL : forall (x : node B), {Forall (fun '(_, len) => 1 <= len) (leaf_levels 0 x)}
                               + {In 0 (map snd (leaf_levels 0 x))}).
  { intros x. generalize (leaf_levels 0 x) as ls. induction ls as [|[h len] ls IH]; [left; constructor|].
    destruct IH as [IH|IH]; [|right; right; auto].
    destruct len; [right; left; auto|left; constructor; auto; lia]. }
  induction 1 as [b l|br nl nr b l r H1 IH1 H2 IH2 HR]; intros pre post acc Hb HI.
  - cbn in HI. destruct HI as [HI|[]]. cbn. replace (b + length l - b) with (length l) in HI by lia.
    destruct (Nat.eqb_spec b (b + length l)); [reflexivity|lia].
  - cbn [leaf_levels] in HI. rewrite map_app in HI.
    rewrite (leaf_levels_lens nl (0 + 1) 0), (leaf_levels_lens nr (0 + 1) 0) in HI.
    cbn [insert_leaf_range]. destruct (AL nl) as [F|I0].
    + destruct (spans_leaf_ranges _ _ _ _ H1 pre (r ++ post) acc Hb F) as (rs & A & _ & _ & D).
      rewrite <- (app_assoc l r post), A. cbn [bind].
      replace (pre ++ l ++ r ++ post) with ((pre ++ l) ++ r ++ post) by (rewrite !app_assoc; reflexivity).
      apply IH2; [rewrite app_length; lia|]. apply in_app_or in HI as [HI|HI]; auto.
      exfalso. apply in_map_iff in HI as ([h len] & E & Hx). cbn in E. subst len.
      rewrite Forall_forall in F. specialize (F _ Hx). cbn in F. lia.
    + rewrite <- (app_assoc l r post). rewrite IH1; auto.
Qed.

Section Ranges.
Context {T : Type} {S : Scalar T} (ok : T -> Prop) (OL : ord_laws S ok).
Variables (sp : space T) (WF : wf_space sp) (OKS : all_coords ok sp).
Variables (alg : std_algos) (SL : std_laws alg).

(** Any rule: leaf_ranges works exactly when no leaf is empty. *)
Lemma build_leaf_ranges_empty c it fuel stop bnds ru t :
  (ru = midpoint_max_side -> mid_ok S ok /\ bounds_coords ok sp bnds) ->
  build c alg it fuel sp stop bnds ru = Ok t ->
  In 0 (map snd (leaf_levels 0 (kd_root t))) -> leaf_ranges t = Ub UbNull.
Proof.
  intros HM H HI. apply (build_holds ok OL sp WF OKS alg SL) in H as [P N]; auto.
  pose proof (spans_leaf_ranges_empty _ _ _ _ N [] [] [] eq_refl HI) as K.
  cbn [app] in K. rewrite app_nil_r in K. exact K.
Qed.
Lemma build_leaf_ranges_any c it fuel stop bnds ru t :
  (ru = midpoint_max_side -> mid_ok S ok /\ bounds_coords ok sp bnds) ->
  build c alg it fuel sp stop bnds ru = Ok t ->
  Forall (fun '(_, len) => 1 <= len) (leaf_levels 0 (kd_root t)) ->
  exists rs, leaf_ranges t = Ok rs
    /\ Permutation (concat rs) (seq 0 (length (sp_pts sp)))
    /\ Forall (fun r => r <> []) rs
    /\ map (@length nat) rs = map snd (leaf_levels 0 (kd_root t)).
Proof.
  intros HM H NE. apply (build_holds ok OL sp WF OKS alg SL) in H as [P N]; auto.
  destruct (spans_leaf_ranges _ _ _ _ N [] [] [] eq_refl NE) as (rs & A & B & C & D).
  simpl in A. rewrite app_nil_r in A. exists rs. unfold leaf_ranges. rewrite A, B. auto.
Qed.
End Ranges.

(** * Searches for no neighbours *)
Section Zero.
Context {T : Type} {S : Scalar T}.
Lemma search_knn_zero (t : kd_tree T) x knn : search_knn t x 0 knn = Ub UbIndex.
Proof. reflexivity. Qed.
Lemma search_knn_zero_approx (t : kd_tree T) x e knn : search_knn_approx t x 0 e knn = Ub UbIndex.
Proof. reflexivity. Qed.
End Zero.

(** * Box searches in two trees *)
Section TwoBoxes.
Context {T : Type} {S : Scalar T} (ok : T -> Prop) (OL : ord_laws S ok).
Variables (sp : space T) (WF : wf_space sp) (OKS : all_coords ok sp).
Variables (alg1 alg2 : std_algos) (SL1 : std_laws alg1) (SL2 : std_laws alg2).

Lemma same_box m it1 it2 fuel1 fuel2 stop1 stop2 bnds1 bnds2 ru1 ru2 tree1 tree2 mn mx :
  kd_tree_make alg1 it1 m fuel1 sp stop1 bnds1 ru1 = Ok tree1 ->
  kd_tree_make alg2 it2 m fuel2 sp stop2 bnds2 ru2 = Ok tree2 ->
  bounds_coords ok sp bnds1 -> bounds_coords ok sp bnds2 ->
  bounds_enclose sp bnds1 -> bounds_enclose sp bnds2 ->
  length mn = sp_sdim sp -> length mx = sp_sdim sp -> Forall ok mn -> Forall ok mx ->
  ok_finite S ok -> mid_ok S ok -> mid_between S ok ->
  (m_cat m = Topological -> forall d, d < sp_sdim sp -> m_dim_space m d = R1 ->
     s_leb (nth d mn s_zero) (nth d mx s_zero) = true) ->
  exists a1 a2, search_box tree1 mn mx = Ok a1 /\ search_box tree2 mn mx = Ok a2 /\ Permutation a1 a2.
Proof.
  intros H1 H2 B1 B2 E1 E2 L1 L2 F1 F2 OF MO MB HR. destruct (m_cat m) eqn:Ec.
  - destruct (search_box_euclidean ok OL sp WF OKS alg1 SL1 m it1 fuel1 stop1 bnds1 ru1 tree1 mn mx H1) as (a1 & A1 & I1); auto.
    destruct (search_box_euclidean ok OL sp WF OKS alg2 SL2 m it2 fuel2 stop2 bnds2 ru2 tree2 mn mx H2) as (a2 & A2 & I2); auto.
    exists a1, a2. split; auto. split; auto. eapply index_answer_unique; eauto.
  - destruct (search_box_topological ok OL sp WF OKS alg1 SL1 m it1 fuel1 stop1 bnds1 ru1 tree1 mn mx H1) as (a1 & A1 & I1); auto; [exact (HR eq_refl)|].
    destruct (search_box_topological ok OL sp WF OKS alg2 SL2 m it2 fuel2 stop2 bnds2 ru2 tree2 mn mx H2) as (a2 & A2 & I2); auto; [exact (HR eq_refl)|].
    exists a1, a2. split; auto. split; auto. eapply index_answer_unique; eauto.
Qed.
End TwoBoxes.

(** * Combined statements *)
Section Combined.
Context {T : Type} {S : Scalar T} (ok : T -> Prop) (OL : ord_laws S ok).
Variables (sp : space T) (WF : wf_space sp) (OKS : all_coords ok sp).
Variables (alg : std_algos) (SL : std_laws alg).

Lemma build_total_any (good : T -> Prop) c it stop bnds ru :
  range_laws S good -> all_coords good sp -> bounds_coords good sp bnds ->
  ru <> midpoint_max_side -> index_type_ok it -> stop_fits it stop ->
  sp_pts sp <> [] -> (Z.of_nat (npts sp) <= it_max it)%Z ->
  exists t, forall fuel, npts sp <= fuel -> build c alg it fuel sp stop bnds ru = Ok t.
Proof.
  intros RL G GB Hru Hi Hs NE Hsz.
  destruct (build_total ok OL sp WF OKS alg SL good c it (npts sp) stop bnds ru) as (t & E); auto.
  exists t. intros fuel Hf. eapply build_fuel; eauto.
Qed.

Lemma build_total_depth_any (good : T -> Prop) c it m bnds ru :
  range_laws S good -> all_coords good sp -> bounds_coords good sp bnds ->
  index_type_ok it -> (0 <= m <= it_max it)%Z ->
  sp_pts sp <> [] -> (Z.of_nat (npts sp) <= it_max it)%Z ->
  exists t, forall fuel, (m < Z.of_nat fuel)%Z ->
    build c alg it fuel sp (max_leaf_depth m) bnds ru = Ok t.
Proof.
  intros RL G GB Hi Hm NE Hsz.
  destruct (build_total_depth ok OL sp WF OKS alg SL good c it (Z.to_nat (m + 1)) m bnds ru) as (t & E); auto; [lia|].
  exists t. intros fuel Hf. eapply build_fuel; [|exact E]. lia.
Qed.

Lemma leaf_levels_sum {B} (nd : node B) h : list_sum (map snd (leaf_levels h nd)) = node_points nd.
Proof.
  revert h. induction nd as [b e|br l IHl r IHr]; intros h; cbn [leaf_levels map node_points].
  - cbn. lia.
  - rewrite map_app, list_sum_app, IHl, IHr. reflexivity.
Qed.

Lemma sum_ge_length (l : list (nat * nat)) : Forall (fun '(_, len) => 1 <= len) l -> length l <= list_sum (map snd l).
Proof. induction 1 as [|[h len] l H _ IH]; unfold list_sum in *; cbn in *; lia. Qed.

Lemma build_no_empty c it fuel stop bnds ru t : ru <> midpoint_max_side ->
  build c alg it fuel sp stop bnds ru = Ok t ->
  Forall (fun '(_, len) => 1 <= len) (leaf_levels 0 (kd_root t))
  /\ length (leaf_levels 0 (kd_root t)) <= npts sp
  /\ every_branch (fun _ l r => 1 <= node_points l /\ 1 <= node_points r) (kd_root t).
Proof.
  intros Hru H. destruct (build_nonempty ok OL sp WF OKS alg SL _ _ _ _ _ _ _ Hru H) as (A & B & C & _).
  split; auto. split; auto. apply sum_ge_length in A. rewrite leaf_levels_sum in A. rewrite B in A. exact A.
Qed.

Lemma build_median c it fuel m bnds t : index_type_ok it -> (0 < m <= it_max it)%Z ->
  build c alg it fuel sp (max_leaf_size m) bnds median_max_side = Ok t ->
  every_branch (fun _ l r => node_points l <= node_points r <= node_points l + 1) (kd_root t)
  /\ forall h, (Z.of_nat (npts sp) <= m * 2 ^ Z.of_nat h)%Z ->
       Forall (fun '(lv, _) => lv <= h) (leaf_levels 0 (kd_root t)).
Proof.
  intros Hi Hm H. split.
  - apply (build_nonempty ok OL sp WF OKS alg SL _ _ _ _ _ _ _) in H; [|congruence]. apply H. reflexivity.
  - intros h Hh. eapply (build_median_levels ok OL sp WF OKS alg SL); eauto.
Qed.

Lemma build_ranges c it fuel stop bnds ru t :
  (ru = midpoint_max_side -> mid_ok S ok /\ bounds_coords ok sp bnds) ->
  build c alg it fuel sp stop bnds ru = Ok t ->
  Forall (fun '(_, len) => 1 <= len) (leaf_levels 0 (kd_root t)) ->
  exists rs, leaf_ranges t = Ok rs
    /\ concat rs = kd_indices t
    /\ Permutation (kd_indices t) (seq 0 (npts sp))
    /\ Forall (fun r => r <> []) rs
    /\ map (@length nat) rs = map snd (leaf_levels 0 (kd_root t))
    /\ (forall m, stop = max_leaf_size m -> index_type_ok it -> (0 < m <= it_max it)%Z ->
          Forall (fun r => (Z.of_nat (length r) <= m)%Z) rs).
Proof.
  intros HM H NE. pose proof H as H0.
  apply (build_holds ok OL sp WF OKS alg SL) in H as [P N]; auto.
  destruct (spans_leaf_ranges _ _ _ _ N [] [] [] eq_refl NE) as (rs & A & B & C & D).
  simpl in A. rewrite app_nil_r in A. exists rs. unfold leaf_ranges. rewrite A, B.
  split; auto. split; auto. split; auto. split; auto. split; auto.
  intros m -> Hi Hm. apply build_leaf_size in H0; auto.
  apply Forall_forall. intros r Hr. apply (in_map (@length nat)) in Hr. rewrite D in Hr.
  apply in_map_iff in Hr as ([h len] & E & Hx). rewrite Forall_forall in H0. specialize (H0 _ Hx). cbn in *. lia.
Qed.

Lemma build_ranges_nonempty c it fuel stop bnds ru t : ru <> midpoint_max_side ->
  build c alg it fuel sp stop bnds ru = Ok t ->
  exists rs, leaf_ranges t = Ok rs
    /\ concat rs = kd_indices t
    /\ Permutation (kd_indices t) (seq 0 (npts sp))
    /\ Forall (fun r => r <> []) rs
    /\ map (@length nat) rs = map snd (leaf_levels 0 (kd_root t))
    /\ (forall m, stop = max_leaf_size m -> index_type_ok it -> (0 < m <= it_max it)%Z ->
          Forall (fun r => (Z.of_nat (length r) <= m)%Z) rs).
Proof.
  intros Hru H. eapply build_ranges; eauto; [congruence|].
  eapply build_no_empty; eauto.
Qed.

End Combined.

(** Halving, at the level of construction. *)
Lemma build_midpoint_cube {T} {S : Scalar T} (val : T -> Q) : exact_laws S val -> field_laws S val ->
  forall sp, wf_space sp -> forall alg, std_laws alg ->
  forall c it stop fuel bnds (t : kd_tree_data c T) s,
  build c alg it fuel sp stop bnds midpoint_max_side = Ok t ->
  (0 <= s)%Q ->
  (forall k, k < sp_sdim sp -> (box_hi val (kd_root_box t) k - box_lo val (kd_root_box t) k == s)%Q) ->
  forall nd lo hi,
  midpoint_cell (br_split_dim c) (kd_root t) (box_lo val (kd_root_box t)) (box_hi val (kd_root_box t)) nd lo hi ->
  forall j k, j < sp_sdim sp -> k < sp_sdim sp -> (hi j - lo j <= 2 * (hi k - lo k))%Q.
Proof.
  intros EL FL sp WF alg SL c it stop fuel bnds t s H Hs HC nd lo hi MC.
  eapply midpoint_cells_ratio; [exact Hs|exact HC| |exact MC].
  eapply build_cells; eauto.
Qed.

(** The root box of a tree. *)
Lemma build_root_box {T} {S : Scalar T} (val : T -> Q) : exact_laws S val ->
  forall sp, wf_space sp -> all_coords (representable val) sp ->
  forall alg c it stop fuel ru (t : kd_tree_data c T),
  build c alg it fuel sp stop bounds_from_space ru = Ok t ->
  forall d, d < sp_sdim sp ->
  is_min (fun i => coord_val val sp i d) (seq 0 (npts sp)) (box_lo val (kd_root_box t) d)
  /\ is_max (fun i => coord_val val sp i d) (seq 0 (npts sp)) (box_hi val (kd_root_box t) d).
Proof.
  intros EL sp WF REP alg c it stop fuel ru t H d Hd.
  apply build_inv in H as (_ & [Hn _] & bx' & _ & ->). cbn [box_from_bounds].
  apply root_box_tight; auto. apply length_nonnil. lia.
Qed.
