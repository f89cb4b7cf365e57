(** The cells of a tree: longest side first, halving, tight boxes. *)
From Coq Require Import List ZArith QArith Qabs Qminmax Bool Arith Permutation Sorted Lia Lqa.
From Verif Require Import Base ModelBox ModelBuild ModelSearch Spec Lemmas Instances
  BuildProofs BuildOrder BuildShape BuildThms SearchProofs SearchThms BoxThms.
Import ListNotations.
Local Open Scope nat_scope.

(** * Node indices *)
Lemma skipn_app_len {A} (a b : list A) k : length a = k -> skipn k (a ++ b) = b.
Proof. intros <-. rewrite skipn_app, skipn_all, Nat.sub_diag. reflexivity. Qed.
Lemma firstn_app_len {A} (a b : list A) k : length a = k -> firstn k (a ++ b) = a.
Proof. intros <-. rewrite firstn_app, firstn_all, Nat.sub_diag. cbn. apply app_nil_r. Qed.

Lemma spans_node_indices {B} R (nd : node B) b l : node_spans R nd b l ->
  forall pre post, length pre = b -> node_indices (pre ++ l ++ post) nd = l.
Proof.
  induction 1 as [b l|br nl nr b l r H1 IH1 H2 IH2 HR]; intros pre post Hp.
  - unfold node_indices. cbn [leaf_intervals flat_map]. rewrite app_nil_r.
    rewrite skipn_app_len by auto. apply firstn_app_len. lia.
  - unfold node_indices in *. cbn [leaf_intervals]. rewrite flat_map_app. f_equal.
    + rewrite <- app_assoc. apply IH1. auto.
    + replace (pre ++ (l ++ r) ++ post) with ((pre ++ l) ++ r ++ post) by (rewrite !app_assoc; reflexivity).
      apply IH2. rewrite app_length. lia.
Qed.

Lemma rule_cut_perm ru mid x l r l' r' v : Permutation l' l -> Permutation r' r ->
  rule_cut ru mid x l r v -> rule_cut ru mid x l' r' v.
Proof.
  intros Pl Pr.
  assert (Il : forall i, In i l' -> In i l) by (intros; eapply Permutation_in; eauto).
  assert (Ir : forall i, In i r' -> In i r) by (intros; eapply Permutation_in; eauto).
  assert (Ir' : forall i, In i r -> In i r') by (intros; eapply Permutation_in; [symmetry|]; eauto).
  assert (Ia : forall i, In i (l' ++ r') -> In i (l ++ r)).
  { intros i Hi. apply in_app_iff in Hi. apply in_or_app. destruct Hi; auto. }
  assert (Ll := Permutation_length Pl). assert (Lr := Permutation_length Pr).
  assert (NE : forall (a b : list nat), Permutation b a -> a <> [] -> b <> []).
  { intros a b P H ->. apply Permutation_nil in P. auto. }
  destruct ru; cbn [rule_cut].
  - intros (A & (i & Hi & Ei) & B & C). rewrite Ll, Lr. split; auto. split; [eauto|]. split; auto.
  - intros (A & B & C). auto.
  - intros [(A & B & C & D & E)|[(A & B & (i & Hi & Ei) & C & D)|(A & B & (i & Hi & Ei) & C)]].
    + left. repeat split; auto; eapply NE; eauto.
    + right; left. split; [auto|]. split; [lia|]. split; [eauto|]. auto.
    + right; right. split; [auto|]. split; [lia|]. split; [eauto|]. auto.
Qed.

Lemma rule_cut_ext ru mid mid' x l r v : (mid == mid')%Q ->
  rule_cut ru mid x l r v -> rule_cut ru mid' x l r v.
Proof.
  intros E. destruct ru; cbn [rule_cut]; auto.
  - intros (A & B & C). split; auto. rewrite A. exact E.
  - intros [(A & B)|[(A & B)|(A & B)]].
    + left. split; auto. rewrite A. exact E.
    + right; left. split; auto. intros i Hi. rewrite <- E. auto.
    + right; right. split; auto. intros i Hi. rewrite <- E. auto.
Qed.

Lemma longest_side_ext n lo hi lo' hi' d : (forall k, k < n -> (lo k == lo' k /\ hi k == hi' k)%Q) ->
  longest_side n lo hi d -> longest_side n lo' hi' d.
Proof.
  intros E (A & B & C). split; auto. destruct (E d A) as [E1 E2]. split; intros k Hk.
  - destruct (E k Hk) as [F1 F2]. rewrite <- E1, <- E2, <- F1, <- F2. auto.
  - destruct (E k) as [F1 F2]; [lia|]. rewrite <- E1, <- E2, <- F1, <- F2. auto.
Qed.

Lemma cell_tree_ext {B} (dim : B -> nat) ru n x is_ nd : forall lo hi lo' hi',
  (forall k, k < n -> (lo k == lo' k /\ hi k == hi' k)%Q) ->
  cell_tree dim ru n x is_ lo hi nd -> cell_tree dim ru n x is_ lo' hi' nd.
Proof.
  induction nd as [|br l IHl r IHr]; intros lo hi lo' hi' E; cbn [cell_tree]; auto.
  intros (A & v & C & Dl & Dr). split; [eapply longest_side_ext; eauto|].
  exists v. split; [|split].
  - eapply rule_cut_ext; [|exact C]. destruct (E (dim br) (proj1 A)) as [-> ->]. reflexivity.
  - eapply IHl; [|exact Dl]. intros k Hk. unfold upd. destruct (E k Hk). destruct (k =? _); auto.
    split; auto. reflexivity.
  - eapply IHr; [|exact Dr]. intros k Hk. unfold upd. destruct (E k Hk). destruct (k =? _); auto.
    split; auto. reflexivity.
Qed.

Section Cells.
Context {T : Type} {S : Scalar T} (val : T -> Q) (EL : exact_laws S val).
Variables (sp : space T) (WF : wf_space sp).
Let n := sp_sdim sp.
Local Notation side b i := (s_sub (get (box_max b) i) (get (box_min b) i)).
Let OL := exact_ord val EL.

Lemma max_side_longest_fold b : forall l st d v,
  StronglySorted lt l ->
  fold_left
    (fun '(p_max_index, p_max_value) i =>
       let delta := side b i in
       if s_ltb p_max_value delta then (Some i, delta) else (p_max_index, p_max_value))
    l st = (Some d, v) ->
  (forall i, In i l -> (val (side b i) <= val v)%Q) /\ (val (snd st) <= val v)%Q
  /\ (st = (Some d, v)
      \/ (In d l /\ (val (snd st) < val v)%Q /\ v = side b d
          /\ forall i, In i l -> i < d -> (val (side b i) < val v)%Q)).
Proof.
  induction l as [|i l IH]; intros [si sv] d v St H.
  - cbn in H. injection H as -> ->. split; [intros i []|]. split; [cbn; lra|]. left; reflexivity.
  - cbn [fold_left] in H. inversion St as [|? ? St' F]; subst. rewrite Forall_forall in F.
    cbn zeta in H. destruct (s_ltb sv (side b i)) eqn:E.
    + apply (ltb_val val EL) in E. apply IH in H as (A & B & C); auto. cbn [snd] in *.
      split; [intros j [<-|Hj]; auto|]. split; [lra|]. right.
      destruct C as [C|(C1 & C2 & C3 & C4)].
      * injection C as Ei Ev; subst. split; [left; auto|]. split; [lra|]. split; [reflexivity|].
        intros j [<-|Hj] Hlt; [lia|]. specialize (F j Hj). lia.
      * split; [right; auto|]. split; [lra|]. split; auto. intros j [<-|Hj] Hlt; auto.
    + apply (ltb_val_false val EL) in E. apply IH in H as (A & B & C); auto. cbn [snd] in *.
      split; [intros j [<-|Hj]; auto; lra|]. split; auto.
      destruct C as [C|(C1 & C2 & C3 & C4)]; [left; auto|right].
      split; [right; auto|]. split; [auto|]. split; [auto|]. intros j [<-|Hj] Hlt; auto. lra.
Qed.

Lemma seq_sorted a k : StronglySorted lt (seq a k).
Proof.
  revert a. induction k as [|k IH]; intros a; cbn; constructor; auto.
  apply Forall_forall. intros j Hj. apply in_seq in Hj. lia.
Qed.

Lemma max_side_longest b d v : box_wf n b -> box_max_side b = (Some d, v) ->
  longest_side n (box_lo val b) (box_hi val b) d.
Proof.
  intros W H. pose proof (max_side_some b n d v W H) as [Hd Ev]. destruct W as [W _].
  unfold box_max_side in H. apply max_side_longest_fold in H as (A & _ & C); [|apply seq_sorted].
  destruct C as [C|(C1 & C2 & C3 & C4)]; [discriminate|]. subst v.
  assert (K : forall i, (val (side b i) == box_hi val b i - box_lo val b i)%Q).
  { intros i. rewrite (el_sub _ _ EL). reflexivity. }
  split; auto. unfold box_size in *. rewrite W in *. split; intros k Hk; rewrite <- !K.
  - apply A. apply In_seq0. auto.
  - apply C4; auto. apply In_seq0. lia.
Qed.

Lemma split_side_longest seg bx d delta : box_wf n bx -> split_side sp seg bx = Ok (d, delta) ->
  longest_side n (box_lo val bx) (box_hi val bx) d /\ d < n /\ Forall (fun i => in_space sp i = true) seg
  /\ delta = side bx d.
Proof.
  intros W H. split; [|eapply split_side_facts; eauto].
  unfold split_side in H. destruct (box_max_side bx) as [[d0|] v0] eqn:E; [|discriminate].
  okbind H. injection H as -> ->. eapply max_side_longest; eauto.
Qed.

Variables (alg : std_algos) (SL : std_laws alg) (FL : field_laws S val).
Variables (c : category) (ru : rule) (it : index_type) (stop : stop_condition).
Local Notation cn := (create_node c alg ru it stop sp).
Local Notation x := (coord_val val sp).

Lemma mid_half bx d :
  (val (s_add (s_mul (side bx d) s_half) (get (box_min bx) d)) == (box_lo val bx d + box_hi val bx d) / 2)%Q.
Proof.
  rewrite (el_add _ _ EL), (el_mul _ _ EL), (el_sub _ _ EL), (fl_half _ _ FL).
  unfold box_lo, box_hi, get. field.
Qed.
Lemma mid_two bx d : (~ val s_two == 0 -> val s_two == 2 ->
  val (s_add (s_div (side bx d) s_two) (get (box_min bx) d)) == (box_lo val bx d + box_hi val bx d) / 2)%Q.
Proof.
  intros H0 H2. rewrite (el_add _ _ EL), (fl_div _ _ FL), (el_sub _ _ EL), H2 by auto.
  unfold box_lo, box_hi, get. field.
Qed.

Let TWO := fl_two _ _ FL.
Lemma two_nz : ~ (val s_two == 0)%Q.
Proof. rewrite (fl_two _ _ FL). lra. Qed.

Lemma splitter_cut seg bx l r d v : box_wf n bx -> splitter alg ru sp seg bx = Ok (l, r, d, v) ->
  longest_side n (box_lo val bx) (box_hi val bx) d
  /\ rule_cut ru ((box_lo val bx d + box_hi val bx d) / 2) (fun i => x i d) l r (val v).
Proof.
  intros W H.
  destruct ru; cbn [splitter rule_cut] in *.
  - unfold split_median in H. okbind H. destruct a as [d' delta]. apply (split_side_longest _ _ _ _ W) in E as (LS & Hd & F & _).
    assert (Hh : length seg / 2 <= length seg) by (apply Nat.div_le_upper_bound; lia).
    remember (length seg / 2) as h eqn:Eh.
    okbind H. okbind H. injection H as <- <- <- <-. apply at_ok in E. rename a into i. split; auto.
    pose proof (nth_element_in (fun _ => True) OL sp WF (all_coords_true sp) alg SL d' h seg i Hd F Hh E) as Hlt.
    destruct (nth_element_facts (fun _ => True) OL sp WF (all_coords_true sp) alg SL d' h seg i Hd F E Hlt)
      as (P & L1 & L2 & Ii & A & B).
    rewrite L1, L2. split; [rewrite Eh; f_equal; lia|]. split; [|split].
    + exists i. split; [|reflexivity].
      rewrite <- (firstn_skipn h (std_nth_element alg (coord_lt sp d') h seg)) in E.
      rewrite nth_error_app2 in E by lia. eapply nth_error_In; eauto.
    + intros j Hj. apply (leb_val val EL). apply A; auto.
    + intros j Hj. apply (leb_val val EL). apply B; auto.
  - unfold split_midpoint in H. okbind H. destruct a as [d' delta]. apply (split_side_longest _ _ _ _ W) in E as (LS & Hd & F & ->).
    destruct (std_partition _ _ _) as [a b] eqn:Ep. injection H as <- <- <- <-. split; auto.
    apply (partition_facts alg SL) in Ep as (P & A & B).
    split; [apply mid_half|]. split; intros j Hj.
    + apply (ltb_val val EL). apply A; auto.
    + apply (ltb_val_false val EL). apply B; auto.
  - unfold split_sliding in H. okbind H. destruct a as [d' delta]. apply (split_side_longest _ _ _ _ W) in E as (LS & Hd & F & ->).
    destruct (std_partition _ _ _) as [a b] eqn:Ep.
    apply (partition_facts alg SL) in Ep as (P & A & B).
    assert (F' : Forall (fun i => in_space sp i = true) (a ++ b)) by (eapply Permutation_Forall'; [symmetry|]; eauto).
    pose proof (mid_two bx d' two_nz TWO) as M2.
    assert (A' : forall j, In j a -> (x j d' < (box_lo val bx d' + box_hi val bx d') / 2)%Q).
    { intros j Hj. rewrite <- M2. apply (ltb_val val EL). apply A; auto. }
    assert (B' : forall j, In j b -> ((box_lo val bx d' + box_hi val bx d') / 2 <= x j d')%Q).
    { intros j Hj. rewrite <- M2. apply (ltb_val_false val EL). apply B; auto. }
    destruct b as [|b0 b1].
    + destruct (length (a ++ [])) as [|h] eqn:L; [discriminate|].
      okbind H. okbind H. injection H as <- <- <- <-. apply at_ok in E. rename a0 into i. split; auto.
      assert (Hh : h < length (a ++ [])) by lia.
      destruct (nth_element_facts (fun _ => True) OL sp WF (all_coords_true sp) alg SL d' h _ i Hd F' E Hh)
        as (P' & L1 & L2 & Ii & A1 & B1).
      right; right. split; [|split; [|split]].
      * intros j Hj. apply A'. apply (Permutation_in _ P') in Hj. rewrite app_nil_r in Hj. auto.
      * rewrite L2. lia.
      * exists i. split; [|reflexivity].
        rewrite <- (firstn_skipn h (std_nth_element alg (coord_lt sp d') h (a ++ []))) in E.
        rewrite nth_error_app2 in E by lia. eapply nth_error_In; eauto.
      * intros j Hj. apply (leb_val val EL). apply A1; auto.
    + destruct a as [|a0 a1].
      * okbind H. okbind H. apply ok4_inj in H as (<- & <- & <- & <-). apply at_ok in E. rename a into i. split; auto.
        pose proof (nth_element_in (fun _ => True) OL sp WF (all_coords_true sp) alg SL d' 1 _ i Hd F' ltac:(simpl; lia) E) as Hlt.
        destruct (nth_element_facts (fun _ => True) OL sp WF (all_coords_true sp) alg SL d' 1 _ i Hd F' E Hlt)
          as (P' & L1 & L2 & Ii & A1 & B1).
        right; left. split; [|split; [|split; [|split]]].
        -- intros j Hj. apply B'. apply (Permutation_in _ P') in Hj. exact Hj.
        -- exact L1.
        -- exists i. split; [|reflexivity].
           rewrite <- (firstn_skipn 1 (std_nth_element alg (coord_lt sp d') 1 ([] ++ b0 :: b1))) in E.
           rewrite nth_error_app2 in E by lia. eapply nth_error_In; eauto.
        -- intros j Hj. apply (leb_val val EL). apply A1; auto.
        -- intros j Hj. apply (leb_val val EL). apply B1; auto.
      * injection H as <- <- <- <-. split; auto. left. split; [exact M2|]. split; [congruence|].
        split; [congruence|]. split; intros j Hj; rewrite M2; auto.
Qed.

Lemma create_node_spans_any fuel depth off seg bx nd seg' bx' : box_wf n bx ->
  cn fuel depth off seg bx = Ok (nd, seg', bx') ->
  Permutation seg' seg /\ box_wf n bx' /\ exists R, node_spans R nd off seg'.
Proof.
  intros W H.
  apply (create_node_holds (fun _ => True) OL sp WF (all_coords_true sp) alg SL) in H;
    [|intros _; unfold mid_ok; auto|auto|intros _ d _; auto].
  destruct H as (P & _ & W' & _ & _ & N). eauto.
Qed.

Lemma create_node_cells fuel : forall depth off seg bx nd seg' bx',
  box_wf n bx -> cn fuel depth off seg bx = Ok (nd, seg', bx') ->
  forall pre post, length pre = off ->
  cell_tree (br_split_dim c) ru n x (pre ++ seg' ++ post) (box_lo val bx) (box_hi val bx) nd.
Proof.
  induction fuel as [|fuel IH]; intros depth off seg bx nd seg' bx' W H pre post Hp; [discriminate|].
  cbn [create_node] in H. destruct (is_leaf it stop depth (length seg)) eqn:HL.
  - okbind H. injection H as <- <- <-. exact I.
  - okbind H. destruct a as [[[l r] d] v].
    okbind H. destruct a as [[nl sl] lb]. okbind H. destruct a as [[nr sr] rb].
    injection H as <- <- <-.
    pose proof E as Es. apply splitter_cut in Es as [LS RC]; auto.
    assert (WL := box_set_max_wf n bx d v W). assert (WR := box_set_min_wf n bx d v W).
    destruct (create_node_spans_any _ _ _ _ _ _ _ _ WL E0) as (P1 & _ & R1 & N1).
    destruct (create_node_spans_any _ _ _ _ _ _ _ _ WR E1) as (P2 & _ & R2 & N2).
    assert (Ed : br_split_dim c (set_branch c lb rb d) = d) by (destruct c; reflexivity).
    cbn [cell_tree]. rewrite Ed. split; auto. exists (val v). split; [|split].
    + replace (node_indices (pre ++ (sl ++ sr) ++ post) nl) with sl.
      * replace (node_indices (pre ++ (sl ++ sr) ++ post) nr) with sr.
        -- eapply rule_cut_perm; eauto.
        -- symmetry. replace (pre ++ (sl ++ sr) ++ post) with ((pre ++ sl) ++ sr ++ post) by (rewrite !app_assoc; reflexivity).
           eapply spans_node_indices; [exact N2|]. rewrite app_length, (Permutation_length P1). lia.
      * symmetry. rewrite <- app_assoc. eapply spans_node_indices; eauto.
    + rewrite <- app_assoc. eapply cell_tree_ext; [|eapply IH; [exact WL|exact E0|auto]].
      intros k Hk. split; [reflexivity|]. unfold upd. change (box_hi val (box_set_max bx d v) k) with (cmax val (box_set_max bx d v) k).
      rewrite (cmax_set_max val sp bx d v k W (proj1 LS)). rewrite Nat.eqb_sym. destruct (d =? k); reflexivity.
    + replace (pre ++ (sl ++ sr) ++ post) with ((pre ++ sl) ++ sr ++ post) by (rewrite !app_assoc; reflexivity).
      eapply cell_tree_ext; [|eapply IH; [exact WR|exact E1|]].
      * intros k Hk. split; [|reflexivity]. unfold upd. change (box_lo val (box_set_min bx d v) k) with (cmin val (box_set_min bx d v) k).
        rewrite (cmin_set_min val sp bx d v k W (proj1 LS)). rewrite Nat.eqb_sym. destruct (d =? k); reflexivity.
      * rewrite app_length, (Permutation_length P1). lia.
Qed.

Lemma build_cells fuel bnds t : build c alg it fuel sp stop bnds ru = Ok t ->
  cell_tree (br_split_dim c) ru n x (kd_indices t) (box_lo val (kd_root_box t)) (box_hi val (kd_root_box t)) (kd_root t).
Proof.
  intros H. apply build_inv in H as (_ & _ & bx' & H & HB).
  pose proof (create_node_cells _ _ _ _ _ _ _ _ (box_from_bounds_wf sp bnds) H [] [] eq_refl) as K.
  rewrite HB. cbn [app] in K. rewrite app_nil_r in K. exact K.
Qed.
End Cells.

(** * Halving a cube *)
Definition half_sided (n : nat) (lo hi : nat -> Q) : Prop :=
  exists L, (0 <= L)%Q /\ forall k, k < n -> (hi k - lo k == L \/ hi k - lo k == L / 2)%Q.

Lemma half_step n lo hi d : longest_side n lo hi d -> half_sided n lo hi ->
  exists L, (0 <= L)%Q /\ (forall k, k < n -> k <> d -> (hi k - lo k == L \/ hi k - lo k == L / 2)%Q)
    /\ (hi d - lo d == L)%Q.
Proof.
  intros (Hd & A & _) (L & L0 & H). destruct (H d Hd) as [E|E].
  - exists L. split; auto.
  - assert (E2 : (L / 2 == L * (1 # 2))%Q) by field.
    exists (L / 2)%Q. split; [lra|]. split; [|auto].
    intros k Hk Hne. left. destruct (H k Hk) as [F|F]; [|auto].
    specialize (A k Hk). lra.
Qed.

Lemma midpoint_cells_half {B} (dim : B -> nat) n x is_ nd lo hi nd' lo' hi' :
  midpoint_cell dim nd lo hi nd' lo' hi' ->
  cell_tree dim midpoint_max_side n x is_ lo hi nd -> half_sided n lo hi -> half_sided n lo' hi'.
Proof.
  induction 1 as [nd lo hi|br l r lo hi nd lo' hi' H IH|br l r lo hi nd lo' hi' H IH]; auto;
    cbn [cell_tree]; intros (LS & v & (Ev & _) & Cl & Cr) HS.
  - set (d := dim br) in *. apply IH.
    + eapply cell_tree_ext; [|exact Cl]. intros k Hk. split; [reflexivity|]. unfold upd. destruct (k =? d); auto. reflexivity.
    + destruct (half_step _ _ _ _ LS HS) as (L & L0 & A & E). exists L. split; auto.
      intros k Hk. unfold upd. destruct (Nat.eqb_spec k d) as [->|Hne]; [|apply A; auto].
      right. assert (hi d == L + lo d)%Q as -> by lra. field.
  - set (d := dim br) in *. apply IH.
    + eapply cell_tree_ext; [|exact Cr]. intros k Hk. split; [|reflexivity]. unfold upd. destruct (k =? d); auto. reflexivity.
    + destruct (half_step _ _ _ _ LS HS) as (L & L0 & A & E). exists L. split; auto.
      intros k Hk. unfold upd. destruct (Nat.eqb_spec k d) as [->|Hne]; [|apply A; auto].
      right. assert (hi d == L + lo d)%Q as -> by lra. field.
Qed.

Lemma midpoint_cells_ratio {B} (dim : B -> nat) n x is_ nd lo hi nd' lo' hi' s : (0 <= s)%Q ->
  (forall k, k < n -> (hi k - lo k == s)%Q) ->
  cell_tree dim midpoint_max_side n x is_ lo hi nd ->
  midpoint_cell dim nd lo hi nd' lo' hi' ->
  forall j k, j < n -> k < n -> (hi' j - lo' j <= 2 * (hi' k - lo' k))%Q.
Proof.
  intros Hs HC CT MC. destruct (midpoint_cells_half _ _ _ _ _ _ _ _ _ _ MC CT) as (L & L0 & H).
  { exists s. split; auto. }
  intros j k Hj Hk. assert (E2 : (L / 2 == L * (1 # 2))%Q) by field.
  destruct (H j Hj), (H k Hk); lra.
Qed.

(** * Tight boxes *)
Section Tight.
Context {T : Type} {S : Scalar T} (val : T -> Q) (EL : exact_laws S val).
Variables (sp : space T) (WF : wf_space sp) (REP : all_coords (representable val) sp).
Let n := sp_sdim sp.
Variables (alg : std_algos) (SL : std_laws alg).
Local Notation x := (coord_val val sp).

(** The smallest upper bound is attained. *)
Lemma max_attained (f : nat -> Q) l u : l <> [] -> (forall i, In i l -> (f i <= u)%Q) ->
  (forall v, (forall i, In i l -> (f i <= v)%Q) -> (u <= v)%Q) -> is_max f l u.
Proof.
  intros NE A B. split; auto.
  assert (K : exists i, In i l /\ forall j, In j l -> (f j <= f i)%Q).
  { clear A B. induction l as [|a l IH]; [congruence|]. destruct l as [|b l].
    - exists a. split; [left; auto|]. intros j [<-|[]]. lra.
    - destruct IH as (i & Hi & Hm); [congruence|].
      destruct (Qlt_le_dec (f i) (f a)).
      + exists a. split; [left; auto|]. intros j [<-|Hj]; [lra|]. specialize (Hm j Hj). lra.
      + exists i. split; [right; auto|]. intros j [<-|Hj]; auto. }
  destruct K as (i & Hi & Hm). exists i. split; auto. specialize (A i Hi). specialize (B (f i) Hm). lra.
Qed.
Lemma min_attained (f : nat -> Q) l u : l <> [] -> (forall i, In i l -> (u <= f i)%Q) ->
  (forall v, (forall i, In i l -> (v <= f i)%Q) -> (v <= u)%Q) -> is_min f l u.
Proof.
  intros NE A B. destruct (max_attained (fun i => - f i)%Q l (- u)%Q NE) as [C (i & Hi & E)].
  - intros i Hi. specialize (A i Hi). lra.
  - intros v Hv. specialize (B (- v)%Q). assert (- v <= u)%Q; [|lra]. apply B. intros i Hi. specialize (Hv i Hi). cbn in Hv. lra.
  - split; auto. exists i. split; auto. lra.
Qed.

Lemma root_box_tight : sp_pts sp <> [] -> forall d, d < n ->
  is_min (fun i => x i d) (seq 0 (npts sp)) (box_lo val (sp_bounding_box sp) d)
  /\ is_max (fun i => x i d) (seq 0 (npts sp)) (box_hi val (sp_bounding_box sp) d).
Proof.
  intros NE d Hd.
  assert (EB : sp_bounding_box sp = compute_bounding_box sp (seq 0 (npts sp))).
  { unfold sp_bounding_box, compute_bounding_box, npts.
    generalize (box_inverse_max (T := T) (sp_sdim sp)) as b. intros b.
    assert (K : forall (pts pre : list (list T)) b, fold_left box_fit pts b =
      fold_left (fun b i => box_fit b (nth i (pre ++ pts) [])) (seq (length pre) (length pts)) b).
    { induction pts as [|p pts IH]; intros pre b0; [reflexivity|]. cbn [fold_left seq length].
      rewrite app_nth2, Nat.sub_diag by lia. cbn [nth].
      rewrite (IH (pre ++ [p])). rewrite <- app_assoc, app_length. cbn [length app].
      rewrite Nat.add_1_r. reflexivity. }
    apply (K (sp_pts sp) []). }
  assert (F : Forall (fun i => in_space sp i = true) (seq 0 (npts sp))).
  { apply Forall_forall. intros i Hi. apply In_seq0 in Hi. apply in_space_lt. exact Hi. }
  assert (NS : seq 0 (npts sp) <> []).
  { unfold npts. destruct (sp_pts sp); [congruence|]. cbn. congruence. }
  destruct (compute_bounding_box_spec (fun _ => True) (exact_ord val EL) sp WF (all_coords_true sp) _ F) as (W & _ & H).
  rewrite EB. split.
  - apply min_attained; auto.
    + intros i Hi. apply (leb_val val EL). apply (H i Hi d Hd).
    + intros v Hv. apply (bbox_min val EL sp WF REP (seq 0 (npts sp)) d v F NS Hd). exact Hv.
  - apply max_attained; auto.
    + intros i Hi. apply (leb_val val EL). apply (H i Hi d Hd).
    + intros v Hv. apply (bbox_max val EL sp WF REP (seq 0 (npts sp)) d v F NS Hd). exact Hv.
Qed.

Lemma spans_every_branch {B} (R : B -> list nat -> list nat -> Prop) (nd : node B) b l :
  node_spans R nd b l -> forall pre post, length pre = b -> every_branch_at R (pre ++ l ++ post) nd.
Proof.
  induction 1 as [b l|br nl nr b l r H1 IH1 H2 IH2 HR]; intros pre post Hp; cbn [every_branch_at]; auto.
  assert (E1 : pre ++ (l ++ r) ++ post = pre ++ l ++ (r ++ post)) by (rewrite !app_assoc; reflexivity).
  assert (E2 : pre ++ (l ++ r) ++ post = (pre ++ l) ++ r ++ post) by (rewrite !app_assoc; reflexivity).
  split; [|split].
  - rewrite E1 at 1. rewrite (spans_node_indices _ _ _ _ H1) by auto.
    rewrite E2, (spans_node_indices _ _ _ _ H2) by (rewrite app_length; lia). auto.
  - rewrite E1. apply IH1; auto.
  - rewrite E2. apply IH2. rewrite app_length; lia.
Qed.

Lemma order_tight c ru lo hi br l r : ru <> midpoint_max_side -> l <> [] -> r <> [] ->
  R_order val sp c ru lo hi br l r -> tight_branch val sp c br l r.
Proof.
  intros Hru Nl Nr (lb & rb & d & [-> Hd _ _ Hl Hr _ _ _ _ _ Ti]).
  specialize (Ti Hru).
  assert (Ml : is_max (fun i => x i d) l (cmax val lb d)).
  { apply max_attained; auto.
    - intros i Hi. apply (leb_val val EL). apply (Hl i Hi d Hd).
    - intros v Hv. apply (Ti d v Hd). exact Hv. }
  assert (ml : is_min (fun i => x i d) l (cmin val lb d)).
  { apply min_attained; auto.
    - intros i Hi. apply (leb_val val EL). apply (Hl i Hi d Hd).
    - intros v Hv. apply (Ti d v Hd). exact Hv. }
  assert (Mr : is_max (fun i => x i d) r (cmax val rb d)).
  { apply max_attained; auto.
    - intros i Hi. apply (leb_val val EL). apply (Hr i Hi d Hd).
    - intros v Hv. apply (Ti d v Hd). exact Hv. }
  assert (mr : is_min (fun i => x i d) r (cmin val rb d)).
  { apply min_attained; auto.
    - intros i Hi. apply (leb_val val EL). apply (Hr i Hi d Hd).
    - intros v Hv. apply (Ti d v Hd). exact Hv. }
  destruct c; (split; [exact Hd|split; [exact Ml|split; [exact mr|]]]); [exact I|split; auto].
Qed.

Lemma node_points_len {B} (nd : node B) : node_points nd = node_len nd.
Proof. induction nd; cbn; auto. Qed.

Lemma tight_spans c ru lo hi nd b l : ru <> midpoint_max_side ->
  node_spans (R_order val sp c ru lo hi) nd b l ->
  every_branch (fun _ l r => 1 <= node_points l /\ 1 <= node_points r) nd ->
  node_spans (tight_branch val sp c) nd b l.
Proof.
  intros Hru. induction 1 as [b l|br nl nr b l r H1 IH1 H2 IH2 HR]; intros EB; constructor;
    cbn [every_branch] in EB; destruct EB as ([A B] & EB1 & EB2); auto.
  rewrite node_points_len in A, B. rewrite (node_spans_len _ _ _ _ H1) in A. rewrite (node_spans_len _ _ _ _ H2) in B.
  eapply order_tight; eauto; apply length_nonnil; lia.
Qed.

Lemma build_tight c it fuel stop bnds ru t : ru <> midpoint_max_side ->
  build c alg it fuel sp stop bnds ru = Ok t ->
  every_branch_at (tight_branch val sp c) (kd_indices t) (kd_root t).
Proof.
  intros Hru H.
  pose proof (build_nonempty (fun _ => True) (exact_ord val EL) sp WF (all_coords_true sp) alg SL _ _ _ _ _ _ _ Hru H) as (_ & _ & EB & _).
  apply build_inv in H as (_ & [Hn HD] & bx' & H & _).
  apply (create_node_order val EL sp WF REP alg SL c ru it stop
           (fun _ => val s_lowest) (fun _ => val s_max)) in H.
  - destruct H as (_ & _ & _ & _ & N). apply tight_spans in N; auto.
    pose proof (spans_every_branch _ _ _ _ N [] [] eq_refl) as K. cbn [app] in K. rewrite app_nil_r in K. exact K.
  - intros i d Hi Hd. apply (ok_coord (representable val) sp WF REP); auto.
  - apply box_from_bounds_wf.
  - congruence.
  - left. apply length_nonnil. rewrite seq_length. lia.
Qed.

End Tight.
