(** Trees in memory behave as the trees they represent. *)
From Coq Require Import List ZArith Bool Arith Lia Permutation.
From Verif Require Import Base Lemmas ModelBox ModelBuild ModelSearch ModelSerial ModelMemory
  SpecMemory MemoryThms ModelHeap SpecHeap.
Import ListNotations.
Local Open Scope nat_scope.

Lemma bind_ext {A B} (r : res A) (f g : A -> res B) : (forall a, f a = g a) -> bind r f = bind r g.
Proof. intros H. destruct r; cbn; auto. Qed.

Lemma chunk_pos : 0 < node_chunk.
Proof. unfold node_chunk. lia. Qed.

(** * Representation *)
Section Repr.
Context {B : Type}.

(** The node [n] lies at [p]; [fp] are the nodes it consists of. *)
Fixpoint repr (m : cells B) (n : node B) (p : ptr) (fp : list ptr) : Prop :=
  match n with
  | Leaf b e => m p = Cell CNull CNull (PLeaf b e) /\ fp = [p]
  | Branch br l r =>
      exists pl pr fl fr, m p = Cell (CPtr pl) (CPtr pr) (PBranch br) /\ fp = p :: fl ++ fr
        /\ repr m l pl fl /\ repr m r pr fr
  end.

Lemma repr_ext m m' n : forall p fp, repr m n p fp -> (forall q, In q fp -> m' q = m q) -> repr m' n p fp.
Proof.
  induction n as [b e|br l IHl r IHr]; intros p fp H K; cbn [repr] in *.
  - destruct H as [H ->]. rewrite K by (left; auto). auto.
  - destruct H as (pl & pr & fl & fr & H & -> & Hl & Hr). exists pl, pr, fl, fr.
    rewrite K by (left; auto). repeat split; auto.
    + apply IHl; auto. intros q Hq. apply K. right. apply in_or_app. auto.
    + apply IHr; auto. intros q Hq. apply K. right. apply in_or_app. auto.
Qed.

Lemma repr_head m n p fp : repr m n p fp -> exists fp', fp = p :: fp'.
Proof. destruct n; cbn; [intros [_ ->]|intros (? & ? & ? & ? & _ & -> & _)]; eauto. Qed.
End Repr.

Lemma ptr_eqb_spec (p q : ptr) : ((fst q =? fst p) && (snd q =? snd p))%nat = true <-> q = p.
Proof.
  destruct p, q. cbn [fst snd]. rewrite andb_true_iff, !Nat.eqb_eq. split; [intros [-> ->]; auto|].
  intros H. injection H; auto.
Qed.
Lemma set_cell_same {B} (m : cells B) p v : set_cell m p v p = v.
Proof. unfold set_cell. rewrite !Nat.eqb_refl. reflexivity. Qed.
Lemma set_cell_other {B} (m : cells B) p v q : q <> p -> set_cell m p v q = m q.
Proof.
  intros H. unfold set_cell. destruct (_ && _) eqn:E; auto. apply ptr_eqb_spec in E. contradiction.
Qed.

(** * Following pointers *)
Definition all_live (h : heap) (fp : list ptr) : Prop := forall p, In p fp -> live_ptr h p = true.

Ltac start Hf Hr Hv :=
  cbn [as_ptr bind]; unfold load_cell; rewrite Hv by (left; reflexivity); cbn [guard bind]; rewrite Hr;
  unfold cell_is_leaf; cbn [cl_left cl_right is_null bind cell_leaf cell_branch cl_data fst snd].

Lemma live_split h p fl fr : all_live h (p :: fl ++ fr) -> all_live h fl /\ all_live h fr.
Proof. intros H. split; intros z Hz; apply H; right; apply in_or_app; auto. Qed.

Ltac prep n :=
  induction n as [b e|br l IHl r IHr]; intros p fp fuel; [intros [Hr ->]|intros (pl & pr & fl & fr & Hr & -> & Hl & Hrr)];
  intros Hv Hf; (destruct fuel as [|fuel]; [cbn [length] in Hf; lia|]);
  cbn [length] in Hf; try rewrite app_length in Hf;
  try match goal with
  | Hv : all_live _ (_ :: _ ++ _), Hl : repr _ _ _ _, Hrr : repr _ _ _ _, IHl : _, IHr : _ |- _ =>
      destruct (live_split _ _ _ _ Hv) as [Vl Vr]
  end.

Section Follow.
Context {T : Type} {SC : Scalar T}.
Variable c : category.
Local Notation B := (branch_data c T).
Variables (h : heap) (mem : cells B).

Lemma leaf_range_ok indices n : forall p fp fuel, repr mem n p fp -> all_live h fp -> length fp < fuel ->
  forall ranges, insert_leaf_range_h c h mem indices fuel (CPtr p) ranges = insert_leaf_range indices n ranges.
Proof.
  prep n; intros ranges; cbn [insert_leaf_range_h insert_leaf_range]; start Hf Hr Hv.
  - destruct (Nat.eqb_spec b e) as [E|E]; cbn [negb]; auto. cbn in Hf. destruct fuel; [lia|]. reflexivity.
  - rewrite (IHl pl fl) by (auto; lia). apply bind_ext. intros a. apply (IHr pr fr); auto; lia.
Qed.

Lemma write_ok little it tc pads n : forall p fp fuel, repr mem n p fp -> all_live h fp -> length fp <= fuel ->
  forall pos, write_node_h c h mem little it tc pads fuel (CPtr p) pos
              = Ok (write_node little it tc pads c n pos).
Proof.
  prep n; intros pos; cbn [write_node_h write_node]; start Hf Hr Hv; auto.
  rewrite (IHl pl fl) by (auto; lia). cbn [bind]. rewrite (IHr pr fr) by (auto; lia). reflexivity.
Qed.

Lemma report_left_ok n : forall p fp fuel, repr mem n p fp -> all_live h fp -> length fp <= fuel ->
  report_left_h c h mem fuel (CPtr p) = Ok (report_left n).
Proof. prep n; cbn [report_left_h report_left]; start Hf Hr Hv; auto. apply (IHl pl fl); auto; lia. Qed.
Lemma report_right_ok n : forall p fp fuel, repr mem n p fp -> all_live h fp -> length fp <= fuel ->
  report_right_h c h mem fuel (CPtr p) = Ok (report_right n).
Proof. prep n; cbn [report_right_h report_right]; start Hf Hr Hv; auto. apply (IHr pr fr); auto; lia. Qed.

Lemma report_node_ok indices n p fp fuel : repr mem n p fp -> all_live h fp -> length fp <= fuel ->
  forall idxs, report_node_h c h mem indices fuel (CPtr p) idxs = report_node indices n idxs.
Proof.
  destruct n as [b e|br l r]; cbn [repr].
  - intros [Hr ->] Hv Hf idxs. unfold report_node_h. start Hf Hr Hv. reflexivity.
  - intros (pl & pr & fl & fr & Hr & -> & Hl & Hrr) Hv Hf idxs. unfold report_node_h. start Hf Hr Hv.
    cbn [length] in Hf. rewrite app_length in Hf.
    rewrite (report_left_ok l pl fl), (report_right_ok r pr fr); auto; try lia; intros z Hz; apply Hv; right;
      apply in_or_app; auto.
Qed.

Lemma search_box_ok m sp indices query n : forall p fp fuel, repr mem n p fp -> all_live h fp -> length fp <= fuel ->
  forall st, search_box_node_h c h mem m sp indices query fuel (CPtr p) st
             = search_box_node m sp indices query c n st.
Proof.
  prep n; intros st; cbn [search_box_node_h search_box_node]; start Hf Hr Hv; auto.
  apply bind_ext. intros old_max. apply bind_ext. intros in_left.
  rewrite (report_node_ok indices l pl fl) by (auto; lia). rewrite (IHl pl fl) by (auto; lia).
  apply bind_ext. intros st1. apply bind_ext. intros old_min. apply bind_ext. intros in_right.
  rewrite (report_node_ok indices r pr fr) by (auto; lia). rewrite (IHr pr fr) by (auto; lia). reflexivity.
Qed.
End Follow.

Section FollowNearest.
Context {T : Type} {SC : Scalar T} {V : Type}.
Variables (h : heap) (m : metric T) (vis : visitor T V) (sp : space T) (indices : list nat) (q : list T).

Lemma nearest_euclidean_ok (mem : cells (branch_single T)) n : forall p fp fuel,
  repr mem n p fp -> all_live h fp -> length fp <= fuel -> forall d st,
  search_nearest_euclidean_h h m vis sp indices q mem fuel (CPtr p) d st
  = search_nearest_euclidean m vis sp indices q n d st.
Proof.
  prep n; intros d st; cbn [search_nearest_euclidean_h search_nearest_euclidean]; start Hf Hr Hv; auto.
  apply bind_ext. intros v. destruct (s_ltb _ _).
  - rewrite (IHl pl fl) by (auto; lia). apply bind_ext. intros st1. apply bind_ext. intros oo. destruct (s_leb _ _); auto.
    rewrite (IHr pr fr) by (auto; lia). reflexivity.
  - rewrite (IHr pr fr) by (auto; lia). apply bind_ext. intros st1. apply bind_ext. intros oo. destruct (s_leb _ _); auto.
    rewrite (IHl pl fl) by (auto; lia). reflexivity.
Qed.

Lemma nearest_topological_ok (mem : cells (branch_double T)) n : forall p fp fuel,
  repr mem n p fp -> all_live h fp -> length fp <= fuel -> forall d st,
  search_nearest_topological_h h m vis sp indices q mem fuel (CPtr p) d st
  = search_nearest_topological m vis sp indices q n d st.
Proof.
  prep n; intros d st; cbn [search_nearest_topological_h search_nearest_topological]; start Hf Hr Hv; auto.
  apply bind_ext. intros v. apply bind_ext. intros d1. apply bind_ext. intros d2. destruct (s_ltb _ _).
  - rewrite (IHl pl fl) by (auto; lia). apply bind_ext. intros st1. apply bind_ext. intros oo. destruct (s_leb _ _); auto.
    rewrite (IHr pr fr) by (auto; lia). reflexivity.
  - rewrite (IHr pr fr) by (auto; lia). apply bind_ext. intros st1. apply bind_ext. intros oo. destruct (s_leb _ _); auto.
    rewrite (IHl pl fl) by (auto; lia). reflexivity.
Qed.
End FollowNearest.

Lemma skipn_skipn_add {A} (l : list A) : forall a b, skipn a (skipn b l) = skipn (b + a) l.
Proof.
  induction l as [|x l IH]; intros a b; [rewrite !skipn_nil; auto|]. destruct b; cbn [skipn Nat.add]; auto.
Qed.
Lemma skipn_app_exact {A} (x y : list A) n : n = length x -> skipn n (x ++ y) = y.
Proof. intros ->. rewrite skipn_app, skipn_all, Nat.sub_diag. reflexivity. Qed.
Lemma firstn_app_exact {A} (x y : list A) n : n = length x -> firstn n (x ++ y) = x.
Proof. intros ->. rewrite firstn_app, firstn_all, Nat.sub_diag. apply app_nil_r. Qed.
(** * Vectors overwritten in place *)
Lemma overwrite_length {A} (l : list A) b new : b + length new <= length l -> length (overwrite l b new) = length l.
Proof. intros H. unfold overwrite. rewrite !app_length, firstn_length, skipn_length. lia. Qed.
Lemma overwrite_seg_left {A} (l : list A) b u v : b + length (u ++ v) <= length l ->
  firstn (length u) (skipn b (overwrite l b (u ++ v))) = u.
Proof.
  intros H. rewrite app_length in H. unfold overwrite. rewrite skipn_app, firstn_length, skipn_all2, Nat.min_l by (rewrite ?firstn_length; lia).
  rewrite Nat.sub_diag. cbn [skipn app]. rewrite <- !app_assoc, firstn_app, firstn_all, Nat.sub_diag. cbn [firstn].
  apply app_nil_r.
Qed.
Lemma overwrite_assoc {A} (l : list A) b u v : b + length (u ++ v) <= length l ->
  overwrite l b (u ++ v) = firstn b l ++ u ++ v ++ skipn (b + length (u ++ v)) l.
Proof. intros. unfold overwrite. rewrite <- !app_assoc. reflexivity. Qed.
Lemma overwrite_seg_right {A} (l : list A) b u v : b + length (u ++ v) <= length l ->
  firstn (length v) (skipn (b + length u) (overwrite l b (u ++ v))) = v.
Proof.
  intros H. rewrite overwrite_assoc by auto. rewrite app_length in H.
  rewrite app_assoc, skipn_app, skipn_all2 by (rewrite app_length, firstn_length; lia).
  rewrite app_length, firstn_length, Nat.min_l by lia. rewrite Nat.sub_diag. cbn [skipn app].
  rewrite firstn_app, firstn_all, Nat.sub_diag. cbn [firstn]. apply app_nil_r.
Qed.
Lemma overwrite_left {A} (l : list A) b u u' v : b + length (u ++ v) <= length l -> length u' = length u ->
  overwrite (overwrite l b (u ++ v)) b u' = overwrite l b (u' ++ v).
Proof.
  intros H E. rewrite !overwrite_assoc by (rewrite ?app_length in *; lia).
  unfold overwrite. rewrite app_length in H.
  rewrite firstn_app, firstn_firstn, Nat.min_id, firstn_length, Nat.min_l by lia. rewrite Nat.sub_diag. cbn [firstn].
  rewrite app_nil_r. f_equal. f_equal.
  rewrite E, app_assoc, skipn_app, skipn_all2 by (rewrite app_length, firstn_length; lia).
  rewrite app_length, firstn_length, Nat.min_l by lia. rewrite Nat.sub_diag. cbn [skipn app].
  rewrite !app_length, E. reflexivity.
Qed.
Lemma overwrite_right {A} (l : list A) b u v v' : b + length (u ++ v) <= length l -> length v' = length v ->
  overwrite (overwrite l b (u ++ v)) (b + length u) v' = overwrite l b (u ++ v').
Proof.
  intros H E. rewrite (overwrite_assoc l b u v') by (rewrite ?app_length in *; lia).
  unfold overwrite at 1. rewrite overwrite_assoc by auto.
  assert (E1 : firstn (b + length u) (firstn b l ++ u ++ v ++ skipn (b + length (u ++ v)) l) = firstn b l ++ u).
  { rewrite app_assoc. apply firstn_app_exact. rewrite app_length, firstn_length. rewrite app_length in H. lia. }
  rewrite E1, <- app_assoc. f_equal. f_equal. f_equal.
  replace (firstn b l ++ u ++ v ++ skipn (b + length (u ++ v)) l)
    with ((firstn b l ++ u ++ v) ++ skipn (b + length (u ++ v)) l) by (rewrite <- !app_assoc; auto).
  rewrite skipn_app_exact by (rewrite !app_length, firstn_length; rewrite app_length in H; lia).
  rewrite !app_length, E. reflexivity.
Qed.
Lemma overwrite_same {A} (l : list A) b n : b + n <= length l -> overwrite l b (firstn n (skipn b l)) = l.
Proof.
  intros H. unfold overwrite. rewrite firstn_length, skipn_length, Nat.min_l by lia.
  rewrite <- (firstn_skipn b l) at 4. f_equal. rewrite <- (firstn_skipn n (skipn b l)) at 2. f_equal.
  rewrite skipn_skipn_add. reflexivity.
Qed.

(** * Building and loading *)
Lemma rel_ext s s' ch ps ps' : (forall x, m_var s x = m_var s' x) -> (forall x, ps x = ps' x) ->
  rel node_chunk s ch ps -> rel node_chunk s' ch ps'.
Proof.
  intros EV EP [A B C]. constructor; intros x.
  - rewrite <- EV, <- EP. auto.
  - intros al pl. rewrite <- EV, <- EP. apply B.
  - intros al pl. rewrite <- EV, <- EP. apply C.
Qed.
Lemma inv_ext s s' ch : (forall x, m_var s x = m_var s' x) -> m_heap s = m_heap s' -> inv s ch -> inv s' ch.
Proof.
  intros EV EH [A B C D F]. constructor; auto.
  - rewrite <- EH. auto.
  - intros x al. rewrite <- EV, <- EH. apply B.
  - intros x. rewrite <- EV. apply C.
Qed.

Section Builder.
Context {T : Type} {SC : Scalar T}.
Variable c : category.
Local Notation B := (branch_data c T).
(** The other objects, and the name of the one under construction. *)
Variables (vars : nat -> option allocator) (ps : pools) (x : nat).
Variable cov : Prop.
Variable ch0 : nat -> list nat.

Definition b_mem (s : bstate T c) : mem := Mem (set_var vars x (Some (b_alloc s))) (b_heap s).
Definition b_pools (objs : list ptr) : pools := set_var ps x (Some (Pool objs false)).
Definition b_inv (s : bstate T c) (objs : list ptr) : Prop :=
  exists ch, inv (b_mem s) ch /\ rel node_chunk (b_mem s) ch (b_pools objs)
    /\ (cov -> forall a, In a (addrs (h_live (b_heap s))) -> exists z, In a (ch z))
    /\ NoDup (addrs (h_live (b_heap s)))
    /\ (node_chunk * length (ch x) + al_index (b_alloc s) = node_chunk + length objs /\ 1 <= al_index (b_alloc s))
    /\ (forall y, y <> x -> ch y = ch0 y).

(** What the objects of the others and of this one are good for. *)
Lemma b_inv_objs s objs : b_inv s objs ->
  NoDup objs /\ all_live (b_heap s) objs
  /\ (forall y pl, y <> x -> ps y = Some pl -> all_live (b_heap s) (p_objs pl)
       /\ forall q, In q (p_objs pl) -> ~ In q objs).
Proof.
  intros (ch & I & R & _). destruct (rel_valid _ _ _ _ I R) as [[N D] V].
  assert (L : forall y pl, b_pools objs y = Some pl -> all_live (b_heap s) (p_objs pl)).
  { intros y pl E p Hp. destruct (V y pl p E Hp) as [V1 V2]. unfold live_ptr.
    apply find_in in V1. change (h_live (m_heap (b_mem s))) with (h_live (b_heap s)) in V1.
    destruct (find_node _ _); [|congruence]. apply Nat.ltb_lt in V2. rewrite V2. reflexivity. }
  assert (EX : b_pools objs x = Some (Pool objs false)) by apply set_var_same.
  split; [exact (N x _ EX)|]. split; [exact (L x _ EX)|].
  intros y pl NE E. assert (EY : b_pools objs y = Some pl) by (unfold b_pools; rewrite set_var_other; auto).
  split; [exact (L y _ EY)|]. intros q H1 H2. apply NE. exact (D y x pl _ q EY EX H1 H2).
Qed.

Lemma b_allocate_ok s objs : b_inv s objs -> exists s' p,
  b_allocate c s = Ok (s', p) /\ b_inv s' (p :: objs) /\ b_cells s' = b_cells s /\ b_indices s' = b_indices s.
Proof.
  intros (ch & I & R & C & ND & [CT CT1] & CO).
  destruct (step_ok _ chunk_pos _ _ _ (OpAlloc x) I R) as (s1 & p & E & R1).
  { cbn. unfold b_pools. rewrite set_var_same. cbn. discriminate. }
  pose proof (step_inv _ chunk_pos _ _ _ _ _ I E) as I1.
  cbn [mem_step b_mem m_var m_heap] in E. rewrite set_var_same in E.
  unfold b_allocate. destruct (allocate node_chunk (b_heap s) (b_alloc s)) as [[[h' al'] q]| |] eqn:EA; try discriminate.
  cbn [bind] in *. injection E as <- <-.
  eexists _, q. split; [reflexivity|]. split; [|split; reflexivity].
  exists (chains_step node_chunk (b_mem s) ch (OpAlloc x)). repeat apply conj.
  - eapply inv_ext; [| |exact I1]; [|reflexivity]. intros z. cbn [m_var b_mem b_alloc]. unfold set_var. destruct (z =? x); auto.
  - eapply rel_ext; [| |exact R1].
    + intros z. cbn [m_var b_mem b_alloc]. unfold set_var. destruct (z =? x); auto.
    + intros z. cbn [pool_step]. unfold b_pools at 1. rewrite set_var_same.
      unfold b_pools, set_var. cbn [p_objs p_moved]. destruct (z =? x); auto.
  - intros K a. cbn [b_heap]. specialize (C K a).
    apply (allocate_inv _ chunk_pos) in EA. cbn [chains_step b_mem m_var m_heap]. rewrite set_var_same.
    destruct EA as [(N & -> & _)|(EI & -> & _ & _)].
    + apply Nat.eqb_neq in N. rewrite N. auto.
    + rewrite EI, Nat.eqb_refl. cbn [h_live addrs map fst]. intros [<-|Ha].
      * exists x. rewrite set_var_same. left. auto.
      * destruct (C Ha) as [z Hz]. exists z. unfold set_var. destruct (Nat.eqb_spec z x); subst; auto. right. auto.
  - cbn [b_heap]. apply (allocate_inv _ chunk_pos) in EA as [(_ & -> & _)|(_ & -> & _)]; auto.
    cbn [h_live addrs map fst]. constructor; auto. intros H. apply (inv_fresh _ _ I) in H. cbn [b_mem m_heap] in H. lia.
  - cbn [b_alloc length chains_step b_mem m_var m_heap]. rewrite set_var_same.
    apply (allocate_inv _ chunk_pos) in EA as [(N & _ & k & _ & _ & _ & _ & ->)|(EI & _ & _ & ->)]; cbn [al_index].
    + apply Nat.eqb_neq in N. rewrite N. lia.
    + rewrite EI, Nat.eqb_refl, set_var_same. cbn [length]. lia.
  - cbn [b_alloc].
    apply (allocate_inv _ chunk_pos) in EA as [(N & _ & k & _ & _ & _ & _ & ->)|(EI & _ & _ & ->)]; cbn [al_index]; lia.
  - intros y NE. cbn [chains_step b_mem m_var m_heap]. rewrite set_var_same. destruct (_ =? _); auto.
    rewrite set_var_other; auto.
Qed.

Lemma b_store_ok s objs p f : b_inv s objs -> In p objs ->
  let s' := BState (b_heap s) (set_cell (b_cells s) p (f (b_cells s p))) (b_alloc s) (b_indices s) in
  b_store c s p f = Ok s' /\ b_inv s' objs.
Proof.
  intros H Hp s'. destruct (b_inv_objs _ _ H) as (_ & L & _). unfold b_store, store_cell.
  rewrite (L p Hp). split; [reflexivity|exact H].
Qed.
Lemma b_inv_indices h m al l l' objs : b_inv (BState h m al l) objs -> b_inv (BState h m al l') objs.
Proof. auto. Qed.

Lemma splitter_length alg ru (sp : space T) seg bx l r d v : std_in_place alg ->
  splitter alg ru sp seg bx = Ok (l, r, d, v) -> length (l ++ r) = length seg.
Proof.
  intros [P N] H. rewrite app_length. destruct ru; cbn [splitter] in H.
  - unfold split_median in H. okbind H. destruct a as [d0 delta]. okbind H. okbind H. injection H as <- <- _ _.
    rewrite firstn_length, skipn_length, N. pose proof (Nat.div_le_upper_bound (length seg) 2 (length seg)). lia.
  - unfold split_midpoint in H. okbind H. destruct a as [d0 delta].
    match type of H with context [std_partition alg ?f seg] => pose proof (P f seg) as Q; destruct (std_partition alg f seg) as [l0 r0] end.
    injection H as <- <- _ _. exact Q.
  - unfold split_sliding in H. okbind H. destruct a as [d0 delta].
    match type of H with context [std_partition alg ?f seg] => pose proof (P f seg) as Q; destruct (std_partition alg f seg) as [l0 r0] end.
    cbn [fst snd] in Q. rewrite <- app_length in Q. destruct r0 as [|a r0].
    + destruct (length (l0 ++ [])) as [|k] eqn:EL; [discriminate|]. okbind H. okbind H. injection H as <- <- _ _.
      rewrite firstn_length, skipn_length, N. lia.
    + destruct l0 as [|b l0].
      * match type of H with context [std_nth_element alg ?f ?k ?s] => pose proof (N f k s) as QN; set (sg := std_nth_element alg f k s) in * end.
        clearbody sg. destruct sg as [|y sg]; [discriminate|].
        okbind H. okbind H. injection H as <- <- _ _. cbn [firstn skipn length app] in *. lia.
      * injection H as <- <- _ _. rewrite <- app_length. exact Q.
Qed.

(** What a function that creates nodes does: [n] the node it stands for. *)
Definition made (s : bstate T c) (objs : list ptr) (s' : bstate T c) (p : ptr) (n : node B) : Prop :=
  exists fp objs', b_inv s' objs' /\ Permutation objs' (fp ++ objs) /\ repr (b_cells s') n p fp
    /\ (forall q, ~ In q fp -> b_cells s' q = b_cells s q).

Lemma made_leaf s objs s1 p b e : b_inv s1 (p :: objs) -> b_cells s1 = b_cells s ->
  made s objs (BState (b_heap s1) (set_cell (b_cells s1) p (set_leaf b e (b_cells s1 p))) (b_alloc s1) (b_indices s1)) p (Leaf b e).
Proof.
  intros I E. exists [p], (p :: objs). split; [exact I|]. split; [reflexivity|]. split; cbn [repr b_cells].
  - rewrite set_cell_same. auto.
  - intros q Hq. rewrite set_cell_other, E; auto. intros ->. apply Hq. left. auto.
Qed.

(** A new node [p], then a left and a right child, with stores to [p] alone in
    between. *)
Lemma made_branch s objs p br nl nr pl pr s1 s2 s3 s4 s5 :
  b_inv s1 (p :: objs) -> (forall q, q <> p -> b_cells s1 q = b_cells s q) ->
  made s1 (p :: objs) s2 pl nl ->
  (b_heap s3 = b_heap s2 /\ b_alloc s3 = b_alloc s2 /\ forall q, q <> p -> b_cells s3 q = b_cells s2 q) ->
  (forall objs2, b_inv s3 objs2 -> In p objs2 -> made s3 objs2 s4 pr nr) ->
  (b_heap s5 = b_heap s4 /\ b_alloc s5 = b_alloc s4 /\ forall q, q <> p -> b_cells s5 q = b_cells s4 q) ->
  b_cells s5 p = Cell (CPtr pl) (CPtr pr) (PBranch br) ->
  made s objs s5 p (Branch br nl nr).
Proof.
  intros I1 E1 (fl & o2 & I2 & P2 & R2 & F2) (H3 & A3 & E3) M4 (H5 & A5 & E5) EP.
  assert (I3 : b_inv s3 o2) by (unfold b_inv, b_mem in *; rewrite H3, A3; exact I2).
  assert (IP : In p o2) by (eapply Permutation_in; [symmetry; exact P2|apply in_or_app; right; left; auto]).
  destruct (M4 o2 I3 IP) as (fr & o4 & I4 & P4 & R4 & F4).
  assert (I5 : b_inv s5 o4) by (unfold b_inv, b_mem in *; rewrite H5, A5; exact I4).
  destruct (b_inv_objs _ _ I5) as (ND & _).
  assert (PP : Permutation o4 ((p :: fl ++ fr) ++ objs)).
  { rewrite P4, P2. cbn [app]. rewrite <- app_assoc.
    rewrite (Permutation_app_comm fr). rewrite <- app_assoc. cbn [app].
    rewrite <- (Permutation_middle fl). constructor. apply Permutation_app_head. apply Permutation_app_comm. }
  rewrite PP in ND. cbn [app] in ND. apply NoDup_cons_iff in ND as [NP ND]. rewrite <- app_assoc in ND.
  assert (DP : ~ In p fl /\ ~ In p fr).
  { rewrite <- app_assoc, !in_app_iff in NP. tauto. }
  assert (DJ : forall q, In q fl -> ~ In q fr).
  { intros q H1 H2. clear - ND H1 H2. induction fl as [|a fl IH]; [contradiction|]. cbn [app] in ND.
    apply NoDup_cons_iff in ND as [ND1 ND2]. destruct H1 as [->|H1]; auto. apply ND1. rewrite !in_app_iff. auto. }
  exists (p :: fl ++ fr), o4. split; [exact I5|]. split; [exact PP|]. split.
  - cbn [repr]. exists pl, pr, fl, fr. repeat split; auto.
    + eapply repr_ext; [exact R2|]. intros q Hq.
      assert (q <> p) by (intros ->; tauto).
      rewrite E5, F4, E3; auto.
    + eapply repr_ext; [exact R4|]. intros q Hq. apply E5. intros ->. tauto.
  - intros q Hq. cbn [In] in Hq. rewrite in_app_iff in Hq.
    assert (q <> p) by (intros ->; tauto).
    rewrite E5, F4, E3, F2, E1; tauto.
Qed.

Lemma slice_ok {A} (l : list A) b e : b <= e -> e <= length l -> slice l b e = Ok (firstn (e - b) (skipn b l)).
Proof.
  intros H1 H2. unfold slice. destruct (Nat.leb_spec b (length l)); [|lia]. destruct (Nat.leb_spec e (length l)); [|lia].
  reflexivity.
Qed.

Lemma create_ok alg ru it stop (sp : space T) : std_in_place alg -> forall fuel depth b e bx s objs,
  b_inv s objs -> b <= e -> e <= length (b_indices s) ->
  match create_node c alg ru it stop sp fuel depth b (firstn (e - b) (skipn b (b_indices s))) bx with
  | Ok (n, seg', bx') =>
      exists s' p, create_node_h c alg ru it stop sp fuel depth b e bx s = Ok (s', p, bx')
        /\ length seg' = e - b /\ b_indices s' = overwrite (b_indices s) b seg' /\ made s objs s' p n
  | Ub w => create_node_h c alg ru it stop sp fuel depth b e bx s = Ub w
  | OutOfFuel => create_node_h c alg ru it stop sp fuel depth b e bx s = OutOfFuel
  end.
Proof.
  intros AL. induction fuel as [|fuel IH]; intros depth b e bx s objs I BE EL; cbn [create_node create_node_h]; auto.
  destruct (b_allocate_ok _ _ I) as (s0 & p & E0 & I0 & C0 & D0). rewrite E0. cbn [bind].
  rewrite D0, slice_ok by auto. cbn [bind].
  set (seg := firstn (e - b) (skipn b (b_indices s))).
  assert (LS : length seg = e - b) by (unfold seg; rewrite firstn_length, skipn_length; lia).
  rewrite LS. destruct (is_leaf it stop depth (e - b)).
  - destruct (b_store_ok _ _ p (set_leaf b e) I0) as [ES IS]; [left; auto|]. rewrite ES. cbn [bind].
    destruct (guard _ _); cbn [bind]; auto.
    eexists _, _. split; [|split; [exact LS|split]].
    + f_equal. f_equal. destruct ru; auto.
      destruct (Nat.ltb_spec b e); destruct seg; auto; cbn [length] in LS; lia.
    + cbn [b_indices]. rewrite D0. unfold seg. rewrite overwrite_same by lia. reflexivity.
    + replace (b + (e - b)) with e by lia. apply made_leaf; auto.
  - destruct (splitter alg ru sp seg bx) as [[[[l r] d] v]| |] eqn:ESP; cbn [bind]; auto.
    pose proof (splitter_length _ _ _ _ _ _ _ _ _ AL ESP) as LR. rewrite LS in LR.
    rewrite app_length in LR.
    set (s1 := BState (b_heap s0) (b_cells s0) (b_alloc s0) (overwrite (b_indices s) b (l ++ r))).
    assert (I1 : b_inv s1 (p :: objs)) by exact I0.
    assert (LB : b + length (l ++ r) <= length (b_indices s)) by (rewrite app_length; lia).
    assert (L1 : length (b_indices s1) = length (b_indices s)) by (apply overwrite_length; auto).
    pose proof (IH (depth + 1) b (b + length l) (box_set_max bx d v) s1 (p :: objs) I1) as A.
    specialize (A ltac:(lia) ltac:(lia)).
    replace (b + length l - b) with (length l) in A by lia.
    replace (firstn (length l) (skipn b (b_indices s1))) with l in A
      by (symmetry; apply overwrite_seg_left; auto).
    destruct (create_node c alg ru it stop sp fuel (depth + 1) b l (box_set_max bx d v)) as [[[nl segl] lb]| |]; cbn [bind];
      [|rewrite A; auto|rewrite A; auto].
    destruct A as (s2 & pl & A1 & A2 & A3 & A4). rewrite A1. cbn [bind].
    destruct A4 as (fl & o2 & I2 & P2 & R2 & F2).
    assert (IP : In p o2) by (eapply Permutation_in; [symmetry; exact P2|apply in_or_app; right; left; auto]).
    destruct (b_store_ok _ _ p (set_left pl) I2 IP) as [ES3 I3]. rewrite ES3. cbn [bind].
    match type of I3 with b_inv ?z _ => set (s3 := z) in * end.
    cbn [b_indices s1] in A3. rewrite overwrite_left in A3 by auto.
    assert (LB2 : b + length (segl ++ r) <= length (b_indices s)) by (rewrite app_length; lia).
    pose proof (fun o (HI : b_inv s3 o) =>
      IH (depth + 1) (b + length l) e (box_set_min bx d v) s3 o HI ltac:(lia)
        ltac:(cbn [s3 b_indices]; rewrite A3, overwrite_length; auto)) as Bq.
    replace (e - (b + length l)) with (length r) in Bq by lia.
    replace (firstn (length r) (skipn (b + length l) (b_indices s3))) with r in Bq
      by (cbn [s3 b_indices]; rewrite A3; replace (length l) with (length segl) by lia; symmetry; apply overwrite_seg_right; auto).
    destruct (create_node c alg ru it stop sp fuel (depth + 1) (b + length l) r (box_set_min bx d v)) as [[[nr segr] rb]| |];
      cbn [bind]; [|rewrite (Bq o2 I3); auto|rewrite (Bq o2 I3); auto].
    destruct (Bq o2 I3) as (s4 & pr & B1 & B2 & B3 & B4). rewrite B1. cbn [bind].
    assert (M4 : forall o, b_inv s3 o -> In p o -> made s3 o s4 pr nr).
    { intros o Io _. destruct (Bq o Io) as (s4' & pr' & B1' & _ & _ & B4'). rewrite B1 in B1'. injection B1' as <- <-. exact B4'. }
    destruct B4 as (fr & o4 & I4 & P4 & R4 & F4).
    assert (IP4 : In p o4) by (eapply Permutation_in; [symmetry; exact P4|apply in_or_app; right; auto]).
    destruct (b_store_ok _ _ p (set_right pr) I4 IP4) as [ES5 I5]. rewrite ES5. cbn [bind].
    match type of I5 with b_inv ?z _ => set (s5 := z) in * end.
    destruct (b_store_ok _ _ p (set_data (set_branch c lb rb d)) I5 IP4) as [ES6 I6]. rewrite ES6. cbn [bind].
    match type of I6 with b_inv ?z _ => set (s6 := z) in * end.
    assert (NP : ~ In p fr).
    { destruct (b_inv_objs _ _ I4) as (ND & _). rewrite P4 in ND. intros Hp.
      apply in_split in Hp as (u & w & ->). rewrite <- app_assoc in ND. cbn [app] in ND.
      apply NoDup_remove_2 in ND. apply ND. rewrite !in_app_iff. auto. }
    exists s6, p. split; [reflexivity|]. split; [rewrite app_length; lia|]. split.
    + cbn [s6 s5 b_indices]. rewrite B3. cbn [s3 b_indices]. rewrite A3.
      replace (length l) with (length segl) by lia. apply overwrite_right; auto.
    + apply (made_branch s objs p _ nl nr pl pr s1 s2 s3 s4 s6); auto.
      * intros q Hq. cbn [s1 b_cells]. rewrite C0. reflexivity.
      * exists fl, o2. auto.
      * cbn [s3 b_heap b_alloc b_cells]. repeat split. intros q Hq. apply set_cell_other; auto.
      * cbn [s6 s5 b_heap b_alloc b_cells]. repeat split. intros q Hq. rewrite !set_cell_other; auto.
      * cbn [s6 s5 b_cells]. rewrite !set_cell_same. cbn [set_data set_right cl_left cl_right cl_data].
        rewrite F4 by auto. cbn [s3 b_cells]. rewrite set_cell_same. reflexivity.
Qed.

Lemma read_ok little it tc : forall fuel st s objs, b_inv s objs ->
  match read_node little it tc fuel c st with
  | Ok (n, st') =>
      exists s' p, read_node_h c little it tc fuel st s = Ok (s', p, st')
        /\ b_indices s' = b_indices s /\ made s objs s' p n
  | Ub w => read_node_h c little it tc fuel st s = Ub w
  | OutOfFuel => read_node_h c little it tc fuel st s = OutOfFuel
  end.
Proof.
  induction fuel as [|fuel IH]; intros st s objs I; cbn [read_node read_node_h]; auto.
  destruct (b_allocate_ok _ _ I) as (s0 & p & E0 & I0 & C0 & D0). rewrite E0. cbn [bind].
  destruct (read_bytes 1 st) as [[b st1]| |]; cbn [bind]; auto.
  destruct (bool_dec b) as [[|]| |]; cbn [bind]; auto.
  - destruct (read_bytes _ st1) as [[lb st2]| |]; cbn [bind]; auto.
    destruct (leaf_value little it lb) as [be| |]; cbn [bind]; auto.
    destruct (b_store_ok _ _ p (set_leaf (fst be) (snd be)) I0) as [ES IS]; [left; auto|]. rewrite ES. cbn [bind].
    eexists _, _. split; [reflexivity|]. split; [exact D0|]. apply made_leaf; auto.
  - destruct (read_bytes _ st1) as [[bb st2]| |]; cbn [bind]; auto.
    destruct (branch_value little tc c bb) as [br| |]; cbn [bind]; auto.
    destruct (b_store_ok _ _ p (set_data br) I0) as [ES I1]; [left; auto|]. rewrite ES. cbn [bind].
    match type of I1 with b_inv ?z _ => set (s1 := z) in * end.
    pose proof (IH st2 s1 (p :: objs) I1) as A.
    destruct (read_node little it tc fuel c st2) as [[nl st3]| |]; cbn [bind]; [|rewrite A; auto|rewrite A; auto].
    destruct A as (s2 & pl & A1 & A3 & A4). rewrite A1. cbn [bind].
    destruct A4 as (fl & o2 & I2 & P2 & R2 & F2).
    assert (IP : In p o2) by (eapply Permutation_in; [symmetry; exact P2|apply in_or_app; right; left; auto]).
    destruct (b_store_ok _ _ p (set_left pl) I2 IP) as [ES3 I3]. rewrite ES3. cbn [bind].
    match type of I3 with b_inv ?z _ => set (s3 := z) in * end.
    pose proof (fun o (HI : b_inv s3 o) => IH st3 s3 o HI) as Bq.
    destruct (read_node little it tc fuel c st3) as [[nr st4]| |]; cbn [bind]; [|rewrite (Bq o2 I3); auto|rewrite (Bq o2 I3); auto].
    destruct (Bq o2 I3) as (s4 & pr & B1 & B3 & B4). rewrite B1. cbn [bind].
    assert (M4 : forall o, b_inv s3 o -> In p o -> made s3 o s4 pr nr).
    { intros o Io _. destruct (Bq o Io) as (s4' & pr' & B1' & _ & B4'). rewrite B1 in B1'. injection B1' as <- <-. exact B4'. }
    destruct B4 as (fr & o4 & I4 & P4 & R4 & F4).
    assert (IP4 : In p o4) by (eapply Permutation_in; [symmetry; exact P4|apply in_or_app; right; auto]).
    destruct (b_store_ok _ _ p (set_right pr) I4 IP4) as [ES5 I5]. rewrite ES5. cbn [bind].
    match type of I5 with b_inv ?z _ => set (s5 := z) in * end.
    assert (N2 : ~ In p fl).
    { destruct (b_inv_objs _ _ I2) as (ND & _). rewrite P2 in ND. intros Hp.
      apply in_split in Hp as (u & w & ->). rewrite <- app_assoc in ND. cbn [app] in ND.
      apply NoDup_remove_2 in ND. apply ND. rewrite !in_app_iff. right. right. left. auto. }
    assert (NP : ~ In p fr).
    { destruct (b_inv_objs _ _ I4) as (ND & _). rewrite P4 in ND. intros Hp.
      apply in_split in Hp as (u & w & ->). rewrite <- app_assoc in ND. cbn [app] in ND.
      apply NoDup_remove_2 in ND. apply ND. rewrite !in_app_iff. auto. }
    exists s5, p. split; [reflexivity|]. split.
    + cbn [s5 b_indices]. rewrite B3. cbn [s3 b_indices]. rewrite A3. exact D0.
    + apply (made_branch s objs p _ nl nr pl pr s1 s2 s3 s4 s5); auto.
      * intros q Hq. cbn [s1 b_cells]. rewrite set_cell_other, C0; auto.
      * exists fl, o2. auto.
      * cbn [s3 b_heap b_alloc b_cells]. repeat split. intros q Hq. apply set_cell_other; auto.
      * cbn [s5 b_heap b_alloc b_cells]. repeat split. intros q Hq. rewrite !set_cell_other; auto.
      * cbn [s5 b_cells]. rewrite !set_cell_same. unfold set_right.
        rewrite F4 by auto. cbn [s3 b_cells]. rewrite set_cell_same. cbn [set_left cl_left cl_data].
        rewrite F2 by auto. cbn [s1 b_cells]. rewrite set_cell_same. reflexivity.
Qed.
End Builder.
