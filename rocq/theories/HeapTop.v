(** Programs over tree objects: the memory is transparent. *)
From Coq Require Import List ZArith Bool Arith Lia Permutation.
From Verif Require Import Base Lemmas ModelBox ModelBuild ModelSearch ModelSerial ModelMemory
  SpecMemory MemoryThms ModelHeap SpecHeap HeapThms.
Import ListNotations.
Local Open Scope nat_scope.

Lemma repr_count {B} (m : cells B) n : forall p fp, repr m n p fp -> length fp = node_count n.
Proof.
  induction n as [b e|br l IHl r IHr]; intros p fp; cbn [repr node_count].
  - intros [_ ->]. reflexivity.
  - intros (pl & pr & fl & fr & _ & -> & Hl & Hr). cbn [length]. rewrite app_length, (IHl _ _ Hl), (IHr _ _ Hr). lia.
Qed.
Lemma node_count_pos {B} (n : node B) : 1 <= node_count n.
Proof. destruct n; cbn; lia. Qed.

Lemma walk_enough h fp : NoDup fp -> all_live h fp -> length fp < walk_fuel h.
Proof.
  intros ND L. unfold walk_fuel. apply Nat.lt_succ_r.
  rewrite <- (map_length fst (h_live h)), <- (seq_length node_chunk 0), <- prod_length.
  apply NoDup_incl_length; auto. intros [a i] Hp. apply in_prod.
  - apply L in Hp. unfold live_ptr in Hp. apply andb_true_iff in Hp as [Hp _]. cbn [fst] in Hp.
    apply find_in. destruct (find_node _ a); congruence.
  - apply L in Hp. unfold live_ptr in Hp. apply andb_true_iff in Hp as [_ Hp]. cbn [snd] in Hp.
    apply in_seq. apply Nat.ltb_lt in Hp. lia.
Qed.

Lemma release_nodup fuel : forall l head l', NoDup (addrs l) -> release fuel l head = Ok l' -> NoDup (addrs l').
Proof.
  induction fuel as [|fuel IH]; intros l [a|] l' ND H; cbn [release] in H; try discriminate; try (injection H as <-; auto).
  destruct (find_node l a); [|discriminate]. eapply IH; [|exact H]. unfold remove_node, addrs.
  clear - ND. induction l as [|[b q] l IHl]; cbn [filter map fst] in *; [constructor|].
  apply NoDup_cons_iff in ND as [N1 N2]. destruct (negb _); cbn [map fst]; auto. constructor; auto.
  intros Hb. apply N1. apply in_map_iff in Hb as (u & <- & Hu). apply filter_In in Hu as [Hu _]. exact (in_map fst l u Hu).
Qed.

Ltac sv1 x z :=
  destruct (Nat.eq_dec z x) as [?|?];
  [subst; repeat match goal with
     | H : context [set_var _ ?u _ ?u] |- _ => rewrite set_var_same in H
     | |- context [set_var _ ?u _ ?u] => rewrite set_var_same
     end
  |repeat match goal with
     | H : context [set_var ?f x ?v z] |- _ => rewrite (set_var_other f x v z) in H by auto
     | |- context [set_var ?f x ?v z] => rewrite (set_var_other f x v z) by auto
     end].
Ltac sv := repeat match goal with
  | H : context [set_var _ ?x _ ?z] |- _ => sv1 x z
  | |- context [set_var _ ?x _ ?z] => sv1 x z
  end.


Section Top.
Context {T : Type} {SC : Scalar T}.
Variables (alg : std_algos) (little : bool) (it : index_type) (tc : codec T) (m : metric T).
Variables (mp : moved_parts T) (fuel : nat).
Hypothesis AL : std_in_place alg.
Local Notation cat := (m_cat m).
Local Notation B := (branch_data cat T).

(** * Queries *)
Definition represents (h : heap) (mem : cells B) (o : tree_obj T) (sp : space T) (d : kd_tree_data cat T)
  (fp : list ptr) : Prop :=
  to_space o = sp /\ to_indices o = kd_indices d /\ to_box o = kd_root_box d
  /\ exists p, to_root o = CPtr p /\ repr mem (kd_root d) p fp.

Lemma nearest_ok h mem o sp d fp {V} (vis : visitor T V) x v0 :
  represents h mem o sp d fp -> all_live h fp -> NoDup fp ->
  search_nearest_h m h mem o vis x v0 = search_nearest (KdTree sp m d) vis x v0.
Proof.
  intros (E1 & E2 & E3 & p & E4 & R) L ND. pose proof (walk_enough _ _ ND L) as F.
  unfold search_nearest_h, search_nearest, search_nearest_root. cbn [kt_space kt_metric kt_data].
  rewrite E1, E2, E4. apply bind_ext. intros _. revert mem R. generalize (kd_indices d). generalize (kd_root d). clear E2 E3 d.
  destruct (m_cat m); intros n indices mem R.
  - rewrite (nearest_euclidean_ok h m vis sp _ x mem n p fp); auto. lia.
  - rewrite (nearest_topological_ok h m vis sp _ x mem n p fp); auto. lia.
Qed.

Lemma query_ok h mem o sp d fp qu :
  represents h mem o sp d fp -> all_live h fp -> NoDup fp ->
  query_h alg little it tc m h mem o qu = answer_of alg little it tc (KdTree sp m d) qu.
Proof.
  intros RP L ND. pose proof (walk_enough _ _ ND L) as F.
  destruct RP as (E1 & E2 & E3 & p & E4 & R).
  assert (NO := fun V vis x v0 => @nearest_ok h mem o sp d fp V vis x v0
                  (conj E1 (conj E2 (conj E3 (ex_intro _ p (conj E4 R))))) L ND).
  destruct qu; cbn [query_h answer_of].
  - rewrite NO. reflexivity.
  - rewrite NO. reflexivity.
  - rewrite NO. reflexivity.
  - unfold search_knn, search_knn_range, search_knn_range_h. cbn [kt_space]. rewrite E1.
    destruct (visitor_knn_init _) as [st0| |]; cbn [bind]; auto. rewrite NO. reflexivity.
  - unfold search_knn_approx, search_knn_range_approx, search_knn_range_h. cbn [kt_space]. rewrite E1.
    destruct (visitor_knn_init _) as [st0| |]; cbn [bind]; auto. rewrite NO. reflexivity.
  - rewrite NO. unfold search_radius. destruct (search_nearest _ _ _ _); reflexivity.
  - rewrite NO. unfold search_radius_approx. destruct (search_nearest _ _ _ _); reflexivity.
  - unfold search_box. cbn [kt_space kt_metric kt_data]. rewrite E1, E2, E3, E4.
    destruct (guard _ _); cbn [bind]; auto.
    rewrite (search_box_ok cat h mem m sp _ _ (kd_root d) p fp) by (auto; lia).
    destruct (search_box_node _ _ _ _ _ _ _); reflexivity.
  - unfold leaf_ranges. cbn [kt_data]. rewrite E2, E4, (leaf_range_ok cat h mem _ (kd_root d) p fp); auto.
  - rewrite E4, (write_ok cat h mem little it tc _ (kd_root d) p fp) by (auto; lia). cbn [bind].
    rewrite E2, E3. reflexivity.
Qed.

(** * The invariant *)
Variable cov : Prop.

Definition w_mem (w : world m) : mem := Mem (fun z => option_map to_alloc (w_obj w z)) (w_heap w).

Definition holds (w : world m) (ch : nat -> list nat) (ps : pools) (x : nat) (sp : space T) (d : kd_tree_data cat T) : Prop :=
  exists o fp objs, w_obj w x = Some o /\ ps x = Some (Pool objs false) /\ Permutation objs fp
    /\ represents (w_heap w) (w_cells w) o sp d fp
    /\ node_chunk * length (ch x) + al_index (to_alloc o) = node_chunk + length objs /\ 1 <= al_index (to_alloc o).

Definition obj_ok (w : world m) (ch : nat -> list nat) (ps : pools) (x : nat)
    (v : option (option (space T * kd_tree_data cat T))) : Prop :=
  match v with
  | None => w_obj w x = None
  | Some None => exists o pl, w_obj w x = Some o /\ ps x = Some pl /\ p_moved pl = true
  | Some (Some (sp, d)) => holds w ch ps x sp d
  end.

Record w_inv (w : world m) (ch : nat -> list nat) (ps : pools) (st : holdings m) : Prop := {
  wi_inv : inv (w_mem w) ch;
  wi_rel : rel node_chunk (w_mem w) ch ps;
  wi_cov : cov -> forall a, In a (addrs (h_live (w_heap w))) -> exists z, In a (ch z);
  wi_nodup : NoDup (addrs (h_live (w_heap w)));
  wi_obj : forall x, obj_ok w ch ps x (st x)
}.

Lemma w_start : w_inv (tree_start m) (fun _ => []) no_pools (no_objects m).
Proof.
  constructor; cbn; auto.
  - eapply inv_ext; [| |apply inv_start]; auto.
  - eapply rel_ext; [| |apply rel_start]; auto.
  - intros _ a [].
  - constructor.
Qed.

Lemma w_live w ch ps st x pl : w_inv w ch ps st -> ps x = Some pl ->
  NoDup (p_objs pl) /\ all_live (w_heap w) (p_objs pl).
Proof.
  intros W E. destruct (rel_valid _ _ _ _ (wi_inv _ _ _ _ W) (wi_rel _ _ _ _ W)) as [[N _] V].
  split; [exact (N _ _ E)|]. intros p Hp. destruct (V _ _ _ E Hp) as [V1 V2]. unfold live_ptr.
  apply find_in in V1. cbn [w_mem m_heap] in V1. destruct (find_node _ _); [|congruence].
  apply Nat.ltb_lt in V2. rewrite V2. reflexivity.
Qed.

Lemma w_none w ch ps st x : w_inv w ch ps st -> (w_obj w x = None <-> st x = None).
Proof.
  intros W. pose proof (wi_obj _ _ _ _ W x) as O. destruct (st x) as [[[sp d]|]|]; cbn in O.
  - destruct O as (o & ? & ? & E & _). split; congruence.
  - destruct O as (o & ? & E & _). split; congruence.
  - tauto.
Qed.

(** A new object, made by a builder. *)
Lemma w_begin w ch ps st x mem indices : w_inv w ch ps st -> st x = None -> mem = w_cells w ->
  b_inv cat (fun z => option_map to_alloc (w_obj w z)) ps x cov ch
    (BState (w_heap w) mem (new_allocator node_chunk) indices) [].
Proof.
  intros W E ->. apply (w_none _ _ _ _ x W) in E as EO.
  assert (V : m_var (w_mem w) x = None) by (cbn; rewrite EO; auto).
  destruct (step_ok _ chunk_pos _ _ _ (OpNew x) (wi_inv _ _ _ _ W) (wi_rel _ _ _ _ W) I) as (s1 & p & E1 & R1).
  pose proof (step_inv _ chunk_pos _ _ _ _ _ (wi_inv _ _ _ _ W) E1) as I1.
  cbn [mem_step] in E1. rewrite V in E1. injection E1 as <- <-.
  cbn [chains_step] in I1, R1.
  exists ch. repeat apply conj; auto.
  - eapply rel_ext; [| |exact R1]; [reflexivity|]. intros z. cbn [pool_step].
    pose proof (rel_dom _ _ _ _ (wi_rel _ _ _ _ W) x) as D. rewrite (proj1 D V). reflexivity.
  - apply W.
  - apply W.
  - rewrite (inv_none _ _ (wi_inv _ _ _ _ W) x V). cbn [length b_alloc new_allocator al_index]. lia.
  - cbn [b_alloc new_allocator al_index]. exact chunk_pos.
Qed.

Lemma w_end w ch ps st x sp d s p objs' fp : w_inv w ch ps st -> st x = None ->
  b_inv cat (fun z => option_map to_alloc (w_obj w z)) ps x cov ch s objs' ->
  Permutation objs' fp -> repr (b_cells s) (kd_root d) p fp ->
  (forall q, ~ In q fp -> b_cells s q = w_cells w q) ->
  b_indices s = kd_indices d ->
  exists ch' ps',
  w_inv (World (set_var (w_obj w) x (Some (TreeObj sp (b_indices s) (kd_root_box d) (b_alloc s) (CPtr p))))
           (b_heap s) (b_cells s)) ch' ps'
    (set_var st x (Some (Some (sp, d)))).
Proof.
  intros W EX BI P R F EI. pose proof BI as (ch' & I & RL & C & ND & CT & CO).
  destruct (b_inv_objs _ _ _ _ _ _ _ _ BI) as (N1 & _ & OT).
  exists ch', (b_pools ps x objs'). constructor; cbn [w_heap w_cells w_obj]; auto.
  - eapply inv_ext; [| |exact I]; [|reflexivity]. intros z. cbn [m_var b_mem w_mem w_obj]. unfold set_var.
    destruct (z =? x); auto.
  - eapply rel_ext; [| |exact RL]; [|reflexivity]. intros z. cbn [m_var b_mem w_mem w_obj]. unfold set_var.
    destruct (z =? x); auto.
  - intros y. destruct (Nat.eq_dec y x) as [->|NE].
    + rewrite set_var_same. cbn [obj_ok]. eexists _, fp, objs'. cbn [w_obj]. rewrite set_var_same.
      split; [reflexivity|]. split; [apply set_var_same|]. split; [exact P|]. split; [|exact CT].
      repeat split; auto. exists p. auto.
    + rewrite set_var_other by auto. pose proof (wi_obj _ _ _ _ W y) as O.
      destruct (st y) as [[[sp' d']|]|]; cbn [obj_ok] in *.
      * destruct O as (o & fp' & objs & A1 & A2 & A3 & (B1 & B2 & B3 & p' & B4 & B5) & A5). exists o, fp', objs. cbn [w_obj].
        rewrite set_var_other by auto. split; [exact A1|]. split; [unfold b_pools; rewrite set_var_other; auto|].
        split; [exact A3|]. split; [|rewrite CO by auto; exact A5].
        repeat split; auto. exists p'. split; auto. eapply repr_ext; [exact B5|]. intros q Hq. apply F.
        intros Hq2. destruct (OT y _ NE A2) as [_ DJ]. apply (DJ q).
        -- cbn [p_objs]. eapply Permutation_in; [symmetry; exact A3|exact Hq].
        -- eapply Permutation_in; [symmetry; exact P|exact Hq2].
      * destruct O as (o & pl & A1 & A2 & A3). exists o, pl. cbn [w_obj]. rewrite set_var_other by auto.
        unfold b_pools. rewrite set_var_other; auto.
      * cbn [w_obj]. rewrite set_var_other; auto.
Qed.

Lemma build_ok w ch ps st x sp stop bnds ru : w_inv w ch ps st -> st x = None ->
  match build cat alg it fuel sp stop bnds ru with
  | Ok d => exists h mem o ch' ps', build_h cat alg it fuel sp stop bnds ru (w_heap w) (w_cells w) = Ok (h, mem, o)
      /\ w_inv (World (set_var (w_obj w) x (Some o)) h mem) ch' ps' (set_var st x (Some (Some (sp, d))))
  | Ub u => build_h cat alg it fuel sp stop bnds ru (w_heap w) (w_cells w) = Ub u
  | OutOfFuel => build_h cat alg it fuel sp stop bnds ru (w_heap w) (w_cells w) = OutOfFuel
  end.
Proof.
  intros W EX. unfold build, build_h.
  do 4 (destruct (guard _ _); cbn [bind]; auto).
  pose proof (w_begin w ch ps st x (w_cells w) (seq 0 (sp_size sp)) W EX eq_refl) as BI.
  set (s0 := BState (w_heap w) (w_cells w) (new_allocator node_chunk) (seq 0 (sp_size sp))) in *.
  pose proof (create_ok cat _ _ _ _ _ alg ru it stop sp AL fuel 0 0 (sp_size sp) (box_from_bounds sp bnds) s0 [] BI
    (Nat.le_0_l _) ltac:(cbn [s0 b_indices]; rewrite seq_length; auto)) as A.
  rewrite seq_length.
  replace (firstn (sp_size sp - 0) (skipn 0 (b_indices s0))) with (seq 0 (sp_size sp)) in A
    by (symmetry; apply firstn_all2; cbn [s0 b_indices skipn]; rewrite seq_length; lia).
  destruct (create_node _ _ _ _ _ _ _ _ _ _ _) as [[[n seg'] bx']| |]; cbn [bind]; [|rewrite A; auto|rewrite A; auto].
  destruct A as (s' & p & A1 & A2 & A3 & fp & objs' & A4 & A5 & A6 & A7). rewrite A1. cbn [bind move_construct al_head release].
  rewrite app_nil_r in A5.
  assert (EI : b_indices s' = seg').
  { rewrite A3. unfold overwrite. cbn [s0 b_indices firstn app]. rewrite A2.
    rewrite skipn_all2 by (rewrite seq_length; lia). apply app_nil_r. }
  destruct (w_end w ch ps st x sp (KdTreeData seg' (box_from_bounds sp bnds) n) s' p objs' fp W EX A4 A5 A6 A7 EI)
    as (ch' & ps' & W').
  exists (b_heap s'), (b_cells s'), (TreeObj sp (b_indices s') (box_from_bounds sp bnds) (b_alloc s') (CPtr p)), ch', ps'.
  split; [|exact W'].
  destruct (h_live (b_heap s')) eqn:EH; cbn [length release bind]; rewrite <- EH; destruct (b_heap s'); reflexivity.
Qed.

Lemma load_ok w ch ps st x sp bytes : w_inv w ch ps st -> st x = None ->
  match load_data little it tc cat (Some bytes) with
  | Ok (d, s') => exists h mem o ch' ps', load_h cat little it tc sp bytes (w_heap w) (w_cells w) = Ok (h, mem, o, s')
      /\ w_inv (World (set_var (w_obj w) x (Some o)) h mem) ch' ps' (set_var st x (Some (Some (sp, d))))
  | Ub u => load_h cat little it tc sp bytes (w_heap w) (w_cells w) = Ub u
  | OutOfFuel => load_h cat little it tc sp bytes (w_heap w) (w_cells w) = OutOfFuel
  end.
Proof.
  intros W EX. unfold load_data, load_h.
  destruct (read_bytes _ _) as [[b s1]| |]; cbn [bind]; auto.
  destruct (c_dec _ _) as [sdim| |]; cbn [bind]; auto.
  destruct (read_bytes _ _) as [[b2 s2]| |]; cbn [bind]; auto.
  destruct (c_dec _ _) as [size| |]; cbn [bind]; auto.
  destruct (read_array _ _ _ _) as [[indices s3]| |]; cbn [bind]; auto.
  destruct (read_array _ _ _ _) as [[mn s4]| |]; cbn [bind]; auto.
  destruct (read_array _ _ _ _) as [[mx s5]| |]; cbn [bind]; auto.
  pose proof (w_begin w ch ps st x (w_cells w) indices W EX eq_refl) as BI.
  pose proof (read_ok cat _ _ _ _ _ little it tc (S (match s5 with Some b => length b | None => 0 end)) s5 _ _ BI) as A.
  destruct (read_node _ _ _ _ _ _) as [[n s6]| |]; cbn [bind]; [|rewrite A; reflexivity|rewrite A; reflexivity].
  destruct A as (s' & p & A1 & A2 & fp & objs' & A4 & A5 & A6 & A7). rewrite A1. cbn [bind].
  rewrite app_nil_r in A5. cbn [b_indices] in A2.
  destruct (w_end w ch ps st x sp (KdTreeData indices (Box mn mx) n) s' p objs' fp W EX A4 A5 A6 A7 A2)
    as (ch' & ps' & W').
  eexists _, _, _, ch', ps'. split; [reflexivity|exact W'].
Qed.

Definition step_scope (st : holdings m) (op : tree_op T) : Prop :=
  match op with TQuery x _ => st x <> Some None | _ => True end.
Definition step_keeps (st : holdings m) (op : tree_op T) : Prop :=
  match op with TAssign x y => (st x = None \/ st x = Some None) \/ st y = None | _ => True end.

(** An operation on the allocators alone. *)
Lemma w_mem_step w ch ps st op s' p : w_inv w ch ps st ->
  mem_step node_chunk (w_mem w) op = Ok (s', p) -> step_clean ps op ->
  inv s' (chains_step node_chunk (w_mem w) ch op)
  /\ rel node_chunk s' (chains_step node_chunk (w_mem w) ch op) (pool_step ps op p).
Proof.
  intros W E K. split; [exact (step_inv _ chunk_pos _ _ _ _ _ (wi_inv _ _ _ _ W) E)|].
  destruct (step_ok _ chunk_pos _ _ _ op (wi_inv _ _ _ _ W) (wi_rel _ _ _ _ W) K) as (s1 & p1 & E1 & R1).
  rewrite E in E1. injection E1 as <- <-. exact R1.
Qed.

Lemma w_pool w ch ps st x v : w_inv w ch ps st -> st x = Some v ->
  exists o pl, w_obj w x = Some o /\ ps x = Some pl /\ (p_moved pl = true <-> v = None).
Proof.
  intros W E. pose proof (wi_obj _ _ _ _ W x) as O. rewrite E in O. destruct v as [[sp d]|]; cbn [obj_ok] in O.
  - destruct O as (o & fp & objs & A1 & A2 & _). exists o, (Pool objs false). repeat split; auto; discriminate.
  - destruct O as (o & pl & A1 & A2 & A3). exists o, pl. repeat split; auto.
Qed.

Lemma moved_no_chain w ch ps st x : w_inv w ch ps st -> st x = Some None -> ch x = [].
Proof.
  intros W E. pose proof (wi_obj _ _ _ _ W x) as O. rewrite E in O. destruct O as (o & pl & A1 & A2 & A3).
  assert (V : m_var (w_mem w) x = Some (to_alloc o)) by (cbn; rewrite A1; auto).
  destruct (rel_moved _ _ _ _ (wi_rel _ _ _ _ W) _ _ _ V A2 A3) as [_ HN].
  pose proof (inv_chain _ _ (wi_inv _ _ _ _ W) _ _ V) as C. rewrite HN in C. inversion C. reflexivity.
Qed.

Lemma step_sim w ch ps st op : w_inv w ch ps st -> step_scope st op -> (cov -> step_keeps st op) ->
  match value_step alg little it tc m fuel st op with
  | Ok (st', a) => exists w' ch' ps', tree_step alg little it tc m mp fuel w op = Ok (w', a) /\ w_inv w' ch' ps' st'
  | Ub u => tree_step alg little it tc m mp fuel w op = Ub u
  | OutOfFuel => tree_step alg little it tc m mp fuel w op = OutOfFuel
  end.
Proof.
  intros W SS SK. pose proof (fun x => w_none _ _ _ _ x W) as NO.
  destruct op as [x sp stop bnds ru|x sp bytes|x y|x y|x|x q]; cbn [value_step tree_step].
  - destruct (st x) eqn:E.
    + destruct (w_obj w x) eqn:EO; [|apply NO in EO; congruence]. exists w, ch, ps. auto.
    + rewrite (proj2 (NO x) E). pose proof (build_ok w ch ps st x sp stop bnds ru W E) as A.
      destruct (build _ _ _ _ _ _ _ _) as [d| |]; cbn [bind]; [|rewrite A; auto|rewrite A; auto].
      destruct A as (h & mem & o & ch' & ps' & A1 & A2). rewrite A1. cbn [bind]. eexists _, ch', ps'. split; [reflexivity|exact A2].
  - destruct (st x) eqn:E.
    + destruct (w_obj w x) eqn:EO; [|apply NO in EO; congruence]. exists w, ch, ps. auto.
    + rewrite (proj2 (NO x) E). pose proof (load_ok w ch ps st x sp bytes W E) as A.
      destruct (load_data _ _ _ _ _) as [[d s']| |]; cbn [bind]; [|rewrite A; auto|rewrite A; auto].
      destruct A as (h & mem & o & ch' & ps' & A1 & A2). rewrite A1. cbn [bind]. eexists _, ch', ps'. split; [reflexivity|exact A2].
  - destruct (st x) eqn:EX.
    { destruct (w_obj w x) eqn:EO; [|apply NO in EO; congruence]. exists w, ch, ps. auto. }
    rewrite (proj2 (NO x) EX). destruct (st y) as [v|] eqn:EY.
    2:{ rewrite (proj2 (NO y) EY). exists w, ch, ps. auto. }
    destruct (w_pool _ _ _ _ _ _ W EY) as (o & pl & A1 & A2 & A3). rewrite A1. cbn [tree_move move_construct].
    assert (NE : x <> y) by congruence.
    assert (EPX : ps x = None) by (apply (rel_dom _ _ _ _ (wi_rel _ _ _ _ W)); cbn; rewrite (proj2 (NO x) EX); auto).
    eexists _, _, _. split; [reflexivity|].
    destruct (w_mem_step w ch ps st (OpMove x y)
      (Mem (set_var (set_var (m_var (w_mem w)) y (Some (snd (move_construct (to_alloc o))))) x (Some (to_alloc o))) (w_heap w)) None W) as [I' R']; auto.
    { cbn [mem_step w_mem m_var]. rewrite (proj2 (NO x) EX), A1. reflexivity. }
    cbn [chains_step pool_step w_mem m_var] in I', R'. rewrite (proj2 (NO x) EX), A1 in I', R'. rewrite EPX, A2 in R'. cbn [option_map] in I', R'.
    constructor; cbn [w_heap w_cells w_obj].
    + eapply inv_ext; [| |exact I']; [|reflexivity]. intros z. cbn [m_var w_mem w_obj]. sv; auto.
    + eapply rel_ext; [| |exact R']; [|reflexivity]. intros z. cbn [m_var w_mem w_obj]. sv; auto.
    + intros K a Ha. destruct (wi_cov _ _ _ _ W K a Ha) as [z Hz]. destruct (Nat.eq_dec z y).
      * subst. exists x. sv; congruence.
      * exists z. sv; try congruence. exfalso. rewrite (inv_none _ _ (wi_inv _ _ _ _ W)) in Hz; [contradiction|].
        cbn. rewrite (proj2 (NO x) EX). auto.
    + apply W.
    + intros z. pose proof (wi_obj _ _ _ _ W z) as OZ. pose proof (wi_obj _ _ _ _ W y) as OY. rewrite EY in OY.
      sv; try congruence.
      * destruct v as [[sp d]|]; cbn [obj_ok] in *.
        -- destruct OY as (o' & fp & objs & B1 & B2 & B3 & B4 & B5 & B6). rewrite A1 in B1. injection B1 as <-.
           rewrite A2 in B2. injection B2 as ->.
           eexists _, fp, objs. cbn [w_obj w_heap w_cells]. rewrite !set_var_same. repeat split; auto; apply B4.
        -- eexists _, pl. cbn [w_obj]. rewrite !set_var_same. repeat split; auto. apply A3. auto.
      * cbn [obj_ok w_obj]. eexists _, _. sv; try congruence. split; [reflexivity|]. split; reflexivity.
      * destruct (st z) as [[[sp d]|]|]; cbn [obj_ok] in *.
        -- destruct OZ as (o' & fp & objs & B1 & B2 & B3 & B4 & B5 & B6). exists o', fp, objs. cbn [w_obj w_heap w_cells]. sv; try congruence.
           repeat split; auto; apply B4.
        -- destruct OZ as (o' & pl' & B1 & B2 & B3). exists o', pl'. cbn [w_obj]. sv; try congruence. auto.
        -- cbn [w_obj]. sv; congruence.
  - destruct (st x) as [vx|] eqn:EX.
    2:{ rewrite (proj2 (NO x) EX). exists w, ch, ps. auto. }
    destruct (w_pool _ _ _ _ _ _ W EX) as (ox & plx & X1 & X2 & X3). rewrite X1.
    destruct (st y) as [v|] eqn:EY.
    2:{ rewrite (proj2 (NO y) EY). exists w, ch, ps. auto. }
    destruct (w_pool _ _ _ _ _ _ W EY) as (o & pl & A1 & A2 & A3). rewrite A1.
    cbn [step_keeps] in SK. rewrite EX, EY in SK.
    destruct (Nat.eqb_spec x y) as [<-|NE].
    + assert (o = ox) by congruence. assert (pl = plx) by congruence. subst o pl.
      eexists _, _, _. split; [reflexivity|].
      destruct (w_mem_step w ch ps st (OpAssign x x)
        (Mem (set_var (m_var (w_mem w)) x (Some (self_move_assign (to_alloc ox)))) (w_heap w)) None W) as [I' R']; auto.
      { cbn [mem_step w_mem m_var]. rewrite X1. cbn [option_map]. rewrite Nat.eqb_refl. reflexivity. }
      cbn [chains_step pool_step w_mem m_var] in I', R'. rewrite X1 in I', R'. rewrite X2 in R'. cbn [option_map] in I', R'.
      rewrite Nat.eqb_refl in I', R'.
      constructor; cbn [w_heap w_cells w_obj].
      * eapply inv_ext; [| |exact I']; [|reflexivity]. intros z. cbn [m_var w_mem w_obj]. sv; auto.
      * eapply rel_ext; [| |exact R']; [|reflexivity]. intros z. cbn [m_var w_mem w_obj]. sv; auto.
      * intros K a Ha. destruct (wi_cov _ _ _ _ W K a Ha) as [z Hz].
        assert (vx = None) by (destruct (SK K) as [[?|?]|?]; congruence). subst vx.
        exists z. sv; auto. rewrite (moved_no_chain _ _ _ _ _ W EX) in Hz. contradiction.
      * apply W.
      * intros z. pose proof (wi_obj _ _ _ _ W z) as OZ. sv.
        -- cbn [obj_ok w_obj]. eexists _, _. sv; try congruence. split; [reflexivity|]. split; reflexivity.
        -- destruct (st z) as [[[sp d]|]|]; cbn [obj_ok] in *.
           ++ destruct OZ as (o' & fp & objs & B1 & B2 & B3 & B4 & B5 & B6). exists o', fp, objs. cbn [w_obj w_heap w_cells]. sv; try congruence.
              repeat split; auto; apply B4.
           ++ destruct OZ as (o' & pl' & B1 & B2 & B3). exists o', pl'. cbn [w_obj]. sv; try congruence. auto.
           ++ cbn [w_obj]. sv; congruence.
    + cbn [tree_assign move_assign].
      eexists _, _, _. split; [reflexivity|].
      destruct (w_mem_step w ch ps st (OpAssign x y)
        (Mem (set_var (set_var (m_var (w_mem w)) y (Some (Allocator None (al_index (to_alloc o)) (al_chunk (to_alloc o))))) x
          (Some (Allocator (al_head (to_alloc o)) (al_index (to_alloc o)) (al_chunk (to_alloc o))))) (w_heap w)) None W) as [I' R']; auto.
      { cbn [mem_step w_mem m_var]. rewrite X1, A1. cbn [option_map]. apply Nat.eqb_neq in NE. rewrite NE. reflexivity. }
      cbn [chains_step pool_step w_mem m_var] in I', R'. rewrite X1, A1 in I', R'. rewrite X2, A2 in R'. cbn [option_map] in I', R'.
      apply Nat.eqb_neq in NE as NE'. rewrite NE' in I', R'.
      constructor; cbn [w_heap w_cells w_obj].
      * eapply inv_ext; [| |exact I']; [|reflexivity]. intros z. cbn [m_var w_mem w_obj]. sv; auto.
      * eapply rel_ext; [| |exact R']; [|reflexivity]. intros z. cbn [m_var w_mem w_obj]. sv; auto.
      * intros K a Ha. destruct (wi_cov _ _ _ _ W K a Ha) as [z Hz].
        assert (vx = None) by (destruct (SK K) as [[?|?]|?]; congruence). subst vx.
        destruct (Nat.eq_dec z y).
        -- subst. exists x. sv; congruence.
        -- exists z. sv; try congruence. exfalso. rewrite (moved_no_chain _ _ _ _ _ W EX) in Hz. contradiction.
      * apply W.
      * intros z. pose proof (wi_obj _ _ _ _ W z) as OZ. pose proof (wi_obj _ _ _ _ W y) as OY. rewrite EY in OY.
        sv; try congruence.
        -- destruct v as [[sp d]|]; cbn [obj_ok] in *.
           ++ destruct OY as (o' & fp & objs & B1 & B2 & B3 & B4 & B5 & B6). rewrite A1 in B1. injection B1 as <-.
              rewrite A2 in B2. injection B2 as ->.
              eexists _, fp, objs. cbn [w_obj w_heap w_cells]. rewrite !set_var_same. repeat split; auto; apply B4.
           ++ eexists _, pl. cbn [w_obj]. rewrite !set_var_same. repeat split; auto. apply A3. auto.
        -- cbn [obj_ok w_obj]. eexists _, _. sv; try congruence. split; [reflexivity|]. split; reflexivity.
        -- destruct (st z) as [[[sp d]|]|]; cbn [obj_ok] in *.
           ++ destruct OZ as (o' & fp & objs & B1 & B2 & B3 & B4 & B5 & B6). exists o', fp, objs. cbn [w_obj w_heap w_cells]. sv; try congruence.
              repeat split; auto; apply B4.
           ++ destruct OZ as (o' & pl' & B1 & B2 & B3). exists o', pl'. cbn [w_obj]. sv; try congruence. auto.
           ++ cbn [w_obj]. sv; congruence.
  - destruct (w_obj w x) as [o|] eqn:EO.
    2:{ exists w, ch, ps. split; [reflexivity|]. destruct W as [W1 W2 W3 W4 W5]. constructor; auto.
        intros z. sv; auto. }
    destruct (st x) as [v|] eqn:EX; [|apply NO in EX; congruence].
    assert (V : m_var (w_mem w) x = Some (to_alloc o)) by (cbn; rewrite EO; auto).
    destruct (step_ok _ chunk_pos _ _ _ (OpDestroy x) (wi_inv _ _ _ _ W) (wi_rel _ _ _ _ W) I) as (s1 & p & E1 & R1).
    pose proof (step_inv _ chunk_pos _ _ _ _ _ (wi_inv _ _ _ _ W) E1) as I1.
    destruct (w_pool _ _ _ _ _ _ W EX) as (o' & pl & A1 & A2 & A3). rewrite EO in A1. injection A1 as <-.
    cbn [mem_step] in E1. rewrite V in E1. cbn [w_mem m_heap] in E1.
    pose proof (inv_chain _ _ (wi_inv _ _ _ _ W) _ _ V) as C. cbn [w_mem m_heap] in C.
    destruct (release_ok (length (h_live (w_heap w))) _ _ _ C (inv_nodup _ _ (wi_inv _ _ _ _ W) x)) as (l2 & E3 & F).
    { rewrite <- (map_length fst). apply NoDup_incl_length; [eapply (wi_inv _ _ _ _ W)|eapply chain_live; eauto]. }
    rewrite E3 in *. cbn [bind] in *. injection E1 as <- <-.
    cbn [chains_step pool_step] in I1, R1. rewrite V in I1, R1. rewrite A2 in R1.
    eexists _, _, _. split; [reflexivity|].
    constructor; cbn [w_heap w_cells w_obj h_live].
    + eapply inv_ext; [| |exact I1]; [|reflexivity]. intros z. cbn [m_var w_mem w_obj]. sv; auto.
    + eapply rel_ext; [| |exact R1]; [|reflexivity]. intros z. cbn [m_var w_mem w_obj]. sv; auto.
    + intros K a Ha. apply find_in in Ha. rewrite F in Ha. destruct (existsb _ _) eqn:EB; [congruence|].
      apply find_in in Ha. destruct (wi_cov _ _ _ _ W K a Ha) as [z Hz]. exists z. sv; auto.
      exfalso. apply existsb_in in Hz. congruence.
    + eapply release_nodup; [exact (wi_nodup _ _ _ _ W)|exact E3].
    + intros z. pose proof (wi_obj _ _ _ _ W z) as OZ. sv.
      * cbn [obj_ok w_obj]. sv; congruence.
      * destruct (st z) as [[[sp d]|]|]; cbn [obj_ok] in *.
        -- destruct OZ as (o' & fp & objs & B1 & B2 & B3 & B4 & B5 & B6). exists o', fp, objs. cbn [w_obj w_heap w_cells]. sv; try congruence.
           repeat split; auto; apply B4.
        -- destruct OZ as (o' & pl' & B1 & B2 & B3). exists o', pl'. cbn [w_obj]. sv; try congruence. auto.
        -- cbn [w_obj]. sv; congruence.
  - pose proof (wi_obj _ _ _ _ W x) as OX. cbn [step_scope] in SS. destruct (st x) as [[[sp d]|]|]; cbn [obj_ok] in OX.
    + destruct OX as (o & fp & objs & B1 & B2 & B3 & B4 & B5 & B6). rewrite B1.
      destruct (w_live _ _ _ _ _ _ W B2) as [N L]. cbn [p_objs] in N, L.
      rewrite (query_ok _ _ _ sp d fp).
      * destruct (answer_of _ _ _ _ _ _); cbn [bind]; auto. exists w, ch, ps. auto.
      * exact B4.
      * intros z Hz. apply L. eapply Permutation_in; [symmetry; exact B3|exact Hz].
      * rewrite <- B3. exact N.
    + congruence.
    + rewrite OX. exists w, ch, ps. auto.
Qed.

(** Scopes and points follow the values. *)
Definition scope_of (st : holdings m) : object_scope :=
  fun z => match st z with None => None | Some None => Some false | Some (Some _) => Some true end.

Lemma scope_step_ok st op st' a : value_step alg little it tc m fuel st op = Ok (st', a) ->
  forall z, object_step (scope_of st) op z = scope_of st' z.
Proof.
  intros H z. destruct op as [x sp stop bnds ru|x sp bytes|x y|x y|x|x q]; cbn [value_step object_step] in *; unfold scope_of in *.
  - destruct (st x) as [[v|]|]; try (injection H as <- <-; auto; fail). okbind H. injection H as <- <-. sv; auto.
  - destruct (st x) as [[v|]|]; try (injection H as <- <-; auto; fail). okbind H. destruct a0. injection H as <- <-. sv; auto.
  - destruct (st x) as [[v|]|]; destruct (st y) as [[u|]|]; injection H as <- <-; auto; sv; auto.
  - destruct (st x) as [[v|]|]; destruct (st y) as [[u|]|]; try (injection H as <- <-; auto; fail);
      destruct (x =? y); injection H as <- <-; sv; auto.
  - injection H as <- <-. sv; auto.
  - destruct (st x) as [[[sp d]|]|]; try discriminate; [okbind H|]; injection H as <- <-; auto.
Qed.

Lemma query_ext sc sc' ops : (forall z : nat, sc z = sc' z) -> no_moved_query (T := T) sc ops -> no_moved_query sc' ops.
Proof.
  revert sc sc'. induction ops as [|op ops IH]; intros sc sc' E; cbn [no_moved_query]; auto. intros [H1 H2]. split.
  - destruct op; auto. rewrite <- E. auto.
  - eapply IH; [|exact H2]. intros z. destruct op; cbn [object_step]; rewrite <- ?E; auto;
      repeat match goal with |- context [match sc ?u with _ => _ end] => destruct (sc u) end; auto;
      try destruct (_ =? _); unfold set_var; rewrite ?E; auto.
Qed.
Lemma overwrite_ext sc sc' ops : (forall z : nat, sc z = sc' z) -> no_tree_overwritten (T := T) sc ops -> no_tree_overwritten sc' ops.
Proof.
  revert sc sc'. induction ops as [|op ops IH]; intros sc sc' E; cbn [no_tree_overwritten]; auto. intros [H1 H2]. split.
  - destruct op; auto. rewrite <- !E. auto.
  - eapply IH; [|exact H2]. intros z. destruct op; cbn [object_step]; rewrite <- ?E; auto;
      repeat match goal with |- context [match sc ?u with _ => _ end] => destruct (sc u) end; auto;
      try destruct (_ =? _); unfold set_var; rewrite ?E; auto.
Qed.

Lemma run_sim ops : forall w ch ps st, w_inv w ch ps st -> no_moved_query (scope_of st) ops ->
  (cov -> no_tree_overwritten (scope_of st) ops) ->
  match value_run alg little it tc m fuel st ops with
  | Ok (st', l) => exists w' ch' ps', tree_run alg little it tc m mp fuel w ops = Ok (w', l) /\ w_inv w' ch' ps' st'
  | Ub u => tree_run alg little it tc m mp fuel w ops = Ub u
  | OutOfFuel => tree_run alg little it tc m mp fuel w ops = OutOfFuel
  end.
Proof.
  induction ops as [|op ops IH]; intros w ch ps st W Q O; cbn [value_run tree_run].
  - exists w, ch, ps. auto.
  - cbn [no_moved_query no_tree_overwritten] in Q, O. destruct Q as [Q1 Q2].
    pose proof (step_sim w ch ps st op W) as A.
    destruct (value_step alg little it tc m fuel st op) as [[st1 a]| |] eqn:EV; cbn [bind].
    + destruct A as (w1 & ch1 & ps1 & A1 & A2).
      { destruct op; cbn [step_scope]; auto. intros E. apply Q1. unfold scope_of. rewrite E. auto. }
      { intros K. destruct (O K) as [O1 _]. destruct op; cbn [step_keeps]; auto. unfold scope_of in O1.
        destruct (st x) as [[v|]|], (st y) as [[u|]|]; auto; destruct O1; congruence. }
      rewrite A1. cbn [bind].
      assert (Q2' : no_moved_query (scope_of st1) ops) by (eapply query_ext; [apply (scope_step_ok _ _ _ _ EV)|exact Q2]).
      assert (O2' : cov -> no_tree_overwritten (scope_of st1) ops).
      { intros K. destruct (O K) as [_ O2]. eapply overwrite_ext; [apply (scope_step_ok _ _ _ _ EV)|exact O2]. }
      pose proof (IH w1 ch1 ps1 st1 A2 Q2' O2') as C.
      destruct (value_run alg little it tc m fuel st1 ops) as [[st2 l]| |]; cbn [bind]; [|rewrite C; auto|rewrite C; auto].
      destruct C as (w2 & ch2 & ps2 & C1 & C2). rewrite C1. exists w2, ch2, ps2. auto.
    + rewrite A; auto.
      { destruct op; cbn [step_scope]; auto. intros E. apply Q1. unfold scope_of. rewrite E. auto. }
      { intros K. destruct (O K) as [O1 _]. destruct op; cbn [step_keeps]; auto. unfold scope_of in O1.
        destruct (st x) as [[v|]|], (st y) as [[u|]|]; auto; destruct O1; congruence. }
    + rewrite A; auto.
      { destruct op; cbn [step_scope]; auto. intros E. apply Q1. unfold scope_of. rewrite E. auto. }
      { intros K. destruct (O K) as [O1 _]. destruct op; cbn [step_keeps]; auto. unfold scope_of in O1.
        destruct (st x) as [[v|]|], (st y) as [[u|]|]; auto; destruct O1; congruence. }
Qed.
End Top.

Section Programs.
Context {T : Type} {SC : Scalar T}.
Variables (alg : std_algos) (little : bool) (it : index_type) (tc : codec T) (m : metric T).
Variables (mp : moved_parts T) (fuel : nat).
Hypothesis AL : std_in_place alg.
Local Notation run := (tree_run alg little it tc m mp fuel (tree_start m)).
Local Notation values := (value_run alg little it tc m fuel (no_objects m)).

(** The answers of a program do not depend on the memory. *)
Theorem program_transparent ops : no_moved_query empty_scope ops ->
  (do r <- run ops; Ok (snd r)) = (do r <- values ops; Ok (snd r)).
Proof.
  intros Q. pose proof (run_sim alg little it tc m mp fuel AL False ops _ _ _ _ (w_start m False) Q (fun K => match K with end)) as A.
  destruct (values ops) as [[st l]| |]; [|rewrite A; auto|rewrite A; auto].
  destruct A as (w & ch & ps & A & _). rewrite A. reflexivity.
Qed.

(** Queries have no effect on the objects and the memory. *)
Definition is_query (op : tree_op T) : bool := match op with TQuery _ _ => true | _ => false end.
Lemma drop_queries ops : forall w w' l, tree_run alg little it tc m mp fuel w ops = Ok (w', l) ->
  exists l', tree_run alg little it tc m mp fuel w (filter (fun o => negb (is_query o)) ops) = Ok (w', l').
Proof.
  induction ops as [|op ops IH]; intros w w' l H; cbn [tree_run filter] in *; [eauto|].
  okbind H. destruct a as [w1 a]. okbind H. destruct a0 as [w2 l2]. injection H as <- <-.
  destruct (is_query op) eqn:EQ; cbn [negb].
  - destruct op; try discriminate. cbn [tree_step] in E. destruct (w_obj w x); [okbind E|]; injection E as <- <-; eapply IH; eauto.
  - cbn [tree_run]. rewrite E. cbn [bind]. destruct (IH _ _ _ E0) as [l' ->]. cbn [bind]. eauto.
Qed.
Lemma drop_overwritten ops : forall sc, no_tree_overwritten (T := T) sc ops ->
  no_tree_overwritten sc (filter (fun o => negb (is_query o)) ops).
Proof.
  induction ops as [|op ops IH]; intros sc; cbn [filter no_tree_overwritten]; auto. intros [H1 H2].
  destruct op; cbn [is_query negb no_tree_overwritten]; auto.
Qed.
Lemma drop_no_query ops : forall sc, no_moved_query (T := T) sc (filter (fun o => negb (is_query o)) ops).
Proof.
  induction ops as [|op ops IH]; intros sc; cbn [filter no_moved_query]; auto.
  destruct op; cbn [is_query negb no_moved_query]; auto.
Qed.

(** The state at the end of a program that ended well. *)
Lemma program_state (cov : Prop) ops w l : (cov -> no_tree_overwritten empty_scope ops) ->
  run ops = Ok (w, l) ->
  exists ch ps st l', w_inv m cov w ch ps st
    /\ values (filter (fun o => negb (is_query o)) ops) = Ok (st, l').
Proof.
  intros O H. destruct (drop_queries _ _ _ _ H) as [l' H'].
  pose proof (run_sim alg little it tc m mp fuel AL cov _ _ _ _ _ (w_start m cov) (drop_no_query ops empty_scope)
    (fun K => drop_overwritten _ _ (O K))) as A.
  destruct (values _) as [[st l2]| |]; [|rewrite A in H'; discriminate|rewrite A in H'; discriminate].
  destruct A as (w' & ch & ps & A1 & A2). rewrite A1 in H'. injection H' as -> <-. exists ch, ps, st, l2. auto.
Qed.

Theorem program_frees ops w l : no_tree_overwritten empty_scope ops -> run ops = Ok (w, l) ->
  (forall x, w_obj w x = None) -> h_live (w_heap w) = [].
Proof.
  intros O H N. destruct (program_state True ops w l (fun _ => O) H) as (ch & ps & st & l' & W & _).
  destruct (h_live (w_heap w)) as [|[a q] r] eqn:E; auto. exfalso.
  destruct (wi_cov _ _ _ _ _ _ W I a) as [x Hx]; [rewrite E; left; auto|].
  rewrite (inv_none _ _ (wi_inv _ _ _ _ _ _ W)) in Hx; [contradiction|]. cbn. rewrite N. auto.
Qed.

Lemma program_values ops st l : no_moved_query empty_scope ops -> no_tree_overwritten empty_scope ops ->
  values ops = Ok (st, l) ->
  exists w ch ps, run ops = Ok (w, l) /\ w_inv m True w ch ps st.
Proof.
  intros Q O H. pose proof (run_sim alg little it tc m mp fuel AL True ops _ _ _ _ (w_start m True) Q (fun _ => O)) as A.
  rewrite H in A. destruct A as (w & ch & ps & A1 & A2). exists w, ch, ps. auto.
Qed.

Lemma holds_chunks w ch ps st x sp d : w_inv m True w ch ps st -> holds m w ch ps x sp d ->
  length (ch x) = chunks_needed (node_count (kd_root d)).
Proof.
  intros W (o & fp & objs & A1 & A2 & A3 & (_ & _ & _ & p & _ & A4) & A5 & A6).
  assert (V : m_var (w_mem m w) x = Some (to_alloc o)) by (cbn; rewrite A1; auto).
  destruct (rel_live _ _ _ _ (wi_rel _ _ _ _ _ _ W) _ _ _ V A2 eq_refl) as (B1 & _).
  rewrite (Permutation_length A3), (repr_count _ _ _ _ A4) in A5. unfold chunks_needed, node_chunk in *.
  apply (Nat.div_unique _ _ _ (al_index (to_alloc o) - 1)); lia.
Qed.

Theorem program_memory ops st l xs : no_moved_query empty_scope ops -> no_tree_overwritten empty_scope ops ->
  values ops = Ok (st, l) -> NoDup xs -> (forall x, st x <> None -> In x xs) ->
  exists w, run ops = Ok (w, l)
    /\ length (h_live (w_heap w))
       = list_sum (map (fun x => match st x with
                                 | Some (Some (_, d)) => chunks_needed (node_count (kd_root d))
                                 | _ => 0
                                 end) xs).
Proof.
  intros Q O H ND C. destruct (program_values ops st l Q O H) as (w & ch & ps & A & W). exists w. split; auto.
  assert (L : forall x, length (ch x) = match st x with
                                 | Some (Some (_, d)) => chunks_needed (node_count (kd_root d))
                                 | _ => 0
                                 end).
  { intros x. pose proof (wi_obj _ _ _ _ _ _ W x) as OX. destruct (st x) as [[[sp d]|]|] eqn:E; cbn [obj_ok] in OX.
    - eapply holds_chunks; eauto.
    - rewrite (moved_no_chain _ _ _ _ _ _ _ W E). reflexivity.
    - rewrite (inv_none _ _ (wi_inv _ _ _ _ _ _ W)); auto. cbn. rewrite OX. auto. }
  rewrite <- (map_ext _ _ L). clear L.
  rewrite <- (map_length fst). change (map fst (h_live (w_heap w))) with (addrs (h_live (w_heap w))).
  transitivity (length (flat_map ch xs)).
  - apply Permutation_length, NoDup_Permutation; [apply W| |].
    + pose proof (inv_nodup _ _ (wi_inv _ _ _ _ _ _ W)) as N1. pose proof (inv_disj _ _ (wi_inv _ _ _ _ _ _ W)) as N2.
      clear - ND N1 N2. induction xs as [|x xs IH]; cbn [flat_map]; [constructor|].
      apply NoDup_cons_iff in ND as [D1 D2]. apply NoDup_app_intro; auto.
      intros a Ha Hb. apply in_flat_map in Hb as (y & Hy & Hb). assert (x = y) by eauto. subst. auto.
    + intros a. split; intros Ha.
      * destruct (wi_cov _ _ _ _ _ _ W I a Ha) as [x Hx]. apply in_flat_map. exists x. split; auto. apply C.
        intros E. pose proof (wi_obj _ _ _ _ _ _ W x) as OX. rewrite E in OX. cbn [obj_ok] in OX.
        rewrite (inv_none _ _ (wi_inv _ _ _ _ _ _ W)) in Hx; [contradiction|]. cbn. rewrite OX. auto.
      * apply in_flat_map in Ha as (x & _ & Hx). exact (ch_live (w_mem m w) ch x a (wi_inv _ _ _ _ _ _ W) Hx).
  - clear. induction xs; cbn [flat_map map list_sum fold_right]; auto. rewrite app_length. cbn in IHxs. rewrite IHxs. reflexivity.
Qed.

(** Where a tree comes from. *)

Lemma value_points ops : forall st pt st' l, value_run alg little it tc m fuel st ops = Ok (st', l) ->
  (forall z, pt z = option_map (option_map fst) (st z)) ->
  forall z, fold_left points_step ops pt z = option_map (option_map fst) (st' z).
Proof.
  induction ops as [|op ops IH]; intros st pt st' l H E; cbn [value_run fold_left] in *; [injection H as <- <-; auto|].
  okbind H. destruct a as [st1 a]. okbind H. destruct a0 as [st2 l2]. injection H as <- <-.
  eapply IH; [exact E1|]. clear E1 IH. intros z.
  destruct op as [x sp stop bnds ru|x sp bytes|x y|x y|x|x q]; cbn [value_step points_step] in *.
  - rewrite E. destruct (st x) as [v|]; cbn [option_map]; [injection E0 as <- <-; auto|]. okbind E0. injection E0 as <- <-. sv; auto.
  - rewrite E. destruct (st x) as [v|]; cbn [option_map]; [injection E0 as <- <-; auto|]. okbind E0. destruct a0. injection E0 as <- <-. sv; auto.
  - rewrite !E. destruct (st x) as [v|], (st y) as [u|]; cbn [option_map]; injection E0 as <- <-; auto. sv; auto.
  - rewrite !E. destruct (st x) as [v|], (st y) as [u|]; cbn [option_map]; try (injection E0 as <- <-; auto; fail).
    destruct (x =? y); injection E0 as <- <-; sv; auto.
  - injection E0 as <- <-. sv; auto.
  - destruct (st x) as [[[sp d]|]|]; try discriminate; [okbind E0|]; injection E0 as <- <-; auto.
Qed.

Definition built (all : list (tree_op T)) (st : holdings m) : Prop :=
  forall x sp d, st x = Some (Some (sp, d)) -> exists x0 stop bnds ru, In (TBuild x0 sp stop bnds ru) all
    /\ build (m_cat m) alg it fuel sp stop bnds ru = Ok d.

Lemma value_built all ops : forall st st' l, value_run alg little it tc m fuel st ops = Ok (st', l) ->
  incl ops all -> Forall no_load ops -> built all st -> built all st'.
Proof.
  induction ops as [|op ops IH]; intros st st' l H I F Bt; cbn [value_run] in *; [injection H as <- <-; auto|].
  okbind H. destruct a as [st1 a]. okbind H. destruct a0 as [st2 l2]. injection H as <- <-.
  apply Forall_cons_iff in F as [F1 F2].
  eapply IH; [exact E0|intros z Hz; apply I; right; auto|exact F2|]. clear E0 IH F2.
  intros z sp' d'.
  destruct op as [x sp stop bnds ru|x sp bytes|x y|x y|x|x q]; cbn [value_step no_load] in *; try contradiction.
  - destruct (st x) as [v|]; [injection E as <- <-; apply Bt|]. okbind E. injection E as <- <-. sv; [|apply Bt].
    intros EQ. injection EQ as <- <-. exists x, stop, bnds, ru. split; auto. apply I. left. auto.
  - destruct (st x) as [v|], (st y) as [u|] eqn:EY; injection E as <- <-; try apply Bt. sv; try discriminate; try apply Bt.
    intros EQ. apply (Bt y). rewrite EY. exact EQ.
  - destruct (st x) as [v|], (st y) as [u|] eqn:EY; try (injection E as <- <-; apply Bt).
    destruct (x =? y); injection E as <- <-; sv; try discriminate; try apply Bt.
    intros EQ. apply (Bt y). rewrite EY. exact EQ.
  - injection E as <- <-. sv; try discriminate; apply Bt.
  - destruct (st x) as [[[sp d]|]|]; try discriminate; [okbind E|]; injection E as <- <-; apply Bt.
Qed.

(** A query at the end of a program is answered by a tree that was built over the
    points of the object. *)
Theorem program_query ops w l x sp : Forall no_load ops -> run ops = Ok (w, l) ->
  points_of ops x = Some (Some sp) ->
  exists x0 stop bnds ru tree, In (TBuild x0 sp stop bnds ru) ops
    /\ kd_tree_make alg it m fuel sp stop bnds ru = Ok tree
    /\ forall q, tree_step alg little it tc m mp fuel w (TQuery x q)
                 = do a <- answer_of alg little it tc tree q; Ok (w, Some a).
Proof.
  intros F H EP. destruct (program_state False ops w l ltac:(tauto) H) as (ch & ps & st & l' & W & EV).
  set (ops' := filter (fun o => negb (is_query o)) ops) in *.
  assert (IN : incl ops' ops) by (intros z Hz; apply filter_In in Hz; tauto).
  assert (EP' : points_of ops' x = Some (Some sp)).
  { rewrite <- EP. unfold points_of, ops'. clear. generalize (fun _ : nat => @None (option (space T))) as pt.
    induction ops as [|op ops IH]; intros pt; cbn [filter fold_left]; auto. destruct op; cbn [is_query negb fold_left]; auto. }
  pose proof (value_points _ _ (fun _ => None) _ _ EV (fun _ => eq_refl) x) as VP. unfold points_of in EP'. rewrite EP' in VP.
  destruct (st x) as [[[sp' d]|]|] eqn:EX; cbn in VP; try discriminate. injection VP as <-.
  destruct (value_built ops ops' _ _ _ EV IN) with (x := x) (sp := sp) (d := d) as (x0 & stop & bnds & ru & HB & EB); auto.
  { apply Forall_forall. intros z Hz. rewrite Forall_forall in F. auto. }
  { intros z sp' d'. discriminate. }
  exists x0, stop, bnds, ru, (KdTree sp m d). split; auto. split.
  { unfold kd_tree_make. rewrite EB. reflexivity. }
  intros q. pose proof (wi_obj _ _ _ _ _ _ W x) as OX. rewrite EX in OX. cbn [obj_ok] in OX.
  destruct OX as (o & fp & objs & B1 & B2 & B3 & B4 & B5 & B6). cbn [tree_step]. rewrite B1.
  destruct (w_live _ _ _ _ _ _ _ _ W B2) as [N L]. cbn [p_objs] in N, L.
  rewrite (query_ok alg little it tc m _ _ _ sp d fp); auto.
  - intros z Hz. apply L. eapply Permutation_in; [symmetry; exact B3|exact Hz].
  - rewrite <- B3. exact N.
Qed.
End Programs.
