(** Programs that catch exceptions of constructors. *)
From Coq Require Import List ZArith Bool Arith Lia Permutation.
From Verif Require Import Base Lemmas ModelBox ModelBuild ModelSearch ModelSerial ModelMemory SpecMemory MemoryThms
  ModelHeap SpecHeap HeapThms HeapTop ModelThrow SpecThrow ThrowThms.
Import ListNotations.
Local Open Scope nat_scope.

Section Top.
Context {T : Type} {SC : Scalar T}.
Variables (alg : std_algos) (little : bool) (it : index_type) (tc : codec T) (m : metric T).
Variables (mp : moved_parts T) (fuel : nat).
Hypothesis AL : std_in_place alg.
Local Notation cat := (m_cat m).
Local Notation plain := (tree_step alg little it tc m mp fuel).
Local Notation try1 := (try_step alg little it tc m mp fuel).

Lemma thrown_inv cov w ch ps st h mem : w_inv m cov w ch ps st ->
  restored cat (w_heap w) (w_cells w) h mem -> w_inv m cov (World (w_obj w) h mem) ch ps st.
Proof.
  intros W (RL & RN & RC). pose proof W as [I R C N O]. constructor; cbn [w_heap w_cells w_obj].
  - destruct I as [A B C0 D F]. constructor; cbn [w_mem m_var m_heap w_obj w_heap] in *; auto.
    + intros a. rewrite RL. intros Ha. specialize (A a Ha). lia.
    + intros x al. rewrite RL. apply B.
  - eapply rel_ext; [| |exact R]; reflexivity.
  - rewrite RL. exact C.
  - rewrite RL. exact N.
  - intros x. specialize (O x). destruct (st x) as [[[sp d]|]|]; cbn [obj_ok w_obj] in *; auto.
    destruct O as (o & fp & objs & A1 & A2 & A3 & (B1 & B2 & B3 & p & B4 & B5) & A5).
    exists o, fp, objs. cbn [w_obj]. split; [exact A1|]. split; [exact A2|]. split; [exact A3|]. split; [|exact A5].
    repeat split; auto. exists p. split; auto. eapply repr_ext; [exact B5|]. intros q Hq. cbn [w_cells]. apply RC.
    destruct (w_live _ _ _ _ _ _ _ _ W A2) as [_ L]. assert (LQ : live_ptr (w_heap w) q = true).
    { apply L. cbn [p_objs]. eapply Permutation_in; [symmetry; exact A3|exact Hq]. }
    unfold live_ptr in LQ. apply andb_true_iff in LQ as [LQ _].
    apply (inv_fresh _ _ I). cbn [w_mem m_heap]. apply find_in. destruct (find_node _ _); congruence.
Qed.

Lemma try_cases w op ft : (forall a, In a (addrs (h_live (w_heap w))) -> a < h_next (w_heap w)) ->
  (exists h mem, try1 w op ft = Ok (World (w_obj w) h mem, None, true) /\ restored cat (w_heap w) (w_cells w) h mem
     /\ ~ faultless ft)
  \/ try1 w op ft = (do (w', a) <- plain w op; Ok (w', a, false)).
Proof.
  intros FR. destruct op as [x sp stop bnds ru|x sp bytes|x y|x y|x|x q]; try (right; reflexivity); cbn [try_step tree_step].
  - destruct (w_obj w x); [right; reflexivity|].
    pose proof (build_safely cat ft (w_heap w) (w_cells w) FR alg it fuel sp stop bnds ru) as S.
    destruct (build_t _ _ _ _ _ _ _ _ _ _ _) as [[[h mem] [o|]]| |]; cbn [safely bind] in *.
    + right. destruct S as (y & -> & <-). reflexivity.
    + left. exists h, mem. split; [reflexivity|exact S].
    + right. rewrite S. reflexivity.
    + right. rewrite S. reflexivity.
  - destruct (w_obj w x); [right; reflexivity|].
    pose proof (load_safely cat ft (w_heap w) (w_cells w) FR little it tc sp bytes) as S.
    destruct (load_t _ _ _ _ _ _ _ _ _) as [[[h mem] [[o s]|]]| |]; cbn [safely bind] in *.
    + right. destruct S as (y & -> & ->). reflexivity.
    + left. exists h, mem. split; [reflexivity|exact S].
    + right. rewrite S. reflexivity.
    + right. rewrite S. reflexivity.
Qed.

Lemma w_fresh cov w ch ps st : w_inv m cov w ch ps st ->
  forall a, In a (addrs (h_live (w_heap w))) -> a < h_next (w_heap w).
Proof. intros W. exact (inv_fresh _ _ (wi_inv _ _ _ _ _ _ W)). Qed.

Lemma restored_unharmed cov w ch ps st h mem : w_inv m cov w ch ps st ->
  restored cat (w_heap w) (w_cells w) h mem -> unharmed w (World (w_obj w) h mem).
Proof.
  intros W (RL & RN & RC). repeat split; auto. intros p Hp. apply RC. apply (w_fresh _ _ _ _ _ W).
  unfold live_ptr in Hp. apply andb_true_iff in Hp as [Hp _]. apply find_in. destruct (find_node _ _); congruence.
Qed.

(** Without regard to answers. *)
Lemma try_state (cov : Prop) ops : forall w ch ps st w' l, w_inv m cov w ch ps st ->
  (cov -> no_tree_overwritten (scope_of m st) (kept ops l)) ->
  try_run alg little it tc m mp fuel w ops = Ok (w', l) ->
  exists ch' ps' st', w_inv m cov w' ch' ps' st'.
Proof.
  induction ops as [|[op ft] ops IH]; intros w ch ps st w' l W O H; cbn [try_run] in H.
  - injection H as <- <-. eauto.
  - okbind H. destruct a as [[w1 a] t]. okbind H. destruct a0 as [w2 l2]. injection H as <- <-. cbn [kept] in O.
    destruct (try_cases w op ft (w_fresh _ _ _ _ _ W)) as [(h & mem & E1 & R & _)|E1]; rewrite E1 in E.
    + injection E as <- <- <-. eapply IH; [eapply thrown_inv; eauto| |exact E0]. exact O.
    + okbind E. destruct a0 as [w1' a']. injection E as -> -> <-. cbn [no_tree_overwritten] in O.
      destruct (is_query op) eqn:EQ.
      * destruct op; try discriminate. assert (w1 = w) as ->.
        { cbn [tree_step] in E2. destruct (w_obj w x); [okbind E2|]; injection E2 as <- _; reflexivity. }
        eapply IH; [exact W| |exact E0]. intros K. apply O, K.
      * pose proof (step_sim alg little it tc m mp fuel AL cov w ch ps st op W) as A.
        assert (SS : step_scope m st op) by (destruct op; try discriminate EQ; exact I).
        assert (SK : cov -> step_keeps m st op).
        { intros K. destruct (O K) as [O1 _]. destruct op; cbn [step_keeps]; auto. unfold scope_of in O1.
          destruct (st x) as [[v|]|], (st y) as [[u|]|]; auto; destruct O1; congruence. }
        specialize (A SS SK). destruct (value_step _ _ _ _ _ _ _ _) as [[st1 b]| |] eqn:EV; try congruence.
        destruct A as (w3 & ch1 & ps1 & A1 & A2). rewrite A1 in E2. injection E2 as -> ->.
        eapply IH; [exact A2| |exact E0]. intros K. destruct (O K) as [_ O2].
        eapply overwrite_ext; [apply (scope_step_ok _ _ _ _ _ _ _ _ _ _ EV)|exact O2].
Qed.

Lemma try_sim ops : forall w ch ps st w' l, w_inv m False w ch ps st ->
  no_moved_query (scope_of m st) (kept ops l) ->
  try_run alg little it tc m mp fuel w ops = Ok (w', l) ->
  exists ch' ps' st', value_run alg little it tc m fuel st (kept ops l) = Ok (st', kept_answers l)
    /\ w_inv m False w' ch' ps' st'.
Proof.
  induction ops as [|[op ft] ops IH]; intros w ch ps st w' l W O H; cbn [try_run] in H.
  - injection H as <- <-. exists ch, ps, st. auto.
  - okbind H. destruct a as [[w1 a] t]. okbind H. destruct a0 as [w2 l2]. injection H as <- <-. cbn [kept] in *.
    destruct (try_cases w op ft (w_fresh _ _ _ _ _ W)) as [(h & mem & E1 & R & _)|E1]; rewrite E1 in E.
    + injection E as <- <- <-. change (kept_answers ((None, true) :: l2)) with (kept_answers l2). eapply IH; [eapply thrown_inv; eauto| |exact E0]. exact O.
    + okbind E. destruct a0 as [w1' a']. injection E as -> -> <-. cbn [no_moved_query] in O. destruct O as [O1 O2].
      pose proof (step_sim alg little it tc m mp fuel AL False w ch ps st op W) as A.
      assert (SS : step_scope m st op).
      { destruct op; cbn [step_scope]; auto. intros EX. apply O1. unfold scope_of. rewrite EX. auto. }
      specialize (A SS (fun K : False => match K with end)). cbn [value_run].
      destruct (value_step _ _ _ _ _ _ _ _) as [[st1 b]| |] eqn:EV; try congruence.
      destruct A as (w3 & ch1 & ps1 & A1 & A2). rewrite A1 in E2. injection E2 as -> ->.
      assert (Q2 : no_moved_query (scope_of m st1) (kept ops l2))
        by (eapply query_ext; [apply (scope_step_ok _ _ _ _ _ _ _ _ _ _ EV)|exact O2]).
      destruct (IH _ _ _ _ _ _ A2 Q2 E0) as (ch' & ps' & st' & B1 & B2). cbn [bind]. rewrite B1. cbn [bind].
      exists ch', ps', st'. split; [reflexivity|exact B2].
Qed.

Local Notation attempts := (try_run alg little it tc m mp fuel (tree_start m)).

Lemma reached ops w l : attempts ops = Ok (w, l) -> exists ch ps st, w_inv m False w ch ps st.
Proof. intros H. exact (try_state False ops _ _ _ _ _ _ (w_start m False) (fun K => match K with end) H). Qed.

Theorem throws_clean ops w l op ft : attempts ops = Ok (w, l) ->
  (exists w', try1 w op ft = Ok (w', None, true) /\ unharmed w w' /\ ~ faultless ft)
  \/ try1 w op ft = (do (w', a) <- plain w op; Ok (w', a, false)).
Proof.
  intros H. destruct (reached _ _ _ H) as (ch & ps & st & W).
  destruct (try_cases w op ft (w_fresh _ _ _ _ _ W)) as [(h & mem & E1 & R & Q)|E1]; auto.
  left. eexists. split; [exact E1|]. split; [|exact Q]. eapply restored_unharmed; eauto.
Qed.

Theorem throws_transparent ops w l : attempts ops = Ok (w, l) -> no_moved_query empty_scope (kept ops l) ->
  exists st, value_run alg little it tc m fuel (no_objects m) (kept ops l) = Ok (st, kept_answers l).
Proof.
  intros H Q. destruct (try_sim ops _ _ _ _ _ _ (w_start m False) Q H) as (ch & ps & st & A & _). eauto.
Qed.

Theorem throws_frees ops w l : attempts ops = Ok (w, l) -> no_tree_overwritten empty_scope (kept ops l) ->
  (forall x, w_obj w x = None) -> h_live (w_heap w) = [].
Proof.
  intros H O N. destruct (try_state True ops _ _ _ _ _ _ (w_start m True) (fun _ => O) H) as (ch & ps & st & W).
  destruct (h_live (w_heap w)) as [|[a q] r] eqn:E; auto. exfalso.
  destruct (wi_cov _ _ _ _ _ _ W I a) as [x Hx]; [rewrite E; left; auto|].
  rewrite (inv_none _ _ (wi_inv _ _ _ _ _ _ W)) in Hx; [contradiction|]. cbn. rewrite N. auto.
Qed.

(** * How much memory a tree needs *)
Lemma own_is_chain lo live0 : (forall a, In a (addrs live0) -> a < lo) -> forall own hi head pre,
  own_chain lo own hi head -> (forall x, In x pre -> hi <= fst x) ->
  forall cs, chain (pre ++ own ++ live0) head cs -> cs = map fst own.
Proof.
  intros L. induction own as [|[a p] r IH]; intros hi head pre H P cs C; cbn in H.
  - subst. inversion C. reflexivity.
  - destruct H as (-> & B & H). inversion C as [|a0 prev cs' F C' E1 E2]; subst. cbn [map fst]. f_equal.
    assert (EP : prev = p).
    { clear - F P B. induction pre as [|[b q] pre IHp]; cbn [app find_node] in F.
      - rewrite Nat.eqb_refl in F. congruence.
      - pose proof (P _ (or_introl eq_refl)) as X. cbn in X. destruct (Nat.eqb_spec a b); [lia|].
        apply IHp; auto. intros x Hx. apply P. right. auto. }
    subst prev. apply (IH a p (pre ++ [(a, p)])); auto.
    + intros x Hx. apply in_app_or in Hx as [Hx|[<-|[]]]; cbn; [specialize (P x Hx)|]; lia.
    + rewrite <- app_assoc. exact C'.
Qed.

Lemma build_next w ch ps st x sp stop bnds ru d : w_inv m False w ch ps st -> w_obj w x = None ->
  build cat alg it fuel sp stop bnds ru = Ok d ->
  exists s p bx, create_node_h cat alg ru it stop sp fuel 0 0 (sp_size sp) (box_from_bounds sp bnds)
    (BState (w_heap w) (w_cells w) (new_allocator node_chunk) (seq 0 (sp_size sp))) = Ok (s, p, bx)
    /\ h_next (b_heap s) = h_next (w_heap w) + chunks_needed (node_count (kd_root d)).
Proof.
  intros W EX H. apply (w_none _ _ _ _ _ _ x W) in EX. unfold build in H.
  do 4 (destruct (guard _ _); cbn [bind] in H; [|discriminate|discriminate]).
  pose proof (w_begin m False w ch ps st x (w_cells w) (seq 0 (sp_size sp)) W EX eq_refl) as BI.
  set (s0 := BState (w_heap w) (w_cells w) (new_allocator node_chunk) (seq 0 (sp_size sp))) in *.
  pose proof (create_ok cat _ _ _ _ _ alg ru it stop sp AL fuel 0 0 (sp_size sp) (box_from_bounds sp bnds) s0 [] BI
    (Nat.le_0_l _) ltac:(cbn [s0 b_indices]; rewrite seq_length; auto)) as A.
  replace (firstn (sp_size sp - 0) (skipn 0 (b_indices s0))) with (seq 0 (sp_size sp)) in A
    by (symmetry; apply firstn_all2; cbn [s0 b_indices skipn]; rewrite seq_length; lia).
  rewrite ?seq_length in H.
  destruct (create_node _ _ _ _ _ _ _ _ _ _ _) as [[[n seg'] bx']| |]; cbn [bind] in H; try discriminate.
  injection H as <-. cbn [kd_root].
  destruct A as (s' & p & A1 & A2 & A3 & fp & objs' & A4 & A5 & A6 & A7). exists s', p, bx'. split; [exact A1|].
  pose proof (w_fresh _ _ _ _ _ W) as FR.
  assert (G : grown cat (w_heap w) (w_cells w) s').
  { pose proof (sim_create cat (memory_for 0 0) (w_heap w) (w_cells w) alg ru it stop sp fuel 0 0 (sp_size sp)
      (box_from_bounds sp bnds) s0 (grown_start cat _ _ _)) as S0.
    set (none := Faults (fun _ => false) (fun _ => false) (fun _ _ _ => false) false).
    pose proof (sim_create cat none (w_heap w) (w_cells w) alg ru it stop sp fuel 0 0 (sp_size sp)
      (box_from_bounds sp bnds) s0 (grown_start cat _ _ _)) as S. rewrite A1 in S.
    destruct (create_node_t cat none _ _ _ _ _ _ _ _ _ _ _) as [[x1|x1]| |]; cbn [sim] in S; try discriminate.
    - destruct S as [ES [G _]]. injection ES as <-. exact G.
    - destruct S as [_ Q]. exfalso. apply Q. repeat split; auto. }
  destruct G as [(own & G1 & G2 & G3) _ _ _]. rewrite G2. f_equal.
  destruct A4 as (ch' & I' & R' & _ & _ & (CT1 & CT2) & _).
  assert (V : m_var (b_mem cat (fun z => option_map to_alloc (w_obj w z)) x s') x = Some (b_alloc s'))
    by (cbn; apply set_var_same).
  pose proof (inv_chain _ _ I' x _ V) as C. cbn [b_mem m_heap] in C. rewrite G1 in C.
  rewrite (own_is_chain _ _ FR own _ _ [] G3 (fun _ K => match K with end) _ C), map_length in CT1.
  destruct (rel_live _ _ _ _ R' x _ _ V (set_var_same _ _ _) eq_refl) as (B1 & _).
  rewrite app_nil_r in A5. rewrite (Permutation_length A5), (repr_count _ _ _ _ A6) in CT1.
  unfold chunks_needed, node_chunk in *. apply (Nat.div_unique _ _ _ (al_index (b_alloc s') - 1)); lia.
Qed.

Theorem memory_needed ops w l x sp stop bnds ru d n : attempts ops = Ok (w, l) -> w_obj w x = None ->
  build cat alg it fuel sp stop bnds ru = Ok d ->
  exists w' t, try1 w (TBuild x sp stop bnds ru) (memory_for (h_next (w_heap w)) n) = Ok (w', None, t)
    /\ (t = true <-> n < chunks_needed (node_count (kd_root d))).
Proof.
  intros H EX HB. destruct (reached _ _ _ H) as (ch & ps & st & W).
  destruct (build_next _ _ _ _ _ _ _ _ _ _ W EX HB) as (s & p & bx & E1 & E2).
  set (ft := memory_for (h_next (w_heap w)) n).
  pose proof (w_fresh _ _ _ _ _ W) as FR.
  pose proof (build_ok alg it m fuel AL False w ch ps st x sp stop bnds ru W
    (proj1 (w_none _ _ _ _ _ _ x W) EX)) as BO. rewrite HB in BO. destruct BO as (h & mem & o & _ & _ & BH & _).
  pose proof (needs_create cat ft (w_heap w) (w_cells w) (fun _ _ _ => eq_refl) alg ru it stop sp fuel 0 0 (sp_size sp)
    (box_from_bounds sp bnds) _ (grown_start cat _ _ (seq 0 (sp_size sp)))) as N. rewrite E1 in N.
  pose proof (sim_create cat ft (w_heap w) (w_cells w) alg ru it stop sp fuel 0 0 (sp_size sp)
    (box_from_bounds sp bnds) _ (grown_start cat _ _ (seq 0 (sp_size sp)))) as S. rewrite E1 in S.
  cbn [try_step]. rewrite EX. unfold build_t. unfold build_h in BH.
  do 3 (destruct (guard _ _); cbn [bind] in *; [|discriminate|discriminate]). cbn [ft memory_for ft_vector].
  destruct (guard _ _); cbn [bind] in *; [|discriminate|discriminate].
  rewrite seq_length in *. rewrite E1 in BH. fold ft.
  assert (MS : missing ft (h_next (w_heap w)) (h_next (b_heap s)) <-> n < chunks_needed (node_count (kd_root d))).
  { unfold missing. cbn [ft memory_for ft_chunk]. rewrite E2. split.
    - intros (b & Hb & F). apply Nat.leb_le in F. lia.
    - intros L. exists (h_next (w_heap w) + n). split; [lia|]. apply Nat.leb_le. lia. }
  destruct (create_node_t _ _ _ _ _ _ _ _ _ _ _ _ _) as [[[[s1 p1] b1]|s1]| |]; cbn [sim needs bind fst] in *; try discriminate.
  - destruct S as [ES [G _]]. injection ES as -> -> ->. destruct N as [_ N]. cbn [b_heap] in N. cbn [move_construct al_head] in *.
    destruct (release _ _ _) as [live| |]; cbn [bind] in *; try discriminate. eexists _, false. split; [reflexivity|].
    split; [discriminate|]. intros L. exfalso. apply N, MS, L.
  - destruct S as [G _]. destruct (unwind_ok cat _ _ FR _ G) as (h1 & m1 & -> & _). cbn [bind]. eexists _, true.
    split; [reflexivity|]. split; [|reflexivity]. intros _. apply MS. exact (N _ eq_refl).
Qed.

End Top.

(** * Streams that throw *)
Section Streams.
Context {T : Type} {SC : Scalar T}.
Variable c : category.
Variables (little : bool) (it : index_type) (tc : codec T).
Hypothesis DC : decodes tc.
Local Notation ft := throwing_stream.
Local Notation B := (branch_data c T).

(** An exception where the stream comes up short, and nowhere else. *)
Definition short {A} (rt : res (outcome A (bstate T c))) (rh : res A) : Prop :=
  match rt with
  | Ok (Done a) => rh = Ok a
  | Ok (Thrown _) => rh = Ub UbShortRead
  | Ub u => rh = Ub u /\ u <> UbShortRead
  | OutOfFuel => rh = OutOfFuel
  end.

Lemma short_then {A A'} rt rh (f : A -> res (outcome A' (bstate T c))) g :
  short rt rh -> (forall a, rh = Ok a -> short (f a) (g a)) -> short (then_ rt f) (bind rh g).
Proof.
  destruct rt as [[a|s]| |]; cbn [short then_]; intros H K.
  - subst. cbn [bind]. apply K. reflexivity.
  - subst. reflexivity.
  - destruct H as [-> H]. cbn. auto.
  - subst. reflexivity.
Qed.
Lemma short_bind {A A'} (r : res A) (f : A -> res (outcome A' (bstate T c))) g :
  r <> Ub UbShortRead -> (forall a, r = Ok a -> short (f a) (g a)) -> short (bind r f) (bind r g).
Proof. destruct r; cbn; auto. intros N _. split; auto. congruence. Qed.

Lemma short_allocate (s : bstate T c) : short (b_allocate_t c ft s) (b_allocate c s).
Proof.
  unfold b_allocate_t. cbn [ft throwing_stream ft_chunk]. rewrite andb_false_r. unfold calm, b_allocate, allocate.
  destruct (if al_index (b_alloc s) =? node_chunk then _ else _) as [h1 al1].
  destruct (al_chunk al1); [|cbn; split; auto; discriminate].
  destruct (find_node _ _); [|cbn; split; auto; discriminate].
  destruct (_ <? _); cbn; auto. split; auto; discriminate.
Qed.
Lemma short_bytes n st s : short (read_bytes_t ft n st s) (read_bytes n st).
Proof.
  unfold read_bytes_t. destruct (read_bytes n st) as [a|u|]; cbn; auto. destruct u; cbn; auto; split; auto; discriminate.
Qed.
Lemma store_calm (s : bstate T c) p f : b_store c s p f <> Ub UbShortRead.
Proof. unfold b_store, store_cell. destruct (live_ptr _ _); cbn; discriminate. Qed.

Ltac calmly := repeat first
  [ discriminate
  | apply DC
  | progress cbn [bind guard]
  | match goal with |- bind ?r _ <> _ => let E := fresh in let a := fresh in let u := fresh in
      assert (E : r <> Ub UbShortRead); [|destruct r as [a|u|]; cbn [bind]; [|intros; congruence|discriminate]] end
  | match goal with |- (if ?b then _ else _) <> _ => destruct b end
  | match goal with |- (match ?x with _ => _ end) <> _ => destruct x end ].

Lemma bool_calm b : bool_dec b <> Ub UbShortRead.
Proof. unfold bool_dec. calmly. Qed.
Lemma uint_calm n mx b : c_dec (uint_codec little n mx) b <> Ub UbShortRead.
Proof. cbn [uint_codec c_dec]. calmly. Qed.
Lemma bind_calm {A A'} (r : res A) (f : A -> res A') : r <> Ub UbShortRead -> (forall a, f a <> Ub UbShortRead) ->
  bind r f <> Ub UbShortRead.
Proof. intros H K. destruct r; cbn [bind]; [apply K| |discriminate]. intros E. apply H. congruence. Qed.
Lemma leaf_calm b : leaf_value little it b <> Ub UbShortRead.
Proof.
  unfold leaf_value. destruct (layout_get _ _ _) as [|x [|y [|z l]]]; try discriminate.
  apply bind_calm; [apply uint_calm|]. intros a. apply bind_calm; [apply uint_calm|]. discriminate.
Qed.
Lemma branch_calm b : branch_value little tc c b <> Ub UbShortRead.
Proof.
  unfold branch_value. destruct c.
  - destruct (layout_get _ _ _) as [|x [|y [|z [|u l]]]]; try discriminate.
    apply bind_calm; [apply uint_calm|]. intros. apply bind_calm; [apply DC|]. intros. apply bind_calm; [apply DC|]. discriminate.
  - destruct (layout_get _ _ _) as [|x [|y [|z [|u [|v [|w l]]]]]]; try discriminate.
    apply bind_calm; [apply uint_calm|]. intros. do 4 (apply bind_calm; [apply DC|]; intros). discriminate.
Qed.
Lemma decode_calm {A} (cd : codec A) : (forall b, c_dec cd b <> Ub UbShortRead) -> forall n bs, decode_all cd n bs <> Ub UbShortRead.
Proof.
  intros D. induction n as [|n IH]; intros bs; cbn [decode_all]; [discriminate|].
  apply bind_calm; [apply D|]. intros. apply bind_calm; [apply IH|]. discriminate.
Qed.

Lemma short_node : forall fuel st (s : bstate T c),
  short (read_node_t c ft little it tc fuel st s) (read_node_h c little it tc fuel st s).
Proof.
  induction fuel as [|fuel IH]; intros st s; [reflexivity|]. cbn [read_node_t read_node_h].
  apply short_then; [apply short_allocate|]. intros [s0 p] _.
  apply short_then; [apply short_bytes|]. intros [b st1] _.
  apply short_bind; [apply bool_calm|]. intros leaf _. destruct leaf.
  - apply short_then; [apply short_bytes|]. intros [lb st2] _.
    apply short_bind; [apply leaf_calm|]. intros be _. apply short_bind; [apply store_calm|]. intros s1 _. reflexivity.
  - apply short_then; [apply short_bytes|]. intros [bb st2] _.
    apply short_bind; [apply branch_calm|]. intros br _. apply short_bind; [apply store_calm|]. intros s1 _.
    apply short_then; [apply IH|]. intros [[s2 pl] st3] _. apply short_bind; [apply store_calm|]. intros s3 _.
    apply short_then; [apply IH|]. intros [[s4 pr] st4] _. apply short_bind; [apply store_calm|]. intros s5 _. reflexivity.
Qed.

(** After a stream came up short, there is nothing left to read. *)
Lemma array_none {A} (cd : codec A) n init : read_array cd n init None = Ok (repeat init n, None).
Proof. reflexivity. Qed.
Lemma node_none fuel h mem idx :
  read_node_h c little it tc (S fuel) None (BState h mem (new_allocator node_chunk) idx) = Ub UbShortRead.
Proof.
  cbn [read_node_h]. unfold b_allocate, allocate. cbn [b_alloc b_heap new_allocator al_index al_head]. rewrite Nat.eqb_refl.
  cbn [resource_allocate al_chunk h_live find_node al_index]. rewrite Nat.eqb_refl. reflexivity.
Qed.

Lemma short_array {A A'} (cd : codec A) n init st s (f : list A * stream -> res (outcome A' (bstate T c))) g :
  (forall b, c_dec cd b <> Ub UbShortRead) ->
  (forall l, g (l, None) = Ub UbShortRead) ->
  (forall l b, short (f (l, Some b)) (g (l, Some b))) ->
  short (then_ (read_array_t ft cd n init st s) f) (bind (read_array cd n init st) g).
Proof.
  intros D N K. unfold read_array_t, read_array. destruct st as [b|]; [|cbn; apply N].
  destruct (n * c_size cd <=? length b); [|cbn; apply N].
  pose proof (decode_calm cd D n (firstn (n * c_size cd) b)) as X. destruct (decode_all _ _ _) as [l|u|]; cbn; auto.
  split; auto. congruence.
Qed.

Lemma load_short sp bytes h mem : 
  match load_t c ft little it tc sp bytes h mem with
  | Ok (h', mem', Some (o, s)) => load_h c little it tc sp bytes h mem = Ok (h', mem', o, s)
  | Ok (_, _, None) => load_h c little it tc sp bytes h mem = Ub UbShortRead
  | Ub u => load_h c little it tc sp bytes h mem = Ub u \/ exists s : bstate T c, unwind c s = Ub u
  | OutOfFuel => load_h c little it tc sp bytes h mem = OutOfFuel \/ exists s : bstate T c, unwind c s = OutOfFuel
  end /\ (load_h c little it tc sp bytes h mem = Ub UbShortRead -> load_t c ft little it tc sp bytes h mem = Ub UbShortRead ->
     exists s : bstate T c, unwind c s = Ub UbShortRead).
Proof.
  unfold load_t. set (s0 := BState h mem (new_allocator node_chunk) []).
  match goal with |- context [bind ?r _] =>
    assert (S : short r (do (h', m', o, s) <- load_h c little it tc sp bytes h mem;
                       Ok (BState h' m' (to_alloc o) (to_indices o), o, s))) end.
  { unfold load_h. rewrite bind_assoc.
    apply short_then; [apply short_bytes|]. intros [b s1] _. rewrite bind_assoc.
    apply short_bind; [apply uint_calm|]. intros sdim _. cbn [ft throwing_stream ft_vector].
    rewrite bind_assoc. apply short_then; [apply short_bytes|]. intros [b2 s2] _. rewrite bind_assoc.
    apply short_bind; [apply uint_calm|]. intros size _.
    rewrite bind_assoc. apply short_array; [apply uint_calm|intros l; cbn [bind read_array]; rewrite node_none; reflexivity|].
    intros indices r3. rewrite bind_assoc.
    apply short_array; [apply DC|intros l; cbn [bind read_array]; rewrite node_none; reflexivity|].
    intros mn r4. rewrite bind_assoc.
    apply short_array; [apply DC|intros l; cbn [bind]; rewrite node_none; reflexivity|].
    intros mx r5. rewrite bind_assoc. apply short_then; [apply short_node|]. intros [[s p] s6] _.
    cbn [bind]. destruct s. reflexivity. }
  match goal with |- context [bind ?r _] => destruct r as [[[[s o] s6]|s]|u|] end; cbn [short bind] in *.
  - destruct (load_h _ _ _ _ _ _ _ _) as [[[[h' m'] o'] s']| |]; try discriminate.
    cbn [bind] in S. injection S as <- -> ->. split; [reflexivity|discriminate].
  - destruct (load_h _ _ _ _ _ _ _ _) as [[[[h' m'] o'] s']| |]; try discriminate. injection S as ->.
    destruct (unwind c s) as [[h1 m1]|v|] eqn:EU; cbn [bind]; split; try discriminate; eauto.
    intros _ X. injection X as ->. eauto.
  - destruct S as [S NE]. destruct (load_h _ _ _ _ _ _ _ _) as [[[[h' m'] o'] s']| |]; try discriminate. injection S as ->.
    split; [auto|]. intros X. congruence.
  - destruct (load_h _ _ _ _ _ _ _ _) as [[[[h' m'] o'] s']| |]; try discriminate. split; [auto|discriminate].
Qed.

Lemma release_calm fuel : forall l head, release fuel l head <> Ub UbShortRead.
Proof.
  induction fuel as [|fuel IH]; intros l [a|]; cbn [release]; try discriminate.
  destruct (find_node l a); [apply IH|discriminate].
Qed.
Lemma unwind_calm (s : bstate T c) : unwind c s <> Ub UbShortRead.
Proof. unfold unwind. apply bind_calm; [apply release_calm|]. discriminate. Qed.
End Streams.

Section StreamTop.
Context {T : Type} {SC : Scalar T}.
Variables (alg : std_algos) (little : bool) (it : index_type) (tc : codec T) (m : metric T).
Variables (mp : moved_parts T) (fuel : nat).
Hypothesis AL : std_in_place alg.
Hypothesis DC : decodes tc.
Local Notation plain := (tree_step alg little it tc m mp fuel).
Local Notation try1 := (try_step alg little it tc m mp fuel).

Theorem stream_throws ops w l x sp bytes :
  try_run alg little it tc m mp fuel (tree_start m) ops = Ok (w, l) -> w_obj w x = None ->
  match load_data little it tc (m_cat m) (Some bytes) with
  | Ok (d, _) => exists w', try1 w (TLoad x sp bytes) throwing_stream = Ok (w', None, false)
      /\ plain w (TLoad x sp bytes) = Ok (w', None)
  | Ub UbShortRead => exists w', try1 w (TLoad x sp bytes) throwing_stream = Ok (w', None, true) /\ unharmed w w'
  | Ub u => try1 w (TLoad x sp bytes) throwing_stream = Ub u
  | OutOfFuel => try1 w (TLoad x sp bytes) throwing_stream = OutOfFuel
  end.
Proof.
  intros H EX. destruct (reached alg little it tc m mp fuel AL _ _ _ H) as (ch & ps & st & W).
  pose proof (load_ok little it tc m False w ch ps st x sp bytes W
    (proj1 (w_none _ _ _ _ _ _ x W) EX)) as LO.
  pose proof (throws_clean alg little it tc m mp fuel AL ops w l (TLoad x sp bytes) throwing_stream H) as C.
  destruct (load_short (m_cat m) little it tc DC sp bytes (w_heap w) (w_cells w)) as [LS LU].
  cbn [tree_step try_step] in *. rewrite EX in *.
  destruct (load_data little it tc (m_cat m) (Some bytes)) as [[d s']|u|].
  - destruct LO as (h & mem & o & _ & _ & E & _). rewrite E in *. cbn [bind] in *.
    destruct (load_t _ _ _ _ _ _ _ _ _) as [[[h1 m1] [[o1 s1]|]]| |]; cbn [bind] in *; try discriminate.
    + injection LS as -> -> -> ->. eexists. split; reflexivity.
    + destruct C as [(w' & C & _)|C]; discriminate.
    + destruct C as [(w' & C & _)|C]; discriminate.
  - rewrite LO in *. cbn [bind] in *.
    assert (X : u = UbShortRead -> exists w', (do (h, mem, o) <- load_t (m_cat m) throwing_stream little it tc sp bytes (w_heap w) (w_cells w);
          match o with
          | Some (t, _) => Ok (World (m := m) (set_var (w_obj w) x (Some t)) h mem, @None (answer T), false)
          | None => Ok (World (w_obj w) h mem, None, true)
          end) = Ok (w', None, true) /\ unharmed w w').
    { intros ->. destruct C as [(w' & C & U & _)|C]; [exists w'; auto|].
      exfalso. destruct (load_t _ _ _ _ _ _ _ _ _) as [[[h1 m1] [[o1 s1]|]]| |]; cbn [bind] in *; try discriminate.
      injection C as ->. destruct (LU eq_refl eq_refl) as [s E]. exact (unwind_calm _ _ E). }
    destruct u; try (apply X; reflexivity);
      (destruct C as [(w' & C & _)|C]; [|exact C];
       destruct (load_t _ _ _ _ _ _ _ _ _) as [[[h1 m1] [[o1 s1]|]]| |]; cbn [bind] in *; discriminate).
  - rewrite LO in *. cbn [bind] in *. destruct C as [(w' & C & _)|C]; [|exact C].
    destruct (load_t _ _ _ _ _ _ _ _ _) as [[[h1 m1] [[o1 s1]|]]| |]; cbn [bind] in *; discriminate.
Qed.
End StreamTop.
