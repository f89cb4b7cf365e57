(** A construction that throws leaves nothing behind. *)
From Coq Require Import List ZArith Bool Arith Lia Permutation.
From Verif Require Import Base Lemmas ModelBox ModelBuild ModelSearch ModelSerial ModelMemory SpecMemory MemoryThms
  ModelHeap SpecHeap HeapThms HeapTop ModelThrow SpecThrow.
Import ListNotations.
Local Open Scope nat_scope.

Lemma bind_assoc {A B C} (r : res A) (f : A -> res B) (g : B -> res C) :
  bind (bind r f) g = bind r (fun a => bind (f a) g).
Proof. destruct r; reflexivity. Qed.

(** The chunks of one allocator, newest first. *)
Fixpoint own_chain (lo : nat) (own : list (nat * option nat)) (hi : nat) (head : option nat) : Prop :=
  match own with
  | [] => head = None
  | (a, p) :: r => head = Some a /\ lo <= a < hi /\ own_chain lo r a p
  end.

Lemma own_weaken lo own : forall hi hi' head, hi <= hi' -> own_chain lo own hi head -> own_chain lo own hi' head.
Proof. destruct own as [|[a p] r]; intros hi hi' head H; cbn; auto. intros (A & B & C). repeat split; auto; lia. Qed.

Lemma own_below lo own : forall hi head, own_chain lo own hi head -> forall x, In x own -> fst x < hi.
Proof.
  induction own as [|[a p] r IH]; intros hi head H x Hx; [contradiction|]. cbn in H. destruct H as (_ & B & C).
  destruct Hx as [<-|Hx]; cbn; [lia|]. specialize (IH _ _ C x Hx). lia.
Qed.

Lemma remove_none (l : list (nat * option nat)) a : (forall x, In x l -> fst x <> a) -> remove_node l a = l.
Proof.
  unfold remove_node. induction l as [|x l IH]; intros H; cbn [filter]; auto. pose proof (H x (or_introl eq_refl)) as N.
  destruct (Nat.eqb_spec a (fst x)); [congruence|]. cbn [negb]. rewrite IH; auto. intros y Hy. apply H. right. auto.
Qed.

Lemma release_own lo live0 : (forall a, In a (addrs live0) -> a < lo) ->
  forall own hi head fuel, own_chain lo own hi head -> length own <= fuel -> release fuel (own ++ live0) head = Ok live0.
Proof.
  intros L. induction own as [|[a p] r IH]; intros hi head fuel H F.
  - cbn in H. subst. destruct fuel; reflexivity.
  - cbn in H. destruct H as (-> & B & C). cbn [length] in F. destruct fuel as [|fuel]; [lia|].
    cbn [release app find_node]. rewrite Nat.eqb_refl.
    replace (remove_node ((a, p) :: r ++ live0) a) with (r ++ live0).
    + apply (IH a); auto. lia.
    + unfold remove_node. cbn [filter fst]. rewrite Nat.eqb_refl. cbn [negb]. symmetry. apply remove_none.
      intros x Hx E. apply in_app_or in Hx as [Hx|Hx].
      * pose proof (own_below _ _ _ _ C x Hx). lia.
      * assert (fst x < lo) by (apply L; apply in_map; auto). lia.
Qed.

Section Sim.
Context {T : Type} {SC : Scalar T}.
Variable c : category.
Local Notation B := (branch_data c T).
Variable ft : faults.
(** The memory at the beginning. *)
Variables (h0 : heap) (m0 : cells B).
Hypothesis FRESH : forall a, In a (addrs (h_live h0)) -> a < h_next h0.

Record grown (s : bstate T c) : Prop := {
  gr_own : exists own, h_live (b_heap s) = own ++ h_live h0
             /\ h_next (b_heap s) = h_next h0 + length own
             /\ own_chain (h_next h0) own (h_next (b_heap s)) (al_head (b_alloc s));
  gr_next : h_next h0 <= h_next (b_heap s);
  gr_chunk : al_index (b_alloc s) = node_chunk
             \/ exists a, al_chunk (b_alloc s) = Some a /\ h_next h0 <= a;
  gr_cells : forall p, fst p < h_next h0 -> b_cells s p = m0 p
}.

Lemma grown_start idx : grown (BState h0 m0 (new_allocator node_chunk) idx).
Proof. constructor; cbn [b_heap b_alloc b_cells new_allocator al_index al_head al_chunk]; auto. exists []. cbn [length]. rewrite Nat.add_0_r. repeat split; reflexivity. Qed.
Lemma grown_indices s idx : grown s -> grown (BState (b_heap s) (b_cells s) (b_alloc s) idx).
Proof. intros [A B0 C D]. constructor; auto. Qed.

Lemma grown_allocate s s' p : grown s -> b_allocate c s = Ok (s', p) -> grown s' /\ h_next h0 <= fst p
  /\ h_next (b_heap s') = (if al_index (b_alloc s) =? node_chunk then S (h_next (b_heap s)) else h_next (b_heap s)).
Proof.
  intros [(own & A1 & AL & A2) B0 C D] H. unfold b_allocate, allocate in H.
  destruct (al_index (b_alloc s) =? node_chunk) eqn:EI; cbn [resource_allocate al_chunk] in H.
  - cbn [h_live] in H.
    destruct (find_node _ _) eqn:EF in H; [|discriminate]. cbn [al_index] in H. destruct (0 <? node_chunk); [|discriminate].
    cbn [guard bind] in H. injection H as <- <-. split; [|split; [cbn; lia|reflexivity]]. constructor; cbn.
    + exists ((h_next (b_heap s), al_head (b_alloc s)) :: own). rewrite A1. cbn. repeat split; auto; lia.
    + lia.
    + right. eexists. split; [reflexivity|lia].
    + exact D.
  - destruct C as [C|(a & C & CA)]; [apply Nat.eqb_neq in EI; contradiction|]. rewrite C in H.
    destruct (find_node _ a) eqn:EF; [|discriminate]. destruct (al_index (b_alloc s) <? node_chunk); [|discriminate].
    cbn [guard bind] in H. injection H as <- <-. split; [|split; [cbn; lia|reflexivity]]. constructor; cbn; eauto.
Qed.

Lemma grown_store s s' p f : grown s -> h_next h0 <= fst p -> b_store c s p f = Ok s' ->
  grown s' /\ b_heap s' = b_heap s.
Proof.
  intros [A B0 C D] HP H. unfold b_store, store_cell in H. destruct (live_ptr _ _); [|discriminate].
  cbn [guard bind] in H. injection H as <-. split; [|reflexivity]. constructor; cbn; auto.
  intros q Hq. rewrite set_cell_other; auto. intros ->. lia.
Qed.

(** What became of a step that may throw, next to the step that does not: [P] of
    the result. *)
Definition quiet : Prop := faultless ft.
Definition sim {A} (rt : res (outcome A (bstate T c))) (rh : res A) (P : A -> Prop) : Prop :=
  match rt with
  | Ok (Done a) => rh = Ok a /\ P a
  | Ok (Thrown s) => grown s /\ ~ quiet
  | Ub u => rh = Ub u
  | OutOfFuel => rh = OutOfFuel
  end.

Lemma sim_then {A A'} rt rh (P : A -> Prop) (f : A -> res (outcome A' (bstate T c))) g Q :
  sim rt rh P -> (forall a, P a -> sim (f a) (g a) Q) -> sim (then_ rt f) (bind rh g) Q.
Proof.
  destruct rt as [[a|s]| |]; cbn; intros H K; try (rewrite H; reflexivity); auto.
  destruct H as [-> H]. apply K, H.
Qed.
Lemma sim_bind {A A'} (r : res A) (f : A -> res (outcome A' (bstate T c))) g Q :
  (forall a, r = Ok a -> sim (f a) (g a) Q) -> sim (bind r f) (bind r g) Q.
Proof. destruct r; cbn; auto. Qed.
Lemma sim_done {A} (a : A) (P : A -> Prop) : P a -> sim (Ok (Done a)) (Ok a) P.
Proof. cbn. auto. Qed.

Definition fits (x : bstate T c * ptr) : Prop := grown (fst x) /\ h_next h0 <= fst (snd x).

Lemma sim_allocate s : grown s -> sim (b_allocate_t c ft s) (b_allocate c s) fits.
Proof.
  intros G. unfold b_allocate_t. destruct (_ && _) eqn:E.
  - cbn. split; auto. intros (_ & Q & _). rewrite Q, andb_false_r in E. discriminate.
  - unfold calm. destruct (b_allocate c s) as [[s' p]| |] eqn:EA; cbn; auto. split; auto.
    destruct (grown_allocate _ _ _ G EA) as (A1 & A2 & _). split; auto.
Qed.

Lemma sim_create alg ru it stop sp : forall fuel depth b e bx s, grown s ->
  sim (create_node_t c ft alg ru it stop sp fuel depth b e bx s) (create_node_h c alg ru it stop sp fuel depth b e bx s)
    (fun x => fits (fst x)).
Proof.
  induction fuel as [|fuel IH]; intros depth b e bx s G; [reflexivity|]. cbn [create_node_t create_node_h].
  eapply sim_then; [exact (sim_allocate s G)|]. intros [s0 p] [G0 P0]. cbn [fst snd] in G0, P0.
  apply sim_bind. intros seg _. destruct (is_leaf it stop depth (e - b)).
  - apply sim_bind. intros s1 E1. apply sim_bind. intros _ _. apply sim_done.
    destruct (grown_store _ _ _ _ G0 P0 E1) as [G1 _]. split; auto.
  - apply sim_bind. intros [[[l r] d] v] _. destruct (ft_copy ft depth b e) eqn:EC.
    { cbn. split; [apply grown_indices, G0|]. intros (_ & _ & Q & _). rewrite Q in EC. discriminate. }
    eapply sim_then; [apply IH, grown_indices, G0|]. intros [[s2 pl] lb] [G2 _]. cbn [fst snd] in G2.
    apply sim_bind. intros s3 E3. destruct (grown_store _ _ _ _ G2 P0 E3) as [G3 _].
    eapply sim_then; [apply IH, G3|]. intros [[s4 pr] rb] [G4 _]. cbn [fst snd] in G4.
    apply sim_bind. intros s5 E5. destruct (grown_store _ _ _ _ G4 P0 E5) as [G5 _].
    apply sim_bind. intros s6 E6. destruct (grown_store _ _ _ _ G5 P0 E6) as [G6 _].
    apply sim_done. split; auto.
Qed.

Lemma sim_read_bytes n st s : grown s -> sim (read_bytes_t ft n st s) (read_bytes n st) (fun _ => True).
Proof.
  intros G. unfold read_bytes_t. destruct (read_bytes n st) as [a|u|]; cbn; auto. destruct u; cbn; auto.
  destruct (ft_stream ft) eqn:E; cbn; auto. split; auto. intros (_ & _ & _ & Q). congruence.
Qed.
Lemma sim_read_array {A} (cd : codec A) n init st s : grown s ->
  sim (read_array_t ft cd n init st s) (read_array cd n init st) (fun _ => True).
Proof.
  intros G. unfold read_array_t. destruct (read_array cd n init st) as [[a [b|]]|u|]; cbn; auto.
  destruct (ft_stream ft) eqn:E; cbn; auto. split; auto. intros (_ & _ & _ & Q). congruence.
Qed.

Lemma sim_read little it tc : forall fuel st s, grown s ->
  sim (read_node_t c ft little it tc fuel st s) (read_node_h c little it tc fuel st s) (fun x => fits (fst x)).
Proof.
  induction fuel as [|fuel IH]; intros st s G; [reflexivity|]. cbn [read_node_t read_node_h].
  eapply sim_then; [exact (sim_allocate s G)|]. intros [s0 p] [G0 P0]. cbn [fst snd] in G0, P0.
  eapply sim_then; [apply sim_read_bytes, G0|]. intros [b st1] _.
  apply sim_bind. intros leaf _. destruct leaf.
  - eapply sim_then; [apply sim_read_bytes, G0|]. intros [lb st2] _.
    apply sim_bind. intros be _. apply sim_bind. intros s1 E1. apply sim_done.
    destruct (grown_store _ _ _ _ G0 P0 E1) as [G1 _]. split; auto.
  - eapply sim_then; [apply sim_read_bytes, G0|]. intros [bb st2] _.
    apply sim_bind. intros br _. apply sim_bind. intros s1 E1. destruct (grown_store _ _ _ _ G0 P0 E1) as [G1 _].
    eapply sim_then; [apply IH, G1|]. intros [[s2 pl] st3] [G2 _]. cbn [fst snd] in G2.
    apply sim_bind. intros s3 E3. destruct (grown_store _ _ _ _ G2 P0 E3) as [G3 _].
    eapply sim_then; [apply IH, G3|]. intros [[s4 pr] st4] [G4 _]. cbn [fst snd] in G4.
    apply sim_bind. intros s5 E5. destruct (grown_store _ _ _ _ G4 P0 E5) as [G5 _].
    apply sim_done. split; auto.
Qed.

(** The memory after an exception. *)
Definition restored (h : heap) (m : cells B) : Prop :=
  h_live h = h_live h0 /\ h_next h0 <= h_next h /\ forall p, fst p < h_next h0 -> m p = m0 p.

Lemma unwind_ok s : grown s -> exists h m, unwind c s = Ok (h, m) /\ restored h m.
Proof.
  intros [(own & A1 & _ & A2) B0 C D]. unfold unwind. rewrite A1, app_length.
  rewrite (release_own _ _ FRESH _ _ _ _ A2) by lia. cbn [bind]. eexists _, _. split; [reflexivity|]. repeat split; auto.
Qed.

Lemma restored_refl : restored h0 m0.
Proof. repeat split; auto. Qed.

(** A constructor: it throws and restores the memory, or does what it does when
    nothing can throw. *)
Definition safely {A A'} (rt : res (heap * cells B * option A)) (rh : res A') (same : heap * cells B * A -> A' -> Prop) : Prop :=
  match rt with
  | Ok (h, m, None) => restored h m /\ ~ quiet
  | Ok (h, m, Some o) => exists x, rh = Ok x /\ same (h, m, o) x
  | Ub u => rh = Ub u
  | OutOfFuel => rh = OutOfFuel
  end.

Lemma build_safely alg it fuel sp stop bnds ru :
  safely (build_t c ft alg it fuel sp stop bnds ru h0 m0) (build_h c alg it fuel sp stop bnds ru h0 m0) eq.
Proof.
  unfold build_t, build_h.
  do 3 (destruct (guard _ _); cbn [bind]; [|reflexivity|reflexivity]).
  destruct (ft_vector ft 0) eqn:V0. { cbn. split; [apply restored_refl|]. intros (Q & _). rewrite Q in V0. discriminate. }
  destruct (guard _ _); cbn [bind]; [|reflexivity|reflexivity].
  destruct (ft_vector ft 1) eqn:V1. { cbn. split; [apply restored_refl|]. intros (Q & _). rewrite Q in V1. discriminate. }
  set (s0 := BState h0 m0 (new_allocator node_chunk) (seq 0 (sp_size sp))).
  pose proof (grown_start (seq 0 (sp_size sp))) as G0. fold s0 in G0.
  destruct (ft_vector ft 2) eqn:V2.
  { cbn [bind]. destruct (unwind_ok _ G0) as (h & m & -> & R). cbn. split; auto. intros (Q & _). rewrite Q in V2. discriminate. }
  pose proof (sim_create alg ru it stop sp fuel 0 0 (length (seq 0 (sp_size sp))) (box_from_bounds sp bnds) s0 G0) as S.
  destruct (create_node_t _ _ _ _ _ _ _ _ _ _ _ _ _) as [[[[s p] bx]|s]|u|]; cbn [sim bind] in *.
  - destruct S as [-> [G _]]. cbn [fst bind] in *. destruct (ft_vector ft 3) eqn:V3.
    + destruct (unwind_ok _ G) as (h & m & -> & R). cbn. split; auto. intros (Q & _). rewrite Q in V3. discriminate.
    + cbn [move_construct al_head]. destruct (release _ _ _) as [live| |]; cbn; auto. eexists. split; reflexivity.
  - destruct S as [G NQ]. destruct (unwind_ok _ G) as (h & m & -> & R). cbn. auto.
  - rewrite S. reflexivity.
  - rewrite S. reflexivity.
Qed.

Lemma load_safely little it tc sp bytes :
  safely (load_t c ft little it tc sp bytes h0 m0) (load_h c little it tc sp bytes h0 m0)
    (fun '(h, m, (o, s)) x => x = (h, m, o, s)).
Proof.
  unfold load_t. set (s0 := BState h0 m0 (new_allocator node_chunk) []).
  pose proof (grown_start []) as G0. fold s0 in G0.
  match goal with |- safely (bind ?r _) _ _ =>
    assert (S : sim r (do (h, m, o, s) <- load_h c little it tc sp bytes h0 m0;
                       Ok (BState h m (to_alloc o) (to_indices o), o, s)) (fun x => grown (fst (fst x)))) end.
  { unfold load_h. rewrite bind_assoc.
    eapply sim_then; [apply sim_read_bytes, G0|]. intros [b s1] _. rewrite bind_assoc.
    apply sim_bind. intros sdim _. destruct (ft_vector ft 0) eqn:V0.
    { cbn. split; auto. intros (Q & _). rewrite Q in V0. discriminate. }
    rewrite bind_assoc. eapply sim_then; [apply sim_read_bytes, G0|]. intros [b2 s2] _. rewrite bind_assoc.
    apply sim_bind. intros size _. destruct (ft_vector ft 1) eqn:V1.
    { cbn. split; auto. intros (Q & _). rewrite Q in V1. discriminate. }
    rewrite bind_assoc. eapply sim_then; [apply sim_read_array, G0|]. intros [indices s3] _.
    rewrite bind_assoc. eapply sim_then; [apply sim_read_array, G0|]. intros [mn s4] _.
    rewrite bind_assoc. eapply sim_then; [apply sim_read_array, G0|]. intros [mx s5] _.
    rewrite bind_assoc. eapply sim_then; [apply sim_read, grown_start|]. intros [[s p] s6] [G _].
    cbn [bind fst] in *. destruct s as [hh mm al idx]. apply sim_done. exact G. }
  match goal with |- safely (bind ?r _) _ _ => destruct r as [[[[s o] s6]|s]|u|] end; cbn [sim bind] in *.
  - destruct S as [S G]. cbn [safely]. destruct (load_h _ _ _ _ _ _ _ _) as [[[[h m] o'] s']| |]; try discriminate.
    cbn [bind] in S. injection S as <- -> ->. eexists. split; reflexivity.
  - destruct S as [G NQ]. destruct (unwind_ok _ G) as (h & m & -> & R). cbn. auto.
  - destruct (load_h _ _ _ _ _ _ _ _) as [[[[h m] o'] s']| |]; try discriminate. injection S as ->. reflexivity.
  - destruct (load_h _ _ _ _ _ _ _ _) as [[[[h m] o'] s']| |]; try discriminate. reflexivity.
Qed.

(** How the addresses grow. *)
Lemma mono_allocate (s s' : bstate T c) p : b_allocate c s = Ok (s', p) -> h_next (b_heap s') =
  (if al_index (b_alloc s) =? node_chunk then S (h_next (b_heap s)) else h_next (b_heap s)).
Proof.
  unfold b_allocate, allocate. destruct (al_index (b_alloc s) =? node_chunk); cbn [resource_allocate al_chunk]; intros H.
  - destruct (find_node _ _); [|discriminate]. destruct (guard _ _); [|discriminate|discriminate]. injection H as <- <-. reflexivity.
  - destruct (al_chunk _); [|discriminate]. destruct (find_node _ _); [|discriminate].
    destruct (guard _ _); [|discriminate|discriminate]. injection H as <- <-. reflexivity.
Qed.
Lemma mono_store (s s' : bstate T c) p f : b_store c s p f = Ok s' -> b_heap s' = b_heap s.
Proof. unfold b_store, store_cell. destruct (guard _ _); cbn; try discriminate. intros H. injection H as <-. reflexivity. Qed.

Lemma mono_create alg ru it stop sp : forall fuel depth b e bx (s s' : bstate T c) p bx',
  create_node_h c alg ru it stop sp fuel depth b e bx s = Ok (s', p, bx') -> h_next (b_heap s) <= h_next (b_heap s').
Proof.
  induction fuel as [|fuel IH]; intros depth b e bx s s' p bx' H; [discriminate|]. cbn [create_node_h] in H.
  okbind H. destruct a as [s0 p0]. apply mono_allocate in E.
  assert (H0 : h_next (b_heap s) <= h_next (b_heap s0)) by (rewrite E; destruct (_ =? _); lia). clear E.
  okbind H. destruct (is_leaf it stop depth (e - b)).
  - okbind H. okbind H. injection H as <- _ _. rewrite (mono_store _ _ _ _ E0). exact H0.
  - okbind H. destruct a0 as [[[l r] d] v]. okbind H. destruct a0 as [[s2 pl] lb]. apply IH in E1. cbn [b_heap] in E1.
    okbind H. apply mono_store in E2. okbind H. destruct a1 as [[s4 pr] rb]. apply IH in E3. rewrite E2 in E3.
    okbind H. apply mono_store in E4. okbind H. apply mono_store in E5. injection H as <- _ _. rewrite E5, E4. lia.
Qed.

(** When only chunks can be missing: exactly those that the tree needs. *)
Definition missing (lo hi : nat) : Prop := exists a, lo <= a < hi /\ ft_chunk ft a = true.
Hypothesis NC : forall d b e, ft_copy ft d b e = false.

Definition needs {A} (s : bstate T c) (rt : res (outcome A (bstate T c))) (rh : res A) (st : A -> bstate T c) : Prop :=
  match rt with
  | Ok (Done a) => h_next (b_heap s) <= h_next (b_heap (st a)) /\ ~ missing (h_next (b_heap s)) (h_next (b_heap (st a)))
  | Ok (Thrown _) => forall a, rh = Ok a -> missing (h_next (b_heap s)) (h_next (b_heap (st a)))
  | _ => True
  end.

Lemma needs_allocate s : needs s (b_allocate_t c ft s) (b_allocate c s) fst.
Proof.
  unfold b_allocate_t. destruct (al_index (b_alloc s) =? node_chunk) eqn:EI; cbn [andb].
  - destruct (ft_chunk ft (h_next (b_heap s))) eqn:EF.
    + intros [s' p] H. apply mono_allocate in H. rewrite EI in H. cbn [fst]. rewrite H. exists (h_next (b_heap s)). split; auto; lia.
    + unfold calm. destruct (b_allocate c s) as [[s' p]| |] eqn:EA; cbn; auto. apply mono_allocate in EA. rewrite EI in EA.
      rewrite EA. split; [lia|]. intros (a & Ha & Fa). replace a with (h_next (b_heap s)) in Fa by lia. congruence.
  - unfold calm. destruct (b_allocate c s) as [[s' p]| |] eqn:EA; cbn; auto. apply mono_allocate in EA. rewrite EI in EA.
    rewrite EA. split; [lia|]. intros (a & Ha & _). lia.
Qed.

Lemma missing_wider lo hi lo' hi' : lo' <= lo -> hi <= hi' -> missing lo hi -> missing lo' hi'.
Proof. intros H1 H2 (a & Ha & F). exists a. split; auto; lia. Qed.
Lemma missing_join lo mid hi : ~ missing lo mid -> ~ missing mid hi -> ~ missing lo hi.
Proof. intros H1 H2 (a & Ha & F). destruct (Nat.lt_ge_cases a mid); [apply H1|apply H2]; exists a; split; auto; lia. Qed.

Lemma needs_then {A A'} s rt rh (st : A -> bstate T c) (P : A -> Prop) (f : A -> res (outcome A' (bstate T c))) g st' :
  needs s rt rh st -> sim rt rh P ->
  (forall a, P a -> needs (st a) (f a) (g a) st') ->
  (forall a b, rh = Ok a -> g a = Ok b -> h_next (b_heap (st a)) <= h_next (b_heap (st' b))) ->
  needs s (then_ rt f) (bind rh g) st'.
Proof.
  intros N S F M. destruct rt as [[a|s1]| |]; cbn [then_ needs sim] in *; auto.
  - destruct S as [-> S], N as [N1 N2]. cbn [bind]. specialize (F a S).
    destruct (f a) as [[b|s2]| |]; cbn [needs] in *; auto.
    + destruct F as [F1 F2]. split; [lia|]. eapply missing_join; eauto.
    + intros b Hb. eapply missing_wider; [exact N1|apply le_n|exact (F b Hb)].
  - intros b Hb. destruct rh as [a| |]; try discriminate. cbn [bind] in Hb.
    eapply missing_wider; [apply le_n|exact (M a b eq_refl Hb)|exact (N a eq_refl)].
Qed.
Lemma needs_bind {A A'} s (r : res A) (f : A -> res (outcome A' (bstate T c))) g st' :
  (forall a, r = Ok a -> needs s (f a) (g a) st') -> needs s (bind r f) (bind r g) st'.
Proof. destruct r; cbn; auto. Qed.
Lemma needs_same {A} (s s1 : bstate T c) rt (rh : res A) st : h_next (b_heap s1) = h_next (b_heap s) -> needs s1 rt rh st -> needs s rt rh st.
Proof. intros E. unfold needs. rewrite E. auto. Qed.

Lemma needs_create alg ru it stop sp : forall fuel depth b e bx s, grown s ->
  needs s (create_node_t c ft alg ru it stop sp fuel depth b e bx s) (create_node_h c alg ru it stop sp fuel depth b e bx s)
    (fun x => fst (fst x)).
Proof.
  induction fuel as [|fuel IH]; intros depth b e bx s G; [exact I|]. cbn [create_node_t create_node_h].
  eapply needs_then; [exact (needs_allocate s)|exact (sim_allocate s G)| |].
  - intros [s0 p] [G0 P0]. cbn [fst snd] in *.
    apply needs_bind. intros seg _. destruct (is_leaf it stop depth (e - b)).
    + apply needs_bind. intros s1 E1. apply needs_bind. intros _ _. apply mono_store in E1. cbn [needs fst].
      rewrite E1. split; [lia|]. intros (a & Ha & _). lia.
    + apply needs_bind. intros [[[l r] d] v] _. rewrite NC.
      eapply needs_same; [|eapply needs_then; [apply IH, grown_indices, G0|apply sim_create, grown_indices, G0| |]]; [reflexivity| |].
      * intros [[s2 pl] lb] [G2 _]. cbn [fst snd] in *. apply needs_bind. intros s3 E3.
        destruct (grown_store _ _ _ _ G2 P0 E3) as [G3 H3].
        eapply needs_same; [|eapply needs_then; [apply IH, G3|apply sim_create, G3| |]]; [rewrite H3; reflexivity| |].
        -- intros [[s4 pr] rb] [G4 _]. cbn [fst snd] in *. apply needs_bind. intros s5 E5. apply needs_bind. intros s6 E6.
           cbn [needs fst]. rewrite (mono_store _ _ _ _ E6), (mono_store _ _ _ _ E5). split; [lia|]. intros (a & Ha & _). lia.
        -- intros [[s4 pr] rb] [[s' p'] bx'] _ H. cbn [fst]. okbind H. okbind H. injection H as <- _ _.
           rewrite (mono_store _ _ _ _ E0), (mono_store _ _ _ _ E). lia.
      * intros [[s2 pl] lb] [[s' p'] bx'] _ H. cbn [fst]. okbind H. okbind H. destruct a0 as [[s4 pr] rb].
        apply mono_create in E0. okbind H. okbind H. injection H as <- _ _.
        rewrite (mono_store _ _ _ _ E2), (mono_store _ _ _ _ E1). rewrite (mono_store _ _ _ _ E) in E0. exact E0.
  - intros [s0 p] [[s' p'] bx'] _ H. cbn [fst]. okbind H. destruct (is_leaf it stop depth (e - b)).
    + okbind H. okbind H. injection H as <- _ _. rewrite (mono_store _ _ _ _ E0). lia.
    + okbind H. destruct a0 as [[[l r] d] v]. okbind H. destruct a0 as [[s2 pl] lb]. apply mono_create in E1. cbn [b_heap] in E1.
      okbind H. apply mono_store in E2. okbind H. destruct a1 as [[s4 pr] rb]. apply mono_create in E3. rewrite E2 in E3.
      okbind H. apply mono_store in E4. okbind H. apply mono_store in E5. injection H as <- _ _. rewrite E5, E4. lia.
Qed.
End Sim.
