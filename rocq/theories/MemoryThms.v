(** Node memory. *)
From Coq Require Import List Bool Arith Lia.
From Verif Require Import Base Lemmas ModelMemory SpecMemory.
Import ListNotations.
Local Open Scope nat_scope.

Lemma set_var_same {A} (f : nat -> A) x v : set_var f x v x = v.
Proof. unfold set_var. rewrite Nat.eqb_refl. reflexivity. Qed.
Lemma set_var_other {A} (f : nat -> A) x v z : z <> x -> set_var f x v z = f z.
Proof. intros H. unfold set_var. apply Nat.eqb_neq in H. rewrite H. reflexivity. Qed.

(** * Heaps *)
Definition addrs (l : list (nat * option nat)) : list nat := map fst l.

Lemma find_in l a : In a (addrs l) <-> find_node l a <> None.
Proof.
  induction l as [|[b p] l IH]; simpl; [split; [tauto|congruence]|].
  destruct (Nat.eqb_spec a b); subst.
  - split; [congruence|auto].
  - rewrite <- IH. split; [intros [->|H]; [congruence|auto]|auto].
Qed.

Lemma find_remove l a b : find_node (remove_node l a) b = if a =? b then None else find_node l b.
Proof.
  unfold remove_node. induction l as [|[c p] l IH]; simpl; [destruct (a =? b); auto|].
  destruct (Nat.eqb_spec a c); subst; simpl.
  - rewrite IH. destruct (Nat.eqb_spec c b); subst; auto.
    destruct (Nat.eqb_spec b c); subst; congruence.
  - destruct (Nat.eqb_spec b c); subst.
    + destruct (Nat.eqb_spec a c); congruence.
    + apply IH.
Qed.

(** The linked list starting at [head] consists of the live nodes [cs]. *)
Inductive chain (l : list (nat * option nat)) : option nat -> list nat -> Prop :=
| chain_nil : chain l None []
| chain_cons a prev cs : find_node l a = Some prev -> chain l prev cs -> chain l (Some a) (a :: cs).

Lemma chain_mono l l' head cs : chain l head cs ->
  (forall a, In a cs -> find_node l' a = find_node l a) -> chain l' head cs.
Proof.
  induction 1 as [|a prev cs H C IH]; intros E; econstructor.
  - rewrite E by (left; auto). eauto.
  - apply IH. intros. apply E. right; auto.
Qed.

Lemma chain_live l head cs : chain l head cs -> incl cs (addrs l).
Proof.
  induction 1 as [|a prev cs H C IH]; intros b [].
  - subst. apply find_in. congruence.
  - apply IH. auto.
Qed.

Lemma release_ok fuel : forall l head cs, chain l head cs -> NoDup cs -> length cs <= fuel ->
  exists l', release fuel l head = Ok l'
    /\ (forall b, find_node l' b = if existsb (Nat.eqb b) cs then None else find_node l b).
Proof.
  induction fuel as [|fuel IH]; intros l head cs C ND L.
  - inversion C; subst; simpl in *; [|lia]. eexists. split; [reflexivity|]. auto.
  - inversion C as [|a prev cs' H C']; subst.
    { eexists. split; [reflexivity|]. auto. }
    cbn [release]. rewrite H. inversion ND; subst.
    destruct (IH (remove_node l a) prev cs') as (l' & E & F); auto.
    + eapply chain_mono; eauto. intros b Hb. rewrite find_remove.
      destruct (Nat.eqb_spec a b); subst; [contradiction|auto].
    + simpl in L. lia.
    + exists l'. split; auto. intros b. rewrite F. cbn [existsb]. rewrite find_remove.
      destruct (Nat.eqb_spec b a), (Nat.eqb_spec a b); subst; try congruence; simpl; auto.
      destruct (existsb _ _); auto.
Qed.

Lemma existsb_in b cs : existsb (Nat.eqb b) cs = true <-> In b cs.
Proof.
  rewrite existsb_exists. split.
  - intros (x & H & E). apply Nat.eqb_eq in E. subst. auto.
  - intros H. exists b. split; auto. apply Nat.eqb_refl.
Qed.

(** * Any history *)
Section Histories.
Variable cs : nat.
Hypothesis CS : 0 < cs.
Local Notation step := (mem_step cs).
Local Notation run := (mem_run cs).

Record inv (s : mem) (ch : nat -> list nat) : Prop := {
  inv_fresh : forall a, In a (addrs (h_live (m_heap s))) -> a < h_next (m_heap s);
  inv_chain : forall x al, m_var s x = Some al -> chain (h_live (m_heap s)) (al_head al) (ch x);
  inv_none : forall x, m_var s x = None -> ch x = [];
  inv_disj : forall x y a, In a (ch x) -> In a (ch y) -> x = y;
  inv_nodup : forall x, NoDup (ch x)
}.

Lemma inv_start : inv mem_start (fun _ => []).
Proof. constructor; simpl; intros; try contradiction; try discriminate; auto. constructor. Qed.

Lemma find_fresh s ch a : inv s ch -> h_next (m_heap s) <= a -> find_node (h_live (m_heap s)) a = None.
Proof.
  intros I H. destruct (find_node _ a) eqn:E; auto. exfalso.
  assert (In a (addrs (h_live (m_heap s)))) by (apply find_in; congruence).
  apply (inv_fresh _ _ I) in H0. lia.
Qed.

Lemma ch_live s ch x a : inv s ch -> In a (ch x) -> In a (addrs (h_live (m_heap s))).
Proof.
  intros I H. destruct (m_var s x) as [al|] eqn:E.
  - eapply chain_live; [eapply (inv_chain _ _ I); eauto|auto].
  - rewrite (inv_none _ _ I) in H by auto. contradiction.
Qed.

(** What allocate does: either the current chunk has room, or a new one. *)
Lemma allocate_inv h al h' al' p : allocate cs h al = Ok (h', al', p) ->
  (al_index al <> cs /\ h' = h /\ exists c, al_chunk al = Some c /\ p = (c, al_index al)
     /\ In c (addrs (h_live h)) /\ al_index al < cs /\ al' = Allocator (al_head al) (S (al_index al)) (Some c))
  \/ (al_index al = cs /\ h' = Heap ((h_next h, al_head al) :: h_live h) (S (h_next h))
      /\ p = (h_next h, 0) /\ al' = Allocator (Some (h_next h)) 1 (Some (h_next h))).
Proof.
  unfold allocate. destruct (Nat.eqb_spec (al_index al) cs) as [E|E].
  - cbn [resource_allocate al_chunk al_index al_head h_live find_node]. rewrite Nat.eqb_refl.
    destruct (Nat.ltb_spec 0 cs); [|lia]. cbn [guard bind]. intros H'. injection H' as <- <- <-.
    right. auto.
  - destruct (al_chunk al) as [c|] eqn:EC; [|discriminate].
    destruct (find_node (h_live h) c) eqn:EF; [|discriminate].
    destruct (Nat.ltb_spec (al_index al) cs) as [HL|HL]; [|discriminate]. cbn [guard bind].
    intros H'. injection H' as <- <- <-. left. repeat split; auto. exists c. repeat split; auto.
    apply find_in. congruence.
Qed.

Lemma chain_push l n head c : ~ In n (addrs l) -> chain l head c ->
  chain ((n, head) :: l) (Some n) (n :: c).
Proof.
  intros N C. econstructor.
  - simpl. rewrite Nat.eqb_refl. reflexivity.
  - eapply chain_mono; eauto. intros a Ha. simpl. destruct (Nat.eqb_spec a n); auto. subst.
    exfalso. apply N. eapply chain_live; eauto.
Qed.

Lemma chain_weaken l n p head c : ~ In n (addrs l) -> chain l head c -> chain ((n, p) :: l) head c.
Proof.
  intros N C. eapply chain_mono; eauto. intros a Ha. simpl. destruct (Nat.eqb_spec a n); auto. subst.
  exfalso. apply N. eapply chain_live; eauto.
Qed.

(** The chains after an operation. *)
Definition chains_step (s : mem) (ch : nat -> list nat) (o : mem_op) : nat -> list nat :=
  match o with
  | OpNew x => ch
  | OpAlloc x =>
      match m_var s x with
      | Some al => if al_index al =? cs then set_var ch x (h_next (m_heap s) :: ch x) else ch
      | None => ch
      end
  | OpMove x y =>
      match m_var s x, m_var s y with
      | None, Some _ => set_var (set_var ch y []) x (ch y)
      | _, _ => ch
      end
  | OpAssign x y =>
      match m_var s x, m_var s y with
      | Some _, Some _ => if x =? y then set_var ch x [] else set_var (set_var ch y []) x (ch y)
      | _, _ => ch
      end
  | OpDestroy x => match m_var s x with Some _ => set_var ch x [] | None => ch end
  end.

Ltac sv1 x z :=
  destruct (Nat.eq_dec z x) as [?|?];
  [subst; repeat match goal with
     | H : context [set_var _ ?u _ ?u] |- _ => rewrite set_var_same in H
     | |- context [set_var _ ?u _ ?u] => rewrite set_var_same
     end
  |repeat match goal with
     | H : context [set_var ?f x ?v z] |- _ => rewrite (set_var_other f x v z) in H by auto
     | |- context [set_var ?f x ?v z] => rewrite (set_var_other f x v z) by auto
     end].
Ltac sv := repeat match goal with
  | H : context [set_var _ ?x _ ?z] |- _ => sv1 x z
  | |- context [set_var _ ?x _ ?z] => sv1 x z
  end.

Lemma step_inv s ch o s' p : inv s ch -> step s o = Ok (s', p) -> inv s' (chains_step s ch o).
Proof.
  intros I H. destruct o as [x|x|x y|x y|x]; cbn [mem_step chains_step] in *.
  - destruct (m_var s x) as [al|] eqn:E; injection H as <- <-; auto.
    constructor; cbn [m_var m_heap]; intros; try (eapply I; eauto; fail).
    + sv; [injection H as <-; rewrite (inv_none _ _ I) by auto; constructor|eapply I; eauto].
    + sv; [discriminate|eapply I; eauto].
  - destruct (m_var s x) as [al|] eqn:E; [|injection H as <- <-; auto].
    okbind H. destruct a as [[h' al'] q]. injection H as <- <-.
    match goal with X : allocate _ _ _ = _ |- _ => apply allocate_inv in X as [(N & -> & c & EC & -> & HL & HI & ->)|(EI & -> & -> & ->)] end.
    + apply Nat.eqb_neq in N. rewrite N.
      constructor; cbn [m_var m_heap]; intros; try (eapply I; eauto; fail).
      * sv; [injection H as <-; cbn [al_head]; eapply I; eauto|eapply I; eauto].
      * sv; [discriminate|eapply I; eauto].
    + rewrite EI, Nat.eqb_refl.
      assert (NF : ~ In (h_next (m_heap s)) (addrs (h_live (m_heap s)))).
      { intros K. apply (inv_fresh _ _ I) in K. lia. }
      constructor; cbn [m_var m_heap h_live h_next]; intros.
      * destruct H as [<-|H]; simpl; [lia|]. apply (inv_fresh _ _ I) in H. lia.
      * sv; [injection H as <-; cbn [al_head]; apply chain_push; auto; eapply I; eauto|].
        apply chain_weaken; auto. eapply I; eauto.
      * sv; [discriminate|eapply I; eauto].
      * sv; auto;
          repeat match goal with X : In _ (_ :: _) |- _ => destruct X as [<-|X] end;
          try (exfalso; apply NF; eapply ch_live; eauto; fail); eapply I; eauto.
      * sv; [constructor; [intros K; apply NF; eapply ch_live; eauto|eapply I]|eapply I].
  - destruct (m_var s x) as [al|] eqn:E; [injection H as <- <-; auto|].
    destruct (m_var s y) as [src|] eqn:E2; injection H as <- <-; auto.
    assert (x <> y) by congruence.
    constructor; cbn [m_var m_heap]; intros; try (eapply I; eauto; fail).
    + sv; try congruence.
      * injection H0 as <-. eapply I; eauto.
      * injection H0 as <-. cbn [al_head]. constructor.
      * eapply I; eauto.
    + sv; auto; try discriminate. eapply I; eauto.
    + sv; auto; try contradiction; try (eapply I; eauto; fail);
        exfalso; match goal with X : ?z <> y |- _ => apply X; eapply I; eauto end.
    + sv; [eapply I|constructor|eapply I].
  - destruct (m_var s x) as [al|] eqn:E; [|injection H as <- <-; auto].
    destruct (m_var s y) as [src|] eqn:E2; [|injection H as <- <-; auto].
    destruct (Nat.eqb_spec x y) as [->|NE]; injection H as <- <-.
    + constructor; cbn [m_var m_heap]; intros; try (eapply I; eauto; fail).
      * sv; [injection H as <-; cbn [al_head self_move_assign]; constructor|eapply I; eauto].
      * sv; [discriminate|eapply I; eauto].
      * sv; auto; try contradiction. eapply I; eauto.
      * sv; [constructor|eapply I].
    + constructor; cbn [m_var m_heap]; intros; try (eapply I; eauto; fail).
      * sv; try congruence.
        -- injection H as <-. cbn [al_head]. eapply I; eauto.
        -- injection H as <-. cbn [al_head]. constructor.
        -- eapply I; eauto.
      * sv; auto; try discriminate. eapply I; eauto.
      * sv; auto; try contradiction; try (eapply I; eauto; fail);
          exfalso; match goal with X : ?z <> y |- _ => apply X; eapply I; eauto end.
      * sv; [eapply I|constructor|eapply I].
  - destruct (m_var s x) as [al|] eqn:E; [|injection H as <- <-; auto].
    okbind H. injection H as <- <-. rename a into l'.
    pose proof (inv_chain _ _ I _ _ E) as C.
    assert (LL : length (ch x) <= length (h_live (m_heap s))).
    { unfold addrs in *. rewrite <- (map_length fst). apply NoDup_incl_length; [eapply I|eapply chain_live; eauto]. }
    destruct (release_ok _ _ _ _ C (inv_nodup _ _ I x) LL) as (l2 & E3 & F).
    match goal with X : release _ _ _ = Ok l' |- _ => rewrite E3 in X; injection X as -> end.
    constructor; cbn [m_var m_heap h_live h_next]; intros.
    + eapply I. apply find_in. apply find_in in H. rewrite F in H. destruct (existsb _ _); congruence.
    + sv; [discriminate|]. eapply chain_mono; [eapply I; eauto|]. intros b Hb. rewrite F.
      destruct (existsb (Nat.eqb b) (ch x)) eqn:EB; auto. apply existsb_in in EB.
      exfalso. apply n. eapply I; eauto.
    + sv; auto. eapply I; eauto.
    + sv; auto; try contradiction. eapply I; eauto.
    + sv; [constructor|eapply I].
Qed.

Lemma step_free s ch o : inv s ch -> step s o <> Ub UbDoubleFree /\ step s o <> OutOfFuel.
Proof.
  intros I. destruct o as [x|x|x y|x y|x]; cbn [mem_step].
  - destruct (m_var s x); split; discriminate.
  - destruct (m_var s x) as [al|]; [|split; discriminate].
    unfold allocate. destruct (al_index al =? cs); cbn [resource_allocate al_chunk h_live find_node];
      [rewrite Nat.eqb_refl; destruct (_ <? _); split; discriminate|].
    destruct (al_chunk al); [|split; discriminate].
    destruct (find_node _ _); [|split; discriminate]. destruct (_ <? _); split; discriminate.
  - destruct (m_var s x), (m_var s y); split; discriminate.
  - destruct (m_var s x), (m_var s y); try (split; discriminate). destruct (x =? y); split; discriminate.
  - destruct (m_var s x) as [al|] eqn:E; [|split; discriminate].
    pose proof (inv_chain _ _ I _ _ E) as C.
    destruct (release_ok (length (h_live (m_heap s))) _ _ _ C (inv_nodup _ _ I x)) as (l2 & E3 & F).
    { rewrite <- (map_length fst). apply NoDup_incl_length; [eapply I|eapply chain_live; eauto]. }
    rewrite E3. split; discriminate.
Qed.

Lemma run_inv ops : forall s ch s' ps, inv s ch -> run s ops = Ok (s', ps) -> exists ch', inv s' ch'.
Proof.
  induction ops as [|o ops IH]; intros s ch s' ps I H; cbn [mem_run] in H.
  - injection H as <- <-. eauto.
  - okbind H. destruct a as [s1 p]. okbind H. destruct a as [s2 ps2]. injection H as <- <-.
    eapply IH; [|eauto]. eapply step_inv; eauto.
Qed.

Lemma run_free ops : forall s ch, inv s ch -> run s ops <> Ub UbDoubleFree /\ run s ops <> OutOfFuel.
Proof.
  induction ops as [|o ops IH]; intros s ch I; cbn [mem_run]; [split; discriminate|].
  destruct (step_free s ch o I) as [A B]. destruct (step s o) as [[s1 p]|w|] eqn:E; cbn [bind].
  - apply (step_inv _ _ _ _ _ I) in E. destruct (IH s1 _ E) as [C D].
    destruct (run s1 ops) as [[s2 ps]|w|]; cbn [bind]; split; congruence.
  - split; congruence.
  - split; congruence.
Qed.

(** A node that belongs to no allocator stays forever. *)
Lemma step_leak s ch o s' p a : inv s ch -> step s o = Ok (s', p) ->
  In a (addrs (h_live (m_heap s))) -> (forall x, ~ In a (ch x)) ->
  In a (addrs (h_live (m_heap s'))) /\ (forall x, ~ In a (chains_step s ch o x)).
Proof.
  intros I H L N. destruct o as [x|x|x y|x y|x]; cbn [mem_step chains_step] in *.
  - destruct (m_var s x); injection H as <- <-; auto.
  - destruct (m_var s x) as [al|] eqn:E; [|injection H as <- <-; auto].
    okbind H. destruct a0 as [[h' al'] q]. injection H as <- <-.
    match goal with X : allocate _ _ _ = _ |- _ => apply allocate_inv in X as [(N1 & -> & c & EC & -> & HL & HI & ->)|(EI & -> & -> & ->)] end.
    + apply Nat.eqb_neq in N1. rewrite N1. auto.
    + rewrite EI, Nat.eqb_refl. cbn [m_heap h_live]. split; [right; auto|].
      intros z. sv; auto. intros [<-|K]; [apply (inv_fresh _ _ I) in L; lia|eapply N; eauto].
  - destruct (m_var s x), (m_var s y); injection H as <- <-; auto. split; auto.
    intros z. sv; auto.
  - destruct (m_var s x), (m_var s y); try (injection H as <- <-; auto; fail).
    destruct (x =? y); injection H as <- <-; split; auto; intros z; sv; auto.
  - destruct (m_var s x) as [al|] eqn:E; [|injection H as <- <-; auto].
    okbind H. injection H as <- <-. rename a0 into l'.
    pose proof (inv_chain _ _ I _ _ E) as C.
    destruct (release_ok (length (h_live (m_heap s))) _ _ _ C (inv_nodup _ _ I x)) as (l2 & E3 & F).
    { rewrite <- (map_length fst). apply NoDup_incl_length; [eapply I|eapply chain_live; eauto]. }
    match goal with X : release _ _ _ = Ok l' |- _ => rewrite E3 in X; injection X as -> end.
    cbn [m_heap h_live]. split.
    + apply find_in. rewrite F. destruct (existsb _ _) eqn:EB; [apply existsb_in in EB; exfalso; eapply N; eauto|].
      apply find_in. auto.
    + intros z. sv; auto.
Qed.

Lemma run_leak ops : forall s ch s' ps a, inv s ch -> run s ops = Ok (s', ps) ->
  In a (addrs (h_live (m_heap s))) -> (forall x, ~ In a (ch x)) -> In a (addrs (h_live (m_heap s'))).
Proof.
  induction ops as [|o ops IH]; intros s ch s' ps a I H L N; cbn [mem_run] in H.
  - injection H as <- <-. auto.
  - okbind H. destruct a0 as [s1 p]. okbind H. destruct a0 as [s2 ps2]. injection H as <- <-.
    destruct (step_leak _ _ _ _ _ a I E L N) as [L1 N1].
    eapply IH; [eapply step_inv; eauto|eauto|auto|auto].
Qed.

(** * Histories that leave moved-from allocators alone *)
Record rel (s : mem) (ch : nat -> list nat) (ps : pools) : Prop := {
  rel_dom : forall x, m_var s x = None <-> ps x = None;
  rel_moved : forall x al pl, m_var s x = Some al -> ps x = Some pl -> p_moved pl = true ->
    p_objs pl = [] /\ al_head al = None;
  rel_live : forall x al pl, m_var s x = Some al -> ps x = Some pl -> p_moved pl = false ->
    al_index al <= cs
    /\ (al_index al < cs -> exists a, al_head al = Some a /\ al_chunk al = Some a)
    /\ NoDup (p_objs pl)
    /\ (forall p, In p (p_objs pl) -> In (fst p) (ch x) /\ snd p < cs
          /\ (al_head al = Some (fst p) -> snd p < al_index al))
}.

Lemma rel_start : rel mem_start (fun _ => []) no_pools.
Proof. constructor; unfold no_pools; simpl; intros; [tauto|discriminate|discriminate]. Qed.

Definition step_clean (ps : pools) (o : mem_op) : Prop :=
  match o with OpAlloc x => option_map p_moved (ps x) <> Some true | _ => True end.

Lemma step_ok s ch ps o : inv s ch -> rel s ch ps -> step_clean ps o ->
  exists s' p, step s o = Ok (s', p) /\ rel s' (chains_step s ch o) (pool_step ps o p).
Proof.
  intros I R K. destruct o as [x|x|x y|x y|x]; cbn [mem_step chains_step pool_step].
  - destruct (m_var s x) as [al|] eqn:E.
    + exists s, None. split; auto. destruct (ps x) eqn:EP; auto. exfalso.
      apply (rel_dom _ _ _ R) in EP. congruence.
    + apply (rel_dom _ _ _ R) in E as EP. rewrite EP.
      eexists _, _. split; [reflexivity|]. constructor; cbn [m_var]; intros.
      * sv; [split; discriminate|]. eapply R.
      * sv; [|eapply (rel_moved _ _ _ R); eauto]. injection H0 as <-. discriminate.
      * sv; [|eapply (rel_live _ _ _ R); eauto]. injection H as <-. injection H0 as <-.
        cbn [new_allocator al_index al_head al_chunk p_objs]. repeat split; auto; try lia; try contradiction. constructor.
  - destruct (m_var s x) as [al|] eqn:E.
    2:{ exists s, None. split; auto. apply (rel_dom _ _ _ R) in E. rewrite E. auto. }
    destruct (ps x) as [pl|] eqn:EP; [|apply (rel_dom _ _ _ R) in EP; congruence].
    cbn [step_clean] in K. rewrite EP in K. cbn [option_map] in K.
    destruct (p_moved pl) eqn:EM; [congruence|].
    destruct (rel_live _ _ _ R _ _ _ E EP EM) as (A1 & A2 & A3 & A4).
    destruct (Nat.eqb_spec (al_index al) cs) as [EI|NI].
    + assert (NF : ~ In (h_next (m_heap s)) (addrs (h_live (m_heap s)))).
      { intros K'. apply (inv_fresh _ _ I) in K'. lia. }
      unfold allocate. rewrite EI, Nat.eqb_refl. cbn [resource_allocate al_chunk h_live find_node al_index al_head].
      rewrite Nat.eqb_refl. destruct (Nat.ltb_spec 0 cs); [|lia]. cbn [guard bind].
      eexists _, _. split; [reflexivity|]. constructor; cbn [m_var]; intros.
      * sv; [split; discriminate|]. eapply R.
      * sv; [|eapply (rel_moved _ _ _ R); eauto]. injection H1 as <-. cbn [p_moved] in H2. congruence.
      * sv; [|eapply (rel_live _ _ _ R); eauto]. injection H0 as <-. injection H1 as <-.
        cbn [al_index al_head al_chunk p_objs p_moved] in *.
        assert (NP : ~ In (h_next (m_heap s), 0) (p_objs pl)).
        { intros K'. apply A4 in K' as (K1 & _). apply NF. eapply ch_live; eauto. }
        split; [lia|]. split; [eauto|]. split; [constructor; auto|].
        intros p [<-|Hp]; cbn [fst snd]; [repeat split; auto; left; auto|].
        destruct (A4 _ Hp) as (B1 & B2 & B3). split; [right; auto|]. split; auto.
        intros K'. injection K' as K'. exfalso. apply NF. rewrite K'. eapply ch_live; eauto.
    + destruct (A2 ltac:(lia)) as (a & HH & HC).
      unfold allocate. apply Nat.eqb_neq in NI as NI'. rewrite NI'. rewrite HC.
      assert (LV : In a (addrs (h_live (m_heap s)))).
      { pose proof (inv_chain _ _ I _ _ E) as C. rewrite HH in C. inversion C; subst.
        apply find_in. congruence. }
      apply find_in in LV as LV'. destruct (find_node _ a) eqn:EF; [|congruence].
      destruct (Nat.ltb_spec (al_index al) cs) as [HL|]; [|lia]. cbn [guard bind].
      eexists _, _. split; [reflexivity|]. constructor; cbn [m_var]; intros.
      * sv; [split; discriminate|]. eapply R.
      * sv; [|eapply (rel_moved _ _ _ R); eauto]. injection H0 as <-. cbn [p_moved] in H1. congruence.
      * sv; [|eapply (rel_live _ _ _ R); eauto]. injection H as <-. injection H0 as <-.
        cbn [al_index al_head al_chunk p_objs p_moved] in *.
        split; [lia|]. split; [eauto|]. split.
        -- constructor; auto. intros K'. apply A4 in K' as (_ & _ & K3). cbn [fst snd] in K3. specialize (K3 HH). lia.
        -- assert (In a (ch x)).
           { pose proof (inv_chain _ _ I _ _ E) as C. rewrite HH in C. inversion C; subst. left; auto. }
           intros p [<-|Hp]; cbn [fst snd]; [repeat split; auto|].
           destruct (A4 _ Hp) as (B1 & B2 & B3). split; auto. split; auto. intros K'. specialize (B3 K'). lia.
  - destruct (m_var s x) as [al|] eqn:E.
    { exists s, None. split; auto. destruct (ps x) eqn:EP; auto. apply (rel_dom _ _ _ R) in EP. congruence. }
    apply (rel_dom _ _ _ R) in E as EP. rewrite EP.
    destruct (m_var s y) as [src|] eqn:E2.
    2:{ exists s, None. split; auto. apply (rel_dom _ _ _ R) in E2. rewrite E2. auto. }
    destruct (ps y) as [pl|] eqn:EP2; [|apply (rel_dom _ _ _ R) in EP2; congruence].
    cbn [move_construct]. eexists _, _. split; [reflexivity|]. constructor; cbn [m_var]; intros.
    + sv; try (split; discriminate). eapply R.
    + sv.
      * injection H as <-. injection H0 as <-. eapply (rel_moved _ _ _ R); eauto.
      * injection H as <-. injection H0 as <-. auto.
      * eapply (rel_moved _ _ _ R); eauto.
    + sv.
      * injection H as <-. injection H0 as <-. eapply (rel_live _ _ _ R); eauto.
      * injection H0 as <-. discriminate.
      * eapply (rel_live _ _ _ R); eauto.
  - destruct (m_var s x) as [al|] eqn:E.
    2:{ exists s, None. split; auto. apply (rel_dom _ _ _ R) in E. rewrite E. auto. }
    destruct (ps x) as [plx|] eqn:EP; [|apply (rel_dom _ _ _ R) in EP; congruence].
    destruct (m_var s y) as [src|] eqn:E2.
    2:{ exists s, None. split; auto. apply (rel_dom _ _ _ R) in E2. rewrite E2. auto. }
    destruct (ps y) as [pl|] eqn:EP2; [|apply (rel_dom _ _ _ R) in EP2; congruence].
    destruct (Nat.eqb_spec x y) as [->|NE].
    + eexists _, _. split; [reflexivity|]. constructor; cbn [m_var]; intros.
      * sv; try (split; discriminate). eapply R.
      * sv; [injection H as <-; injection H0 as <-; auto|eapply (rel_moved _ _ _ R); eauto].
      * sv; [injection H0 as <-; discriminate|eapply (rel_live _ _ _ R); eauto].
    + cbn [move_assign]. eexists _, _. split; [reflexivity|]. constructor; cbn [m_var]; intros.
      * sv; try (split; discriminate). eapply R.
      * sv.
        -- injection H as <-. injection H0 as <-. cbn [al_head al_index al_chunk]. eapply (rel_moved _ _ _ R); eauto.
        -- injection H as <-. injection H0 as <-. auto.
        -- eapply (rel_moved _ _ _ R); eauto.
      * sv.
        -- injection H as <-. injection H0 as <-. cbn [al_head al_index al_chunk]. eapply (rel_live _ _ _ R); eauto.
        -- injection H0 as <-. discriminate.
        -- eapply (rel_live _ _ _ R); eauto.
  - destruct (m_var s x) as [al|] eqn:E.
    2:{ exists s, None. split; auto. apply (rel_dom _ _ _ R) in E. rewrite E. auto. }
    destruct (ps x) as [plx|] eqn:EP; [|apply (rel_dom _ _ _ R) in EP; congruence].
    pose proof (inv_chain _ _ I _ _ E) as C.
    destruct (release_ok (length (h_live (m_heap s))) _ _ _ C (inv_nodup _ _ I x)) as (l2 & E3 & F).
    { rewrite <- (map_length fst). apply NoDup_incl_length; [eapply I|eapply chain_live; eauto]. }
    rewrite E3. cbn [bind]. eexists _, _. split; [reflexivity|]. constructor; cbn [m_var]; intros.
    + sv; try tauto. eapply R.
    + sv; try discriminate. eapply (rel_moved _ _ _ R); eauto.
    + sv; try discriminate. eapply (rel_live _ _ _ R); eauto.
Qed.

(** [scope_step] follows [pool_step]. *)
Definition agree (mv : nat -> option bool) (ps : pools) : Prop := forall x, mv x = option_map p_moved (ps x).

Lemma agree_step mv ps o p : agree mv ps -> agree (scope_step mv o) (pool_step ps o p).
Proof.
  intros A z. destruct o as [x|x|x y|x y|x]; cbn [scope_step pool_step].
  - rewrite (A x). destruct (ps x) eqn:E; cbn [option_map]; [apply A|]. sv; auto.
  - destruct (ps x) eqn:E; [|apply A]. destruct p; [|apply A]. sv; [|apply A]. rewrite (A x), E. reflexivity.
  - rewrite (A x), (A y). destruct (ps x), (ps y); cbn [option_map]; try apply A. sv; auto.
  - rewrite (A x), (A y). destruct (ps x), (ps y); cbn [option_map]; try apply A. destruct (x =? y); sv; auto.
  - destruct (ps x) eqn:E; sv; auto. rewrite E. reflexivity.
Qed.

Lemma run_ok ops : forall s ch ps mv, inv s ch -> rel s ch ps -> agree mv ps -> no_moved_use mv ops ->
  exists s' rs ch', run s ops = Ok (s', rs) /\ inv s' ch' /\ rel s' ch' (pool_run ps ops rs).
Proof.
  induction ops as [|o ops IH]; intros s ch ps mv I R A K; cbn [mem_run].
  - exists s, [], ch. auto.
  - destruct K as [K1 K2].
    destruct (step_ok s ch ps o I R) as (s1 & p & E & R1).
    { destruct o; auto. cbn. rewrite <- A. auto. }
    pose proof (step_inv _ _ _ _ _ I E) as I1.
    destruct (IH s1 _ _ _ I1 R1 (agree_step _ _ _ p A) K2) as (s2 & rs & ch2 & E2 & I2 & R2).
    exists s2, (p :: rs), ch2. rewrite E. cbn [bind]. rewrite E2. auto.
Qed.

Lemma rel_valid s ch ps : inv s ch -> rel s ch ps ->
  no_alias ps /\ (forall x pl p, ps x = Some pl -> In p (p_objs pl) -> valid_ptr cs (m_heap s) p).
Proof.
  intros I R.
  assert (K : forall x pl p, ps x = Some pl -> In p (p_objs pl) -> In (fst p) (ch x) /\ snd p < cs).
  { intros x pl p E H. destruct (m_var s x) as [al|] eqn:EV; [|apply (rel_dom _ _ _ R) in EV; congruence].
    destruct (p_moved pl) eqn:EM.
    - destruct (rel_moved _ _ _ R _ _ _ EV E EM) as [EO _]. rewrite EO in H. contradiction.
    - destruct (rel_live _ _ _ R _ _ _ EV E EM) as (_ & _ & _ & B). apply B in H. tauto. }
  split; [split|].
  - intros x pl E. destruct (m_var s x) as [al|] eqn:EV; [|apply (rel_dom _ _ _ R) in EV; congruence].
    destruct (p_moved pl) eqn:EM.
    + destruct (rel_moved _ _ _ R _ _ _ EV E EM) as [-> _]. constructor.
    + apply (rel_live _ _ _ R _ _ _ EV E EM).
  - intros x y pl pl' p E1 E2 H1 H2. apply K with (x := x) in H1; auto. apply K with (x := y) in H2; auto.
    eapply I; [apply H1|apply H2].
  - intros x pl p E H. apply K with (x := x) in H; auto. destruct H. split; auto. eapply ch_live; eauto.
Qed.

Theorem history_ok ops : no_moved_use (fun _ => None) ops ->
  exists s rs, run mem_start ops = Ok (s, rs)
    /\ no_alias (pool_run no_pools ops rs)
    /\ (forall x pl p, pool_run no_pools ops rs x = Some pl -> In p (p_objs pl) -> valid_ptr cs (m_heap s) p).
Proof.
  intros K. destruct (run_ok ops mem_start (fun _ => []) no_pools (fun _ => None)) as (s & rs & ch & E & I & R); auto.
  - apply inv_start.
  - apply rel_start.
  - intros x. reflexivity.
  - exists s, rs. split; auto. apply (rel_valid _ ch); auto.
Qed.

Theorem history_free ops : run mem_start ops <> Ub UbDoubleFree /\ run mem_start ops <> OutOfFuel.
Proof. eapply run_free. apply inv_start. Qed.

Lemma run_app ops1 : forall ops2 s s2 rs, run s (ops1 ++ ops2) = Ok (s2, rs) ->
  exists s1 rs1 rs2, run s ops1 = Ok (s1, rs1) /\ run s1 ops2 = Ok (s2, rs2) /\ rs = rs1 ++ rs2.
Proof.
  induction ops1 as [|o ops1 IH]; intros ops2 s s2 rs H; cbn [app mem_run] in H.
  - exists s, [], rs. auto.
  - okbind H. destruct a as [s1 p]. okbind H. destruct a as [s3 ps]. injection H as <- <-.
    apply IH in E0 as (s4 & r1 & r2 & A & B & ->). exists s4, (p :: r1), r2.
    cbn [mem_run]. rewrite E. cbn [bind]. rewrite A. auto.
Qed.

(** Assigning to an allocator that owns objects leaks them, whatever follows. *)
Theorem assign_leaks ops1 x y ops2 s rs s1 rs1 pl p py :
  no_moved_use (fun _ => None) ops1 -> run mem_start ops1 = Ok (s1, rs1) ->
  pool_run no_pools ops1 rs1 x = Some pl -> pool_run no_pools ops1 rs1 y = Some py -> In p (p_objs pl) ->
  run mem_start (ops1 ++ OpAssign x y :: ops2) = Ok (s, rs) ->
  In (fst p) (map fst (h_live (m_heap s))).
Proof.
  intros K E1 EX EY HP H.
  destruct (run_ok ops1 mem_start (fun _ => []) no_pools (fun _ => None)) as (s1' & rs1' & ch & E & I & R); auto.
  { apply inv_start. } { apply rel_start. } { intros z. reflexivity. }
  rewrite E1 in E. injection E as <- <-.
  apply run_app in H as (s1' & r1 & r2 & A & B & ->). rewrite E1 in A. injection A as <- <-.
  destruct (m_var s1 x) as [al|] eqn:EV; [|apply (rel_dom _ _ _ R) in EV; congruence].
  destruct (m_var s1 y) as [aly|] eqn:EVY; [|apply (rel_dom _ _ _ R) in EVY; congruence].
  assert (HC : In (fst p) (ch x)).
  { destruct (p_moved pl) eqn:EM.
    - destruct (rel_moved _ _ _ R _ _ _ EV EX EM) as [EO _]. rewrite EO in HP. contradiction.
    - destruct (rel_live _ _ _ R _ _ _ EV EX EM) as (_ & _ & _ & Q). apply Q in HP. tauto. }
  cbn [mem_run] in B. okbind B. destruct a as [s2 p2]. okbind B. destruct a as [s3 ps3]. injection B as <- <-.
  pose proof (step_inv _ _ _ _ _ I E) as I2.
  eapply run_leak; [exact I2|eassumption| |].
  - cbn [mem_step] in E. rewrite EV, EVY in E. destruct (x =? y); injection E as <- <-; cbn [m_heap]; eapply ch_live; eauto.
  - intros z. cbn [chains_step]. rewrite EV, EVY. destruct (Nat.eqb_spec x y) as [->|NE].
    + sv; auto. intros Hz. apply n. eapply I; eauto.
    + sv; auto.
      * intros Hz. apply NE. eapply I; eauto.
      * intros Hz. apply n. eapply I; eauto.
Qed.

(** * No leaks without such assignments *)
Definition covered (s : mem) (ch : nat -> list nat) (full : nat -> option bool) : Prop :=
  (forall a, In a (addrs (h_live (m_heap s))) -> exists x, In a (ch x))
  /\ (forall x, full x = None <-> m_var s x = None)
  /\ (forall x, full x = Some false -> ch x = []).

Lemma run_covered ops : forall s ch full s' rs, inv s ch -> covered s ch full -> no_overwrite full ops ->
  run s ops = Ok (s', rs) -> exists ch' full', inv s' ch' /\ covered s' ch' full'.
Proof.
  induction ops as [|o ops IH]; intros s ch full s' rs I C K H; cbn [mem_run no_overwrite] in *.
  - injection H as <- <-. eauto.
  - okbind H. destruct a as [s1 p]. okbind H. destruct a as [s2 ps2]. injection H as <- <-.
    destruct K as [K1 K2]. pose proof (step_inv _ _ _ _ _ I E) as I1.
    eapply IH; [exact I1| |exact K2|eauto]. clear IH K2 E0 I1.
    destruct C as (C1 & C2 & C3).
    assert (DX : forall x, (full x = None /\ m_var s x = None) \/ (exists b al, full x = Some b /\ m_var s x = Some al)).
    { intros x. pose proof (C2 x). destruct (full x), (m_var s x); auto; try (right; eauto; fail);
        exfalso; intuition congruence. }
    destruct o as [x|x|x y|x y|x]; cbn [mem_step chains_step] in *.
    + destruct (DX x) as [[F V]|(b & al & F & V)]; rewrite V, F in *; injection E as <- <-; [|split; auto].
      split; [|split]; cbn [m_heap m_var]; auto.
      * intros z. sv; [split; discriminate|auto].
      * intros z. sv; [|auto]. intros _. eapply I; eauto.
    + destruct (DX x) as [[F V]|(b & al & F & V)]; rewrite V, F in *; [injection E as <- <-; split; auto|].
      okbind E. destruct a as [[h' al'] q]. injection E as <- <-.
      match goal with X : allocate _ _ _ = _ |- _ => apply allocate_inv in X as [(N & -> & c & EC & -> & HL & HI & ->)|(EI & -> & -> & ->)] end.
      * apply Nat.eqb_neq in N. rewrite N. split; [|split]; cbn [m_heap m_var]; auto.
        -- intros z. sv; [split; discriminate|auto].
        -- intros z. sv; [discriminate|auto].
      * rewrite EI, Nat.eqb_refl. split; [|split]; cbn [m_heap m_var h_live].
        -- intros a [<-|Ha]; [exists x; rewrite set_var_same; left; auto|].
           destruct (C1 a Ha) as [z Hz]. exists z. sv; auto. right; auto.
        -- intros z. sv; [split; discriminate|auto].
        -- intros z. sv; [discriminate|auto].
    + destruct (DX x) as [[F V]|(b & al & F & V)]; rewrite V, F in *; [|injection E as <- <-; split; auto].
      destruct (DX y) as [[F2 V2]|(b2 & al2 & F2 & V2)]; rewrite V2, F2 in *; injection E as <- <-; [split; auto|].
      assert (NE : x <> y) by congruence.
      split; [|split]; cbn [m_heap m_var h_live].
      * intros a Ha. destruct (C1 a Ha) as [z Hz]. destruct (Nat.eq_dec z y).
        -- subst. exists x. sv; congruence.
        -- exists z. sv; try congruence. exfalso. rewrite (inv_none _ _ I) in Hz by auto. contradiction.
      * intros z. sv; try (split; discriminate). auto.
      * intros z. sv; auto. intros E. injection E as ->. auto.
    + destruct (DX x) as [[F V]|(b & al & F & V)]; rewrite V, F in *; [injection E as <- <-; split; auto|].
      destruct (DX y) as [[F2 V2]|(b2 & al2 & F2 & V2)]; rewrite V2, F2 in *; [injection E as <- <-; split; auto|].
      destruct K1 as [K1|[K1|[NE K1]]]; [congruence|congruence|]. injection K1 as ->.
      apply Nat.eqb_neq in NE as NE'. rewrite NE' in *. injection E as <- <-.
      split; [|split]; cbn [m_heap m_var h_live].
      * intros a Ha. destruct (C1 a Ha) as [z Hz]. destruct (Nat.eq_dec z y).
        -- subst. exists x. sv; congruence.
        -- exists z. sv; try congruence. exfalso. rewrite C3 in Hz by auto. contradiction.
      * intros z. sv; try (split; discriminate). auto.
      * intros z. sv; auto. intros E. injection E as ->. auto.
    + destruct (DX x) as [[F V]|(b & al & F & V)]; rewrite V in *.
      { injection E as <- <-. split; [|split]; auto; intros z; sv; auto; try tauto; discriminate. }
      okbind E. injection E as <- <-. rename a into l'.
      pose proof (inv_chain _ _ I _ _ V) as C.
      destruct (release_ok (length (h_live (m_heap s))) _ _ _ C (inv_nodup _ _ I x)) as (l2 & E3 & FF).
      { rewrite <- (map_length fst). apply NoDup_incl_length; [eapply I|eapply chain_live; eauto]. }
      match goal with X : release _ _ _ = Ok l' |- _ => rewrite E3 in X; injection X as -> end.
      split; [|split]; cbn [m_heap m_var h_live].
      * intros a Ha. apply find_in in Ha. rewrite FF in Ha. destruct (existsb _ _) eqn:EB; [congruence|].
        apply find_in in Ha. destruct (C1 a Ha) as [z Hz]. exists z. sv; auto.
        exfalso. apply existsb_in in Hz. congruence.
      * intros z. sv; auto. tauto.
      * intros z. sv; auto.
Qed.

Theorem history_no_leak ops s rs : no_overwrite (fun _ => None) ops ->
  run mem_start ops = Ok (s, rs) -> (forall x, m_var s x = None) -> h_live (m_heap s) = [].
Proof.
  intros K H N.
  destruct (run_covered ops mem_start (fun _ => []) (fun _ => None) s rs inv_start) as (ch & full & I & C1 & _); auto.
  - split; [|split]; simpl; intros; try contradiction; [tauto|auto].
  - destruct (h_live (m_heap s)) as [|[a q] l] eqn:E; auto. exfalso.
    destruct (C1 a) as [x Hx]; [left; auto|]. rewrite (inv_none _ _ I) in Hx by auto. contradiction.
Qed.
End Histories.

Lemma moved_from_bad chunk_size : 1 < chunk_size ->
  (exists s rs, let ops := [OpNew 0; OpAlloc 0; OpMove 1 0; OpAlloc 1; OpAlloc 0] in
     mem_run chunk_size mem_start ops = Ok (s, rs) /\ ~ no_alias (pool_run no_pools ops rs))
  /\ mem_run chunk_size mem_start [OpNew 0; OpAlloc 0; OpMove 1 0; OpDestroy 1; OpAlloc 0] = Ub UbDangling.
Proof.
  destruct chunk_size as [|[|c]]; try lia. intros _. split.
  - cbv zeta. do 2 eexists. split.
    + unfold mem_run, mem_step, allocate, new_allocator. cbn. rewrite Nat.eqb_refl. cbn. reflexivity.
    + cbn. intros [_ A]. specialize (A 0 1 _ _ (0, 1) eq_refl eq_refl).
      cbn in A. assert (0 = 1) by (apply A; auto). discriminate.
  - unfold mem_run, mem_step, allocate, new_allocator. cbn. rewrite Nat.eqb_refl. cbn. reflexivity.
Qed.
