(** Proofs about the lifetimes of the objects of the Python module. *)
From Coq Require Import List Bool Arith Lia.
From Verif Require Import Base ModelLife SpecLife.
Import ListNotations.
Local Open Scope nat_scope.

(** * Lists *)
Lemma set_nth_length {A} (l : list A) : forall i x, length (set_nth l i x) = length l.
Proof. induction l as [|y l IH]; intros [|i] x; cbn; auto. Qed.
Lemma nth_set_nth {A} (l : list A) : forall i x j d,
  nth j (set_nth l i x) d = if (j =? i) && (i <? length l) then x else nth j l d.
Proof.
  induction l as [|y l IH]; intros i x j d; cbn [set_nth length].
  - destruct i; cbn; destruct j; rewrite ?andb_false_r; reflexivity.
  - destruct i as [|i]; destruct j as [|j]; cbn [nth Nat.eqb]; auto. apply IH.
Qed.
Lemma nth_app_last {A} (l : list A) x j d :
  nth j (l ++ [x]) d = if j =? length l then x else nth j l d.
Proof.
  destruct (Nat.eqb_spec j (length l)) as [->|H].
  - rewrite app_nth2, Nat.sub_diag; auto.
  - destruct (Nat.lt_ge_cases j (length l)) as [L|L]; [apply app_nth1; auto|].
    rewrite !nth_overflow; auto; rewrite ?app_length; cbn; lia.
Qed.
Lemma mem_in x l : existsb (Nat.eqb x) l = true <-> In x l.
Proof.
  rewrite existsb_exists. split; [intros (y & H & E); apply Nat.eqb_eq in E; subst; auto|].
  intros H. exists x. split; auto. apply Nat.eqb_refl.
Qed.

(** * Blocks *)
Definition alive (bs : list bool) (b : nat) : Prop := nth b bs false = true.
Lemma alive_lt bs b : alive bs b -> b < length bs.
Proof.
  unfold alive. intros H. destruct (Nat.lt_ge_cases b (length bs)) as [L|L]; auto.
  rewrite nth_overflow in H; [discriminate|auto].
Qed.
Lemma alloc_alive bs b : alive (fst (alloc bs)) b <-> alive bs b \/ b = length bs.
Proof.
  unfold alive, alloc. cbn. rewrite nth_app_last. destruct (Nat.eqb_spec b (length bs)) as [->|H]; split; auto.
  intros [?|?]; [auto|congruence].
Qed.
Lemma free_ok bs b : alive bs b -> exists bs', free bs b = Ok bs' /\ length bs' = length bs
  /\ forall c, alive bs' c <-> alive bs c /\ c <> b.
Proof.
  intros H. pose proof (alive_lt _ _ H) as Hl. unfold free. unfold alive in H. rewrite H. cbn. eexists. split; [reflexivity|].
  split; [apply set_nth_length|]. intros c. unfold alive. rewrite nth_set_nth.
  apply Nat.ltb_lt in Hl. rewrite Hl, andb_true_r. destruct (Nat.eqb_spec c b) as [->|Hc]; split; try tauto; try discriminate.
Qed.
Lemma free_inv bs b bs' : free bs b = Ok bs' -> alive bs b.
Proof. unfold free, alive. destruct (nth b bs false); cbn; auto; discriminate. Qed.
Lemma free_all_ok l : forall bs, NoDup l -> (forall b, In b l -> alive bs b) ->
  exists bs', free_all bs l = Ok bs' /\ length bs' = length bs /\ forall c, alive bs' c <-> alive bs c /\ ~ In c l.
Proof.
  induction l as [|b l IH]; intros bs ND H; cbn [free_all].
  - exists bs. split; auto. split; auto. intros c. cbn. tauto.
  - inversion ND as [|? ? N1 N2]; subst. destruct (free_ok bs b) as (bs1 & E & L & A); [apply H; simpl; auto|].
    rewrite E. cbn [bind]. destruct (IH bs1 N2) as (bs2 & E2 & L2 & A2).
    { intros c Hc. apply A. split; [apply H; simpl; auto|]. intros ->. auto. }
    exists bs2. split; auto. split; [congruence|]. intros c. rewrite A2, A. cbn. intuition.
Qed.

(** * Vectors *)
Lemma vec_blocks_app a b : vec_blocks (a ++ b) = vec_blocks a ++ vec_blocks b.
Proof. apply flat_map_app. Qed.
Lemma vec_blocks_cons v vs : vec_blocks (v :: vs) = (match v_block v with Some b => [b] | None => [] end) ++ vec_blocks vs.
Proof. reflexivity. Qed.

Lemma fill_ok bs v size slack : (forall b, v_block v = Some b -> alive bs b) ->
  exists bs' v', fill bs v size slack = Ok (bs', v') /\ length bs <= length bs'
  /\ (forall c, alive bs' c <-> (alive bs c /\ v_block v <> Some c) \/ v_block v' = Some c)
  /\ (forall c, v_block v' = Some c -> v_block v = Some c \/ length bs <= c)
  /\ (size <= v_cap v -> v_block v' = v_block v).
Proof.
  intros H. unfold fill. destruct (Nat.leb_spec size (v_cap v)) as [Hs|Hs].
  - exists bs, (Vec (v_block v) size (v_cap v)). cbn. split; auto. split; auto. split; [|split; auto].
    intros c. split.
    + intros A. destruct (v_block v) as [b|]; [|left; split; [auto|discriminate]].
      destruct (Nat.eq_dec b c) as [->|N]; [auto|left; split; [auto|congruence]].
    + intros [[A _]|E]; auto.
  - assert (exists bs1, (match v_block v with Some b => free bs b | None => Ok bs end) = Ok bs1 /\ length bs1 = length bs
      /\ forall c, alive bs1 c <-> alive bs c /\ v_block v <> Some c) as (bs1 & E & L & A).
    { destruct (v_block v) as [b|].
      - destruct (free_ok bs b (H b eq_refl)) as (bs1 & E & L & A). exists bs1. split; auto. split; auto.
        intros c. rewrite A. split; intros [X Y]; split; auto; congruence.
      - exists bs. split; auto. split; auto. intros c. split; [intros X; split; [auto|discriminate]|tauto]. }
    rewrite E. cbn [bind alloc]. eexists. eexists. split; [reflexivity|]. split; [rewrite app_length; cbn; lia|].
    split; [|split]; cbn [v_block].
    + intros c. pose proof (alloc_alive bs1 c) as AA. unfold alloc in AA. cbn [fst] in AA. rewrite AA, A.
      split; (intros [X|X]; [left; exact X|right]); [subst; reflexivity|congruence].
    + intros c Ec. right. injection Ec as <-. lia.
    + intros Hc. lia.
Qed.

Lemma fill_all_ok results : forall bs vs, NoDup (vec_blocks vs) -> (forall b, In b (vec_blocks vs) -> alive bs b) ->
  length vs <= length results ->
  exists bs' vs', fill_all bs vs results = Ok (bs', vs') /\ length bs <= length bs' /\ length vs' = length results
  /\ (forall c, alive bs' c <-> (alive bs c /\ ~ In c (vec_blocks vs)) \/ In c (vec_blocks vs'))
  /\ (forall c, In c (vec_blocks vs') -> In c (vec_blocks vs) \/ length bs <= c)
  /\ NoDup (vec_blocks vs')
  /\ ((forall i v r, nth_error vs i = Some v -> nth_error results i = Some r -> fst r <= v_cap v) ->
      forall c, In c (vec_blocks vs) -> In c (vec_blocks vs')).
Proof.
  induction results as [|[size slack] rs IH]; intros bs vs ND AL LE; cbn [fill_all].
  - destruct vs; [|cbn in LE; lia]. exists bs, []. cbn. split; auto. split; auto. split; auto.
    split; [tauto|]. split; [tauto|]. split; [constructor|auto].
  - set (v := hd (Vec None 0 0) vs).
    assert (HV : vec_blocks vs = (match v_block v with Some b => [b] | None => [] end) ++ vec_blocks (tl vs)).
    { unfold v. destruct vs; reflexivity. }
    rewrite HV in ND, AL |- *.
    assert (ND2 : NoDup (vec_blocks (tl vs))) by (destruct (v_block v); [inversion ND; auto|exact ND]).
    assert (NI : forall c, v_block v = Some c -> ~ In c (vec_blocks (tl vs))).
    { intros c Ec. rewrite Ec in ND. inversion ND; auto. }
    destruct (fill_ok bs v size slack) as (bs1 & v1 & E1 & L1 & A1 & F1 & S1).
    { intros b Eb. apply AL. rewrite Eb. simpl; auto. }
    rewrite E1. cbn [bind].
    destruct (IH bs1 (tl vs) ND2) as (bs2 & vs2 & E2 & L2 & LL & A2 & F2 & N2 & S2).
    { intros b Hb. apply A1. left. split; [apply AL; apply in_or_app; auto|]. intros E. exact (NI _ E Hb). }
    { destruct vs; cbn in *; lia. }
    rewrite E2. cbn [bind]. exists bs2, (v1 :: vs2). split; auto. split; [lia|]. split; [cbn; lia|].
    assert (ALV : forall c, v_block v = Some c -> c < length bs).
    { intros c Ec. apply alive_lt, AL. rewrite Ec. simpl; auto. }
    assert (NV1 : forall c, v_block v1 = Some c -> ~ In c (vec_blocks (tl vs)) /\ c < length bs1).
    { intros c Ec. split.
      - intros Hc. destruct (F1 c Ec) as [X|X]; [exact (NI _ X Hc)|].
        assert (c < length bs) by (apply alive_lt, AL, in_or_app; auto). lia.
      - apply alive_lt, A1. auto. }
    split; [|split; [|split]].
    + intros c. rewrite A2, A1, vec_blocks_cons, !in_app_iff. split.
      * intros [[[[X Y]|X] Z]|X]; auto.
        -- left. split; auto. intros [W|W]; [|auto]. destruct (v_block v); [|destruct W]. destruct W as [->|[]]. congruence.
        -- right. left. rewrite X. simpl; auto.
      * intros [[X Y]|[X|X]]; auto.
        -- left. split; [left; split; auto|]; [|tauto]. intros W. apply Y. left. rewrite W. simpl; auto.
        -- destruct (v_block v1) as [b1|] eqn:Eb; [|destruct X]. destruct X as [->|[]]. left. split; auto.
           apply (NV1 c eq_refl).
    + intros c. rewrite vec_blocks_cons, !in_app_iff. intros [X|X].
      * destruct (v_block v1) as [b1|] eqn:Eb; [|destruct X]. destruct X as [->|[]].
        destruct (F1 c eq_refl) as [X|X]; [left; left; rewrite X; simpl; auto|auto].
      * destruct (F2 c X) as [Y|Y]; [auto|right; lia].
    + rewrite vec_blocks_cons. destruct (v_block v1) as [b1|] eqn:Eb; [|exact N2]. cbn. constructor; auto.
      intros X. destruct (F2 b1 X) as [Y|Y]; [apply (proj1 (NV1 b1 eq_refl)); exact Y|].
      destruct (NV1 b1 eq_refl). lia.
    + intros HF c. rewrite vec_blocks_cons, !in_app_iff. intros [X|X].
      * left. destruct vs as [|v0 vs0]; [cbn in v; subst v; destruct X|]. rewrite S1; auto.
        apply (HF 0 v0 (size, slack)); reflexivity.
      * right. apply S2; auto. intros i w r Hw Hr. apply (HF (S i) w r); [destruct vs; [destruct i; discriminate|exact Hw]|exact Hr].
Qed.

Lemma refill_ok bs vs results : NoDup (vec_blocks vs) -> (forall b, In b (vec_blocks vs) -> alive bs b) ->
  exists bs' vs', refill bs vs results = Ok (bs', vs') /\ length bs <= length bs' /\ length vs' = length results
  /\ (forall c, alive bs' c <-> (alive bs c /\ ~ In c (vec_blocks vs)) \/ In c (vec_blocks vs'))
  /\ (forall c, In c (vec_blocks vs') -> In c (vec_blocks vs) \/ length bs <= c)
  /\ NoDup (vec_blocks vs')
  /\ (results_fit vs results -> forall c, In c (vec_blocks vs) -> In c (vec_blocks vs')).
Proof.
  intros ND AL. unfold refill. set (n := length results).
  assert (HV : vec_blocks vs = vec_blocks (firstn n vs) ++ vec_blocks (skipn n vs))
    by (rewrite <- vec_blocks_app, firstn_skipn; reflexivity).
  rewrite HV in ND, AL |- *.
  assert (ND1 : NoDup (vec_blocks (firstn n vs)) /\ NoDup (vec_blocks (skipn n vs))
    /\ forall c, In c (vec_blocks (firstn n vs)) -> ~ In c (vec_blocks (skipn n vs))).
  { clear - ND. induction (vec_blocks (firstn n vs)) as [|x l IH]; cbn in ND.
    - split; [constructor|]. split; [auto|intros c []].
    - inversion ND as [|? ? N1 N2]; subst. destruct (IH N2) as (A & B & C). split; [|split; auto].
      + constructor; auto. intros H. apply N1, in_or_app; auto.
      + intros c [->|Hc]; auto. intros H. apply N1, in_or_app; auto. }
  destruct ND1 as (N1 & N2 & N3).
  destruct (free_all_ok (vec_blocks (skipn n vs)) bs N2) as (bs1 & E1 & L1 & A1).
  { intros b Hb. apply AL, in_or_app; auto. }
  rewrite E1. cbn [bind].
  destruct (fill_all_ok results bs1 (firstn n vs) N1) as (bs2 & vs2 & E2 & L2 & LL & A2 & F2 & NN & S2).
  { intros b Hb. apply A1. split; [apply AL, in_or_app; auto|apply N3; auto]. }
  { apply firstn_le_length. }
  exists bs2, vs2. split; auto. split; [lia|]. split; [exact LL|]. split; [|split; [|split; [auto|]]].
  - intros c. rewrite A2, A1, in_app_iff. tauto.
  - intros c Hc. rewrite in_app_iff. destruct (F2 c Hc) as [X|X]; [auto|right; lia].
  - intros [HL HF] c Hc. assert (E : firstn n vs = vs) by (apply firstn_all2; exact HL).
    rewrite E in *. apply S2; auto. rewrite <- HV in Hc. exact Hc.
Qed.

Lemma copy_all_ok vs : forall bs, (forall b, In b (vec_blocks vs) -> alive bs b) ->
  exists bs' vs', copy_all bs vs = Ok (bs', vs') /\ length bs <= length bs'
  /\ (forall c, alive bs' c <-> alive bs c \/ In c (vec_blocks vs'))
  /\ (forall c, In c (vec_blocks vs') -> length bs <= c)
  /\ NoDup (vec_blocks vs').
Proof.
  induction vs as [|v vs IH]; intros bs AL; cbn [copy_all].
  - exists bs, []. cbn. split; auto. split; auto. split; [tauto|]. split; [tauto|constructor].
  - rewrite vec_blocks_cons in AL.
    assert (E0 : (match v_block v with Some b => use bs b | None => Ok tt end) = Ok tt).
    { destruct (v_block v) as [b|]; auto. unfold use. assert (H : alive bs b) by (apply AL; simpl; auto).
      unfold alive in H. rewrite H. reflexivity. }
    rewrite E0. cbn [bind].
    destruct (v_size v) as [|sz].
    + destruct (IH bs) as (bs2 & vs2 & E2 & L2 & A2 & F2 & N2).
      { intros b Hb. apply AL, in_or_app; auto. }
      rewrite E2. cbn [bind]. eexists. eexists. split; [reflexivity|]. split; auto.
    + cbn [alloc fst snd]. destruct (IH (bs ++ [true])) as (bs2 & vs2 & E2 & L2 & A2 & F2 & N2).
      { intros b Hb. apply (alloc_alive bs). left. apply AL, in_or_app; auto. }
      rewrite E2. cbn [bind]. eexists. eexists. split; [reflexivity|].
      rewrite app_length in *. cbn [length] in *. split; [lia|].
      rewrite vec_blocks_cons. cbn [v_block app]. split; [|split].
      * intros c. rewrite A2. pose proof (alloc_alive bs c) as AA. cbn [alloc fst] in AA. rewrite AA. cbn. intuition.
      * intros c [<-|Hc]; [lia|]. specialize (F2 c Hc). lia.
      * constructor; auto. intros Hc. specialize (F2 _ Hc). lia.
Qed.

(** * Ownership, whatever the program does *)
Definition live (h : pyheap) (x : nat) (o : object) : Prop := nth x (h_objs h) None = Some o.
Lemma live_lt h x o : live h x o -> x < length (h_objs h).
Proof.
  unfold live. intros H. destruct (Nat.lt_ge_cases x (length (h_objs h))) as [L|L]; auto.
  rewrite nth_overflow in H; [discriminate|auto].
Qed.
Lemma get_live h x o : get h x = Some o -> live h x o /\ In x (h_vars h).
Proof.
  unfold get, live. destruct (existsb (Nat.eqb x) (h_vars h)) eqn:E; [|discriminate].
  apply mem_in in E. auto.
Qed.

(** The base of an array is one of its references. *)
Definition base_ok (o : object) : Prop :=
  match o_kind o with KArray _ _ (BaseArray y) => In y (o_refs o) | _ => True end.

Record own (h : pyheap) : Prop := Own {
  own_vars : forall x, In x (h_vars h) -> exists o, live h x o;
  own_refs : forall x o y, live h x o -> In y (o_refs o) -> y < x /\ exists o', live h y o';
  own_alive : forall x o b, live h x o -> In b (owned o) -> alive (h_blocks h) b;
  own_one : forall x o x' o' b, live h x o -> live h x' o' -> In b (owned o) -> In b (owned o') -> x = x';
  own_nodup : forall x o, live h x o -> NoDup (owned o);
  own_all : forall b, alive (h_blocks h) b -> exists x o, live h x o /\ In b (owned o);
  own_base : forall x o, live h x o -> base_ok o
}.

Lemma own_empty : own no_objects.
Proof.
  constructor; unfold live; cbn; try (intros; tauto); intros x o; try (intros y); destruct x; discriminate || idtac.
  all: intros; try (destruct x; discriminate); try discriminate.
  all: destruct b; discriminate.
Qed.

Lemma live_add h bs o x p : live (add h bs o) x p <-> live h x p \/ (x = length (h_objs h) /\ p = o).
Proof.
  unfold live, add. cbn. rewrite nth_app_last. destruct (Nat.eqb_spec x (length (h_objs h))) as [->|N].
  - rewrite nth_overflow by auto. split; [intros E; injection E as <-; auto|]. intros [E|[_ ->]]; [discriminate|auto].
  - split; auto. intros [E|[E _]]; [auto|congruence].
Qed.
Lemma live_set h bs vs x o y p : x < length (h_objs h) ->
  live (PyHeap (set_nth (h_objs h) x (Some o)) bs vs) y p <-> (y <> x /\ live h y p) \/ (y = x /\ p = o).
Proof.
  intros L. unfold live. cbn. rewrite nth_set_nth. apply Nat.ltb_lt in L. rewrite L, andb_true_r.
  destruct (Nat.eqb_spec y x) as [->|N]; split.
  - intros E. injection E as <-. auto.
  - intros [[N _]|[_ ->]]; [congruence|auto].
  - auto.
  - intros [[_ E]|[E _]]; [auto|congruence].
Qed.
Lemma live_del h bs vs x y p : x < length (h_objs h) ->
  live (PyHeap (set_nth (h_objs h) x None) bs vs) y p <-> y <> x /\ live h y p.
Proof.
  intros L. unfold live. cbn. rewrite nth_set_nth. apply Nat.ltb_lt in L. rewrite L, andb_true_r.
  destruct (Nat.eqb_spec y x) as [->|N]; split; try tauto; try discriminate.
Qed.

Lemma own_add h bs o : own h ->
  (forall y, In y (o_refs o) -> exists o', live h y o') ->
  (forall c, alive bs c <-> alive (h_blocks h) c \/ In c (owned o)) ->
  (forall c, In c (owned o) -> ~ alive (h_blocks h) c) -> NoDup (owned o) -> base_ok o ->
  own (add h bs o).
Proof.
  intros O HR HA HF ND HB. constructor.
  - intros x [<-|Hx].
    + exists o. apply live_add. auto.
    + destruct (own_vars h O x Hx) as (p & Hp). exists p. apply live_add. auto.
  - intros x p y Hp Hy. apply live_add in Hp as [Hp|[-> ->]].
    + destruct (own_refs h O x p y Hp Hy) as (L & o' & Ho'). split; auto. exists o'. apply live_add. auto.
    + destruct (HR y Hy) as (o' & Ho'). split; [eapply live_lt; eauto|]. exists o'. apply live_add. auto.
  - intros x p b Hp Hb. cbn. apply HA. apply live_add in Hp as [Hp|[-> ->]]; auto.
    left. eapply own_alive; eauto.
  - intros x p x' p' b Hp Hp' Hb Hb'. apply live_add in Hp as [Hp|[-> ->]]; apply live_add in Hp' as [Hp'|[-> ->]]; auto.
    + eapply own_one; [exact O|exact Hp|exact Hp'|exact Hb|exact Hb'].
    + exfalso. apply (HF b Hb'). eapply own_alive; eauto.
    + exfalso. apply (HF b Hb). eapply own_alive; eauto.
  - intros x p Hp. apply live_add in Hp as [Hp|[-> ->]]; auto. eapply own_nodup; eauto.
  - intros b Hb. cbn in Hb. apply HA in Hb as [Hb|Hb].
    + destruct (own_all h O b Hb) as (x & p & Hp & Hin). exists x, p. split; auto. apply live_add. auto.
    + exists (length (h_objs h)), o. split; auto. apply live_add. auto.
  - intros x p Hp. apply live_add in Hp as [Hp|[-> ->]]; auto. eapply own_base; eauto.
Qed.

Lemma own_set h bs x o o' : own h -> live h x o -> o_refs o' = o_refs o ->
  (forall c, alive bs c <-> (alive (h_blocks h) c /\ ~ In c (owned o)) \/ In c (owned o')) ->
  (forall c, In c (owned o') -> In c (owned o) \/ ~ alive (h_blocks h) c) -> NoDup (owned o') -> base_ok o' ->
  own (PyHeap (set_nth (h_objs h) x (Some o')) bs (h_vars h)).
Proof.
  intros O Hx HR HA HF ND HB. pose proof (live_lt _ _ _ Hx) as Lx.
  assert (EX : forall y, (exists p, live h y p) -> exists p, live (PyHeap (set_nth (h_objs h) x (Some o')) bs (h_vars h)) y p).
  { intros y (p & Hp). destruct (Nat.eq_dec y x) as [->|N].
    - exists o'. apply live_set; auto.
    - exists p. apply live_set; auto. }
  constructor.
  - intros y Hy. apply EX. eapply own_vars; eauto.
  - intros y p z Hp Hz. apply live_set in Hp as [[N Hp]|[-> ->]]; auto.
    + destruct (own_refs h O y p z Hp Hz) as [L E]. auto.
    + rewrite HR in Hz. destruct (own_refs h O x o z Hx Hz) as [L E]. auto.
  - intros y p b Hp Hb. cbn. apply HA. apply live_set in Hp as [[N Hp]|[-> ->]]; auto.
    left. split; [eapply own_alive; eauto|]. intros Hb'. apply N. eapply own_one; [exact O|exact Hp|exact Hx|exact Hb|exact Hb'].
  - assert (X : forall y p b, y <> x -> live h y p -> In b (owned p) -> ~ In b (owned o')).
    { intros y p b N Hp Hb Hb'. destruct (HF b Hb') as [H|H].
      - apply N. eapply own_one; [exact O|exact Hp|exact Hx|exact Hb|exact H].
      - apply H. eapply own_alive; eauto. }
    intros y p y' p' b Hp Hp' Hb Hb'. apply live_set in Hp as [[N Hp]|[-> ->]]; auto;
      apply live_set in Hp' as [[N' Hp']|[-> ->]]; auto.
    + eapply own_one; [exact O|exact Hp|exact Hp'|exact Hb|exact Hb'].
    + exfalso. eapply X; eauto.
    + exfalso. eapply X; eauto.
  - intros y p Hp. apply live_set in Hp as [[N Hp]|[-> ->]]; auto. eapply own_nodup; eauto.
  - intros b Hb. cbn in Hb. apply HA in Hb as [[Hb Hn]|Hb].
    + destruct (own_all h O b Hb) as (y & p & Hp & Hin). exists y, p. split; auto. apply live_set; auto. left. split; auto.
      intros ->. unfold live in *. rewrite Hp in Hx. injection Hx as ->. auto.
    + exists x, o'. split; auto. apply live_set; auto.
  - intros y p Hp. apply live_set in Hp as [[N Hp]|[-> ->]]; auto. eapply own_base; eauto.
Qed.

Lemma not_referenced h x : referenced h x = false ->
  ~ In x (h_vars h) /\ forall y p, live h y p -> ~ In x (o_refs p).
Proof.
  unfold referenced. intros H. apply orb_false_iff in H as [H1 H2]. split.
  - intros Hx. apply mem_in in Hx. congruence.
  - intros y p Hp Hx. assert (existsb (fun w => match w with Some ob => existsb (Nat.eqb x) (o_refs ob) | None => false end)
      (h_objs h) = true); [|congruence]. apply existsb_exists. exists (Some p). split.
    + unfold live in Hp. rewrite <- Hp. apply nth_In. eapply live_lt; exact Hp.
    + apply mem_in; auto.
Qed.

Lemma own_del h x o : own h -> live h x o -> referenced h x = false ->
  exists bs, free_all (h_blocks h) (owned o) = Ok bs /\ own (PyHeap (set_nth (h_objs h) x None) bs (h_vars h)).
Proof.
  intros O Hx HR. pose proof (live_lt _ _ _ Hx) as Lx. apply not_referenced in HR as [HV HR].
  destruct (free_all_ok (owned o) (h_blocks h)) as (bs & E & L & A).
  { eapply own_nodup; eauto. }
  { intros b Hb. eapply own_alive; eauto. }
  exists bs. split; auto.
  assert (EX : forall y, y <> x -> (exists p, live h y p) -> exists p, live (PyHeap (set_nth (h_objs h) x None) bs (h_vars h)) y p).
  { intros y N (p & Hp). exists p. apply live_del; auto. }
  constructor.
  - intros y Hy. cbn in Hy. apply EX; [|eapply own_vars; eauto]. intros ->. auto.
  - intros y p z Hp Hz. apply live_del in Hp as [N Hp]; auto. destruct (own_refs h O y p z Hp Hz) as [LL E']. split; auto.
    apply EX; auto. intros ->. exact (HR y p Hp Hz).
  - intros y p b Hp Hb. apply live_del in Hp as [N Hp]; auto. cbn. apply A. split; [eapply own_alive; eauto|].
    intros Hb'. apply N. eapply own_one; [exact O|exact Hp|exact Hx|exact Hb|exact Hb'].
  - intros y p y' p' b Hp Hp' Hb Hb'. apply live_del in Hp as [N Hp]; auto. apply live_del in Hp' as [N' Hp']; auto.
    eapply own_one; [exact O|exact Hp|exact Hp'|exact Hb|exact Hb'].
  - intros y p Hp. apply live_del in Hp as [N Hp]; auto. eapply own_nodup; eauto.
  - intros b Hb. cbn in Hb. apply A in Hb as [Hb Hn]. destruct (own_all h O b Hb) as (y & p & Hp & Hin).
    exists y, p. split; auto. apply live_del; auto. split; auto. intros ->. unfold live in *. rewrite Hp in Hx.
    injection Hx as ->. auto.
  - intros y p Hp. apply live_del in Hp as [N Hp]; auto. eapply own_base; eauto.
Qed.

Lemma own_sub h vs : own h -> (forall x, In x vs -> exists o, live h x o) -> own (PyHeap (h_objs h) (h_blocks h) vs).
Proof. intros O H. destruct O. constructor; auto. Qed.

Lemma remove_one_in x o l : In x (remove_one o l) -> In x l.
Proof.
  induction l as [|y l IH]; cbn; auto. destruct (y =? o); cbn; auto. intros [?|?]; auto.
Qed.

Lemma own_live_refs h x o : own h -> live h x o -> forall y, In y (o_refs o) -> exists o', live h y o'.
Proof. intros O Hx y Hy. apply (own_refs h O x o y Hx Hy). Qed.
Lemma not_alive_ge bs c : length bs <= c -> ~ alive bs c.
Proof. intros L A. apply alive_lt in A. lia. Qed.

(** A view that owns nothing, or a new block. *)
Lemma own_add_nothing h o : own h -> owned o = [] -> (forall y, In y (o_refs o) -> exists o', live h y o') -> base_ok o ->
  own (add h (h_blocks h) o).
Proof.
  intros O E HR HB. apply own_add; auto; rewrite E.
  - intros c. cbn. tauto.
  - intros c [].
  - constructor.
Qed.
Lemma own_add_block h o : own h -> owned o = [length (h_blocks h)] -> (forall y, In y (o_refs o) -> exists o', live h y o') -> base_ok o ->
  own (add h (h_blocks h ++ [true]) o).
Proof.
  intros O E HR HB. apply own_add; auto; rewrite E.
  - intros c. pose proof (alloc_alive (h_blocks h) c) as A. cbn [alloc fst] in A. rewrite A. cbn. intuition.
  - intros c [<-|[]]. apply not_alive_ge; auto.
  - repeat constructor. intros [].
Qed.
Lemma own_add_vec h v refs bs o : own h -> vec_array (h_blocks h) v refs = (bs, o) ->
  (forall y, In y refs -> exists o', live h y o') -> own (add h bs o).
Proof.
  intros O E HR. unfold vec_array in E. destruct (v_block v) as [b|]; injection E as <- <-.
  - apply own_add_nothing; auto. exact I.
  - apply own_add_block; auto. exact I.
Qed.

Definition fine (r : res pyheap) : Prop :=
  match r with Ok h => own h | Ub UbDangling | Ub UbIndex => True | _ => False end.

Lemma use_fine bs b (k : unit -> res pyheap) : fine (k tt) -> fine (do x <- use bs b; k x).
Proof. intros H. unfold use, guard. destruct (nth b bs false); cbn; auto. Qed.

Lemma own_iter h it d i e refs i' : own h -> live h it (Obj (KIter d i e) refs) ->
  own (PyHeap (set_nth (h_objs h) it (Some (Obj (KIter d i' e) refs))) (h_blocks h) (h_vars h)).
Proof.
  intros O H. eapply own_set; [exact O|exact H|reflexivity| | | |exact I]; cbn.
  - intros c. tauto.
  - intros c [].
  - constructor.
Qed.

Lemma refill_fine bs vs results (k : list bool * list vec -> res pyheap) :
  NoDup (vec_blocks vs) -> (forall b, In b (vec_blocks vs) -> alive bs b) ->
  (forall bs' vs', refill bs vs results = Ok (bs', vs') -> fine (k (bs', vs'))) -> fine (do x <- refill bs vs results; k x).
Proof.
  intros ND AL H. destruct (refill_ok bs vs results ND AL) as (bs' & vs' & E & _). rewrite E. cbn [bind]. auto.
Qed.

Lemma select_in {A} (l : list A) is_ x :
  In x (flat_map (fun i => match nth_error l i with Some v => [v] | None => [] end) is_) -> In x l.
Proof.
  intros H. apply in_flat_map in H as (i & _ & Hi). destruct (nth_error l i) eqn:E; [|destruct Hi].
  destruct Hi as [->|[]]. eapply nth_error_In; eauto.
Qed.
Lemma select_blocks l is_ b :
  In b (vec_blocks (flat_map (fun i => match nth_error l i with Some v => [v] | None => [] end) is_)) -> In b (vec_blocks l).
Proof.
  intros H. apply in_flat_map in H as (v & Hv & Hb). apply in_flat_map. exists v. split; auto. eapply select_in; eauto.
Qed.

Lemma step_fine h p : own h -> fine (step h p).
Proof.
  intros O. destruct p; cbn [step].
  - cbn [alloc]. apply own_add_block; auto; [intros y []|exact I].
  - destruct (get h a) as [[[b ow base|b|vs|d i e|b] refs]|] eqn:G; auto.
    apply get_live in G as [G _]. cbn [fine]. apply own_add_nothing; cbn; auto. intros y [<-|[]].
    destruct base as [| |y]; [eauto|eauto|]. apply (own_live_refs h _ _ O G). apply (own_base h O _ _ G).
  - destruct (get h a) as [[[b ow base|b|vs|d i e|b] refs]|] eqn:G; auto.
    apply get_live in G as [G _]. apply use_fine. cbn [fine]. apply own_add_nothing; cbn; auto. intros y [<-|[]]. eauto.
  - destruct (get h a) as [[[b ow base|b|vs|d i e|b] refs]|] eqn:G; auto.
    cbn [fine]. apply own_add_nothing; cbn; auto. intros y [].
  - cbn [fine]. apply own_add_nothing; cbn; auto. intros y [].
  - destruct (get h t) as [[[|b| | |] ?]|] eqn:G; auto.
    destruct (get h q) as [[[bq ow base|b'|vs|d i e|b'] refs']|] eqn:G2; auto.
    do 2 apply use_fine. cbn [alloc]. apply own_add_block; auto; [intros y []|exact I].
  - destruct (get h t) as [[[|b| | |] ?]|] eqn:G; auto.
    destruct (get h q) as [[[bq ow2 bs2| | | |] rf2]|] eqn:G2; auto.
    destruct (get h nns) as [[[bo ow bse| | | |] refs']|] eqn:G3; auto.
    destruct (q =? nns); auto. destruct fits; [do 3 apply use_fine; auto|].
    destruct ow; auto. destruct bse; auto. apply get_live in G3 as [G3 _].
    destruct (free_ok (h_blocks h) bo) as (bs1 & E & L & A).
    { eapply own_alive; [exact O|exact G3|]. simpl; auto. }
    rewrite E. cbn [bind alloc]. do 2 apply use_fine. cbn [fine].
    eapply own_set; [exact O|exact G3|reflexivity| | | |exact I]; cbn.
    + intros c. pose proof (alloc_alive bs1 c) as AA. cbn [alloc fst] in AA. rewrite AA, A. intuition.
    + intros c [<-|[]]. right. apply not_alive_ge. lia.
    + repeat constructor. intros [].
  - destruct (get h t) as [[[|b| | |] ?]|] eqn:G; auto.
    destruct (get h q) as [[[bq ow2 bs2| | | |] rf2]|] eqn:G2; auto.
    do 2 apply use_fine.
    destruct (refill_ok (h_blocks h) [] results) as (bs1 & vs1 & E & L & LL & A & F & N & _); [constructor|intros ? []|].
    rewrite E. cbn [bind fine]. apply own_add; cbn; auto.
    + intros y [].
    + intros c. rewrite A. cbn. tauto.
    + intros c Hc. destruct (F c Hc) as [[]|X]. apply not_alive_ge; auto.
  - destruct (get h t) as [[[|b| | |] ?]|] eqn:G; auto.
    destruct (get h q) as [[[bq ow2 bs2| | | |] rf2]|] eqn:G2; auto.
    destruct (get h d) as [[[| |vs| |] refs]|] eqn:G3; auto. apply get_live in G3 as [G3 _].
    destruct (refill_ok (h_blocks h) vs results) as (bs1 & vs1 & E & L & LL & A & F & N & _).
    { apply (own_nodup h O _ _ G3). }
    { intros b' Hb'. eapply own_alive; [exact O|exact G3|exact Hb']. }
    rewrite E. cbn [bind]. do 2 apply use_fine. cbn [fine].
    eapply own_set; [exact O|exact G3|reflexivity|exact A| |exact N|exact I].
    intros c Hc. destruct (F c Hc) as [X|X]; [left; exact X|right; apply not_alive_ge; auto].
  - destruct (get h d) as [[[| |vs| |] refs]|] eqn:G; auto. apply get_live in G as [G _].
    destruct (nth_error vs i) as [v|]; auto. destruct (vec_array (h_blocks h) v [d]) as [bs1 o] eqn:E.
    cbn [fine]. eapply own_add_vec; [exact O|exact E|]. intros y [<-|[]]. eauto.
  - destruct (get h d) as [[[| |vs| |] refs]|] eqn:G; auto. apply get_live in G as [G _].
    destruct (copy_all_ok (flat_map (fun i => match nth_error vs i with Some v => [v] | None => [] end) is_) (h_blocks h))
      as (bs1 & vs1 & E & L & A & F & N).
    { intros b Hb. eapply own_alive; [exact O|exact G|]. cbn. eapply select_blocks; eauto. }
    rewrite E. cbn [bind fine]. apply own_add; cbn; auto.
    + intros y [].
    + intros c Hc. apply not_alive_ge; auto.
  - destruct (get h d) as [[[| |vs| |] refs]|] eqn:G; auto. apply get_live in G as [G _].
    cbn [fine]. apply own_add_nothing; cbn; auto. intros y [<-|[]]. eauto.
  - destruct (get h it) as [[[| | |d i e|] refs]|] eqn:G; auto. apply get_live in G as [G _].
    destruct (i =? e); auto.
    destruct (nth d (h_objs h) None) as [[[| |vs| |] refs']|] eqn:G2; cbn; auto.
    destruct (nth_error vs i) as [v|]; cbn; auto. destruct (vec_array (h_blocks h) v []) as [bs1 o] eqn:E.
    cbn [fine]. eapply own_add_vec with (v := v) (refs := []); [|exact E|intros y []]. eapply own_iter; eauto.
  - destruct (get h x) as [[[b ow base| | | |] refs]|] eqn:G; auto. apply use_fine. auto.
  - destruct (get h t) as [[[|b| | |] ?]|] eqn:G; auto. apply get_live in G as [G _].
    cbn [fine]. apply own_add_nothing; cbn; auto. intros y [<-|[]]. eauto.
  - destruct (get h m) as [[[| | | |b] refs]|] eqn:G; auto. apply use_fine. auto.
  - destruct (get h o) as [ob|] eqn:G; auto. cbn [fine]. apply own_sub; auto. apply get_live in G as [G _].
    intros x [<-|Hx]; [eauto|]. eapply own_vars; eauto.
  - cbn [fine]. apply own_sub; auto. intros x Hx. eapply own_vars; eauto. eapply remove_one_in; eauto.
  - destruct (referenced h o) eqn:R; auto. destruct (nth o (h_objs h) None) as [ob|] eqn:G; auto.
    destruct (own_del h o ob O G R) as (bs & E & O'). rewrite E. exact O'.
Qed.

Lemma step_own h p h' : own h -> step h p = Ok h' -> own h'.
Proof. intros O E. pose proof (step_fine h p O) as F. rewrite E in F. exact F. Qed.
Lemma run_fine ops : forall h, own h -> fine (run h ops).
Proof.
  induction ops as [|p ops IH]; intros h O; cbn [run]; auto. pose proof (step_fine h p O) as F.
  destruct (step h p) as [h'| |]; cbn [bind]; auto.
Qed.
Lemma run_own ops h h' : own h -> run h ops = Ok h' -> own h'.
Proof. intros O E. pose proof (run_fine ops h O) as F. rewrite E in F. exact F. Qed.

(** * Nothing leaks *)
Lemma run_app l1 l2 h : run h (l1 ++ l2) = (do h' <- run h l1; run h' l2).
Proof.
  revert h. induction l1 as [|p l1 IH]; intros h; cbn [app run]; auto. destruct (step h p); cbn [bind]; auto.
Qed.
Lemma drop_all l : forall h, h_vars h = l -> run h (map Drop l) = Ok (PyHeap (h_objs h) (h_blocks h) []).
Proof.
  induction l as [|x l IH]; intros [os bs vs] E; cbn in E; subst; cbn [map run step h_objs h_blocks h_vars bind]; auto.
  cbn [remove_one]. rewrite Nat.eqb_refl. exact (IH (PyHeap os bs l) eq_refl).
Qed.
Lemma collect_all n : forall h, own h -> h_vars h = [] -> (forall x o, live h x o -> x < n) ->
  exists h', run h (map Collect (rev (seq 0 n))) = Ok h' /\ own h' /\ h_vars h' = [] /\ (forall x o, ~ live h' x o)
  /\ length (h_objs h') = length (h_objs h).
Proof.
  induction n as [|n IH]; intros h O V LT.
  - exists h. split; [reflexivity|]. split; auto. split; auto. split; auto. intros x o H. apply LT in H. lia.
  - rewrite seq_S, rev_app_distr. cbn [rev app map run Nat.add].
    assert (NR : referenced h n = false).
    { unfold referenced. rewrite V. cbn. destruct (existsb _ (h_objs h)) eqn:E; auto. exfalso.
      apply existsb_exists in E as ([ob|] & Hin & E); [|discriminate]. apply mem_in in E.
      apply In_nth with (d := None) in Hin as (x & Lx & Ex).
      destruct (own_refs h O x ob n Ex E) as [L _]. apply LT in Ex. lia. }
    assert (exists h1, step h (Collect n) = Ok h1 /\ own h1 /\ h_vars h1 = [] /\ (forall x o, live h1 x o -> x < n)
      /\ length (h_objs h1) = length (h_objs h)) as (h1 & E1 & O1 & V1 & L1 & LL).
    { cbn [step]. rewrite NR. destruct (nth n (h_objs h) None) as [ob|] eqn:G.
      - destruct (own_del h n ob O G NR) as (bs & E & O'). rewrite E. cbn [bind]. eexists. split; [reflexivity|].
        split; auto. split; auto. split; [|cbn; apply set_nth_length]. intros x o H.
        apply live_del in H as [N H]; [|eapply live_lt; exact G]. apply LT in H. lia.
      - exists h. split; auto. split; auto. split; auto. split; auto. intros x o H.
        pose proof (LT _ _ H). destruct (Nat.eq_dec x n) as [->|]; [|lia]. unfold live in H. congruence. }
    rewrite E1. cbn [bind]. destruct (IH h1 O1 V1 L1) as (h2 & E2 & O2 & V2 & N2 & L2). exists h2.
    split; auto. split; auto. split; auto. split; auto. congruence.
Qed.
Lemma no_leak h : own h -> exists h', run h (end_of_program h) = Ok h'
  /\ (forall x, nth x (h_objs h') None = None) /\ (forall b, nth b (h_blocks h') false = false).
Proof.
  intros O. unfold end_of_program. rewrite run_app, (drop_all _ h eq_refl). cbn [bind].
  destruct (collect_all (length (h_objs h)) (PyHeap (h_objs h) (h_blocks h) [])) as (h' & E & O' & V & N & L).
  - apply own_sub; auto. intros x [].
  - reflexivity.
  - intros x o H. eapply live_lt; exact H.
  - exists h'. split; auto. split.
    + intros x. destruct (nth x (h_objs h') None) as [o|] eqn:G; auto. exfalso. exact (N x o G).
    + intros b. destruct (nth b (h_blocks h') false) eqn:G; auto. exfalso.
      destruct (own_all h' O' b G) as (x & o & H & _). exact (N x o H).
Qed.

(** * Pointers *)
Definition safe_obj (K : list nat) (h : pyheap) (o : object) : Prop :=
  match o_kind o with
  | KArray b true (BaseArray _) => False
  | KArray b true _ => True
  | KArray b false BaseNull => False
  | KArray b false BaseNone =>
      exists d vs rf, (In d (o_refs o) \/ In d K) /\ live h d (Obj (KDArray vs) rf) /\ In b (vec_blocks vs)
  | KArray b false (BaseArray y) =>
      exists ow base rf, In y (o_refs o) /\ live h y (Obj (KArray b ow base) rf) /\ (forall z, base <> BaseArray z)
  | KTree b => exists a ow base rf, (In a (o_refs o) \/ In a K) /\ live h a (Obj (KArray b ow base) rf)
  | KDArray _ => True
  | KIter d i e => exists vs rf, In d (o_refs o) /\ live h d (Obj (KDArray vs) rf) /\ i <= e /\ e <= length vs
  | KBuffer b => exists t rf, In t (o_refs o) /\ live h t (Obj (KTree b) rf)
  end.
Definition safe (K : list nat) (h : pyheap) : Prop := forall x o, live h x o -> safe_obj K h o.

Section Pointers.
  Variable h : pyheap.
  Variable K : list nat.
  Hypothesis O : own h.
  Hypothesis S : safe K h.

  Lemma array_alive x b ow base rf : live h x (Obj (KArray b ow base) rf) -> alive (h_blocks h) b.
  Proof.
    assert (X : forall x b ow base rf, live h x (Obj (KArray b ow base) rf) -> (forall z, base <> BaseArray z) -> alive (h_blocks h) b).
    { intros y c ow' base' rf' H N. pose proof (S _ _ H) as HS. unfold safe_obj in HS. cbn in HS. destruct ow'.
      - apply (own_alive h O _ _ _ H). simpl; auto.
      - destruct base' as [| |z]; [destruct HS| |exfalso; apply (N z); auto].
        destruct HS as (d & vs & r & _ & Hd & Hb). apply (own_alive h O _ _ _ Hd). exact Hb. }
    intros H. destruct base as [| |y]; [eapply X; eauto; discriminate|eapply X; eauto; discriminate|].
    pose proof (S _ _ H) as HS. unfold safe_obj in HS. cbn in HS. destruct ow; [destruct HS|].
    destruct HS as (ow' & base' & rf' & _ & Hy & N). eapply X; eauto.
  Qed.
  Lemma data_alive x o b : live h x o -> data_of o = Some b -> alive (h_blocks h) b.
  Proof.
    intros H E. destruct o as [[c ow base|c|vs|d i e|c] rf]; cbn in E; try discriminate; injection E as ->.
    - eapply array_alive; eauto.
    - destruct (S _ _ H) as (a & ow & base & r & _ & Ha). eapply array_alive; eauto.
    - destruct (S _ _ H) as (t & r & _ & Ht). destruct (S _ _ Ht) as (a & ow & base & r' & _ & Ha). eapply array_alive; eauto.
  Qed.
  Lemma use_ok x o b : live h x o -> data_of o = Some b -> use (h_blocks h) b = Ok tt.
  Proof. intros H E. pose proof (data_alive x o b H E) as A. unfold alive in A. unfold use. rewrite A. reflexivity. Qed.
End Pointers.

Lemma safe_weaken K h h' o : (forall x p, live h x p -> live h' x p) -> safe_obj K h o -> safe_obj K h' o.
Proof.
  intros W. unfold safe_obj. destruct (o_kind o) as [b ow base|b|vs|d i e|b]; auto.
  - destruct ow; auto. destruct base; auto.
    + intros (d & vs & rf & A & B & C). exists d, vs, rf. auto.
    + intros (ow & base & rf & A & B & C). exists ow, base, rf. auto.
  - intros (c & ow & base & rf & A & B). exists c, ow, base, rf. auto.
  - intros (vs & rf & A & B & C). exists vs, rf. auto.
  - intros (t & rf & A & B). exists t, rf. auto.
Qed.
Lemma safe_incl K K' h o : incl K K' -> safe_obj K h o -> safe_obj K' h o.
Proof.
  intros W. unfold safe_obj. destruct (o_kind o) as [b ow base|b|vs|d i e|b]; auto.
  - destruct ow; auto. destruct base; auto.
    intros (d & vs & rf & A & B & C). exists d, vs, rf. intuition.
  - intros (c & ow & base & rf & A & B). exists c, ow, base, rf. intuition.
Qed.
Lemma safe_add K h bs o : safe K h -> safe_obj K h o -> safe K (add h bs o).
Proof.
  intros HS Ho x p Hp. apply live_add in Hp as [Hp|[-> ->]].
  - eapply safe_weaken; [|eapply HS; exact Hp]. intros y q Hq. apply live_add; auto.
  - eapply safe_weaken; [|exact Ho]. intros y q Hq. apply live_add; auto.
Qed.
Lemma safe_grow K K' h : incl K K' -> safe K h -> safe K' h.
Proof. intros W HS x o H. eapply safe_incl; eauto. Qed.

(** Replacing an array by one with another block, a DArray by one that still has
    the blocks others point to, an iterator by the next one. *)
Lemma safe_set_array K h bs vars x b ow base rf b' : safe K h -> live h x (Obj (KArray b true base) rf) ->
  (forall z, base <> BaseArray z) -> ow = true ->
  (forall y o, y <> x -> live h y o -> data_of o <> Some b) ->
  safe K (PyHeap (set_nth (h_objs h) x (Some (Obj (KArray b' ow base) rf))) bs vars).
Proof.
  intros HS Hx NB -> HC y p Hp. pose proof (live_lt _ _ _ Hx) as L.
  assert (NX : forall q c ow' base' rf', live h q (Obj (KArray c ow' base') rf') -> c <> b ->
    live (PyHeap (set_nth (h_objs h) x (Some (Obj (KArray b' true base) rf))) bs vars) q (Obj (KArray c ow' base') rf')).
  { intros q c ow' base' rf' Hq N. apply live_set; auto. left. split; auto. intros ->. unfold live in *. congruence. }
  apply live_set in Hp as [[N Hp]|[-> ->]]; auto.
  2:{ cbn. destruct base; cbn; auto. eapply NB; eauto. }
  pose proof (HS _ _ Hp) as So. pose proof (HC _ _ N Hp) as Hd. clear HC.
  destruct p as [[c ow base'|c|vs|d i e|c] rf']; unfold safe_obj in *; cbn in *; auto.
  - destruct ow; auto. destruct base'; auto.
    + destruct So as (d & vs & r & A & B & C). exists d, vs, r. split; auto. split; auto. apply live_set; auto. left. split; auto.
      intros ->. unfold live in *. congruence.
    + destruct So as (ow & bse & r & A & B & C). exists ow, bse, r. split; [auto|split; [apply NX; [auto|congruence]|auto]].
  - destruct So as (a & ow & bse & r & A & B). exists a, ow, bse, r. split; [auto|apply NX; [auto|congruence]].
  - destruct So as (vs & r & A & B & C). exists vs, r. split; auto. split; auto. apply live_set; auto. left. split; auto.
    intros ->. unfold live in *. congruence.
  - destruct So as (t & r & A & B). exists t, r. split; auto. apply live_set; auto. left. split; auto.
    intros ->. unfold live in *. congruence.
Qed.
Lemma safe_set_darray K h bs vars x vs rf vs' : safe K h -> live h x (Obj (KDArray vs) rf) ->
  (forall y o b, live h y o -> data_of o = Some b -> In b (vec_blocks vs) -> In b (vec_blocks vs')) ->
  (forall y i e r, live h y (Obj (KIter x i e) r) -> length vs <= length vs') ->
  safe K (PyHeap (set_nth (h_objs h) x (Some (Obj (KDArray vs') rf))) bs vars).
Proof.
  intros HS Hx HC HI y p Hp. pose proof (live_lt _ _ _ Hx) as L.
  set (h' := PyHeap (set_nth (h_objs h) x (Some (Obj (KDArray vs') rf))) bs vars) in *.
  assert (NX : forall q o, live h q o -> (forall ws, o_kind o <> KDArray ws) -> live h' q o).
  { intros q o Hq N. apply live_set; auto. left. split; auto. intros ->. unfold live in *. rewrite Hx in Hq. injection Hq as <-.
    apply (N vs). reflexivity. }
  assert (DX : forall q ws r, live h q (Obj (KDArray ws) r) ->
    (q = x /\ ws = vs /\ r = rf /\ live h' q (Obj (KDArray vs') rf)) \/ live h' q (Obj (KDArray ws) r)).
  { intros q ws r Hq. destruct (Nat.eq_dec q x) as [->|N].
    - left. unfold live in Hq, Hx. rewrite Hx in Hq. injection Hq as <- <-. repeat split. apply live_set; auto.
    - right. apply live_set; auto. }
  apply live_set in Hp as [[N Hp]|[-> ->]]; auto; [|exact I].
  pose proof (HS _ _ Hp) as So.
  destruct p as [[c ow base'|c|ws|d i e|c] rf']; unfold safe_obj in *; cbn in *; auto.
  - destruct ow; auto. destruct base'; auto.
    + destruct So as (d & ws & r & A & B & C). destruct (DX _ _ _ B) as [(-> & -> & -> & B')|B'].
      * exists x, vs', rf. split; auto. split; auto. eapply HC; [exact Hp|reflexivity|exact C].
      * exists d, ws, r. auto.
    + destruct So as (ow & bse & r & A & B & C). exists ow, bse, r. split; [auto|split; [apply NX; [auto|discriminate]|auto]].
  - destruct So as (a & ow & bse & r & A & B). exists a, ow, bse, r. split; [auto|apply NX; [auto|discriminate]].
  - destruct So as (ws & r & A & B & C1 & C2). destruct (DX _ _ _ B) as [(-> & -> & -> & B')|B'].
    + exists vs', rf. split; auto. split; auto. split; auto. pose proof (HI _ _ _ _ Hp). lia.
    + exists ws, r. auto.
  - destruct So as (t & r & A & B). exists t, r. split; [auto|apply NX; [auto|discriminate]].
Qed.
Lemma safe_set_iter K h bs vars x d i e rf : safe K h -> live h x (Obj (KIter d i e) rf) -> i <> e ->
  safe K (PyHeap (set_nth (h_objs h) x (Some (Obj (KIter d (S i) e) rf))) bs vars).
Proof.
  intros HS Hx Hi y p Hp. pose proof (live_lt _ _ _ Hx) as L.
  set (h' := PyHeap (set_nth (h_objs h) x (Some (Obj (KIter d (S i) e) rf))) bs vars) in *.
  assert (NX : forall q o, live h q o -> (forall a b c, o_kind o <> KIter a b c) -> live h' q o).
  { intros q o Hq N. apply live_set; auto. left. split; auto. intros ->. unfold live in *. rewrite Hx in Hq. injection Hq as <-.
    apply (N d i e). reflexivity. }
  assert (X : safe_obj K h p -> safe_obj K h' p).
  { clear Hp. destruct p as [[c ow base'|c|ws|d' i' e'|c] rf']; unfold safe_obj; cbn; auto.
    - destruct ow; auto. destruct base'; auto.
      + intros (a & ws & r & A & B & C). exists a, ws, r. split; [auto|split; [apply NX; [auto|discriminate]|auto]].
      + intros (ow & bse & r & A & B & C). exists ow, bse, r. split; [auto|split; [apply NX; [auto|discriminate]|auto]].
    - intros (a & ow & bse & r & A & B). exists a, ow, bse, r. split; [auto|apply NX; [auto|discriminate]].
    - intros (ws & r & A & B & C). exists ws, r. split; [auto|split; [apply NX; [auto|discriminate]|auto]].
    - intros (t & r & A & B). exists t, r. split; [auto|apply NX; [auto|discriminate]]. }
  apply live_set in Hp as [[N Hp]|[-> ->]]; auto.
  - apply X. eapply HS; eauto.
  - apply X. destruct (HS _ _ Hx) as (ws & r & A & B & C1 & C2). exists ws, r. cbn in *. split; auto. split; auto. lia.
Qed.
Lemma safe_del K h bs x : safe K h -> incl K (h_vars h) -> referenced h x = false ->
  x < length (h_objs h) -> safe K (PyHeap (set_nth (h_objs h) x None) bs (h_vars h)).
Proof.
  intros HS HK HR L y p Hp. apply not_referenced in HR as [HV HR].
  apply live_del in Hp as [N Hp]; auto.
  assert (NX : forall q o, live h q o -> In q (o_refs p) \/ In q K -> live (PyHeap (set_nth (h_objs h) x None) bs (h_vars h)) q o).
  { intros q o Hq Hin. apply live_del; auto. split; auto. intros ->. destruct Hin as [Hin|Hin]; [exact (HR _ _ Hp Hin)|].
    apply HV, HK, Hin. }
  pose proof (HS _ _ Hp) as So. clear Hp.
  destruct p as [[c ow base'|c|ws|d' i' e'|c] rf']; unfold safe_obj in *; cbn in *; auto.
  - destruct ow; auto. destruct base'; auto.
    + destruct So as (a & ws & r & A & B & C). exists a, ws, r. split; auto.
    + destruct So as (ow & bse & r & A & B & C). exists ow, bse, r. split; auto.
  - destruct So as (a & ow & bse & r & A & B). exists a, ow, bse, r. split; auto.
  - destruct So as (ws & r & A & B & C). exists ws, r. split; auto.
  - destruct So as (t & r & A & B). exists t, r. split; auto.
Qed.
Lemma safe_vars K h vs : safe K h -> safe K (PyHeap (h_objs h) (h_blocks h) vs).
Proof. intros HS x o H. eapply safe_weaken; [|eapply HS; exact H]. auto. Qed.

Lemma remove_one_other x o l : x <> o -> In x l -> In x (remove_one o l).
Proof.
  intros N. induction l as [|y l IH]; cbn; auto. destruct (Nat.eqb_spec y o) as [->|M]; cbn; intros [E|H]; auto.
  congruence.
Qed.

Definition holds (K : list nat) (h : pyheap) (rest : list op) : Prop :=
  forall d, In d K -> In d (h_vars h) /\ ~ In (Drop d) rest.
Definition goes (h : pyheap) (p : op) (r : list op) : Prop :=
  exists h' K', step h p = Ok h' /\ safe K' h' /\ holds K' h' r.

Lemma holds_tail K h p r : holds K h (p :: r) -> holds K h r.
Proof. intros H d Hd. destruct (H d Hd) as [A B]. split; auto. intros C. apply B. simpl; auto. Qed.
Lemma holds_add K h bs o r : holds K h r -> holds K (add h bs o) r.
Proof. intros H d Hd. destruct (H d Hd) as [A B]. split; auto. cbn. auto. Qed.

Section Goes.
  Variable h : pyheap.
  Variable K : list nat.
  Variable r : list op.
  Hypothesis O : own h.
  Hypothesis HS : safe K h.
  Hypothesis HK : holds K h r.

  Lemma goes_same p : step h p = Ok h -> goes h p r.
  Proof. intros E. exists h, K. auto. Qed.
  Lemma goes_add p bs o : step h p = Ok (add h bs o) -> safe_obj K h o -> goes h p r.
  Proof. intros E Ho. exists (add h bs o), K. split; auto. split; [apply safe_add; auto|apply holds_add; auto]. Qed.
  Lemma goes_set p os bs : step h p = Ok (PyHeap os bs (h_vars h)) -> safe K (PyHeap os bs (h_vars h)) -> goes h p r.
  Proof. intros E Ho. exists (PyHeap os bs (h_vars h)), K. split; auto. Qed.

  Lemma use_get x o b : get h x = Some o -> data_of o = Some b -> use (h_blocks h) b = Ok tt.
  Proof. intros G E. apply get_live in G as [G _]. eapply use_ok; eauto. Qed.
  Lemma alive_get x o b : get h x = Some o -> data_of o = Some b -> alive (h_blocks h) b.
  Proof. intros G E. apply get_live in G as [G _]. eapply data_alive; eauto. Qed.
End Goes.

Lemma use_alive bs b : alive bs b -> use bs b = Ok tt.
Proof. unfold alive, use. intros ->. reflexivity. Qed.

Lemma vec_array_safe K h v refs bs o d vs rf : vec_array (h_blocks h) v refs = (bs, o) ->
  live h d (Obj (KDArray vs) rf) -> In v vs -> In d refs \/ In d K -> safe_obj K h o.
Proof.
  intros E Hd Hv Hin. unfold vec_array in E. destruct (v_block v) as [b|] eqn:Eb; injection E as <- <-; cbn; auto.
  exists d, vs, rf. split; auto. split; auto. unfold vec_blocks. apply in_flat_map. exists v. rewrite Eb. simpl; auto.
Qed.

Ltac same K := eapply goes_same with (K := K); eauto; cbn [step].

Lemma step_goes K h p r : own h -> safe K h -> holds K h (p :: r) -> careful h p -> kept h p r -> goes h p r.
Proof.
  intros O HS HK0 HC HP. pose proof (holds_tail _ _ _ _ HK0) as HK. destruct p.
  - eapply (goes_add h K r HS HK); [reflexivity|exact I].
  - destruct (get h a) as [[[b ow base|b|vs|d i e|b] refs]|] eqn:G; try (same K; rewrite G; reflexivity).
    eapply (goes_add h K r HS HK); [cbn [step]; rewrite G; reflexivity|].
    apply get_live in G as [G _]. pose proof (HS _ _ G) as So. unfold safe_obj in *; cbn in *.
    destruct base as [| |y].
    + exists ow, BaseNull, refs. split; auto. split; auto. discriminate.
    + exists ow, BaseNone, refs. split; auto. split; auto. discriminate.
    + destruct ow; [destruct So|]. destruct So as (ow & bse & rf & A & B & C). exists ow, bse, rf. auto.
  - destruct (get h a) as [[[b ow base|b|vs|d i e|b] refs]|] eqn:G; try (same K; rewrite G; reflexivity).
    eapply (goes_add h K r HS HK); [cbn [step]; rewrite G, (use_get h K O HS _ _ b G eq_refl); reflexivity|].
    apply get_live in G as [G _]. exists a, ow, base, refs. simpl; auto.
  - destruct (get h a) as [[[b ow base|b|vs|d i e|b] refs]|] eqn:G; try (same K; rewrite G; reflexivity).
    exists (add h (h_blocks h) (Obj (KTree b) [])), (a :: K). cbn [step]. rewrite G. split; [reflexivity|].
    apply get_live in G as [G V]. split.
    + apply safe_add; [eapply safe_grow; [|exact HS]; intros z Hz; simpl; auto|].
      exists a, ow, base, refs. simpl; auto.
    + intros d [<-|Hd]; [split; cbn; auto|]. destruct (HK d Hd). split; cbn; auto.
  - eapply (goes_add h K r HS HK); [reflexivity|exact I].
  - destruct (get h t) as [[[|b| | |] rf]|] eqn:G; try (same K; rewrite G; reflexivity).
    destruct (get h q) as [[[bq ow2 bs2| | | |] rf2]|] eqn:G2; try (same K; rewrite G, G2; reflexivity).
    eapply (goes_add h K r HS HK); [cbn [step]; rewrite G, G2, (use_get h K O HS _ _ b G eq_refl),
      (use_get h K O HS _ _ bq G2 eq_refl); reflexivity|exact I].
  - destruct (get h t) as [[[|b| | |] rf]|] eqn:G; try (same K; rewrite G; reflexivity).
    destruct (get h q) as [[[bq ow2 bs2| | | |] rf2]|] eqn:G2; try (same K; rewrite G, G2; reflexivity).
    destruct (get h nns) as [[[bo ow bse| | | |] refs']|] eqn:G3; try (same K; rewrite G, G2, G3; reflexivity).
    destruct (q =? nns) eqn:Eq; [same K; rewrite G, G2, G3, Eq; reflexivity|].
    destruct fits.
    { same K. rewrite G, G2, G3, Eq, (use_get h K O HS _ _ b G eq_refl),
      (use_get h K O HS _ _ bq G2 eq_refl), (use_get h K O HS _ _ bo G3 eq_refl). reflexivity. }
    destruct ow; [|same K; rewrite G, G2, G3, Eq; reflexivity].
    destruct bse; [|same K; rewrite G, G2, G3, Eq; reflexivity|same K; rewrite G, G2, G3, Eq; reflexivity].
    cbn [careful] in HC. specialize (HC _ _ _ G3).
    pose proof (alive_get h K O HS _ _ bo G3 eq_refl) as A3.
    pose proof (alive_get h K O HS _ _ bq G2 eq_refl) as A2.
    pose proof (alive_get h K O HS _ _ b G eq_refl) as A1.
    destruct (free_ok (h_blocks h) bo A3) as (bs1 & E & L & A).
    assert (N1 : b <> bo).
    { apply get_live in G as [G _]. apply get_live in G3 as [G3 _]. intros ->.
      refine (HC t _ _ G eq_refl). intros ->. unfold live in *. congruence. }
    assert (N2 : bq <> bo).
    { apply get_live in G2 as [G2 _]. intros ->. refine (HC q _ _ G2 eq_refl). intros ->. rewrite Nat.eqb_refl in Eq. discriminate. }
    eapply (goes_set h K r HK).
    { cbn [step]. rewrite G, G2, G3, Eq, E. cbn [bind alloc]. rewrite (use_alive _ b); cbn [bind]; [rewrite (use_alive _ bq)|].
      - reflexivity.
      - apply (alloc_alive bs1). left. apply A. auto.
      - apply (alloc_alive bs1). left. apply A. auto. }
    apply get_live in G3 as [G3 _]. eapply safe_set_array; eauto; discriminate.
  - destruct (get h t) as [[[|b| | |] rf]|] eqn:G; try (same K; rewrite G; reflexivity).
    destruct (get h q) as [[[bq ow2 bs2| | | |] rf2]|] eqn:G2; try (same K; rewrite G, G2; reflexivity).
    destruct (refill_ok (h_blocks h) [] results) as (bs1 & vs1 & E & _); [constructor|intros ? []|].
    eapply (goes_add h K r HS HK); [cbn [step]; rewrite G, G2, (use_get h K O HS _ _ b G eq_refl),
      (use_get h K O HS _ _ bq G2 eq_refl); cbn [bind]; rewrite E; reflexivity|exact I].
  - destruct (get h t) as [[[|b| | |] rf]|] eqn:G; try (same K; rewrite G; reflexivity).
    destruct (get h q) as [[[bq ow2 bs2| | | |] rf2]|] eqn:G2; try (same K; rewrite G, G2; reflexivity).
    destruct (get h d) as [[[| |vs| |] refs]|] eqn:G3; try (same K; rewrite G, G2, G3; reflexivity).
    cbn [careful] in HC. specialize (HC _ _ G3).
    pose proof (alive_get h K O HS _ _ bq G2 eq_refl) as A2.
    pose proof (alive_get h K O HS _ _ b G eq_refl) as A1.
    apply get_live in G as GL. apply get_live in G2 as GL2. apply get_live in G3 as GL3.
    destruct GL as [GL _]. destruct GL2 as [GL2 _]. destruct GL3 as [GL3 _].
    destruct (refill_ok (h_blocks h) vs results) as (bs1 & vs1 & E & L & LL & A & F & N & Fit).
    { apply (own_nodup h O _ _ GL3). }
    { intros b' Hb'. eapply own_alive; [exact O|exact GL3|exact Hb']. }
    assert (HV : forall y o c, live h y o -> data_of o = Some c -> In c (vec_blocks vs) -> In c (vec_blocks vs1)).
    { intros y o c Hy Hd Hc. destruct HC as [HC|[HC _]]; [apply Fit; auto|]. exfalso. eapply HC; eauto. }
    assert (HA : forall y o c, live h y o -> data_of o = Some c -> alive bs1 c).
    { intros y o c Hy Hd. apply A. destruct (in_dec Nat.eq_dec c (vec_blocks vs)) as [Hc|Hc].
      - right. eapply HV; eauto.
      - left. split; auto. eapply data_alive; eauto. }
    eapply (goes_set h K r HK).
    { cbn [step]. rewrite G, G2, G3, E. cbn [bind]. rewrite (use_alive bs1 b (HA _ _ _ GL eq_refl)), (use_alive bs1 bq (HA _ _ _ GL2 eq_refl)).
      reflexivity. }
    eapply safe_set_darray; eauto. intros y i e rf' Hy. destruct HC as [[HC _]|[_ HC]]; [rewrite LL; exact HC|].
    exfalso. eapply HC; eauto.
  - destruct (get h d) as [[[| |vs| |] refs]|] eqn:G; try (same K; rewrite G; reflexivity).
    destruct (nth_error vs i) as [v|] eqn:Ev; [|same K; rewrite G, Ev; reflexivity].
    destruct (vec_array (h_blocks h) v [d]) as [bs1 o] eqn:E.
    eapply (goes_add h K r HS HK); [cbn [step]; rewrite G, Ev, E; reflexivity|].
    apply get_live in G as [G _]. eapply vec_array_safe; eauto; [eapply nth_error_In; eauto|simpl; auto].
  - destruct (get h d) as [[[| |vs| |] refs]|] eqn:G; try (same K; rewrite G; reflexivity).
    apply get_live in G as GL. destruct GL as [GL _].
    destruct (copy_all_ok (flat_map (fun i => match nth_error vs i with Some v => [v] | None => [] end) is_) (h_blocks h))
      as (bs1 & vs1 & E & _).
    { intros b Hb. eapply own_alive; [exact O|exact GL|]. cbn. eapply select_blocks; eauto. }
    eapply (goes_add h K r HS HK); [cbn [step]; rewrite G, E; reflexivity|exact I].
  - destruct (get h d) as [[[| |vs| |] refs]|] eqn:G; try (same K; rewrite G; reflexivity).
    eapply (goes_add h K r HS HK); [cbn [step]; rewrite G; reflexivity|].
    apply get_live in G as [G _]. exists vs, refs. cbn. split; auto. split; auto. lia.
  - destruct (get h it) as [[[| | |d i e|] refs]|] eqn:G; try (same K; rewrite G; reflexivity).
    destruct (Nat.eqb_spec i e) as [Ei|Ei].
    { same K. rewrite G. apply Nat.eqb_eq in Ei. rewrite Ei. reflexivity. }
    cbn [kept] in HP. destruct (HP _ _ _ _ G) as [HV HD].
    apply get_live in G as GL. destruct GL as [GL _].
    destruct (HS _ _ GL) as (vs & rf & Hin & Hd & L1 & L2). cbn in Hin.
    destruct (nth_error vs i) as [v|] eqn:Ev; [|apply nth_error_None in Ev; lia].
    destruct (vec_array (h_blocks h) v []) as [bs1 o] eqn:E.
    set (h1 := PyHeap (set_nth (h_objs h) it (Some (Obj (KIter d (S i) e) refs))) (h_blocks h) (h_vars h)).
    exists (add h1 bs1 o), (d :: K). split; [|split].
    + cbn [step]. rewrite G. apply Nat.eqb_neq in Ei. rewrite Ei. unfold live in Hd. rewrite Hd, Ev, E. reflexivity.
    + assert (S1 : safe K h1) by (apply safe_set_iter with (i := i); auto).
      apply safe_add; [eapply safe_grow; [|exact S1]; intros z Hz; simpl; auto|].
      assert (Hd1 : live h1 d (Obj (KDArray vs) rf)).
      { apply live_set; [eapply live_lt; eauto|]. left. split; auto. intros ->. unfold live in *. congruence. }
      eapply vec_array_safe with (h := h1); [exact E|exact Hd1|eapply nth_error_In; eauto|simpl; auto].
    + intros z [<-|Hz]; [split; cbn; auto|]. destruct (HK z Hz). split; cbn; auto.
  - destruct (get h x) as [[[b ow base|b|vs|d i e|b] refs]|] eqn:G; try (same K; rewrite G; reflexivity).
    same K. rewrite G, (use_get h K O HS _ _ b G eq_refl). reflexivity.
  - destruct (get h t) as [[[|b| | |] rf]|] eqn:G; try (same K; rewrite G; reflexivity).
    eapply (goes_add h K r HS HK); [cbn [step]; rewrite G; reflexivity|].
    apply get_live in G as [G _]. exists t, rf. simpl; auto.
  - destruct (get h m) as [[[| | | |b] rf]|] eqn:G; try (same K; rewrite G; reflexivity).
    same K. rewrite G, (use_get h K O HS _ _ b G eq_refl). reflexivity.
  - destruct (get h o) as [ob|] eqn:G; [|same K; rewrite G; reflexivity].
    eexists. exists K. split; [cbn [step]; rewrite G; reflexivity|]. split; [apply safe_vars; auto|].
    intros z Hz. destruct (HK z Hz). split; cbn; auto.
  - eexists. exists K. split; [reflexivity|]. split; [apply safe_vars; auto|].
    intros z Hz. destruct (HK0 z Hz) as [A B]. destruct (HK z Hz) as [_ B']. split; auto. cbn. apply remove_one_other; auto. intros ->.
    apply B. simpl; auto.
  - destruct (referenced h o) eqn:R; [same K; rewrite R; reflexivity|].
    destruct (nth o (h_objs h) None) as [ob|] eqn:G; [|same K; rewrite R, G; reflexivity].
    destruct (own_del h o ob O G R) as (bs & E & _).
    eapply (goes_set h K r HK); [cbn [step]; rewrite R, G, E; reflexivity|].
    apply safe_del; auto; [|eapply live_lt; exact G]. intros z Hz. apply (HK z Hz).
Qed.

Lemma run_goes ops : forall K h, own h -> safe K h -> holds K h ops -> careful_run h ops -> kept_run h ops ->
  exists h', run h ops = Ok h'.
Proof.
  induction ops as [|p ops IH]; intros K h O HS HK HC HP; cbn [run]; [eauto|].
  cbn [careful_run kept_run] in *. destruct HC as [C1 C2]. destruct HP as [P1 P2].
  destruct (step_goes K h p ops O HS HK C1 P1) as (h' & K' & E & S' & H').
  rewrite E. cbn [bind]. eapply IH; eauto. eapply step_own; eauto.
Qed.
Lemma safe_empty : safe [] no_objects.
Proof. intros x o H. apply live_lt in H. cbn in H. lia. Qed.

Lemma run_safe ops : careful_run no_objects ops -> kept_run no_objects ops -> exists h, run no_objects ops = Ok h.
Proof. intros. eapply run_goes; eauto; [apply own_empty|apply safe_empty|intros d []]. Qed.

Lemma no_unkept ops : (forall p, In p ops -> ~ unkept p) -> forall h, kept_run h ops.
Proof.
  induction ops as [|p ops IH]; intros H h; cbn [kept_run]; auto. split.
  - assert (N : ~ unkept p) by (apply H; simpl; auto). destruct p; cbn in *; tauto.
  - intros h' _. apply IH. intros q Hq. apply H. simpl; auto.
Qed.
Lemma no_into ops : (forall p, In p ops -> ~ into p) -> forall h, careful_run h ops.
Proof.
  induction ops as [|p ops IH]; intros H h; cbn [careful_run]; auto. split.
  - assert (N : ~ into p) by (apply H; simpl; auto). destruct p; cbn in *; tauto.
  - intros h' _. apply IH. intros q Hq. apply H. simpl; auto.
Qed.

Lemma loads_kept ops : (forall it, ~ In (Next it) ops) ->
  (forall pre a post, ops = pre ++ LoadTree a :: post -> ~ In (Drop a) post) -> forall h, kept_run h ops.
Proof.
  induction ops as [|p ops IH]; intros HN HL h; cbn [kept_run]; auto. split.
  - destruct p; cbn; auto.
    + apply (HL [] a ops). reflexivity.
    + exfalso. apply (HN it). simpl; auto.
  - intros h' _. apply IH.
    + intros it H. apply (HN it). simpl; auto.
    + intros pre a post E. apply (HL (p :: pre) a post). rewrite E. reflexivity.
Qed.

(** Refilling in place. *)
Lemma fill_all_same results : forall bs vs, length vs = length results ->
  (forall i v r, nth_error vs i = Some v -> nth_error results i = Some r -> fst r <= v_cap v) ->
  exists vs', fill_all bs vs results = Ok (bs, vs') /\ map v_block vs' = map v_block vs /\ map v_size vs' = map fst results
  /\ map v_cap vs' = map v_cap vs.
Proof.
  induction results as [|[size slack] rs IH]; intros bs [|v vs] L H; try discriminate; cbn [fill_all].
  - exists []. repeat split.
  - assert (Hs : size <= v_cap v) by exact (H 0 v (size, slack) eq_refl eq_refl).
    cbn [hd tl]. unfold fill. apply Nat.leb_le in Hs. rewrite Hs. cbn [bind].
    destruct (IH bs vs) as (vs' & E & A & B & C).
    { injection L as L. exact L. }
    { intros i w r Hw Hr. exact (H (S i) w r Hw Hr). }
    rewrite E. cbn [bind]. eexists. split; [reflexivity|]. cbn. rewrite A, B, C. auto.
Qed.
Lemma refill_same bs vs results : length results = length vs -> results_fit vs results ->
  exists vs', refill bs vs results = Ok (bs, vs') /\ map v_block vs' = map v_block vs /\ map v_size vs' = map fst results
  /\ map v_cap vs' = map v_cap vs.
Proof.
  intros L [_ H]. unfold refill. rewrite L, skipn_all, firstn_all. cbn [vec_blocks flat_map free_all bind].
  apply fill_all_same; auto.
Qed.
Lemma refill_in_place h t q d results vs refs h' :
  get h d = Some (Obj (KDArray vs) refs) -> length results = length vs -> results_fit vs results ->
  step h (SearchDArrayInto t q d results) = Ok h' -> h_blocks h' = h_blocks h.
Proof.
  intros G L F E. cbn [step] in E. rewrite G in E.
  destruct (get h t) as [[[|b| | |] rf]|]; try (injection E as <-; reflexivity).
  destruct (get h q) as [[[bq ow2 bs2| | | |] rf2]|]; try (injection E as <-; reflexivity).
  destruct (refill_same (h_blocks h) vs results L F) as (vs' & R & _). rewrite R in E. cbn [bind] in E.
  unfold use, guard in E. destruct (nth b (h_blocks h) false); [|discriminate].
  destruct (nth bq (h_blocks h) false); [|discriminate]. injection E as <-. reflexivity.
Qed.
Lemma no_double_free ops : run no_objects ops <> Ub UbDoubleFree.
Proof. intros E. pose proof (run_fine ops no_objects own_empty) as F. rewrite E in F. exact F. Qed.
Lemma run_no_leak ops h : run no_objects ops = Ok h -> exists h', run h (end_of_program h) = Ok h'
  /\ (forall x, nth x (h_objs h') None = None) /\ (forall b, nth b (h_blocks h') false = false).
Proof. intros E. apply no_leak. eapply run_own; [apply own_empty|exact E]. Qed.
Lemma memory_has_owner ops h b : run no_objects ops = Ok h -> nth b (h_blocks h) false = true ->
  exists x o, nth x (h_objs h) None = Some o /\ In b (owned o)
    /\ forall x' o', nth x' (h_objs h) None = Some o' -> In b (owned o') -> x' = x.
Proof.
  intros E H. pose proof (run_own ops _ _ own_empty E) as O. destruct (own_all h O b H) as (x & o & Hx & Hb).
  exists x, o. split; auto. split; auto. intros x' o' Hx' Hb'. eapply own_one; [exact O|exact Hx'|exact Hx|exact Hb'|exact Hb].
Qed.

(** * What is shared and what is copied *)
Lemma get_new h bs o : get (add h bs o) (length (h_objs h)) = Some o.
Proof. unfold get, add. cbn. rewrite Nat.eqb_refl. cbn. rewrite app_nth2, Nat.sub_diag by lia. reflexivity. Qed.
Lemma copy_all_sizes vs : forall bs bs' vs', copy_all bs vs = Ok (bs', vs') -> map v_size vs' = map v_size vs.
Proof.
  induction vs as [|v vs IH]; intros bs bs' vs' E; cbn [copy_all] in E.
  - injection E as _ <-. reflexivity.
  - destruct (match v_block v with Some b => use bs b | None => Ok tt end); try discriminate. cbn [bind] in E.
    destruct (match v_size v with O => (bs, None) | S _ => (fst (alloc bs), Some (snd (alloc bs))) end) as [bs1 b].
    destruct (copy_all bs1 vs) as [[bs2 vs2]| |] eqn:E2; try discriminate. cbn [bind] in E. injection E as _ <-.
    cbn. f_equal. eauto.
Qed.
Lemma array_view_shares h a b ow base refs : get h a = Some (Obj (KArray b ow base) refs) ->
  exists h' o, step h (ViewArray a) = Ok h' /\ get h' (length (h_objs h)) = Some o /\ data_of o = Some b.
Proof. intros G. cbn [step]. rewrite G. eexists. eexists. split; [reflexivity|]. split; [apply get_new|reflexivity]. Qed.
Lemma item_shares h d vs refs i v : get h d = Some (Obj (KDArray vs) refs) -> nth_error vs i = Some v ->
  exists h' o, step h (GetItem d i) = Ok h' /\ get h' (length (h_objs h)) = Some o
    /\ (forall b, v_block v = Some b -> data_of o = Some b).
Proof.
  intros G E. cbn [step]. rewrite G, E. destruct (vec_array (h_blocks h) v [d]) as [bs o] eqn:EV.
  eexists. exists o. split; [reflexivity|]. split; [apply get_new|]. intros b Hb. unfold vec_array in EV. rewrite Hb in EV.
  injection EV as _ <-. reflexivity.
Qed.
Lemma next_shares h it d i e refs vs refs' v : get h it = Some (Obj (KIter d i e) refs) -> i <> e ->
  nth d (h_objs h) None = Some (Obj (KDArray vs) refs') -> nth_error vs i = Some v ->
  exists h' o, step h (Next it) = Ok h' /\ get h' (length (h_objs h)) = Some o
    /\ get h' it = Some (Obj (KIter d (S i) e) refs)
    /\ (forall b, v_block v = Some b -> data_of o = Some b).
Proof.
  intros G N D E. cbn [step]. rewrite G, D, E. apply Nat.eqb_neq in N. rewrite N.
  destruct (vec_array (h_blocks h) v []) as [bs o] eqn:EV.
  set (h1 := PyHeap (set_nth (h_objs h) it (Some (Obj (KIter d (S i) e) refs))) (h_blocks h) (h_vars h)).
  assert (L : length (h_objs h) = length (h_objs h1)) by (cbn; symmetry; apply set_nth_length).
  apply get_live in G as [G V].
  exists (add h1 bs o), o. split; [reflexivity|]. split; [rewrite L; apply get_new|]. split.
  - unfold get, add. cbn [h_vars h_objs h1].
    assert (M : existsb (Nat.eqb it) (length (set_nth (h_objs h) it (Some (Obj (KIter d (S i) e) refs))) :: h_vars h) = true)
      by (apply mem_in; simpl; auto).
    rewrite M. apply live_lt in G. rewrite app_nth1 by (rewrite set_nth_length; exact G).
    rewrite nth_set_nth, Nat.eqb_refl. apply Nat.ltb_lt in G. rewrite G. reflexivity.
  - intros b Hb. unfold vec_array in EV. rewrite Hb in EV. injection EV as _ <-. reflexivity.
Qed.
Lemma slice_copies ops h d vs refs is_ : run no_objects ops = Ok h -> get h d = Some (Obj (KDArray vs) refs) ->
  (forall i, In i is_ -> i < length vs) ->
  exists h' vs', step h (SliceDArray d is_) = Ok h' /\ get h' (length (h_objs h)) = Some (Obj (KDArray vs') [])
    /\ map v_size vs' = map (fun i => nth i (map v_size vs) 0) is_
    /\ forall x o b, nth x (h_objs h) None = Some o -> In b (owned o) -> ~ In b (vec_blocks vs').
Proof.
  intros E G HI. pose proof (run_own ops _ _ own_empty E) as O. apply get_live in G as GL. destruct GL as [GL _].
  destruct (copy_all_ok (flat_map (fun i => match nth_error vs i with Some v => [v] | None => [] end) is_) (h_blocks h))
    as (bs1 & vs1 & E1 & L & A & F & N).
  { intros b Hb. eapply own_alive; [exact O|exact GL|]. cbn. eapply select_blocks; eauto. }
  cbn [step]. rewrite G, E1. eexists. exists vs1. split; [reflexivity|]. split; [apply get_new|]. split.
  - rewrite (copy_all_sizes _ _ _ _ E1). clear - HI. induction is_ as [|i is_ IH]; cbn; auto.
    rewrite map_app, IH by (intros; apply HI; simpl; auto).
    destruct (nth_error vs i) as [v|] eqn:En.
    + cbn. f_equal. symmetry. change 0 with (v_size (Vec None 0 0)). rewrite map_nth. f_equal. apply nth_error_nth. exact En.
    + apply nth_error_None in En. specialize (HI i (or_introl eq_refl)). lia.
  - intros x o b Hx Hb Hb'. specialize (F b Hb'). pose proof (own_alive h O _ _ _ Hx Hb) as AL. apply alive_lt in AL. lia.
Qed.
Lemma tree_shares h a b ow base refs : get h a = Some (Obj (KArray b ow base) refs) -> nth b (h_blocks h) false = true ->
  (exists h' o, step h (MakeTree a) = Ok h' /\ get h' (length (h_objs h)) = Some o /\ data_of o = Some b)
  /\ (exists h' o, step h (LoadTree a) = Ok h' /\ get h' (length (h_objs h)) = Some o /\ data_of o = Some b).
Proof.
  intros G A. cbn [step]. rewrite G. unfold use. rewrite A. split.
  - eexists. eexists. split; [reflexivity|]. split; [apply get_new|reflexivity].
  - eexists. eexists. split; [reflexivity|]. split; [apply get_new|reflexivity].
Qed.
Lemma knn_fresh ops h t q bt rt bq ow base rq : run no_objects ops = Ok h ->
  get h t = Some (Obj (KTree bt) rt) -> get h q = Some (Obj (KArray bq ow base) rq) ->
  nth bt (h_blocks h) false = true -> nth bq (h_blocks h) false = true ->
  exists h' o b, step h (SearchKnn t q) = Ok h' /\ get h' (length (h_objs h)) = Some o /\ data_of o = Some b
    /\ nth b (h_blocks h') false = true /\ nth b (h_blocks h) false = false
    /\ forall rest h'', run h' rest = Ok h'' -> get h'' (length (h_objs h)) = Some o -> nth b (h_blocks h'') false = true.
Proof.
  intros E Gt Gq At Aq. cbn [step]. rewrite Gt, Gq. unfold use. rewrite At, Aq. cbn [guard bind alloc].
  eexists. eexists. eexists. split; [reflexivity|]. split; [apply get_new|]. split; [reflexivity|]. split; [|split].
  - cbn. rewrite app_nth2, Nat.sub_diag by lia. reflexivity.
  - apply nth_overflow. lia.
  - intros rest h'' R G. pose proof (run_own ops _ _ own_empty E) as O.
    assert (S1 : step h (SearchKnn t q) = Ok (add h (h_blocks h ++ [true]) (Obj (KArray (length (h_blocks h)) true BaseNull) []))).
    { cbn [step]. rewrite Gt, Gq. unfold use. rewrite At, Aq. reflexivity. }
    pose proof (step_own _ _ _ O S1) as O1. pose proof (run_own _ _ _ O1 R) as O2.
    apply get_live in G as [G _]. apply (own_alive h'' O2 _ _ _ G). simpl; auto.
Qed.
