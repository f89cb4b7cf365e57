(** The searches as programs on shared memory compute what the searches compute. *)
From Coq Require Import List ZArith Bool Arith Lia.
From Verif Require Import Base ModelBox ModelBuild ModelSearch ModelSerial ModelPython SpecPython Lemmas ParThms.
Import ListNotations.
Local Open Scope nat_scope.

Lemma nth_error_skipn {A} n (l : list A) i : nth_error (skipn n l) i = nth_error l (n + i).
Proof. revert l; induction n as [|n IH]; intros [|x l]; cbn; auto. destruct i; reflexivity. Qed.
Lemma nth_error_firstn_lt {A} n (l : list A) i : i < n -> nth_error (firstn n l) i = nth_error l i.
Proof. revert l i; induction n as [|n IH]; intros [|x l] [|i] H; cbn; auto; try lia. apply IH; lia. Qed.

Section Block.
Context {A : Type}.

Lemma length_cells base k (mem : list A) : base + k <= length mem -> length (cells base k mem) = k.
Proof. intros H. unfold cells. rewrite firstn_length, skipn_length. lia. Qed.

Lemma nth_error_cells base k (mem : list A) p : p < k -> nth_error (cells base k mem) p = nth_error mem (base + p).
Proof. intros H. unfold cells. rewrite nth_error_firstn_lt by auto. apply nth_error_skipn. Qed.

Lemma cells_set base k (mem : list A) p x : base + k <= length mem -> p < k ->
  cells base k (set_nth mem (base + p) x) = set_nth (cells base k mem) p x.
Proof.
  intros L Hp. apply nth_error_ext. intros i. destruct (Nat.lt_ge_cases i k) as [Hi|Hi].
  - rewrite nth_error_cells by auto. destruct (Nat.eq_dec i p) as [->|N].
    + rewrite !nth_error_set_same; auto; [|lia]. rewrite length_cells by auto. auto.
    + rewrite !nth_error_set_other by lia. symmetry. apply nth_error_cells; auto.
  - rewrite !(proj2 (nth_error_None _ _)); auto.
    + rewrite length_set_nth, length_cells; auto.
    + rewrite length_cells; auto. rewrite length_set_nth. auto.
Qed.

Lemma cells_agree base k (m1 m2 : list A) : (forall a, base <= a < base + k -> nth_error m1 a = nth_error m2 a) ->
  base + k <= length m1 -> base + k <= length m2 -> cells base k m1 = cells base k m2.
Proof.
  intros H L1 L2. apply nth_error_ext. intros i. destruct (Nat.lt_ge_cases i k) as [Hi|Hi].
  - rewrite !nth_error_cells by auto. apply H. lia.
  - rewrite !(proj2 (nth_error_None _ _)); auto; rewrite length_cells; auto.
Qed.
End Block.

Section Refine.
Context {T : Type} {SC : Scalar T}.

(** A visitor on memory does what a visitor does. *)
Record refines {A L V} (mv : mvisitor T A L) (vis : visitor T V) (abs : L -> list A -> V) (P : nat -> Prop)
    (linv : L -> Prop) (n : nat) : Prop := {
  rf_visit_in : forall i d l, linv l -> within P linv (mv_visit mv i d l);
  rf_max_in : forall l, within P (fun _ => True) (mv_max mv l);
  rf_visit : forall i d l mem, linv l -> length mem = n ->
    exists l' mem', prun (mv_visit mv i d l) mem = Ok (l', mem') /\ abs l' mem' = v_visit vis i d (abs l mem);
  rf_max : forall l mem, linv l -> length mem = n ->
    prun (mv_max mv l) mem = Ok (v_max vis (abs l mem), mem)
}.

Section Search.
Context {A L V : Type}.
Variables (mv : mvisitor T A L) (vis : visitor T V) (abs : L -> list A -> V) (P : nat -> Prop) (linv : L -> Prop) (n : nat).
Hypothesis HR : refines mv vis abs P linv n.
Variables (m : metric T) (sp : space T) (indices : list nat) (q : list T).

Lemma visit_prog_in l st : linv st -> within P linv (visit_prog m mv sp q l st).
Proof.
  revert st; induction l as [|i l IH]; intros st H; cbn [visit_prog within]; auto.
  eapply within_bind with (R := fun _ => True).
  - cbn. destruct (guard _ _); auto.
  - intros _ _. eapply within_bind; [apply (rf_visit_in _ _ _ _ _ _ HR); auto|]. intros; auto.
Qed.

Lemma nearest_prog_in : forall nd d st, linv (snd st) ->
  within P (fun st => linv (snd st)) (nearest_prog m mv sp indices q nd d st).
Proof.
  induction nd as [b e|br nl IHl nr IHr]; intros d st H; cbn [nearest_prog].
  - eapply within_bind with (R := fun _ => True); [cbn; destruct (slice _ _ _); auto|]. intros is_ _.
    eapply within_bind; [apply visit_prog_in; auto|]. intros l' Hl. exact Hl.
  - eapply within_bind with (R := fun _ => True); [cbn; destruct (at_ _ _); auto|]. intros v _.
    assert (IHa : forall (b : bool) d st, linv (snd st) ->
      within P (fun st => linv (snd st)) (nearest_prog m mv sp indices q (if b then nl else nr) d st))
      by (intros []; auto).
    assert (IHb : forall (b : bool) d st, linv (snd st) ->
      within P (fun st => linv (snd st)) (nearest_prog m mv sp indices q (if b then nr else nl) d st))
      by (intros []; auto).
    eapply within_bind; [apply IHa; exact H|]. intros st1 H1.
    eapply within_bind with (R := fun _ => True); [cbn; destruct (at_ _ _); auto|]. intros old _.
    eapply within_bind; [apply (rf_max_in _ _ _ _ _ _ HR)|]. intros mx _.
    destruct (s_leb _ _); [|exact H1].
    eapply within_bind; [apply IHb; exact H1|]. intros st2 H2. exact H2.
Qed.

(** [p] does on memory what [r] says. *)
Definition computes {B C} (f : B -> list A -> C) (p : prog A B) (mem : list A) (r : res C) : Prop :=
  match r with
  | Ok c => exists b mem', prun p mem = Ok (b, mem') /\ f b mem' = c
  | Ub w => prun p mem = Ub w
  | OutOfFuel => prun p mem = OutOfFuel
  end.

Lemma visit_prog_spec l st mem : linv st -> length mem = n ->
  computes abs (visit_prog m mv sp q l st) mem (visit_range m vis sp q l (abs st mem)).
Proof.
  revert st mem; induction l as [|i l IH]; intros st mem H Lm; cbn [visit_prog visit_range].
  - cbn. eauto.
  - destruct (guard (in_space sp i) UbIndex) as [[]|w|] eqn:G; cbn [bind].
    + cbn [prog_bind].
      destruct (rf_visit _ _ _ _ _ _ HR i (m_dist m q (sp_at sp i)) st mem H Lm) as (l' & mem' & R & E).
      destruct (prun_within _ _ _ _ _ _ (rf_visit_in _ _ _ _ _ _ HR i (m_dist m q (sp_at sp i)) st H) R) as (Hl & Ln & _).
      rewrite <- E. specialize (IH l' mem' Hl ltac:(congruence)). unfold computes in *.
      destruct (visit_range _ _ _ _ _ _); rewrite prun_bind, R; cbn [bind]; exact IH.
    + cbn. reflexivity.
    + unfold guard in G. destruct (in_space sp i); discriminate G.
Qed.

Lemma nearest_prog_spec : forall nd d off l mem, linv l -> length mem = n ->
  computes (fun st mem => (fst st, abs (snd st) mem)) (nearest_prog m mv sp indices q nd d (off, l)) mem
    (search_nearest_euclidean m vis sp indices q nd d (off, abs l mem)).
Proof.
  induction nd as [b e|br nl IHl nr IHr]; intros d off l mem H Lm;
    cbn [nearest_prog search_nearest_euclidean fst snd].
  - destruct (slice indices b e) as [is_|w|]; cbn [bind prog_bind]; try reflexivity.
    pose proof (visit_prog_spec is_ l mem H Lm) as S. unfold computes in *.
    destruct (visit_range _ _ _ _ _ _) as [v'|w|]; cbn [bind]; rewrite prun_bind.
    + destruct S as (l' & mem' & R & E). rewrite R. cbn [bind prun]. exists (off, l'), mem'. cbn [fst snd]. rewrite E. auto.
    + rewrite S. reflexivity.
    + rewrite S. reflexivity.
  - destruct (at_ q (bs_split_dim br)) as [v|w|]; cbn [bind prog_bind]; try reflexivity.
    set (go := s_ltb _ _).
    assert (IHa : forall (b : bool) d off l mem, linv l -> length mem = n ->
      computes (fun st mem => (fst st, abs (snd st) mem)) (nearest_prog m mv sp indices q (if b then nl else nr) d (off, l)) mem
        (search_nearest_euclidean m vis sp indices q (if b then nl else nr) d (off, abs l mem))) by (intros []; auto).
    assert (IHb : forall (b : bool) d off l mem, linv l -> length mem = n ->
      computes (fun st mem => (fst st, abs (snd st) mem)) (nearest_prog m mv sp indices q (if b then nr else nl) d (off, l)) mem
        (search_nearest_euclidean m vis sp indices q (if b then nr else nl) d (off, abs l mem))) by (intros []; auto).
    clearbody go. clear IHl IHr.
    specialize (IHa go d off l mem H Lm). unfold computes in *. rewrite prun_bind.
    destruct (search_nearest_euclidean m vis sp indices q (if go then nl else nr) d (off, abs l mem)) as [st1|w|];
      cbn [bind]; try (rewrite IHa; reflexivity).
    destruct IHa as ([off1 l1] & mem1 & R1 & E1). rewrite R1. subst st1. cbn [bind fst snd].
    destruct (prun_within _ _ _ _ _ _ (nearest_prog_in _ d (off, l) H) R1) as (H1 & L1 & _). cbn [snd] in H1.
    destruct (at_ off1 (bs_split_dim br)) as [old|w|]; cbn [bind prog_bind]; try reflexivity.
    rewrite prun_bind. rewrite (rf_max _ _ _ _ _ _ HR) by (auto; congruence). cbn [bind].
    set (new := if go then _ else _).
    set (nd' := s_add _ _).
    destruct (s_leb nd' (v_max vis (abs l1 mem1))); [|cbn; eauto].
    specialize (IHb go nd' (set_nth off1 (bs_split_dim br) new) l1 mem1 H1 ltac:(congruence)).
    rewrite prun_bind.
    destruct (search_nearest_euclidean _ _ _ _ _ _ _ (set_nth off1 (bs_split_dim br) new, abs l1 mem1)) as [st2|w|];
      cbn [bind]; try (rewrite IHb; reflexivity).
    destruct IHb as ([off2 l2] & mem2 & R2 & E2). rewrite R2. subst st2. cbn [bind fst snd prun].
    exists (set_nth off2 (bs_split_dim br) old, l2), mem2. auto.
Qed.
End Search.

Lemma search_prog_in {A L V} mv vis abs P linv n (HR : @refines A L V mv vis abs P linv n) t x l0 :
  linv l0 -> within P linv (search_prog t mv x l0).
Proof.
  intros H. unfold search_prog. eapply within_bind with (R := fun _ => True).
  { cbn. destruct (guard _ _); auto. }
  intros _ _. generalize (kt_data t). destruct (m_cat (kt_metric t)); intros data.
  - eapply within_bind; [eapply nearest_prog_in; eauto|]. intros st Hst. exact Hst.
  - cbn. auto.
Qed.

Lemma search_prog_spec {A L V} mv vis abs P linv n (HR : @refines A L V mv vis abs P linv n) t x l0 mem :
  m_cat (kt_metric t) = Euclidean -> linv l0 -> length mem = n ->
  computes abs (search_prog t mv x l0) mem (search_nearest t vis x (abs l0 mem)).
Proof.
  intros C H Lm. unfold search_prog, search_nearest.
  destruct (guard _ _) as [[]|w|]; cbn [bind prog_bind]; try reflexivity.
  revert C. generalize (kt_data t). destruct (m_cat (kt_metric t)); intros data C; [|discriminate C].
  unfold search_nearest_root.
  pose proof (nearest_prog_spec mv vis abs P linv n HR (kt_metric t) (kt_space t) (kd_indices data) x (kd_root data) s_zero
    (tab (sp_sdim (kt_space t)) (fun _ => s_zero)) l0 mem H Lm) as N.
  unfold computes in *. rewrite prun_bind.
  destruct (search_nearest_euclidean _ _ _ _ _ _ _ _) as [st|w|]; cbn [bind].
  - destruct N as (st' & mem' & R & E). rewrite R. subst st. cbn. eauto.
  - rewrite N. reflexivity.
  - rewrite N. reflexivity.
Qed.

(** ** The k nearest neighbours *)
Definition knn_visitor (e : option T) : visitor T (@knn_state T) :=
  match e with None => visitor_knn | Some e => visitor_approximate_knn e end.

Lemma knn_visit_eq e i d st : v_visit (knn_visitor e) i d st =
  if (s_ltb (scaled e d) (knn_max st)) then
    let active := if snd st <? length (fst st) then snd st + 1 else snd st in
    (insert_sorted (fst st) active (Neighbor i (scaled e d)), active)
  else st.
Proof. destruct e; reflexivity. Qed.
Lemma knn_max_eq e st : v_max (knn_visitor e) st = knn_max st.
Proof. destruct e; reflexivity. Qed.

Section Knn.
Variables (base k n : nat).
Hypothesis Hk : 0 < k.
Hypothesis Hn : base + k <= n.
Definition own (a : nat) : Prop := base <= a < base + k.

Lemma insert_prog_in p item : p < k -> within own (fun _ => True) (insert_prog base p item).
Proof.
  induction p as [|p IH]; intros H; cbn [insert_prog within]; unfold own in *.
  - split; [lia|auto].
  - split; [lia|]. intros prev. destruct (neighbor_lt item prev); cbn [within]; (split; [lia|]); auto. apply IH; lia.
Qed.

Lemma insert_prog_spec p item mem : p < k -> length mem = n ->
  exists mem', prun (insert_prog base p item) mem = Ok (tt, mem')
    /\ cells base k mem' = insert_sorted_loop p (cells base k mem) item.
Proof.
  revert mem; induction p as [|p IH]; intros mem H Lm; cbn [insert_prog insert_sorted_loop prun].
  - rewrite guard_true by (apply Nat.ltb_lt; lia). cbn [bind]. eexists. split; [reflexivity|].
    rewrite <- (Nat.add_0_r base) at 2. apply cells_set; lia.
  - unfold at_. destruct (nth_error mem (base + p)) as [prev|] eqn:E.
    2:{ apply nth_error_None in E. lia. }
    cbn [bind].
    assert (Ep : nth p (cells base k mem) item = prev).
    { apply nth_error_nth. rewrite nth_error_cells by lia. auto. }
    rewrite Ep. destruct (neighbor_lt item prev); cbn [prun]; rewrite guard_true by (apply Nat.ltb_lt; lia); cbn [bind].
    + destruct (IH (set_nth mem (base + S p) prev)) as (mem' & R & C); try lia. { rewrite length_set_nth; auto. }
      exists mem'. split; [auto|]. rewrite C. f_equal. apply cells_set; lia.
    + eexists. split; [reflexivity|]. apply cells_set; lia.
Qed.

Lemma last_cells (mem : list (neighbor T)) d : length mem = n -> nth_error mem (base + k - 1) = Some (last (cells base k mem) d).
Proof.
  intros Lm. assert (Lc := length_cells base k mem ltac:(lia)).
  replace (base + k - 1) with (base + (k - 1)) by lia. rewrite <- (nth_error_cells base k mem (k - 1)) by lia.
  destruct (@exists_last _ (cells base k mem)) as (l & x & E). { intros E. rewrite E in Lc. cbn in Lc. lia. }
  rewrite E in *. rewrite last_last. rewrite app_length in Lc. cbn in Lc.
  rewrite nth_error_app2 by lia. replace (k - 1 - length l) with 0 by lia. reflexivity.
Qed.

Lemma knn_refines e : refines (knn_mvisitor e base k) (knn_visitor e)
  (fun active mem => (cells base k mem, active)) own (fun active => active <= k) n.
Proof.
  constructor.
  - intros i d l Hl. cbn beta in Hl. cbn [knn_mvisitor mv_visit within]. unfold own. split; [lia|]. intros lst.
    destruct (s_ltb _ _); cbn [within]; auto.
    eapply within_bind. { apply insert_prog_in. destruct (Nat.ltb_spec l k); lia. }
    intros _ _. cbn [within]. destruct (Nat.ltb_spec l k); lia.
  - intros l. cbn. unfold own. split; [lia|auto].
  - intros i d l mem Hl Lm. cbn beta in Hl. cbn [knn_mvisitor mv_visit prun]. unfold at_.
    rewrite (last_cells mem (Neighbor 0 s_max) Lm). cbn [bind]. rewrite knn_visit_eq. unfold knn_max. cbn [fst snd].
    destruct (s_ltb _ _); [|cbn; eauto].
    rewrite length_cells by lia. cbv zeta. set (active := if l <? k then l + 1 else l).
    assert (Ha : active - 1 < k) by (subst active; destruct (Nat.ltb_spec l k); lia).
    destruct (insert_prog_spec (active - 1) (Neighbor i (scaled e d)) mem Ha Lm) as (mem' & R & C).
    rewrite prun_bind, R. cbn [bind prun]. exists active, mem'. split; [auto|]. unfold insert_sorted. rewrite C. reflexivity.
  - intros l mem Hl Lm. cbn [knn_mvisitor mv_max prun]. unfold at_.
    rewrite (last_cells mem (Neighbor 0 s_max) Lm). cbn [bind prun]. rewrite knn_max_eq. reflexivity.
Qed.
End Knn.

Lemma range_search_eq t e x range : range_search t e x range =
  do st0 <- visitor_knn_init range; do st <- search_nearest t (knn_visitor e) x st0; Ok (fst st).
Proof. destruct e; reflexivity. Qed.

Lemma set_last_cells base k (mem : list (neighbor T)) old : 0 < k -> base + k <= length mem ->
  cells base k (set_nth mem (base + k - 1) old) = set_nth (cells base k mem) (k - 1) old.
Proof. intros Hk H. replace (base + k - 1) with (base + (k - 1)) by lia. apply cells_set; lia. Qed.

Lemma knn_program_in t e off k i q : within (own (off + i * k) k) (fun _ => True) (knn_program t e off k i q).
Proof.
  unfold knn_program. destruct k as [|k']; [cbn; auto|]. set (k := S k') in *. cbn [within].
  unfold own at 1. split; [subst k; lia|]. intros old. split; [unfold own; subst k; lia|].
  eapply within_bind.
  - eapply search_prog_in with (n := off + i * k + k).
    + apply knn_refines; subst k; lia.
    + cbn beta. apply Nat.le_0_l.
  - intros _ _. cbn. auto.
Qed.

Lemma knn_program_spec t e off k i q mem : m_cat (kt_metric t) = Euclidean -> 0 < k ->
  off + i * k + k <= length mem ->
  computes (fun _ mem => cells (off + i * k) k mem) (knn_program t e off k i q) mem
    (range_search t e q (cells (off + i * k) k mem)).
Proof.
  intros C Hk L. unfold knn_program. destruct k as [|k']; [lia|]. set (k := S k') in *.
  set (base := off + i * k) in *.
  assert (Lc := length_cells base k mem L).
  rewrite range_search_eq. unfold visitor_knn_init.
  destruct (cells base k mem) as [|y ys] eqn:Ec; [cbn in Lc; discriminate Lc|]. rewrite <- Ec. cbn [bind].
  assert (Ln := last_cells base k (length mem) Hk L mem (Neighbor 0 s_max) eq_refl).
  set (old := last (cells base k mem) (Neighbor 0 s_max)) in *.
  set (mem1 := set_nth mem (base + k - 1) (Neighbor (n_index old) s_max)).
  assert (E1 : set_nth (cells base k mem) (length (cells base k mem) - 1) (Neighbor (n_index old) s_max) = cells base k mem1).
  { rewrite Ec, Lc, <- Ec. symmetry. apply set_last_cells; auto. }
  rewrite E1.
  assert (L1 : length mem1 = length mem) by apply length_set_nth.
  pose proof (search_prog_spec _ _ _ _ _ (length mem) (knn_refines base k (length mem) Hk L e) t q 0 mem1 C (Nat.le_0_l k) L1) as S.
  unfold computes in *. cbn [prun]. unfold at_. rewrite Ln. cbn [bind]. rewrite guard_true by (apply Nat.ltb_lt; lia).
  cbn [bind]. fold mem1. rewrite prun_bind.
  destruct (search_nearest _ _ _ _) as [st|w|]; cbn [bind].
  - destruct S as (b & mem' & R & E). rewrite R. cbn. exists tt, mem'. split; [auto|]. rewrite <- E. reflexivity.
  - rewrite S. reflexivity.
  - rewrite S. reflexivity.
Qed.

(** ** Radius *)
Definition radius_visitor (e : option T) (r : T) : visitor T (list (neighbor T)) :=
  match e with None => visitor_radius r | Some e => visitor_approximate_radius e r end.

Lemma radius_refines e r c n : c < n -> refines (radius_mvisitor e r c) (radius_visitor e r)
  (fun _ mem => nth c mem []) (fun a => a = c) (fun _ => True) n.
Proof.
  intros Hc. constructor.
  - intros i d l _. cbn. destruct (s_ltb _ _); cbn; auto.
  - intros l. cbn. auto.
  - intros i d l mem _ Lm. cbn [radius_mvisitor mv_visit].
    assert (E : v_visit (radius_visitor e r) i d (nth c mem [])
      = if s_ltb (scaled e d) (scaled e r) then nth c mem [] ++ [Neighbor i (scaled e d)] else nth c mem [])
      by (destruct e; reflexivity).
    rewrite E. destruct (s_ltb _ _); cbn [prun]; [|cbn; eauto].
    rewrite (at_lt _ _ []) by lia. cbn [bind]. rewrite guard_true by (apply Nat.ltb_lt; lia). cbn [bind].
    eexists tt, _. split; [reflexivity|]. apply nth_set_nth_same. lia.
  - intros l mem _ Lm. cbn. destruct e; reflexivity.
Qed.

Lemma radius_program_in alg t r e sort i q : within (fun a => a = i) (fun _ => True) (radius_program alg t r e sort i q).
Proof.
  unfold radius_program. cbn [within]. split; [auto|]. eapply within_bind.
  - eapply search_prog_in with (n := S i); [apply radius_refines; lia|exact I].
  - intros _ _. destruct sort; cbn; auto.
Qed.

Lemma radius_program_spec alg t r e sort i q mem : m_cat (kt_metric t) = Euclidean -> i < length mem ->
  computes (fun _ mem => nth i mem []) (radius_program alg t r e sort i q) mem (radius_search alg t r e sort q).
Proof.
  intros C L. unfold radius_program.
  assert (E : radius_search alg t r e sort q = do n <- search_nearest t (radius_visitor e r) q [];
    Ok (if sort then std_sort alg _ neighbor_lt n else n)) by (destruct e; reflexivity).
  rewrite E. clear E.
  set (mem1 := set_nth mem i []).
  assert (L1 : length mem1 = length mem) by apply length_set_nth.
  assert (E1 : nth i mem1 [] = @nil (neighbor T)) by (apply nth_set_nth_same; auto).
  pose proof (search_prog_spec _ _ _ _ _ (length mem) (radius_refines e r i (length mem) L) t q tt mem1 C I L1) as S.
  cbn beta in S. rewrite E1 in S. unfold computes in *. cbn [prun]. rewrite guard_true by (apply Nat.ltb_lt; lia).
  cbn [bind]. fold mem1. rewrite prun_bind.
  destruct (search_nearest _ _ _ _) as [st|w|]; cbn [bind].
  - destruct S as (b & mem' & R & E). rewrite R. cbn [bind].
    pose proof (search_prog_in _ _ _ _ _ _ (radius_refines e r i (length mem) L) t q tt I) as W.
    destruct (prun_within _ _ _ _ _ _ W R) as (_ & Lm & _).
    destruct sort; cbn [prun].
    + rewrite (at_lt _ _ []) by lia. cbn [bind]. rewrite guard_true by (apply Nat.ltb_lt; lia). cbn [bind].
      eexists tt, _. split; [reflexivity|]. rewrite nth_set_nth_same by lia. rewrite E. reflexivity.
    + cbn. eauto.
  - rewrite S. reflexivity.
  - rewrite S. reflexivity.
Qed.

(** ** Boxes *)
Lemma box_program_in t qs i : within (fun a => a = i) (fun _ => True) (box_program t qs i).
Proof.
  unfold box_program. eapply within_bind with (R := fun _ => True); [cbn; destruct (at_ _ _); auto|]. intros mn _.
  eapply within_bind with (R := fun _ => True); [cbn; destruct (at_ _ _); auto|]. intros mx _.
  cbn [within]. split; [auto|]. eapply within_bind with (R := fun _ => True); [cbn; destruct (search_box _ _ _); auto|].
  intros x _. cbn. auto.
Qed.

Lemma box_program_spec t qs i mem : i < length mem ->
  computes (fun _ mem => nth i mem []) (box_program t qs i) mem
    (do mn <- at_ qs (i * 2); do mx <- at_ qs (i * 2 + 1); search_box t mn mx).
Proof.
  intros L. unfold box_program, computes.
  destruct (at_ qs (i * 2)) as [mn|w|]; cbn [bind prog_bind]; try reflexivity.
  destruct (at_ qs (i * 2 + 1)) as [mx|w|]; cbn [bind prog_bind]; try reflexivity.
  cbn [prun]. rewrite guard_true by (apply Nat.ltb_lt; lia). cbn [bind].
  destruct (search_box t mn mx) as [l|w|]; cbn [prog_bind prun bind]; try reflexivity.
  rewrite guard_true by (apply Nat.ltb_lt; rewrite length_set_nth; lia). cbn [bind].
  eexists tt, _. split; [reflexivity|]. apply nth_set_nth_same. rewrite length_set_nth. lia.
Qed.
End Refine.
