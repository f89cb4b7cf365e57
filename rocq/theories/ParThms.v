(** Parallel loops: any interleaving gives what each iteration computes alone. *)
From Coq Require Import List ZArith Bool Arith Lia.
From Verif Require Import Base ModelBox ModelBuild ModelSearch ModelSerial ModelPython Lemmas.
Import ListNotations.
Local Open Scope nat_scope.

Lemma nth_error_ext {A} (l l' : list A) : (forall i, nth_error l i = nth_error l' i) -> l = l'.
Proof.
  revert l'. induction l as [|x l IH]; intros [|y l'] H.
  - reflexivity.
  - specialize (H 0). discriminate H.
  - specialize (H 0). discriminate H.
  - f_equal; [specialize (H 0); cbn in H; congruence|]. apply IH. intros i. exact (H (S i)).
Qed.

Lemma nth_error_set_same {A} (l : list A) i x : i < length l -> nth_error (set_nth l i x) i = Some x.
Proof. revert i; induction l as [|y l IH]; intros [|i] L; cbn in *; try lia; auto. apply IH; lia. Qed.
Lemma nth_error_set_other {A} (l : list A) i j x : i <> j -> nth_error (set_nth l i x) j = nth_error l j.
Proof. revert i j; induction l as [|y l IH]; intros [|i] [|j] L; cbn in *; try lia; auto. Qed.

Section Prog.
Context {A : Type}.

(** Run alone. *)
Fixpoint prun {B} (p : prog A B) (mem : list A) : res (B * list A) :=
  match p with
  | Done r => do b <- r; Ok (b, mem)
  | Read a k => do x <- at_ mem a; prun (k x) mem
  | Write a x k => do _ <- guard (a <? length mem) UbIndex; prun k (set_nth mem a x)
  end.

(** The number of accesses. *)
Fixpoint psteps {B} (p : prog A B) (mem : list A) : nat :=
  match p with
  | Done r => 0
  | Read a k => match nth_error mem a with Some x => S (psteps (k x) mem) | None => 0 end
  | Write a x k => S (psteps k (set_nth mem a x))
  end.

(** Only accesses cells in [P]; results satisfy [R]. *)
Fixpoint within {B} (P : nat -> Prop) (R : B -> Prop) (p : prog A B) : Prop :=
  match p with
  | Done r => match r with Ok b => R b | _ => True end
  | Read a k => P a /\ forall x, within P R (k x)
  | Write a x k => P a /\ within P R k
  end.

Lemma prun_bind {B C} (p : prog A B) (f : B -> prog A C) mem :
  prun (prog_bind p f) mem = do (b, mem') <- prun p mem; prun (f b) mem'.
Proof.
  revert mem; induction p as [r|a k IH|a x k IH]; intros mem; cbn [prog_bind prun].
  - destruct r; reflexivity.
  - destruct (at_ mem a); cbn [bind prun]; auto.
  - destruct (guard _ _); cbn [bind prun]; auto.
Qed.

Lemma within_bind {B C} P (R : B -> Prop) (R' : C -> Prop) p f :
  within P R p -> (forall b, R b -> within P R' (f b)) -> within P R' (prog_bind p f).
Proof.
  induction p as [r|a k IH|a x k IH]; cbn [within prog_bind].
  - destruct r as [b|w|]; cbn [within]; auto.
  - intros [Pa H] F. split; auto.
  - intros [Pa H] F. split; auto.
Qed.

Lemma within_weaken {B} P (R R' : B -> Prop) p : (forall b, R b -> R' b) -> within P R p -> within P R' p.
Proof.
  intros I. induction p as [r|a k IH|a x k IH]; cbn [within].
  - destruct r; auto.
  - intros [? ?]; auto.
  - intros [? ?]; auto.
Qed.

Lemma within_cells {B} (P P' : nat -> Prop) (R : B -> Prop) p : (forall a, P a -> P' a) -> within P R p -> within P' R p.
Proof.
  intros I. induction p as [r|a k IH|a x k IH]; cbn [within].
  - auto.
  - intros [? ?]; auto.
  - intros [? ?]; auto.
Qed.

Lemma prun_within {B} P (R : B -> Prop) p mem b mem' : within P R p -> prun p mem = Ok (b, mem') ->
  R b /\ length mem' = length mem /\ (forall a, ~ P a -> nth_error mem' a = nth_error mem a).
Proof.
  revert mem; induction p as [r|a k IH|a x k IH]; cbn [within prun]; intros mem W E.
  - destruct r as [c|w|]; cbn in E; try discriminate E. injection E as -> ->. auto.
  - destruct W as [Pa W]. destruct (at_ mem a) as [x|w|]; try discriminate E. cbn [bind] in E. eauto.
  - destruct W as [Pa W]. unfold guard in E. destruct (a <? length mem); [|discriminate E]. cbn [bind] in E.
    destruct (IH _ W E) as (Rb & L & O). rewrite length_set_nth in L. split; [auto|]. split; [auto|].
    intros a' N. rewrite O by auto. apply nth_error_set_other. intros ->. auto.
Qed.

Definition agree (P : nat -> Prop) (m1 m2 : list A) : Prop := forall a, P a -> nth_error m1 a = nth_error m2 a.
Definition res_agree {B} (P : nat -> Prop) (r1 r2 : res (B * list A)) : Prop :=
  match r1, r2 with
  | Ok (b1, m1), Ok (b2, m2) => b1 = b2 /\ agree P m1 m2
  | Ub w1, Ub w2 => w1 = w2
  | OutOfFuel, OutOfFuel => True
  | _, _ => False
  end.

Lemma res_agree_refl {B} P (r : res (B * list A)) : res_agree P r r.
Proof. destruct r as [[b m]|w|]; cbn; auto. split; [auto|]. intros a _; reflexivity. Qed.
Lemma res_agree_trans {B} P (r1 r2 r3 : res (B * list A)) :
  res_agree P r1 r2 -> res_agree P r2 r3 -> res_agree P r1 r3.
Proof.
  destruct r1 as [[b1 m1]|w1|], r2 as [[b2 m2]|w2|], r3 as [[b3 m3]|w3|]; cbn; try tauto; try congruence.
  intros [-> A1] [-> A2]. split; [auto|]. intros a Pa. rewrite A1 by auto. auto.
Qed.

Lemma agree_set P m1 m2 a x : length m1 = length m2 -> agree P m1 m2 -> agree P (set_nth m1 a x) (set_nth m2 a x).
Proof.
  intros L Ag b Pb. destruct (Nat.eq_dec a b) as [->|N].
  - destruct (Nat.lt_ge_cases b (length m1)) as [Lt|Ge].
    + rewrite !nth_error_set_same by lia. reflexivity.
    + rewrite !(proj2 (nth_error_None _ _)) by (rewrite length_set_nth; lia). reflexivity.
  - rewrite !nth_error_set_other by auto. auto.
Qed.

Lemma prun_agree {B} P (R : B -> Prop) p m1 m2 : within P R p -> length m1 = length m2 -> agree P m1 m2 ->
  res_agree P (prun p m1) (prun p m2) /\ psteps p m1 = psteps p m2.
Proof.
  revert m1 m2; induction p as [r|a k IH|a x k IH]; cbn [within prun psteps]; intros m1 m2 W L Ag.
  - destruct r as [b|w|]; cbn; auto.
  - destruct W as [Pa W]. unfold at_. rewrite (Ag a Pa). destruct (nth_error m2 a) as [x|]; cbn [bind]; [|split; reflexivity].
    destruct (IH x m1 m2) as [H1 H2]; auto.
  - destruct W as [Pa W]. rewrite L. unfold guard.
    assert (H : res_agree P (prun k (set_nth m1 a x)) (prun k (set_nth m2 a x))
                /\ psteps k (set_nth m1 a x) = psteps k (set_nth m2 a x)).
    { apply IH; auto. { rewrite !length_set_nth; auto. } apply agree_set; auto. }
    destruct H as [H1 H2]. rewrite H2. destruct (a <? length m2); cbn [bind]; split; auto. reflexivity.
Qed.

Lemma step_spec {B} P (R : B -> Prop) p mem p' mem' : within P R p -> prog_step p mem = Ok (p', mem') ->
  within P R p' /\ prun p' mem' = prun p mem /\ length mem' = length mem
  /\ (forall a, ~ P a -> nth_error mem' a = nth_error mem a)
  /\ psteps p' mem' = psteps p mem - 1.
Proof.
  destruct p as [r|a k|a x k]; cbn [within prog_step prun psteps]; intros W E.
  - destruct r as [b|w|]; cbn in E; try discriminate E. injection E as <- <-. cbn. auto.
  - destruct W as [Pa W]. unfold at_ in *. destruct (nth_error mem a) as [x|]; [|discriminate E]. cbn in E.
    injection E as <- <-. cbn. repeat split; auto. lia.
  - destruct W as [Pa W]. unfold guard in *. destruct (a <? length mem); [|discriminate E]. cbn in E.
    injection E as <- <-. cbn. repeat split; auto; try lia. { apply length_set_nth. }
    intros c N. apply nth_error_set_other. intros ->; auto.
Qed.

Lemma step_ok {B} (p : prog A B) mem b m : prun p mem = Ok (b, m) -> exists p' mem', prog_step p mem = Ok (p', mem').
Proof.
  destruct p as [r|a k|a x k]; cbn [prog_step prun]; intros E.
  - destruct r; cbn in *; try discriminate E. eauto.
  - destruct (at_ mem a); try discriminate E. cbn. eauto.
  - destruct (guard _ _); try discriminate E. cbn. eauto.
Qed.

Section Par.
Context {B : Type}.
Variables (ps0 : list (prog A B)) (mem0 : list A) (P : nat -> nat -> Prop).
Hypothesis Hw : forall i p, nth_error ps0 i = Some p -> within (P i) (fun _ => True) p.
Hypothesis Hd : forall i j a, P i a -> P j a -> i = j.

Record Inv (cnt : nat -> nat) (ps : list (prog A B)) (mem : list A) : Prop := {
  inv_len : length ps = length ps0;
  inv_mem : length mem = length mem0;
  inv_out : forall a, (forall i, i < length ps0 -> ~ P i a) -> nth_error mem a = nth_error mem0 a;
  inv_in : forall i p0 p, nth_error ps0 i = Some p0 -> nth_error ps i = Some p ->
    within (P i) (fun _ => True) p /\ res_agree (P i) (prun p0 mem0) (prun p mem)
    /\ psteps p mem = psteps p0 mem0 - cnt i
}.

Lemma inv_start : Inv (fun _ => 0) ps0 mem0.
Proof.
  constructor; auto. intros i p0 p E0 E. rewrite E0 in E. injection E as <-. split; [eauto|].
  split; [apply res_agree_refl|lia].
Qed.

Lemma inv_step cnt ps mem i p p' mem' : Inv cnt ps mem -> nth_error ps i = Some p ->
  prog_step p mem = Ok (p', mem') ->
  Inv (fun j => if j =? i then S (cnt j) else cnt j) (set_nth ps i p') mem'.
Proof.
  intros I E S. destruct I as [L M O Hin].
  assert (Li : i < length ps0) by (rewrite <- L; apply nth_error_Some; congruence).
  destruct (nth_error ps0 i) as [p0|] eqn:E0; [|apply nth_error_None in E0; lia].
  destruct (Hin i p0 p E0 E) as (W & RA & St).
  destruct (step_spec (P i) (fun _ => True) p mem p' mem' W S) as (W' & R' & L' & O' & S').
  constructor.
  - rewrite length_set_nth; auto.
  - congruence.
  - intros a N. rewrite O' by auto. auto.
  - intros j q0 q F0 F. destruct (Nat.eq_dec j i) as [->|N].
    + rewrite nth_error_set_same in F by lia. injection F as <-. rewrite E0 in F0. injection F0 as <-.
      rewrite Nat.eqb_refl. split; [auto|]. rewrite R'. split; [auto|]. lia.
    + rewrite nth_error_set_other in F by auto. destruct (Hin j q0 q F0 F) as (Wq & RAq & Sq).
      destruct (prun_agree (P j) (fun _ => True) q mem mem' Wq (eq_sym L')) as [Ag Sg].
      { intros a Pa. symmetry. apply O'. intros Pi. apply N. eapply Hd; eauto. }
      apply Nat.eqb_neq in N. rewrite N.
      split; [auto|]. split; [eapply res_agree_trans; eauto|]. congruence.
Qed.

Lemma par_inv sched : forall cnt ps mem ps' mem', Inv cnt ps mem -> par_run sched ps mem = Ok (ps', mem') ->
  Inv (fun j => cnt j + count_occ Nat.eq_dec sched j) ps' mem'.
Proof.
  induction sched as [|i r IH]; intros cnt ps mem ps' mem' I E; cbn [par_run] in E.
  - injection E as <- <-. destruct I as [L M O Hin]. constructor; auto. intros j p0 p E0 E.
    destruct (Hin j p0 p E0 E) as (a & b & c). repeat split; auto. cbn. lia.
  - destruct (nth_error ps i) as [p|] eqn:Ei.
    + destruct (prog_step p mem) as [[p' mem1]|w|] eqn:S; try discriminate E. cbn [bind] in E.
      pose proof (IH _ _ _ _ _ (inv_step _ _ _ _ _ _ _ I Ei S) E) as [L M O Hin].
      constructor; auto. intros j q0 q F0 F. destruct (Hin j q0 q F0 F) as (a & b & c).
      repeat split; auto. cbn [count_occ]. destruct (Nat.eq_dec i j) as [->|N].
      * rewrite Nat.eqb_refl in c. lia.
      * rewrite (proj2 (Nat.eqb_neq j i)) in c by auto. lia.
    + pose proof (IH _ _ _ _ _ I E) as [L M O Hin].
      constructor; auto. intros j q0 q F0 F. destruct (Hin j q0 q F0 F) as (a & b & c).
      repeat split; auto. cbn [count_occ]. destruct (Nat.eq_dec i j) as [->|N]; [|auto].
      exfalso. apply nth_error_None in Ei. destruct I as [L0 _ _ _].
      assert (j < length ps0) by (apply nth_error_Some; congruence). lia.
Qed.

Lemma par_progress sched : (forall i p, nth_error ps0 i = Some p -> exists b m, prun p mem0 = Ok (b, m)) ->
  forall cnt ps mem, Inv cnt ps mem -> exists ps' mem', par_run sched ps mem = Ok (ps', mem').
Proof.
  intros Hok. induction sched as [|i r IH]; intros cnt ps mem I; cbn [par_run]; [eauto|].
  destruct (nth_error ps i) as [p|] eqn:Ei; [|eauto].
  assert (Li : i < length ps0) by (destruct I as [L _ _ _]; rewrite <- L; apply nth_error_Some; congruence).
  destruct (nth_error ps0 i) as [p0|] eqn:E0; [|apply nth_error_None in E0; lia].
  destruct (inv_in _ _ _ I i p0 p E0 Ei) as (W & RA & _). destruct (Hok i p0 E0) as (b & m & R). rewrite R in RA.
  destruct (prun p mem) as [[b' m']|w|] eqn:R'; cbn in RA; try contradiction.
  destruct (step_ok p mem b' m' R') as (p' & mem' & S). rewrite S. cbn [bind].
  eapply IH. eapply inv_step; eauto.
Qed.

(** What the loop leaves in memory. *)
Definition loop_result (mem : list A) : Prop :=
  length mem = length mem0
  /\ (forall a, (forall i, i < length ps0 -> ~ P i a) -> nth_error mem a = nth_error mem0 a)
  /\ (forall i p, nth_error ps0 i = Some p -> exists b m, prun p mem0 = Ok (b, m) /\ agree (P i) m mem).

Lemma par_for_result sched mem : par_for sched ps0 mem0 = Ok mem -> loop_result mem.
Proof.
  unfold par_for. destruct (par_run sched ps0 mem0) as [[ps' mem']|w|] eqn:E; try discriminate. cbn [bind].
  destruct (forallb is_done ps') eqn:D; [|discriminate]. intros H. injection H as ->.
  pose proof (par_inv _ _ _ _ _ _ inv_start E) as [L M O Hin]. split; [auto|]. split; [auto|].
  intros i p E0. destruct (nth_error ps' i) as [p'|] eqn:E'.
  2:{ apply nth_error_None in E'. assert (i < length ps0) by (apply nth_error_Some; congruence). lia. }
  destruct (Hin i p p' E0 E') as (_ & RA & _).
  rewrite forallb_forall in D. specialize (D p' (nth_error_In _ _ E')).
  destruct p' as [[b|w|]|a k|a x k]; try discriminate D. cbn in RA.
  destruct (prun p mem0) as [[b0 m0]|w|]; try contradiction. destruct RA as [-> Ag]. eauto.
Qed.

Lemma loop_result_unique (pdec : forall a, (exists i, i < length ps0 /\ P i a) \/ (forall i, i < length ps0 -> ~ P i a)) m1 m2 :
  loop_result m1 -> loop_result m2 -> m1 = m2.
Proof.
  intros (L1 & O1 & I1) (L2 & O2 & I2). apply nth_error_ext. intros a.
  destruct (pdec a) as [(i & Li & Pi)|N].
  - destruct (nth_error ps0 i) as [p|] eqn:E0; [|apply nth_error_None in E0; lia].
    destruct (I1 i p E0) as (b & m & R & Ag). destruct (I2 i p E0) as (b' & m' & R' & Ag').
    rewrite R in R'. injection R' as <- <-. rewrite <- (Ag a Pi), <- (Ag' a Pi). reflexivity.
  - rewrite O1, O2 by auto. reflexivity.
Qed.

Lemma par_for_cases sched : (forall i p, nth_error ps0 i = Some p -> exists b m, prun p mem0 = Ok (b, m)) ->
  par_for sched ps0 mem0 = OutOfFuel \/ exists mem, par_for sched ps0 mem0 = Ok mem.
Proof.
  intros Hok. unfold par_for. destruct (par_progress sched Hok _ _ _ inv_start) as (ps' & mem' & ->). cbn [bind].
  destruct (forallb is_done ps'); eauto.
Qed.

Lemma steps_bound : exists N, forall i p, nth_error ps0 i = Some p -> psteps p mem0 <= N.
Proof.
  clear Hw Hd. induction ps0 as [|p ps IH].
  - exists 0. intros [|i] p E; discriminate E.
  - destruct IH as [N H]. exists (Nat.max (psteps p mem0) N). intros [|i] q E; cbn in E.
    + injection E as <-. lia.
    + specialize (H i q E). lia.
Qed.

(** A schedule in which every iteration occurs often enough finishes the loop. *)
Lemma par_for_fair : (forall i p, nth_error ps0 i = Some p -> exists b m, prun p mem0 = Ok (b, m)) ->
  exists N, forall sched, (forall i, i < length ps0 -> N <= count_occ Nat.eq_dec sched i) ->
  exists mem, par_for sched ps0 mem0 = Ok mem.
Proof.
  intros Hok. destruct steps_bound as [N HN]. exists N. intros sched F. unfold par_for.
  destruct (par_progress sched Hok _ _ _ inv_start) as (ps' & mem' & E). rewrite E. cbn [bind].
  pose proof (par_inv _ _ _ _ _ _ inv_start E) as [L M O Hin].
  assert (D : forallb is_done ps' = true).
  { apply forallb_forall. intros p' Ip. apply In_nth_error in Ip as (i & E').
    assert (Li : i < length ps0) by (rewrite <- L; apply nth_error_Some; congruence).
    destruct (nth_error ps0 i) as [p0|] eqn:E0; [|apply nth_error_None in E0; lia].
    destruct (Hin i p0 p' E0 E') as (_ & RA & St). destruct (Hok i p0 E0) as (b & m & R). rewrite R in RA.
    specialize (HN i p0 E0). specialize (F i Li). cbn in St.
    assert (Z0 : psteps p' mem' = 0) by lia.
    destruct p' as [[c|w|]|a k|a x k]; cbn in *; try contradiction; auto.
    - unfold at_ in RA. destruct (nth_error mem' a); [discriminate Z0|contradiction].
    - discriminate Z0. }
  rewrite D. eauto.
Qed.
End Par.
End Prog.
