(** What the built-in visitors hold after being fed a sequence of points. *)
From Coq Require Import List ZArith QArith Bool Arith Permutation Sorted Lia Lqa.
From Verif Require Import Base ModelBox ModelBuild ModelSearch Spec Lemmas BuildProofs.
Import ListNotations.
Local Open Scope nat_scope.

Section Visitors.
Context {T : Type} {S : Scalar T}.
Variable f : nat -> T.   (* the (scaled) distance passed to the visitor *)

Definition as_neighbor (i : nat) : neighbor T := Neighbor i (f i).

(** * One neighbour *)
Definition nn_step (nn : neighbor T) (i : nat) : neighbor T :=
  if s_ltb (f i) (n_distance nn) then as_neighbor i else nn.

Lemma nn_genuine tr : forall v0, fold_left nn_step tr v0 = v0
  \/ exists i, In i tr /\ fold_left nn_step tr v0 = as_neighbor i.
Proof.
  induction tr as [|i tr IH]; intros v0; cbn [fold_left]; [auto|].
  destruct (IH (nn_step v0 i)) as [E|(j & Hj & E)]; rewrite E.
  - unfold nn_step. destruct (s_ltb _ _); [right; exists i; simpl; auto|auto].
  - right. exists j. simpl; auto.
Qed.

(** * Radius *)
Definition radius_step (r : T) (n : list (neighbor T)) (i : nat) : list (neighbor T) :=
  if s_ltb (f i) r then n ++ [as_neighbor i] else n.
Lemma radius_result r tr : forall n0, fold_left (radius_step r) tr n0
  = n0 ++ map as_neighbor (filter (fun i => s_ltb (f i) r) tr).
Proof.
  induction tr as [|i tr IH]; intros n0; cbn [fold_left filter map]; [rewrite app_nil_r; auto|].
  rewrite IH. unfold radius_step. destruct (s_ltb _ _); auto. rewrite <- app_assoc. reflexivity.
Qed.

(** * k neighbours *)
Lemma skipn_set_nth {A} (x : A) : forall n (l : list A), n < length l ->
  skipn n (set_nth l n x) = x :: skipn (n + 1) l.
Proof. induction n; intros [|a l] H; simpl in *; try lia; auto. rewrite IHn by lia. reflexivity. Qed.
Lemma firstn_set_nth {A} (x : A) : forall n k (l : list A), n <= k -> firstn n (set_nth l k x) = firstn n l.
Proof. induction n; intros [|k] [|a l] H; simpl in *; try lia; auto. rewrite IHn by lia. reflexivity. Qed.
Lemma firstn_S {A} (d : A) : forall n (l : list A), n < length l -> firstn (n + 1) l = firstn n l ++ [nth n l d].
Proof. induction n; intros [|a l] H; simpl in *; try lia; auto. rewrite IHn by lia. reflexivity. Qed.

Lemma skipn_skipn_add {A} : forall b a (l : list A), skipn a (skipn b l) = skipn (b + a) l.
Proof. induction b; intros a [|x l]; simpl; auto. destruct a; auto. Qed.

Lemma insert_sorted_loop_spec item : forall p (l : list (neighbor T)), p < length l ->
  exists A B, firstn p l = A ++ B
    /\ insert_sorted_loop p l item = A ++ item :: B ++ skipn (p + 1) l
    /\ Forall (fun x => neighbor_lt item x = true) B
    /\ (forall A' a, A = A' ++ [a] -> neighbor_lt item a = false).
Proof.
  induction p as [|p IH]; intros l Hp.
  - exists [], []. destruct l as [|x l]; [simpl in Hp; lia|]. repeat split; auto.
    intros [|? ?] a; discriminate.
  - cbn [insert_sorted_loop]. set (prev := nth p l item).
    assert (F : firstn (Datatypes.S p) l = firstn p l ++ [prev]).
    { unfold prev. rewrite <- (firstn_S item p l) by lia. f_equal. lia. }
    destruct (neighbor_lt item prev) eqn:E.
    + destruct (IH (set_nth l (Datatypes.S p) prev)) as (A & B & EA & ER & FB & LA).
      { rewrite length_set_nth. lia. }
      exists A, (B ++ [prev]). rewrite firstn_set_nth in EA by lia.
      split; [rewrite F, EA, app_assoc; auto|]. split.
      * rewrite ER. rewrite <- app_assoc. f_equal. f_equal. f_equal.
        replace (p + 1) with (Datatypes.S p) by lia. rewrite skipn_set_nth by lia. reflexivity.
      * split; auto. apply Forall_app; split; auto.
    + exists (firstn p l ++ [prev]), []. rewrite app_nil_r. split; auto. split.
      * rewrite <- (firstn_skipn (Datatypes.S p) (set_nth l _ item)).
        rewrite firstn_set_nth by lia. rewrite skipn_set_nth by lia. rewrite F. reflexivity.
      * split; auto. intros A' a HA. apply app_inj_tail in HA as [_ <-]. auto.
Qed.

Definition knn_step (st : knn_state) (i : nat) : knn_state :=
  if s_ltb (f i) (knn_max st) then
    let active := if (snd st <? length (fst st))%nat then (snd st + 1)%nat else snd st in
    (insert_sorted (fst st) active (as_neighbor i), active)
  else st.

(** What a range holds: [kept] in its first slots, the rest as at the start. *)
Record knn_holds (l0 : list (neighbor T)) (tr : list nat) (st : knn_state)
    (kept dropped : list nat) : Prop := {
  kh_len : length (fst st) = length l0;
  kh_active : snd st = length kept;
  kh_le : length kept <= length l0;
  kh_first : firstn (snd st) (fst st) = map as_neighbor kept;
  kh_rest : skipn (snd st) (fst st) = skipn (snd st) l0;
  kh_perm : Permutation (kept ++ dropped) tr
}.

Lemma knn_state_split l0 tr st kept dropped : knn_holds l0 tr st kept dropped ->
  fst st = map as_neighbor kept ++ skipn (length kept) l0.
Proof.
  intros [A B C D E F]. rewrite <- (firstn_skipn (snd st) (fst st)), D, E, B. reflexivity.
Qed.

Lemma last_app_cons {A} (l : list A) (x d : A) : last (l ++ [x]) d = x.
Proof. apply last_last. Qed.

Lemma last_skipn {A} (d : A) : forall n (l : list A), n < length l -> last (skipn n l) d = last l d.
Proof.
  induction n; intros [|a l] H; simpl in *; try lia; auto.
  rewrite IHn by lia. destruct l; simpl in *; [lia|reflexivity].
Qed.
Lemma last_app_r {A} (d : A) (a b : list A) : b <> [] -> last (a ++ b) d = last b d.
Proof.
  intros H. induction a as [|x a IH]; auto. simpl. rewrite <- IH.
  destruct (a ++ b) eqn:E; auto. apply app_eq_nil in E as [_ E]. congruence.
Qed.

Lemma knn_max_short l0 tr st kept dropped : knn_holds l0 tr st kept dropped ->
  length kept < length l0 -> knn_max st = knn_max (l0, 0).
Proof.
  intros H HL. unfold knn_max. cbn [fst]. rewrite (knn_state_split _ _ _ _ _ H).
  rewrite last_app_r. { rewrite last_skipn by auto. auto. }
  apply length_nonnil. rewrite skipn_length. lia.
Qed.
Lemma knn_max_full l0 tr st kept i dropped : knn_holds l0 tr st (kept ++ [i]) dropped ->
  length (kept ++ [i]) = length l0 -> knn_max st = f i.
Proof.
  intros H HL. unfold knn_max. rewrite (knn_state_split _ _ _ _ _ H).
  rewrite HL, skipn_all, app_nil_r, map_app. cbn [map]. rewrite last_last. reflexivity.
Qed.

(** One step: rejected, inserted, or inserted pushing out the last. *)
Lemma knn_step_holds l0 tr st kept dropped i : knn_holds l0 tr st kept dropped -> 0 < length l0 ->
  (knn_step st i = st /\ s_ltb (f i) (knn_max st) = false
   /\ knn_holds l0 (tr ++ [i]) st kept (dropped ++ [i]))
  \/ (s_ltb (f i) (knn_max st) = true /\ exists A B out,
      (out = [] /\ kept = A ++ B /\ length kept < length l0
       \/ exists o, out = [o] /\ kept = A ++ B ++ [o] /\ length kept = length l0)
      /\ knn_holds l0 (tr ++ [i]) (knn_step st i) (A ++ i :: B) (dropped ++ out)
      /\ Forall (fun j => s_ltb (f i) (f j) = true) B
      /\ (forall A' a, A = A' ++ [a] -> s_ltb (f i) (f a) = false)).
Proof.
  intros H H0. unfold knn_step. destruct (s_ltb (f i) (knn_max st)) eqn:E.
  2:{ left. split; auto. split; auto. destruct H. constructor; auto.
      rewrite app_assoc. apply Permutation_app_tail. auto. }
  right. split; auto.
  pose proof (knn_state_split _ _ _ _ _ H) as Hs. destruct H as [HL Ha Hle Hf Hr HP].
  rewrite HL, Ha.
  assert (exists p X out, p < length l0 /\ (if length kept <? length l0 then length kept + 1 else length kept) = p + 1
    /\ kept = X ++ out /\ length X = p
    /\ (out = [] /\ length kept < length l0 \/ exists o, out = [o] /\ length kept = length l0)) as
    (p & X & out & Hp & -> & HX & HXl & Ho).
  { destruct (Nat.ltb_spec (length kept) (length l0)) as [L|L].
    - exists (length kept), kept, []. rewrite app_nil_r. auto 10.
    - assert (length kept = length l0) as L' by lia.
      destruct (exists_last (l := kept)) as (X & o & ->). { apply length_nonnil. lia. }
      rewrite app_length in *. simpl in *. exists (length X), X, [o].
      repeat split; try lia. right. exists o. split; auto. }
  unfold insert_sorted. replace (p + 1 - 1) with p by lia.
  destruct (insert_sorted_loop_spec (as_neighbor i) p (fst st)) as (A & B & EA & ER & FB & LA); [lia|].
  assert (EX : firstn p (fst st) = map as_neighbor X).
  { rewrite Hs, HX, map_app, <- app_assoc. rewrite firstn_app, map_length, HXl, Nat.sub_diag.
    rewrite firstn_all2 by (rewrite map_length; lia). rewrite firstn_O, app_nil_r. auto. }
  rewrite EX in EA. apply map_eq_app in EA as (A1 & B1 & -> & <- & <-).
  exists A1, B1, out. split; [|split; [|split]].
  - destruct Ho as [(-> & L)|(o & -> & L)]; [left|right; exists o]; rewrite HX, ?app_nil_r, <- ?app_assoc;
      repeat split; auto; rewrite <- ?HX; auto. rewrite HX, app_nil_r in L. auto.
    rewrite HX, <- app_assoc in L. auto.
  - assert (LL : length (map as_neighbor A1 ++ as_neighbor i :: map as_neighbor B1) = p + 1).
    { rewrite app_length in *. simpl. rewrite !map_length. lia. }
    constructor; cbn [fst snd].
    + rewrite ER. rewrite app_length; cbn [length]; rewrite app_length, skipn_length, !map_length, HL.
      rewrite app_length in HXl. lia.
    + rewrite app_length in *; cbn [length]. lia.
    + rewrite app_length in *; cbn [length]. lia.
    + rewrite ER. rewrite app_comm_cons, app_assoc. rewrite firstn_app, LL, Nat.sub_diag, firstn_O, app_nil_r.
      rewrite firstn_all2 by lia. rewrite map_app. reflexivity.
    + rewrite ER. rewrite app_comm_cons, app_assoc. rewrite skipn_app, LL, Nat.sub_diag.
      rewrite skipn_all2 by lia. cbn [app skipn].
      rewrite Hs. rewrite skipn_app, map_length.
      destruct Ho as [(-> & L)|(o & -> & L)].
      * rewrite app_nil_r in HX. subst kept. rewrite skipn_all2 by (rewrite map_length; lia). cbn [app].
        rewrite skipn_skipn_add. f_equal. lia.
      * rewrite skipn_all2 by (rewrite map_length; rewrite HX, app_length; simpl; lia). cbn [app].
        assert (p + 1 = length l0) as -> by (rewrite <- L, HX, !app_length in *; simpl in *; lia).
        rewrite !skipn_all2; auto; rewrite ?skipn_length; lia.
    + rewrite <- HP, HX. transitivity (i :: (A1 ++ B1) ++ out ++ dropped).
      * rewrite <- app_assoc. cbn [app]. rewrite <- Permutation_middle. apply perm_skip.
        rewrite <- !app_assoc. apply Permutation_app_head, Permutation_app_head, Permutation_app_comm.
      * rewrite (app_assoc (A1 ++ B1)). apply Permutation_cons_append.
  - apply Forall_map in FB. exact FB.
  - intros A' a ->. apply (LA (map as_neighbor A') (as_neighbor a)). rewrite map_app. reflexivity.
Qed.

Lemma knn_start l0 : knn_holds l0 [] (l0, 0) [] [].
Proof. constructor; simpl; auto; lia. Qed.

Lemma knn_genuine l0 tr : 0 < length l0 ->
  exists kept dropped, knn_holds l0 tr (fold_left knn_step tr (l0, 0)) kept dropped.
Proof.
  intros H0. induction tr as [|i tr IH] using rev_ind.
  - exists [], []. apply knn_start.
  - destruct IH as (kept & dropped & H). rewrite fold_left_app. cbn [fold_left].
    destruct (knn_step_holds l0 tr _ kept dropped i H H0) as [(E & _ & K)|(_ & A & B & out & _ & K & _)];
      [rewrite E|]; eauto.
Qed.

(** * With a total order *)
Section Order.
Context {ok : T -> Prop} (OL : ord_laws S ok) (OKF : forall i, ok (f i)).

Definition f_le (i j : nat) : Prop := s_leb (f i) (f j) = true.

Lemma nn_minimal tr : forall v0, ok (n_distance v0) ->
  let r := fold_left nn_step tr v0 in
  ok (n_distance r) /\ s_leb (n_distance r) (n_distance v0) = true
  /\ forall j, In j tr -> s_leb (n_distance r) (f j) = true.
Proof.
  induction tr as [|i tr IH]; intros v0 H0; cbn [fold_left].
  - split; [auto|split; [apply (leb_refl ok OL); auto|intros ? []]].
  - assert (H1 : ok (n_distance (nn_step v0 i))).
    { unfold nn_step. destruct (s_ltb _ _); simpl; auto. }
    destruct (IH _ H1) as (A & B & C). split; auto.
    assert (H2 : s_leb (n_distance (nn_step v0 i)) (n_distance v0) = true
              /\ s_leb (n_distance (nn_step v0 i)) (f i) = true).
    { unfold nn_step. destruct (s_ltb _ _) eqn:E; simpl.
      - split; [apply (ltb_leb ok OL); auto|apply (leb_refl ok OL); auto].
      - split; [apply (leb_refl ok OL); auto|apply (ltb_false ok OL); auto]. }
    split.
    + eapply (leb_trans ok OL); [| | |exact B|]; auto. apply H2.
    + intros j [<-|Hj]; [|auto]. eapply (leb_trans ok OL); [| | |exact B|]; auto. apply H2.
Qed.

Record knn_sorted (st : knn_state) (kept dropped : list nat) : Prop := {
  ks_sorted : StronglySorted f_le kept;
  ks_dropped : forall i, In i dropped -> s_leb (knn_max st) (f i) = true;
  ks_max : forall i, In i kept -> s_ltb (f i) s_max = true
}.

Lemma knn_order_step l0 tr st kept dropped i : 0 < length l0 -> knn_max (l0, 0) = s_max ->
  knn_holds l0 tr st kept dropped -> knn_sorted st kept dropped ->
  exists kept' dropped', knn_holds l0 (tr ++ [i]) (knn_step st i) kept' dropped'
    /\ knn_sorted (knn_step st i) kept' dropped'
    /\ s_leb (knn_max (knn_step st i)) (knn_max st) = true.
Proof.
  intros H0 HM H HS.
    assert (OKM : ok (knn_max st)).
    { destruct (le_lt_dec (length l0) (length kept)) as [L|L].
      - destruct (exists_last (l := kept)) as (X & o & EX). { apply length_nonnil. lia. }
        subst kept. rewrite (knn_max_full _ _ _ _ _ _ H); auto.
        pose proof (kh_le _ _ _ _ _ H). lia.
      - rewrite (knn_max_short _ _ _ _ _ H) by auto. rewrite HM. apply (ol_max _ _ OL). }
    assert (KB : forall a, In a kept -> s_leb (f a) (knn_max st) = true).
    { intros a Ha. destruct (le_lt_dec (length l0) (length kept)) as [L|L].
      - destruct (exists_last (l := kept)) as (X & o & EX). { apply length_nonnil. lia. }
        subst kept. pose proof (kh_le _ _ _ _ _ H).
        rewrite (knn_max_full _ _ _ _ _ _ H) by lia.
        apply in_app_or in Ha as [Ha|[<-|[]]]; [|apply (leb_refl ok OL); auto].
        destruct HS as [HS1 _ _]. apply StronglySorted_app_inv in HS1 as (_ & _ & K).
        apply K; simpl; auto.
      - rewrite (knn_max_short _ _ _ _ _ H) by auto. rewrite HM.
        apply (ltb_leb ok OL); auto. { apply (ol_max _ _ OL). } apply HS. auto. }
    assert (KM : s_leb (knn_max st) s_max = true).
    { destruct (le_lt_dec (length l0) (length kept)) as [L|L].
      - destruct (exists_last (l := kept)) as (X & o & EX). { apply length_nonnil. lia. }
        subst kept. pose proof (kh_le _ _ _ _ _ H).
        rewrite (knn_max_full _ _ _ _ _ _ H) by lia.
        apply (ltb_leb ok OL); auto. { apply (ol_max _ _ OL). } apply HS, in_or_app; simpl; auto.
      - rewrite (knn_max_short _ _ _ _ _ H) by auto. rewrite HM. apply (leb_refl ok OL), (ol_max _ _ OL). }
    destruct (knn_step_holds l0 tr st kept dropped i H H0)
      as [(E & F & K)|(F & A & B & out & HO & K & FB & LA)].
    + rewrite E. exists kept, (dropped ++ [i]). split; auto.
      split; [|apply (leb_refl ok OL); auto]. destruct HS as [S1 S2 S3].
      constructor; auto. intros j Hj. apply in_app_or in Hj as [Hj|[<-|[]]]; auto.
      apply (ltb_false ok OL); auto.
    + exists (A ++ i :: B), (dropped ++ out). split; auto. destruct HS as [S1 S2 S3].
      assert (SAB : StronglySorted f_le (A ++ B)).
      { destruct HO as [(-> & -> & _)|(o & -> & -> & _)]; auto.
        rewrite app_assoc in S1. apply StronglySorted_app_inv in S1. tauto. }
      assert (INK : forall a, In a (A ++ B) -> In a kept).
      { intros a Ha. destruct HO as [(-> & -> & _)|(o & -> & -> & _)]; auto.
        rewrite app_assoc. apply in_or_app; auto. }
      assert (SN : StronglySorted f_le (A ++ i :: B)).
      { apply StronglySorted_app_inv in SAB as (SA & SB & SC). apply StronglySorted_app; auto.
        - constructor; auto. rewrite Forall_forall in *. intros j Hj.
          apply (ltb_leb ok OL); auto. 
        - assert (LAi : forall a, In a A -> f_le a i).
          { intros a Ha. destruct (exists_last (l := A)) as (A' & z & EA). { intros ->. destruct Ha. }
            subst A. specialize (LA A' z eq_refl). apply (ltb_false ok OL) in LA; auto.
            apply in_app_or in Ha as [Ha|[<-|[]]]; auto.
            apply StronglySorted_app_inv in SA as (_ & _ & K2).
            eapply (leb_trans ok OL); [| | |apply (K2 a z); simpl; auto|]; auto. }
          intros x y Hx [<-|Hy]; [auto|]. apply SC; auto. }
      assert (NM : s_leb (knn_max (knn_step st i)) (knn_max st) = true
               /\ ok (knn_max (knn_step st i))
               /\ forall j, In j out -> s_leb (knn_max (knn_step st i)) (f j) = true).
      { destruct (le_lt_dec (length l0) (length (A ++ i :: B))) as [L|L].
        - destruct (exists_last (l := A ++ i :: B)) as (X & o & EX). { apply length_nonnil. lia. }
          rewrite EX in K, L. pose proof (kh_le _ _ _ _ _ K).
          rewrite (knn_max_full _ _ _ _ _ _ K) by lia.
          assert (Ho : In o (A ++ i :: B)) by (rewrite EX; apply in_or_app; simpl; auto).
          split; [|split; auto].
          + apply in_app_or in Ho as [Ho|[<-|Ho]].
            * apply KB, INK, in_or_app; auto.
            * apply (ltb_leb ok OL); auto.
            * apply KB, INK, in_or_app; auto.
          + intros j Hj. destruct HO as [(-> & _)|(o' & -> & HK & HKL)]; [destruct Hj|].
            destruct Hj as [<-|[]].
            assert (KO : forall a, In a (A ++ B) -> s_leb (f a) (f o') = true).
            { intros a Ha. rewrite HK, app_assoc in S1. apply StronglySorted_app_inv in S1 as (_ & _ & K2).
              apply K2; simpl; auto. }
            apply in_app_or in Ho as [Ho|[<-|Ho]].
            * apply KO, in_or_app; auto.
            * apply (ltb_leb ok OL); auto.
              rewrite HK, app_assoc in H. rewrite (knn_max_full _ _ _ _ _ _ H) in F; auto.
              rewrite <- app_assoc, <- HK; auto.
            * apply KO, in_or_app; auto.
        - destruct HO as [(-> & HK & HKL)|(o & -> & HK & HKL)].
          + rewrite (knn_max_short _ _ _ _ _ K) by auto. rewrite (knn_max_short _ _ _ _ _ H) by auto.
            rewrite HM. split; [apply (leb_refl ok OL), (ol_max _ _ OL)|split; [apply (ol_max _ _ OL)|intros ? []]].
          + rewrite HK in HKL. rewrite !app_length in *. simpl in *. lia. }
      destruct NM as (NM1 & NM2 & NM3). split; [|exact NM1]. constructor; auto.
      * intros j Hj. apply in_app_or in Hj as [Hj|Hj]; auto.
        eapply (leb_trans ok OL); [| | |exact NM1|]; auto.
      * intros j Hj. apply in_app_or in Hj as [Hj|[<-|Hj]].
        -- apply S3, INK, in_or_app; auto.
        -- rewrite (ol_lt _ _ OL) in * by (auto; apply (ol_max _ _ OL)).
           destruct (s_leb s_max (f i)) eqn:E; auto. apply negb_true_iff in F.
           assert (X : s_leb (knn_max st) (f i) = true).
           { eapply (leb_trans ok OL); [| | |exact KM|]; auto. apply (ol_max _ _ OL). }
           congruence.
        -- apply S3, INK, in_or_app; auto.
Qed.

Lemma knn_order l0 tr : 0 < length l0 -> knn_max (l0, 0) = s_max ->
  exists kept dropped, knn_holds l0 tr (fold_left knn_step tr (l0, 0)) kept dropped
    /\ knn_sorted (fold_left knn_step tr (l0, 0)) kept dropped.
Proof.
  intros H0 HM. induction tr as [|i tr IH] using rev_ind.
  - exists [], []. split; [apply knn_start|]. constructor; simpl; try tauto. constructor.
  - destruct IH as (kept & dropped & H & HS). rewrite fold_left_app. cbn [fold_left].
    destruct (knn_order_step l0 tr _ kept dropped i H0 HM H HS) as (k' & d' & A & B & _). eauto.
Qed.
End Order.
End Visitors.
