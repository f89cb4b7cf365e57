(** The vectors of DArrays hold no more than there is room for. *)
From Coq Require Import List Bool Arith Lia.
From Verif Require Import Base ModelLife SpecLife LifeThms.
Import ListNotations.
Local Open Scope nat_scope.

Definition room_v (v : vec) : Prop := v_size v <= v_cap v /\ (v_block v = None <-> v_cap v = 0).
Definition room_o (o : object) : Prop := match o_kind o with KDArray vs => Forall room_v vs | _ => True end.
Definition room (h : pyheap) : Prop := forall x o, live h x o -> room_o o.

Lemma bind_ok {A B} (r : res A) (k : A -> res B) b : (do x <- r; k x) = Ok b -> exists a, r = Ok a /\ k a = Ok b.
Proof. destruct r; cbn; intros; try discriminate; eauto. Qed.

Lemma fill_room bs v size slack bs' v' : room_v v -> fill bs v size slack = Ok (bs', v') -> room_v v'.
Proof.
  unfold fill. intros [R1 R2] H. destruct (Nat.leb_spec size (v_cap v)).
  - injection H as _ <-. split; [exact H0|exact R2].
  - apply bind_ok in H as (bs1 & _ & H). destruct (alloc bs1) as [bs2 b]. injection H as _ <-.
    split; cbn [v_size v_cap v_block]; [lia|]. split; [discriminate|lia].
Qed.
Lemma fill_all_room results : forall bs vs bs' vs', Forall room_v vs -> fill_all bs vs results = Ok (bs', vs') -> Forall room_v vs'.
Proof.
  induction results as [|[size slack] results IH]; cbn [fill_all]; intros bs vs bs' vs' F H.
  - injection H as _ <-. constructor.
  - apply bind_ok in H as ([bs1 v] & E1 & H). apply bind_ok in H as ([bs2 vs2] & E2 & H). injection H as _ <-.
    constructor.
    + eapply fill_room; [|exact E1]. destruct F; [|assumption]. split; cbn; [lia|split; auto].
    + eapply IH; [|exact E2]. destruct F; [constructor|assumption].
Qed.
Lemma firstn_in {A} (l : list A) n x : In x (firstn n l) -> In x l.
Proof. revert n. induction l as [|y l IH]; intros [|n]; cbn; auto; try tauto. intros [H|H]; [auto|right; eauto]. Qed.
Lemma refill_room bs vs results bs' vs' : Forall room_v vs -> refill bs vs results = Ok (bs', vs') -> Forall room_v vs'.
Proof.
  unfold refill. intros F H. apply bind_ok in H as (bs1 & _ & H). eapply fill_all_room; [|exact H].
  apply Forall_forall. intros v Hv. rewrite Forall_forall in F. apply F. eapply firstn_in; eauto.
Qed.
Lemma copy_all_room vs : forall bs bs' vs', copy_all bs vs = Ok (bs', vs') -> Forall room_v vs'.
Proof.
  induction vs as [|v vs IH]; cbn [copy_all]; intros bs bs' vs' H.
  - injection H as _ <-. constructor.
  - apply bind_ok in H as (u & _ & H).
    destruct (match v_size v with 0 => (bs, None) | S _ => (fst (alloc bs), Some (snd (alloc bs))) end) as [bs1 b] eqn:E.
    apply bind_ok in H as ([bs2 r] & E2 & H). injection H as _ <-. constructor; [|eapply IH; eauto].
    split; cbn [v_size v_cap v_block]; [lia|]. destruct (v_size v); injection E as _ <-; split; intros; auto; discriminate.
Qed.

Lemma room_add (h : pyheap) bs o : room h -> room_o o -> room (add h bs o).
Proof. intros R O x p H. apply live_add in H as [H|[_ ->]]; [exact (R x p H)|exact O]. Qed.
Lemma room_set (h : pyheap) bs vars x o' : room h -> room_o o' -> room (PyHeap (set_nth (h_objs h) x (Some o')) bs vars).
Proof.
  intros R O y p H. unfold live in H. cbn [h_objs] in H. rewrite nth_set_nth in H.
  destruct ((y =? x) && _) eqn:E; [injection H as <-; exact O|]. exact (R y p H).
Qed.
Lemma room_vars (h : pyheap) bs vars : room h -> room (PyHeap (h_objs h) bs vars).
Proof. intros R x o H. exact (R x o H). Qed.
Lemma vec_array_room bs v refs bs' o : vec_array bs v refs = (bs', o) -> room_o o.
Proof. unfold vec_array. destruct (v_block v); intros H; injection H as _ <-; exact I. Qed.

Ltac done_room R H :=
  injection H as <-; first
    [ exact R
    | apply room_add; [exact R|exact I]
    | apply room_vars; exact R ].
Lemma step_room h p h' : room h -> step h p = Ok h' -> room h'.
Proof.
  intros R H. destruct p; cbn [step] in H; cbv zeta in H.
  - done_room R H.
  - destruct (get h a) as [[[] ?]|]; done_room R H.
  - destruct (get h a) as [[[] ?]|]; try done_room R H. apply bind_ok in H as (? & _ & H). done_room R H.
  - destruct (get h a) as [[[] ?]|]; done_room R H.
  - injection H as <-. apply room_add; [exact R|constructor].
  - destruct (get h t) as [[[] ?]|]; try done_room R H. destruct (get h q) as [[[] ?]|]; try done_room R H.
    apply bind_ok in H as (? & _ & H). apply bind_ok in H as (? & _ & H). done_room R H.
  - destruct (get h t) as [[[] ?]|]; try done_room R H. destruct (get h q) as [[[] ?]|]; try done_room R H.
    destruct (get h nns) as [[[bo ow ba| | | |] ?]|] eqn:G; try done_room R H.
    destruct (q =? nns); [done_room R H|]. destruct fits.
    + apply bind_ok in H as (? & _ & H). apply bind_ok in H as (? & _ & H). apply bind_ok in H as (? & _ & H). done_room R H.
    + destruct ow; [|done_room R H]. destruct ba; try done_room R H.
      apply bind_ok in H as (? & _ & H). destruct (alloc x). apply bind_ok in H as (? & _ & H).
      apply bind_ok in H as (? & _ & H). injection H as <-. apply room_set; [exact R|exact I].
  - destruct (get h t) as [[[] ?]|]; try done_room R H. destruct (get h q) as [[[] ?]|]; try done_room R H.
    apply bind_ok in H as (? & _ & H). apply bind_ok in H as (? & _ & H). apply bind_ok in H as ([bs vs] & E & H).
    injection H as <-. apply room_add; [exact R|]. eapply refill_room; [|exact E]. constructor.
  - destruct (get h t) as [[[] ?]|]; try done_room R H. destruct (get h q) as [[[] ?]|]; try done_room R H.
    destruct (get h d) as [[[] ?]|] eqn:G; try done_room R H.
    apply bind_ok in H as ([bs vs] & E & H). apply bind_ok in H as (? & _ & H). apply bind_ok in H as (? & _ & H).
    injection H as <-. apply room_set; [exact R|]. eapply refill_room; [|exact E].
    apply get_live in G as [G _]. exact (R _ _ G).
  - destruct (get h d) as [[[] ?]|]; try done_room R H. destruct (nth_error _ _); [|done_room R H].
    destruct (vec_array _ v _) as [bs1 o] eqn:E. injection H as <-. apply room_add; [exact R|]. eapply vec_array_room; eauto.
  - destruct (get h d) as [[[] ?]|]; try done_room R H. apply bind_ok in H as ([bs1 vs1] & E & H).
    injection H as <-. apply room_add; [exact R|]. eapply copy_all_room; eauto.
  - destruct (get h d) as [[[] ?]|]; done_room R H.
  - destruct (get h it) as [[[] ?]|]; try done_room R H. destruct (_ =? _); [done_room R H|].
    destruct (nth _ (h_objs h) None) as [[[] ?]|]; try discriminate. destruct (nth_error _ _); [|discriminate].
    destruct (vec_array _ v _) as [bs1 o] eqn:E. injection H as <-. apply room_add; [|eapply vec_array_room; eauto].
    apply room_set; [exact R|exact I].
  - destruct (get h x) as [[[] ?]|]; try done_room R H. apply bind_ok in H as (? & _ & H). done_room R H.
  - destruct (get h t) as [[[] ?]|]; done_room R H.
  - destruct (get h m) as [[[] ?]|]; try done_room R H. apply bind_ok in H as (? & _ & H). done_room R H.
  - destruct (get h o); done_room R H.
  - done_room R H.
  - destruct (referenced h o); [done_room R H|]. destruct (nth o (h_objs h) None) eqn:G; [|done_room R H].
    apply bind_ok in H as (? & _ & H). injection H as <-. intros y p L. unfold live in L. cbn [h_objs] in L.
    rewrite nth_set_nth in L. destruct (_ && _); [discriminate|]. exact (R y p L).
Qed.
Lemma run_room ops : forall h h', room h -> run h ops = Ok h' -> room h'.
Proof.
  induction ops as [|p ops IH]; cbn [run]; intros h h' R H; [injection H as <-; exact R|].
  apply bind_ok in H as (h1 & E & H). eapply IH; [|exact H]. eapply step_room; eauto.
Qed.
Lemma vectors_fit ops h d vs refs i v : run no_objects ops = Ok h ->
  nth d (h_objs h) None = Some (Obj (KDArray vs) refs) -> nth_error vs i = Some v ->
  v_size v <= v_cap v /\ (v_block v = None <-> v_cap v = 0).
Proof.
  intros H L N. assert (R : room no_objects) by (intros x o Hx; unfold live in Hx; destruct x; discriminate).
  pose proof (run_room ops _ _ R H d _ L) as F. cbn in F. rewrite Forall_forall in F. apply F. eapply nth_error_In; eauto.
Qed.
