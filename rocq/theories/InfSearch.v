(** Searches of points some of whose coordinates are infinite: they behave as if
    those points were not there. *)
From Coq Require Import List ZArith Reals Bool Arith Permutation Sorted Lia Lra.
From Flocq Require Import Core.Core IEEE754.BinarySingleNaN.
From Verif Require Import Base ModelBox ModelBuild ModelSearch Spec SpecRound SpecInf Lemmas BuildProofs
  BuildShape BuildThms SearchProofs Visitors QueryThms TopThms ExtraThms OrdThms InfBuild
  Floats FloatThms FloatSearch FloatQuery CompareThms InfThms.
Import ListNotations.
Local Open Scope R_scope.

Section Search.
Variables (prec emax : Z).
Context (Hprec : Prec_gt_0 prec) (Hmax : Prec_lt_emax prec emax) (P2 : (2 <= prec)%Z).
Local Notation F := (binary_float prec emax).
Local Notation fin := (finite prec emax).
Local Notation num := (number prec emax).
Local Notation fexp := (SpecFloat.fexp prec emax).
Local Notation emin := (SpecFloat.emin prec emax).
Local Notation rnd := (round radix2 fexp ZnearestE).
Local Notation fmt := (generic_format radix2 fexp).
Local Notation pow2 := (bpow radix2).
Local Notation u := (bpow radix2 (- prec)).
Local Existing Instance SF.

Variables (em : exact_metric) (e : Z) (sp : space F) (q : list F).
Hypothesis II : inf_input prec emax em e sp q.
Let n := sp_sdim sp.
Let N := length (sp_pts sp).
Let E3 : (e + 3 < emax)%Z := proj2 (ii_exp _ _ _ _ _ _ II).
Let WF := ii_space _ _ _ _ _ _ II.

(** ** The space with the infinite coordinates replaced by 2^e and -2^e *)
Definition top_coord : F := Bldexp mode_NE Bone e.

Lemma emin_e : (emin <= e)%Z.
Proof.
  pose proof (ii_exp _ _ _ _ _ _ II) as [X _]. rewrite emin_eq in *. unfold Prec_lt_emax in *. lia.
Qed.

Lemma top_R : fin top_coord /\ B2R top_coord = pow2 e.
Proof.
  pose proof (Bldexp_correct prec emax Hprec Hmax mode_NE Bone e) as H. cbn [round_mode] in H.
  assert (E1 : B2R (Bone : F) * pow2 e = pow2 e) by (rewrite Bone_correct; ring).
  rewrite E1 in H.
  rewrite (rnd_fmt prec emax (pow2 e)) in H by (auto; apply fmt_pow; auto; apply emin_e).
  rewrite Rlt_bool_true in H.
  - destruct H as (A & B & _). split; auto. unfold finite, top_coord. rewrite B. apply is_finite_Bone.
  - rewrite Rabs_pos_eq by apply bpow_ge_0. apply bpow_lt. lia.
Qed.

Definition clamp (x : F) : F :=
  match x with B754_infinity true => Bopp top_coord | B754_infinity false => top_coord | _ => x end.
Definition sp' : space F := Space n (map (map clamp) (sp_pts sp)).

Lemma clamp_fin x : fin x -> clamp x = x.
Proof. destruct x; intros H; try discriminate; reflexivity. Qed.
Lemma clamp_below x : below_or_inf prec emax e x -> below prec emax e (clamp x).
Proof.
  destruct top_R as [T1 T2].
  intros [H|[s ->]]; [rewrite clamp_fin; auto; apply H|].
  destruct s; cbn [clamp]; split.
  - unfold finite. rewrite is_finite_Bopp. exact T1.
  - rewrite B2R_Bopp, Rabs_Ropp, T2, Rabs_pos_eq by apply bpow_ge_0. lra.
  - exact T1.
  - rewrite T2, Rabs_pos_eq by apply bpow_ge_0. lra.
Qed.
(** The order of numbers at most 2^e is kept. *)
Lemma clamp_ge x y : below prec emax e x -> below_or_inf prec emax e y -> ext prec emax x <= ext prec emax y ->
  B2R x <= B2R (clamp y).
Proof.
  intros [Fx Hx] Hy H. rewrite (ext_fin prec emax x) in H by auto. apply Rabs_le_inv in Hx.
  destruct top_R as [T1 T2].
  destruct Hy as [[Fy Hy]|[[] ->]]; cbn [clamp ext] in *.
  - rewrite clamp_fin by auto. rewrite ext_fin in H; auto.
  - pose proof (fin_lt prec emax x Fx). lra.
  - lra.
Qed.
Lemma clamp_le x y : below prec emax e x -> below_or_inf prec emax e y -> ext prec emax y <= ext prec emax x ->
  B2R (clamp y) <= B2R x.
Proof.
  intros [Fx Hx] Hy H. rewrite (ext_fin prec emax x) in H by auto. apply Rabs_le_inv in Hx.
  destruct top_R as [T1 T2].
  destruct Hy as [[Fy Hy]|[[] ->]]; cbn [clamp ext] in *.
  - rewrite clamp_fin by auto. rewrite ext_fin in H; auto.
  - rewrite B2R_Bopp. lra.
  - pose proof (fin_lt prec emax x Fx). lra.
Qed.

Lemma below_or_inf_num x : below_or_inf prec emax e x -> num x.
Proof. intros [[H _]|[s ->]]; [apply fin_num; auto|reflexivity]. Qed.

Lemma numbers : all_coords num sp.
Proof.
  pose proof (ii_coords _ _ _ _ _ _ II) as C. unfold all_coords in *. eapply Forall_impl; [|exact C].
  intros p Hp. eapply Forall_impl; [|exact Hp]. apply below_or_inf_num.
Qed.

Lemma FI' : float_input prec emax em e sp' bounds_from_space q.
Proof.
  pose proof (proj2 WF) as W2. pose proof (ii_coords _ _ _ _ _ _ II) as A6.
  constructor; try exact I; try apply II.
  - split; [exact (proj1 WF)|]. cbn [sp_pts sp' sp_sdim]. apply Forall_forall. intros p Hp. apply in_map_iff in Hp as (p0 & <- & Hp).
    rewrite map_length. exact (proj1 (Forall_forall _ _) W2 p0 Hp).
  - unfold all_coords in *. cbn [sp_pts sp']. apply Forall_forall.
    intros p Hp. apply in_map_iff in Hp as (p0 & <- & Hp).
    pose proof (proj1 (Forall_forall _ _) (proj1 (Forall_forall _ _) A6 p0 Hp)) as A.
    apply Forall_forall. intros x Hx. apply in_map_iff in Hx as (x0 & <- & Hx). apply clamp_below; auto.
Qed.

Lemma npts' : length (sp_pts sp') = N. Proof. apply map_length. Qed.
Lemma at' j : sp_at sp' j = map clamp (sp_at sp j).
Proof. unfold sp_at. cbn [sp_pts sp']. exact (map_nth (map clamp) (sp_pts sp) [] j). Qed.
Lemma coord' k j : coord sp' k j = clamp (coord sp k j).
Proof.
  unfold coord. rewrite at'. unfold get. exact (map_nth clamp (sp_at sp j) s_zero k).
Qed.

Definition finp (j : nat) : bool := forallb is_finite (sp_at sp j).
Lemma finp_at j : finp j = true -> sp_at sp' j = sp_at sp j.
Proof.
  intros H. rewrite at'. unfold finp in H. rewrite forallb_forall in H.
  rewrite <- (map_id (sp_at sp j)) at 2. apply map_ext_in. intros x Hx. apply clamp_fin, H, Hx.
Qed.

Lemma q_bel k : (k < n)%nat -> below prec emax e (get q k).
Proof.
  intros H. pose proof (ii_query _ _ _ _ _ _ II) as HQ. rewrite Forall_forall in HQ. apply HQ, nth_In.
  rewrite (ii_length _ _ _ _ _ _ II). auto.
Qed.
Lemma c_boi j k : (j < N)%nat -> (k < n)%nat -> below_or_inf prec emax e (coord sp k j).
Proof.
  intros Hj Hk. apply (ok_coord (below_or_inf prec emax e) sp WF (ii_coords _ _ _ _ _ _ II)); auto. apply in_space_lt; auto.
Qed.
Lemma finp_coord j k : (j < N)%nat -> (k < n)%nat -> finp j = true -> below prec emax e (coord sp k j).
Proof.
  intros Hj Hk H. destruct (c_boi j k Hj Hk) as [|[s E]]; auto. exfalso.
  unfold finp in H. rewrite forallb_forall in H. specialize (H (coord sp k j)).
  rewrite E in H. cbn in H. discriminate H. rewrite <- E. apply nth_In.
  rewrite (sp_at_length sp WF); auto. apply in_space_lt; auto.
Qed.

(** ** The distance of a point with an infinite coordinate *)
Lemma app_inf (x : F) s : fin x -> m_app (metric_of em) (s_sub x (B754_infinity s)) = B754_infinity false.
Proof.
  intros Fx. destruct (ii_metric _ _ _ _ _ _ II) as [-> | ->];
    destruct x as [[]|[]| |[] ? ? ?]; try discriminate; destruct s; reflexivity.
Qed.

Let LQ' : length q = sp_sdim sp' := fi_length _ _ _ _ _ _ _ FI'.
Let phi : R -> R := match em with L1 => fun x => x | _ => fun x => rnd (x * x) end.
Let B : R := match em with L1 => pow2 (e + 1) | _ => pow2 (2 * e + 2) end.
Let FM : float_metric prec emax Hprec Hmax e (metric_of em) phi B := FM prec emax Hprec Hmax em e sp' bounds_from_space q FI'.

Lemma app_positive k j : (j < N)%nat -> (k < n)%nat ->
  positive prec emax (m_app (metric_of em) (s_sub (get q k) (coord sp k j))).
Proof.
  intros Hj Hk. destruct (c_boi j k Hj Hk) as [H|[s E]].
  - right. destruct (app_diff prec emax Hprec Hmax P2 e E3 (metric_of em) phi B FM sp' q LQ' (get q k) (coord sp k j) (q_bel k Hk) H)
      as (A & C & D & _). split; auto. rewrite C. auto.
  - left. rewrite E. apply app_inf. apply (q_bel k Hk).
Qed.

Lemma dist_inf j : (j < N)%nat -> finp j = false -> m_dist (metric_of em) q (sp_at sp j) = B754_infinity false.
Proof.
  intros Hj HF. rewrite (fm_dist _ _ _ _ _ _ _ _ FM). unfold sum_op.
  assert (LJ : length (sp_at sp j) = n) by (apply (sp_at_length sp WF); apply in_space_lt; auto).
  rewrite (combine_get prec emax Hprec Hmax q (sp_at sp j) n (ii_length _ _ _ _ _ _ II) LJ).
  assert (E : forall l acc, fold_left (fun (a : F) '(x, y) => s_add a (m_app (metric_of em) (s_sub x y)))
     (map (fun i => (get q i, get (sp_at sp j) i)) l) acc
     = fold_left s_add (map (fun k => m_app (metric_of em) (s_sub (get q k) (coord sp k j))) l) acc).
  { induction l as [|k l IH]; intros acc; auto. cbn [map fold_left]. apply IH. }
  etransitivity; [apply E|]. apply positive_fold.
  - intros t Ht. apply in_map_iff in Ht as (k & <- & Hk). apply in_seq in Hk. apply app_positive; auto; lia.
  - right. split; [reflexivity|]. rewrite R_zero. lra.
  - right. assert (X : exists x, In x (sp_at sp j) /\ is_finite x = false).
    { unfold finp in HF. clear - HF. induction (sp_at sp j) as [|x l IH]; cbn in HF; [discriminate|].
      apply andb_false_iff in HF as [HF|HF]; [exists x; split; [left|]; auto|].
      destruct (IH HF) as (y & Hy & Ey). exists y. split; [right|]; auto. }
    destruct X as (x & Hx & Ex). apply (In_nth _ _ s_zero) in Hx as (k & Hk & Ek). rewrite LJ in Hk.
    apply in_map_iff. exists k. split; [|apply in_seq; lia].
    change (nth k (sp_at sp j) s_zero) with (coord sp k j) in Ek. subst x.
    destruct (c_boi j k Hj Hk) as [[H _]|[s E']]; [unfold finite in H; congruence|].
    rewrite E'. apply app_inf. apply (q_bel k Hk).
Qed.

(** ** The search *)
Hypotheses (NU : INR n * u <= / 2).
Variables (g : Z) (top : nat).
Hypothesis HU : INR (2 * top) * u <= / 2.
Let LBf' := LBf prec emax Hprec Hmax phi B sp' q g.
Definition LBi (s : nat) (o : list F) (d : F) (l : list nat) : Prop :=
  length o = n /\ ((forall j, In j l -> finp j = false) \/ LBf' s o d l).
Definition skipped' (x : F) (j : nat) : Prop :=
  finp j = true -> skipped prec emax Hprec Hmax (metric_of em) phi B sp' q g top x j.

Let WF' := fi_space _ _ _ _ _ _ _ FI'.
Let CO' := fi_coords _ _ _ _ _ _ _ FI'.
Let HQ' := fi_query _ _ _ _ _ _ _ FI'.
Let FIT' : INR n * B <= pow2 (emax - 3) := fit_B prec emax em e sp' bounds_from_space q FI'.

(** The far child is bounded by [x], a coordinate of one of its points. *)
Lemma step_far s o d l l' sd x jx : (s < top)%nat -> LBf' s o d l -> incl l' l -> incl l (seq 0 N) -> (sd < n)%nat ->
  below prec emax e x -> In jx l' -> B2R x = B2R (coord sp' sd jx) ->
  (forall j, In j l' -> B2R (get q sd) <= B2R x <= B2R (coord sp' sd j)
                       \/ B2R (coord sp' sd j) <= B2R x <= B2R (get q sd)) ->
  let no := m_app (metric_of em) (s_sub x (get q sd)) in
  LBf' (s + 1) (set_nth o sd no) (s_add (s_sub d (get o sd)) no) l'.
Proof.
  intros Hs HL HI HN Hd Bx Hjx Ex HB no. pose proof (q_bel sd Hd) as Bv.
  destruct (app_diff prec emax Hprec Hmax P2 e E3 (metric_of em) phi B FM sp' q LQ' x (get q sd) Bx Bv) as (R1 & R2 & R3).
  fold no in R1, R2.
  assert (IN : forall j, In j l -> (j < length (sp_pts sp'))%nat).
  { intros j Hj. rewrite npts'. apply HN in Hj. apply in_seq in Hj. lia. }
  assert (TX : B2R no = term prec emax Hprec Hmax phi sp' q jx sd).
  { rewrite R2, Ex. unfold term. rewrite (phi_sym prec emax phi). reflexivity. }
  apply (LBf_step prec emax Hprec Hmax P2 e (metric_of em) phi B FM sp' q LQ' FIT' g top HU s o d l l' sd no); auto.
  - apply at_lt. rewrite (lf_len _ _ _ _ _ _ _ _ _ _ _ _ _ HL). exact Hd.
  - rewrite R2. auto.
  - rewrite TX. apply (lf_low _ _ _ _ _ _ _ _ _ _ _ _ _ HL); auto.
  - intros G. rewrite TX. apply G; auto.
  - intros j Hj. rewrite R2. unfold term.
    rewrite (phi_sym prec emax phi (B2R (get q sd))).
    apply (phi_rnd_mono prec emax Hprec Hmax e (metric_of em) phi B FM). destruct (HB j Hj); [left|right]; lra.
Qed.

Local Notation boi := (below_or_inf prec emax e).
Local Notation xt := (ext prec emax).

Lemma tight_below (x c : F) : fin x -> boi c -> xt c = xt x -> below prec emax e x /\ fin c /\ B2R x = B2R c.
Proof.
  intros Fx Hc E. rewrite (ext_fin prec emax x Fx) in E. pose proof (fin_lt prec emax x Fx).
  destruct Hc as [[Fc Bc]|[[] ->]]; cbn [ext] in E; try lra.
  rewrite (ext_fin prec emax c Fc) in E. split; [split; auto; rewrite <- E; auto|]. split; auto.
Qed.
Lemma big_max : pow2 e < B2R (s_max : F) /\ B2R (s_lowest : F) < - pow2 e.
Proof.
  pose proof (max_gt_pow prec emax Hprec Hmax P2) as M.
  assert (pow2 e <= pow2 (emax - 1)) by (apply bpow_le; lia).
  split; [lra|].
  assert (E : (s_lowest : F) = Bopp (s_max : F)) by reflexivity. rewrite E, B2R_Bopp. lra.
Qed.

Lemma step_inf s br l r o d :
  (s < top)%nat -> R_loose num sp br l r -> incl (l ++ r) (seq 0 N) -> LBi s o d (l ++ r) ->
  exists sd gl no old, decide_euclidean (metric_of em) q br = Ok (sd, gl, no) /\ at_ o sd = Ok old
    /\ LBi (s + 1) (set_nth o sd no) (s_add (s_sub d old) no) (if gl : bool then r else l).
Proof.
  intros Hs [Hd Nl Nr Hl Hr Tl Tr Ord] HI [Lo HL].
  unfold decide_euclidean. set (sd := bs_split_dim br) in *.
  set (lm := bs_left_max br) in *. set (rm := bs_right_min br) in *.
  rewrite (at_lt q _ s_zero) by (rewrite (ii_length _ _ _ _ _ _ II); auto). cbn [bind].
  change (nth sd q s_zero) with (get q sd). set (v := get q sd).
  assert (Il : forall i, In i l -> (i < N)%nat).
  { intros i Hi. assert (X : In i (seq 0 N)) by (apply HI, in_or_app; auto). apply in_seq in X. lia. }
  assert (Ir : forall i, In i r -> (i < N)%nat).
  { intros i Hi. assert (X : In i (seq 0 N)) by (apply HI, in_or_app; auto). apply in_seq in X. lia. }
  assert (Eo : at_ o sd = Ok (get o sd)) by (apply at_lt; rewrite Lo; auto).
  do 4 eexists. split; [reflexivity|]. split; [exact Eo|].
  split; [rewrite length_set_nth; exact Lo|].
  set (gl := s_ltb s_zero (s_sub (s_sub (s_add lm rm) v) v)).
  destruct HL as [HL|HL].
  { left. intros j Hj. apply HL. apply in_or_app. destruct gl; auto. }
  destruct (existsb finp (if gl then r else l)) eqn:EX.
  2: { left. intros j Hj. destruct (finp j) eqn:Ej; auto. exfalso.
       assert (existsb finp (if gl then r else l) = true) by (apply existsb_exists; eauto). congruence. }
  right. apply existsb_exists in EX as (j & Hj & Fj).
  assert (Bv : below prec emax e v) by (apply q_bel; auto).
  assert (Cl : forall i, In i l -> boi (coord sp sd i)) by (intros; apply c_boi; auto).
  assert (Cr : forall i, In i r -> boi (coord sp sd i)) by (intros; apply c_boi; auto).
  assert (LE : forall x y : F, num x -> num y -> s_leb x y = true -> xt x <= xt y).
  { intros x y Hx Hy H. apply (leb_ext prec emax Hprec Hmax x y Hx Hy); auto. }
  assert (Kl : forall i, In i l -> xt (coord sp sd i) <= xt lm).
  { intros i Hi. apply LE; auto. apply below_or_inf_num; auto. }
  assert (Kr : forall i, In i r -> xt rm <= xt (coord sp sd i)).
  { intros i Hi. apply LE; auto. apply below_or_inf_num; auto. }
  assert (Jl : lm <> s_lowest -> exists i, In i l /\ xt (coord sp sd i) = xt lm).
  { intros X. destruct Tl as [(i & Hi & Ei)|]; [|contradiction]. exists i. split; auto.
    apply Rle_antisym; auto. apply LE; auto. apply below_or_inf_num; auto. }
  assert (Jr : rm <> s_max -> exists i, In i r /\ xt (coord sp sd i) = xt rm).
  { intros X. destruct Tr as [(i & Hi & Ei)|]; [|contradiction]. exists i. split; auto.
    apply Rle_antisym; auto. apply LE; auto. apply below_or_inf_num; auto. }
  assert (KO : forall i k, In i l -> In k r -> xt (coord sp sd i) <= xt (coord sp sd k)).
  { intros i k Hi Hk. apply LE; auto; apply below_or_inf_num; auto. }
  destruct big_max as [BM BL]. clear Hl Hr Tl Tr Ord LE.
  pose proof (bpow_gt_0 radix2 e) as P0. assert (PE : pow2 e < pow2 emax) by (apply bpow_lt; lia).
  pose proof (eq_refl gl) as EG. unfold gl at 2 in EG.
  assert (FT : forall sg (a b : F),
    a = B754_infinity sg \/ a = (if sg then s_lowest else s_max) ->
    b = B754_infinity sg \/ below prec emax e b ->
    s_ltb s_zero (s_sub (s_sub (s_add a b) v) v) = negb sg /\ s_ltb s_zero (s_sub (s_sub (s_add b a) v) v) = negb sg).
  { intros sg a b Ha Hb. apply (far_turn prec emax Hprec Hmax e P2 E3); auto. }
  destruct gl.
  - (* go left, so the far child is the right one *)
    pose proof (finp_coord j sd (Ir j Hj) Hd Fj) as [Fc Bc]. apply Rabs_le_inv in Bc.
    pose proof (Kr j Hj) as KJ. rewrite (ext_fin prec emax _ Fc) in KJ.
    destruct (Jr) as (jr & Hjr & Er).
    { intros X. rewrite X, ext_fin in KJ by apply fin_max. lra. }
    assert (LL : lm <> B754_infinity true -> lm <> s_lowest ->
       fin rm \/ rm = B754_infinity true -> below prec emax e lm /\ below prec emax e rm /\ B2R lm <= B2R rm).
    { intros X1 X2 X3. destruct (Jl X2) as (il & Hil & El).
      pose proof (KO il jr Hil Hjr) as OO. rewrite El, Er in OO.
      destruct (fin_or_inf prec emax lm Nl) as [Flm|[[] Elm]]; [|contradiction|].
      - pose proof (fin_lt prec emax lm Flm). rewrite (ext_fin _ _ lm Flm) in OO.
        destruct X3 as [Frm|Erm]; [|rewrite Erm in OO; cbn [ext] in OO; lra].
        rewrite (ext_fin _ _ rm Frm) in OO.
        split; [apply (tight_below lm (coord sp sd il)); auto|].
        split; [apply (tight_below rm (coord sp sd jr)); auto|auto].
      - exfalso. rewrite Elm in OO. cbn [ext] in OO. lra. }
    assert (RM : rm = B754_infinity true \/ below prec emax e rm).
    { destruct (fin_or_inf prec emax rm Nr) as [Frm|[[] Erm]]; auto.
      - right. apply (tight_below rm (coord sp sd jr)); auto.
      - exfalso. rewrite Erm in KJ. cbn [ext] in KJ. lra. }
    assert (LM : ~ (lm = B754_infinity true \/ lm = s_lowest)).
    { intros X. destruct (FT true lm rm X RM) as [Y _]. cbn [negb] in Y. congruence. }
    destruct LL as (Bl & Br & Hlr); [tauto|tauto|destruct RM as [|[]]; auto|].
    pose proof (go_left_R prec emax Hprec Hmax P2 e E3 sp' q LQ' lm rm v Bl Br Bv Hlr) as GL.
    rewrite <- EG in GL.
    destruct (tight_below rm (coord sp sd jr)) as (_ & Fjr & Erm); auto; [apply Br|].
    apply (step_far s o d (l ++ r) r sd rm jr); auto.
    + intros x Hx. apply in_or_app; auto.
    + rewrite coord', clamp_fin; auto.
    + intros i Hi. left. split; [exact GL|]. rewrite coord'. apply clamp_ge; auto.
  - pose proof (finp_coord j sd (Il j Hj) Hd Fj) as [Fc Bc]. apply Rabs_le_inv in Bc.
    pose proof (Kl j Hj) as KJ. rewrite (ext_fin prec emax _ Fc) in KJ.
    destruct (Jl) as (jl & Hjl & El).
    { intros X. rewrite X, ext_fin in KJ by apply fin_lowest. lra. }
    assert (LL : rm <> B754_infinity false -> rm <> s_max ->
       fin lm \/ lm = B754_infinity false -> below prec emax e lm /\ below prec emax e rm /\ B2R lm <= B2R rm).
    { intros X1 X2 X3. destruct (Jr X2) as (ir & Hir & Er).
      pose proof (KO jl ir Hjl Hir) as OO. rewrite El, Er in OO.
      destruct (fin_or_inf prec emax rm Nr) as [Frm|[[] Erm]]; [| |contradiction].
      - pose proof (fin_lt prec emax rm Frm). rewrite (ext_fin _ _ rm Frm) in OO.
        destruct X3 as [Flm|Elm]; [|rewrite Elm in OO; cbn [ext] in OO; lra].
        rewrite (ext_fin _ _ lm Flm) in OO.
        split; [apply (tight_below lm (coord sp sd jl)); auto|].
        split; [apply (tight_below rm (coord sp sd ir)); auto|auto].
      - exfalso. rewrite Erm in OO. cbn [ext] in OO. lra. }
    assert (LM : lm = B754_infinity false \/ below prec emax e lm).
    { destruct (fin_or_inf prec emax lm Nl) as [Flm|[[] Elm]]; auto.
      - right. apply (tight_below lm (coord sp sd jl)); auto.
      - exfalso. rewrite Elm in KJ. cbn [ext] in KJ. lra. }
    assert (RM : ~ (rm = B754_infinity false \/ rm = s_max)).
    { intros X. destruct (FT false rm lm X LM) as [_ Y]. cbn [negb] in Y. congruence. }
    destruct LL as (Bl & Br & Hlr); [tauto|tauto|destruct LM as [|[]]; auto|].
    pose proof (go_left_R prec emax Hprec Hmax P2 e E3 sp' q LQ' lm rm v Bl Br Bv Hlr) as GL.
    rewrite <- EG in GL.
    destruct (tight_below lm (coord sp sd jl)) as (_ & Fjl & Elm); auto; [apply Bl|].
    apply (step_far s o d (l ++ r) l sd lm jl); auto.
    + intros x Hx. apply in_or_app; auto.
    + rewrite coord', clamp_fin; auto.
    + intros i Hi. right. split; [|exact GL]. rewrite coord'. apply clamp_le; auto.
Qed.

Section Visitor.
Context {V : Type} (vis : visitor F V).
Local Notation Dh j := (m_dist (metric_of em) q (sp_at sp j)).
Variable (Inv : V -> Prop).
Hypotheses
  (V_inv : forall st i, Inv st -> (i < N)%nat -> finp i = true -> Inv (v_visit vis i (Dh i) st))
  (V_fin : forall st, Inv st -> fin (v_max vis st))
  (V_mono : forall st i, Inv st -> (i < N)%nat -> finp i = true ->
     s_leb (v_max vis (v_visit vis i (Dh i) st)) (v_max vis st) = true)
  (V_inf : forall st i, Inv st -> v_visit vis i (B754_infinity false) st = st).

Lemma visits_filter tr : forall st, Inv st -> (forall i, In i tr -> (i < N)%nat) ->
  visits (metric_of em) vis sp q tr st = visits (metric_of em) vis sp' q (filter finp tr) st.
Proof.
  induction tr as [|i tr IH]; intros st HI HN; auto. cbn [filter].
  assert (Hi : (i < N)%nat) by (apply HN; left; auto).
  assert (HN' : forall k, In k tr -> (k < N)%nat) by (intros; apply HN; right; auto).
  destruct (finp i) eqn:Fi; unfold visits in *; cbn [fold_left].
  - rewrite finp_at by auto. apply IH; auto.
  - rewrite dist_inf by auto. rewrite V_inf by auto. apply IH; auto.
Qed.

Lemma search_inf (root : node (branch_data Euclidean F)) idx v0 :
  node_spans (R_loose num sp) root 0 idx -> Permutation idx (seq 0 N) ->
  (node_height root <= top)%nat -> Inv v0 ->
  exists tr rest, Permutation (tr ++ rest) (filter finp (seq 0 N))
    /\ search_nearest_root (metric_of em) Euclidean vis sp idx q root v0 = Ok (visits (metric_of em) vis sp' q tr v0)
    /\ Inv (visits (metric_of em) vis sp' q tr v0)
    /\ forall j, In j rest ->
         skipped prec emax Hprec Hmax (metric_of em) phi B sp' q g top (v_max vis (visits (metric_of em) vis sp' q tr v0)) j.
Proof.
  intros NS P HT HI.
  assert (Hin : forall i, In i idx <-> (i < N)%nat).
  { intros i. rewrite <- In_seq0. split; apply Permutation_in; auto; symmetry; auto. }
  assert (V_inv' : forall st i, Inv st -> In i idx -> Inv (v_visit vis i (Dh i) st)).
  { intros st i HIs Hi. apply Hin in Hi. destruct (finp i) eqn:Fi; auto.
    rewrite dist_inf by auto. rewrite V_inf by auto. auto. }
  destruct (search_gen_levels (metric_of em) vis sp idx q (R_loose num sp) (decide_euclidean (metric_of em) q)
              Inv (fun st j => skipped' (v_max vis st) j) LBi top idx) with
    (nd := root) (b := 0%nat) (l := idx) (s := 0%nat) (pre := @nil nat) (post := @nil nat)
    (o := offsets0 sp) (d := s_zero (Scalar := SF prec emax Hprec Hmax)) (st := v0)
    as (tr & rest & Pt & E & HF); auto.
  - intros st i j HIs Hi HS Fj. specialize (HS Fj). destruct HS as [S1 S2]. apply Hin in Hi.
    destruct (finp i) eqn:Fi.
    + specialize (V_mono st i HIs Hi Fi). apply leb_R in V_mono; auto.
      pose proof (u_bounds prec P2) as [U0 U1]. split.
      * eapply Rle_lt_trans; [|exact S1]. apply Rmult_le_compat_l; auto. apply pow_le. lra.
      * intros EX. eapply Rle_lt_trans; [exact V_mono|exact (S2 EX)].
    + rewrite dist_inf by auto. rewrite V_inf by auto. split; auto.
  - intros s o d l l' [A HL] HI'. split; auto. destruct HL as [HL|HL].
    + left. intros j Hj. apply HL, HI', Hj.
    + right. eapply LBf_incl; eauto.
  - intros s o d l st Hs [A HL] HIs EL j Hj Fj. destruct HL as [HL|HL].
    + rewrite HL in Fj by auto. discriminate.
    + apply (prune_float prec emax Hprec Hmax P2 e E3 (metric_of em) phi B FM sp' WF' CO' q LQ' HQ' FIT' NU g top s o d l); auto.
  - intros s br l r o d Hs HR Hi HL. apply step_inf; auto.
    intros x Hx. apply In_seq0, Hin, Hi, Hx.
  - rewrite app_nil_r. reflexivity.
  - apply Forall_forall. intros i Hi. apply in_space_lt. apply Hin; auto.
  - apply incl_refl.
  - split; [apply length_tab|]. right.
    apply (LBf_start prec emax Hprec Hmax P2 e E3 (metric_of em) phi B FM sp' WF' CO' q LQ' HQ' g).
    rewrite npts'. intros x Hx. apply In_seq0, Hin, Hx.
  - assert (Htr : forall i, In i tr -> (i < N)%nat).
    { intros i Hi. apply Hin. eapply Permutation_in; [exact Pt|]. apply in_or_app; auto. }
    assert (EV := visits_filter tr v0 HI Htr).
    exists (filter finp tr), (filter finp rest). rewrite <- EV. split; [|split; [|split]].
    + rewrite <- filter_app. apply filter_perm. rewrite Pt. exact P.
    + rewrite search_nearest_root_gen. cbn [decide]. rewrite E. reflexivity.
    + apply (visits_inv (metric_of em) vis sp q Inv idx); auto.
      intros x Hx. apply Hin, Htr, Hx.
    + intros j Hj. apply filter_In in Hj as [Hj Fj]. apply HF; auto.
Qed.
End Visitor.
End Search.
