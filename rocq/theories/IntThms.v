(** Integer scalars: as long as nothing overflows, trees and queries are those
    of exact arithmetic. *)
From Coq Require Import List ZArith QArith Qabs Bool Arith Permutation Sorted Lia Lqa.
From Verif Require Import Base ModelBox ModelBuild ModelSearch ModelInt Spec Lemmas Instances
  BuildProofs BuildOrder BuildShape BuildThms SafeThms.
Import ListNotations.
Local Open Scope nat_scope.

Lemma fit_in lo hi ovf x : (lo <= x <= hi)%Z -> int_fit lo hi ovf x = x.
Proof.
  intros H. unfold int_fit.
  rewrite (proj2 (Z.leb_le _ _)), (proj2 (Z.leb_le _ _)) by lia. reflexivity.
Qed.

Lemma fit_id lo hi x : int_fit lo hi (fun x => x) x = x.
Proof. unfold int_fit. destruct (_ && _); reflexivity. Qed.

Section Sim.
Variables (lo hi : Z) (ovf : Z -> Z) (B : Z).
Hypotheses (HB : (0 <= B)%Z) (Hlo : (lo <= - (4 * B))%Z) (Hlo0 : (lo < 0)%Z) (Hhi : (4 * B <= hi)%Z) (Hhi1 : (1 <= hi)%Z).

Local Notation ZM := (Int_scalar lo hi ovf).
Local Notation ZE := (Int_scalar lo hi (fun x => x)).

Definition inB (x : Z) : Prop := (- B <= x <= B)%Z.

Lemma E_exact : exact_laws ZE inject_Z.
Proof.
  constructor; cbn -[Z.quot]; intros; rewrite ?fit_id.
  - rewrite Z.ltb_lt, Zlt_Qlt. reflexivity.
  - rewrite Z.leb_le, Zle_Qle. reflexivity.
  - reflexivity.
  - reflexivity.
  - rewrite inject_Z_plus. reflexivity.
  - unfold Qminus. rewrite <- inject_Z_opp, <- inject_Z_plus. reflexivity.
  - rewrite inject_Z_mult. reflexivity.
  - reflexivity.
  - split; discriminate.
  - assert (0 <= x)%Z by (rewrite Zle_Qle; exact H).
    split.
    + change 0%Q with (inject_Z 0). rewrite <- Zle_Qle. apply Z.quot_pos; lia.
    + rewrite <- Zle_Qle. apply Z.quot_le_upper_bound; lia.
  - assert (x <= 0)%Z by (rewrite Zle_Qle; exact H).
    pose proof (Z.quot_opp_l (- x) 2 ltac:(lia)) as Q. rewrite Z.opp_involutive in Q. rewrite Q.
    assert (0 <= Z.quot (- x) 2 <= - x)%Z.
    { split; [apply Z.quot_pos; lia | apply Z.quot_le_upper_bound; lia]. }
    split; [| change 0%Q with (inject_Z 0)]; rewrite <- Zle_Qle; lia.
  - change 1%Q with (inject_Z 1). rewrite <- Zle_Qle. lia.
  - change 0%Q with (inject_Z 0). rewrite <- Zlt_Qlt. lia.
Qed.

Lemma get_inB l d : Forall inB l -> inB (@get Z ZM l d).
Proof.
  intros F. unfold get. change (@s_zero Z ZM) with 0%Z. destruct (Nat.lt_ge_cases d (length l)) as [L|L].
  - rewrite Forall_forall in F. apply F, nth_In, L.
  - rewrite nth_overflow by exact L. split; lia.
Qed.

Definition bb (b : box Z) : Prop := Forall inB (box_min b) /\ Forall inB (box_max b).

Lemma max_side_eq b : bb b -> @box_max_side Z ZM b = @box_max_side Z ZE b.
Proof.
  intros [F1 F2]. unfold box_max_side. change (@s_lowest Z ZM) with lo. change (@s_lowest Z ZE) with lo.
  change (@box_size Z b) with (@box_size Z b).
  generalize (seq 0 (@box_size Z b)) (@None nat, lo).
  induction l as [|i l IH]; intros [pi pv]; cbn [fold_left]; [reflexivity|].
  assert (EQ : @s_sub Z ZM (@get Z ZM (box_max b) i) (@get Z ZM (box_min b) i)
             = @s_sub Z ZE (@get Z ZE (box_max b) i) (@get Z ZE (box_min b) i)).
  { cbn [s_sub Int_scalar]. pose proof (get_inB (box_max b) i F2) as K2. pose proof (get_inB (box_min b) i F1) as K1.
    unfold inB in *. rewrite fit_in by lia. rewrite fit_id. reflexivity. }
  rewrite EQ. change (@s_ltb Z ZM) with (@s_ltb Z ZE). apply IH.
Qed.

Lemma max_side_delta b d v : bb b -> @box_max_side Z ZE b = (Some d, v) ->
  v = (@get Z ZM (box_max b) d - @get Z ZM (box_min b) d)%Z.
Proof.
  intros [F1 F2]. unfold box_max_side.
  assert (G : forall l pi pv, (forall d, pi = Some d -> pv = (@get Z ZM (box_max b) d - @get Z ZM (box_min b) d)%Z) ->
    fold_left (fun '(p_max_index, p_max_value) i =>
       let delta := @s_sub Z ZE (@get Z ZE (box_max b) i) (@get Z ZE (box_min b) i) in
       if @s_ltb Z ZE p_max_value delta then (Some i, delta) else (p_max_index, p_max_value)) l (pi, pv)
    = (Some d, v) -> v = (@get Z ZM (box_max b) d - @get Z ZM (box_min b) d)%Z).
  { induction l as [|i l IH]; intros pi pv Hp; cbn [fold_left].
    - intros Heq. injection Heq as -> ->. auto.
    - cbv zeta. destruct (s_ltb _ _).
      + apply IH. intros d' Hd. injection Hd as ->. cbn [s_sub Int_scalar]. rewrite fit_id. reflexivity.
      + apply IH. exact Hp. }
  apply G. discriminate.
Qed.

Variables (alg : std_algos) (sp : space Z).
Hypothesis PTS : Forall (Forall inB) (sp_pts sp).

Lemma at_inB i : Forall inB (@sp_at Z sp i).
Proof.
  unfold sp_at. destruct (Nat.lt_ge_cases i (length (sp_pts sp))) as [L|L].
  - rewrite Forall_forall in PTS. apply PTS, nth_In, L.
  - rewrite nth_overflow by exact L. constructor.
Qed.

Lemma coord_inB d i : inB (@coord Z ZM sp d i).
Proof. unfold coord. apply get_inB, at_inB. Qed.

Lemma split_side_eq seg b : bb b -> @split_side Z ZM sp seg b = @split_side Z ZE sp seg b.
Proof. intros H. unfold split_side. rewrite max_side_eq by exact H. reflexivity. Qed.

Lemma split_side_delta seg b d v : bb b -> @split_side Z ZE sp seg b = Ok (d, v) ->
  v = (@get Z ZM (box_max b) d - @get Z ZM (box_min b) d)%Z.
Proof.
  intros H. unfold split_side. destruct (@box_max_side Z ZE b) as [[d'|] v'] eqn:Em; [|discriminate].
  destruct (guard _ _); cbn [bind]; try discriminate. intros X. injection X as -> ->.
  apply max_side_delta; auto.
Qed.

Lemma quot2_between x : (Z.min 0 x <= x ÷ 2 <= Z.max 0 x)%Z.
Proof. clear. Z.to_euclidean_division_equations. lia. Qed.

Lemma splitter_eq ru seg b : bb b ->
  @splitter Z ZM alg ru sp seg b = @splitter Z ZE alg ru sp seg b
  /\ (forall l r d v, @splitter Z ZE alg ru sp seg b = Ok (l, r, d, v) -> inB v).
Proof.
  intros H. destruct ru; cbn [splitter].
  - unfold split_median. rewrite split_side_eq by exact H. split; [reflexivity|].
    intros l r d v. destruct (@split_side Z ZE sp seg b) as [[d' v']| |]; cbn [bind]; try discriminate.
    change (@coord_lt Z ZE sp d') with (@coord_lt Z ZM sp d').
    destruct (at_ _ _); cbn [bind]; try discriminate. destruct (guard _ _); cbn [bind]; try discriminate.
    intros X. injection X as <- <- <- <-. apply coord_inB.
  - unfold split_midpoint. rewrite split_side_eq by exact H.
    destruct (@split_side Z ZE sp seg b) as [[d' v']| |] eqn:Es; cbn [bind]; [|split; [reflexivity|discriminate]..].
    pose proof (get_inB (box_min b) d' (proj1 H)) as K1. cbn [s_half s_add s_mul Int_scalar].
    change (@get Z ZE (box_min b) d') with (@get Z ZM (box_min b) d').
    rewrite Z.mul_0_r. rewrite !fit_id, (fit_in lo hi ovf 0), !Z.add_0_l by lia.
    rewrite (fit_in lo hi ovf) by (unfold inB in *; lia).
    change (fun i => @s_ltb Z ZM (@coord Z ZM sp d' i) (@get Z ZM (box_min b) d'))
      with (fun i => @s_ltb Z ZE (@coord Z ZE sp d' i) (@get Z ZM (box_min b) d')).
    destruct (std_partition _ _ _) as [l0 r0]. split; [reflexivity|].
    intros l r d v X. injection X as <- <- <- <-. exact K1.
  - unfold split_sliding. rewrite split_side_eq by exact H.
    destruct (@split_side Z ZE sp seg b) as [[d' v']| |] eqn:Es; cbn [bind]; [|split; [reflexivity|discriminate]..].
    pose proof (split_side_delta seg b d' v' H Es) as Dv.
    pose proof (get_inB (box_min b) d' (proj1 H)) as K1.
    pose proof (get_inB (box_max b) d' (proj2 H)) as K2. cbn [s_two s_add s_div Int_scalar].
    change (@get Z ZE (box_min b) d') with (@get Z ZM (box_min b) d').
    pose proof (quot2_between v') as Q2.
    rewrite !fit_id, (fit_in lo hi ovf (v' ÷ 2)) by (unfold inB in *; lia).
    rewrite (fit_in lo hi ovf) by (unfold inB in *; lia).
    set (w := (v' ÷ 2 + @get Z ZM (box_min b) d')%Z).
    assert (Kw : inB w) by (unfold w, inB in *; lia).
    change (fun i => @s_ltb Z ZM (@coord Z ZM sp d' i) w)
      with (fun i => @s_ltb Z ZE (@coord Z ZE sp d' i) w).
    change (@coord_lt Z ZM sp d') with (@coord_lt Z ZE sp d').
    destruct (std_partition _ _ _) as [l0 r0]. split; [reflexivity|].
    intros l r d v. destruct r0 as [|r0 r1].
    + destruct (length _); [discriminate|].
      destruct (at_ _ _); cbn [bind]; try discriminate. destruct (guard _ _); cbn [bind]; try discriminate.
      intros X. injection X as <- <- <- <-. apply coord_inB.
    + destruct l0.
      * destruct (at_ _ _); cbn [bind]; try discriminate. destruct (guard _ _); cbn [bind]; try discriminate.
        intros X. apply ok4_inj in X as (_ & _ & _ & <-). apply coord_inB.
      * intros X. injection X as <- <- <- <-. exact Kw.
Qed.

Lemma set_nth_Forall {A} (P : A -> Prop) l i x : Forall P l -> P x -> Forall P (set_nth l i x).
Proof.
  intros F Hx. revert i. induction F; intros [|i]; cbn; constructor; auto.
Qed.

Variables (it : index_type) (stop : stop_condition) (ru : rule).

Lemma create_node_eq c fuel : forall depth off seg bx, bb bx ->
  @create_node Z ZM c alg ru it stop sp fuel depth off seg bx
  = @create_node Z ZE c alg ru it stop sp fuel depth off seg bx.
Proof.
  induction fuel as [|fuel IH]; intros depth off seg bx H; cbn [create_node]; [reflexivity|].
  destruct (is_leaf it stop depth (length seg)); [reflexivity|].
  destruct (splitter_eq ru seg bx H) as [-> Hv].
  destruct (@splitter Z ZE alg ru sp seg bx) as [[[[l r] d] v]| |] eqn:Es; cbn [bind]; try reflexivity.
  specialize (Hv _ _ _ _ eq_refl). destruct H as [H1 H2].
  rewrite !IH; [reflexivity|..]; split; cbn [box_set_max box_set_min box_min box_max]; auto using set_nth_Forall.
Qed.

(** ** The values stored in the branches *)

Lemma tab_Forall n (f : nat -> Z) : (forall i, i < n -> inB (f i)) -> Forall inB (tab n f).
Proof.
  intros H. unfold tab. rewrite Forall_map, Forall_forall. intros i Hi. apply in_seq in Hi. apply H. lia.
Qed.

Lemma fit_bb b x : bb b -> Forall inB x -> bb (@box_fit Z ZE b x).
Proof.
  intros [F1 F2] Fx. split; unfold box_fit; cbn [box_min box_max]; apply tab_Forall; intros i _;
    destruct (s_ltb _ _); apply get_inB; auto.
Qed.

Lemma fit_box_bb b x : bb b -> bb x -> bb (@box_fit_box Z ZE b x).
Proof.
  intros [F1 F2] [G1 G2]. split; unfold box_fit_box; cbn [box_min box_max]; apply tab_Forall; intros i _;
    destruct (s_ltb _ _); apply get_inB; auto.
Qed.

Lemma fit_inverse_bb n x : Forall inB x -> bb (@box_fit Z ZE (@box_inverse_max Z ZE n) x).
Proof.
  intros Fx. split; unfold box_fit, box_inverse_max; cbn [box_min box_max]; apply tab_Forall; intros i Hi;
    unfold box_size in Hi; cbn [box_min] in Hi; unfold tab in Hi; rewrite map_length, seq_length in Hi;
    pose proof (get_inB x i Fx) as K; change (@get Z ZM x i) with (@get Z ZE x i) in K.
  - replace (@get Z ZE (tab n (fun _ => @s_max Z ZE)) i) with hi
      by (unfold get; rewrite nth_tab by exact Hi; reflexivity).
    cbn [s_ltb Int_scalar]. rewrite (proj2 (Z.ltb_lt _ _)); [exact K|unfold inB in K; lia].
  - replace (@get Z ZE (tab n (fun _ => @s_lowest Z ZE)) i) with lo
      by (unfold get; rewrite nth_tab by exact Hi; reflexivity).
    cbn [s_ltb Int_scalar]. rewrite (proj2 (Z.ltb_lt _ _)); [exact K|unfold inB in K; lia].
Qed.

Lemma bounding_bb seg : seg <> [] -> bb (@compute_bounding_box Z ZE sp seg).
Proof.
  intros NE. unfold compute_bounding_box. destruct seg as [|i seg]; [congruence|]. cbn [fold_left].
  generalize (fit_inverse_bb (sp_sdim sp) (sp_at sp i) (at_inB i)).
  generalize (@box_fit Z ZE (@box_inverse_max Z ZE (sp_sdim sp)) (sp_at sp i)).
  induction seg as [|j seg IH]; intros b Hb; cbn [fold_left]; [exact Hb|].
  apply IH; [congruence|]. apply fit_bb; [exact Hb|apply at_inB].
Qed.

Lemma root_bb bnds : sp_pts sp <> [] -> bounds_coords inB sp bnds -> bb (@box_from_bounds Z ZE sp bnds).
Proof.
  intros NE H. destruct bnds as [|mn mx]; cbn [box_from_bounds].
  - unfold sp_bounding_box. destruct (sp_pts sp) as [|p l] eqn:Ep; [congruence|]. cbn [fold_left].
    inversion PTS as [|? ? Fp Fl]; subst.
    generalize (fit_inverse_bb (sp_sdim sp) p Fp).
    generalize (@box_fit Z ZE (@box_inverse_max Z ZE (sp_sdim sp)) p). clear - Fl HB ovf.
    induction Fl as [|x l Fx Fl IH]; intros b Hb; cbn [fold_left]; [exact Hb|].
    apply IH. apply fit_bb; auto.
  - destruct H as (_ & _ & F1 & F2). apply fit_bb; [apply fit_inverse_bb|]; auto.
Qed.

Hypotheses (WF : wf_space sp) (SL : std_laws alg).

Definition br_inB (br : branch_single Z) : Prop := inB (bs_left_max br) /\ inB (bs_right_min br).

Lemma create_node_inB fuel : forall depth off seg bx nd seg' bx',
  @box_wf Z (sp_sdim sp) bx -> bb bx -> ru = midpoint_max_side \/ seg <> [] ->
  @create_node Z ZE Euclidean alg ru it stop sp fuel depth off seg bx = Ok (nd, seg', bx') ->
  bb bx' /\ every_branch (fun br _ _ => br_inB br) nd.
Proof.
  assert (OL := @exact_ord Z ZE inject_Z E_exact).
  assert (OKS := @all_coords_true Z sp).
  induction fuel as [|fuel IH]; intros depth off seg bx nd seg' bx' W Hb NE H; [discriminate|].
  pose proof (fun Hru HL => create_node_two (fun _ => True) OL sp WF OKS alg SL Euclidean ru it stop _ _ _ _ _ _ Hru W HL H) as H2.
  cbn [create_node] in H. destruct (is_leaf it stop depth (length seg)) eqn:HL.
  - okbind H. injection H as <- <- <-. split; [|exact I].
    destruct ru; [apply bounding_bb; destruct NE; auto; congruence| |apply bounding_bb; destruct NE; auto; congruence].
    destruct seg; [exact Hb|apply bounding_bb; congruence].
  - okbind H. destruct a as [[[l r] d] v].
    okbind H. destruct a as [[nl sl] lb]. okbind H. destruct a as [[nr sr] rb].
    injection H as <- <- <-.
    pose proof (proj2 (splitter_eq ru seg bx Hb) _ _ _ _ E) as Kv.
    apply (splitter_facts (fun _ => True) OL sp WF OKS alg SL) in E; auto.
    assert (NN : (ru = midpoint_max_side \/ l <> []) /\ (ru = midpoint_max_side \/ r <> [])).
    { destruct (rule_dec ru) as [Hm|Hm]; [auto|].
      destruct (sf_nonempty _ _ _ _ _ _ _ _ _ E Hm (H2 Hm eq_refl)). auto. }
    destruct Hb as [Hb1 Hb2].
    apply IH in E0 as (L1 & L2); [|apply box_set_max_wf; auto| |apply NN];
      [|split; cbn [box_set_max box_min box_max]; auto using set_nth_Forall].
    apply IH in E1 as (R1 & R2); [|apply box_set_min_wf; auto| |apply NN];
      [|split; cbn [box_set_min box_min box_max]; auto using set_nth_Forall].
    split; [apply fit_box_bb; auto|]. cbn [every_branch]. split; [|auto].
    split; cbn [set_branch bs_left_max bs_right_min]; apply get_inB; [apply L1|apply R1].
Qed.

Lemma build_eq c fuel bnds : bounds_coords inB sp bnds ->
  @build Z ZM c alg it fuel sp stop bnds ru = @build Z ZE c alg it fuel sp stop bnds ru.
Proof.
  intros HBN. unfold build.
  destruct (guard (stop_assert stop) _); cbn [bind]; try reflexivity.
  destruct (guard (0 <? sp_size sp) _) eqn:G; cbn [bind]; try reflexivity.
  change (@box_from_bounds Z ZM sp bnds) with (@box_from_bounds Z ZE sp bnds).
  rewrite create_node_eq; [reflexivity|]. apply root_bb; auto.
  unfold sp_size in G. destruct (sp_pts sp); [discriminate|congruence].
Qed.

(** ** The search *)

Variables (mM mE : metric Z) (cap : Z) (q : list Z).
Hypotheses (Hcap : (0 <= cap)%Z) (Hsum : (Z.of_nat (sp_sdim sp) * cap <= hi)%Z).
Hypothesis DIST : forall p, Forall inB p -> length p = sp_sdim sp -> m_dist mM q p = m_dist mE q p.
Hypothesis APP : forall x, (- (2 * B) <= x <= 2 * B)%Z -> m_app mM x = m_app mE x /\ (0 <= m_app mE x <= cap)%Z.
Hypothesis HQ : Forall inB q.

Lemma visit_range_eq {V} (vis : visitor Z V) l : forall st,
  @visit_range Z V mM vis sp q l st = @visit_range Z V mE vis sp q l st.
Proof.
  induction l as [|i l IH]; intros st; cbn [visit_range]; [reflexivity|].
  destruct (guard (in_space sp i) UbIndex) eqn:G; cbn [bind]; try reflexivity.
  apply guard_ok in G. rewrite DIST; [apply IH|apply at_inB|].
  apply sp_at_length; auto.
Qed.

Definition zsum (l : list Z) : Z := fold_right Z.add 0%Z l.

Lemma zsum_set l d o x : nth_error l d = Some o -> zsum (set_nth l d x) = (zsum l - o + x)%Z.
Proof.
  revert d. induction l as [|a l IH]; intros [|d]; cbn [nth_error set_nth]; try discriminate.
  - intros H. injection H as ->. unfold zsum. cbn [fold_right]. lia.
  - intros H. apply IH in H. unfold zsum in *. cbn [fold_right]. lia.
Qed.

Definition off_ok (o : list Z) : Prop := Forall (fun x => 0 <= x <= cap)%Z o.

Lemma zsum_range o : off_ok o -> (0 <= zsum o <= Z.of_nat (length o) * cap)%Z.
Proof.
  intros F. induction F as [|x o Hx F IH]; [cbn; lia|]. unfold zsum in *. cbn [fold_right length]. lia.
Qed.

Lemma search_eq {V} (vis : visitor Z V) indices nd : every_branch (fun br _ _ => br_inB br) nd ->
  forall o st, off_ok o -> length o = sp_sdim sp ->
  @search_nearest_euclidean Z ZM V mM vis sp indices q nd (zsum o) (o, st)
  = @search_nearest_euclidean Z ZE V mE vis sp indices q nd (zsum o) (o, st).
Proof.
  induction nd as [b e|br nl IHl nr IHr]; intros HBr o st Ho Lo; cbn [search_nearest_euclidean].
  - destruct (slice indices b e); cbn [bind]; try reflexivity. rewrite visit_range_eq. reflexivity.
  - destruct HBr as ((K1 & K2) & HL & HR).
    destruct (at_ q (bs_split_dim br)) as [v| |] eqn:Ev; cbn [bind]; try reflexivity.
    assert (Kv : inB v).
    { apply at_ok in Ev. apply nth_error_In in Ev. rewrite Forall_forall in HQ. auto. }
    unfold inB in K1, K2, Kv.
    cbn [s_add s_sub s_ltb s_leb s_zero Int_scalar]. rewrite !fit_id.
    rewrite (fit_in lo hi ovf (bs_left_max br + bs_right_min br)) by lia.
    rewrite (fit_in lo hi ovf (bs_left_max br + bs_right_min br - v)) by lia.
    rewrite (fit_in lo hi ovf (bs_left_max br + bs_right_min br - v - v)) by lia.
    rewrite (fit_in lo hi ovf (bs_right_min br - v)), (fit_in lo hi ovf (bs_left_max br - v)) by lia.
    destruct (APP (bs_right_min br - v) ltac:(lia)) as [-> Kr].
    destruct (APP (bs_left_max br - v) ltac:(lia)) as [-> Kl].
    set (gl := (0 <? _)%Z).
    set (no := if gl then m_app mE (bs_right_min br - v)%Z else m_app mE (bs_left_max br - v)%Z).
    assert (Kno : (0 <= no <= cap)%Z) by (unfold no; destruct gl; assumption).
    assert (E1 : @search_nearest_euclidean Z ZM V mM vis sp indices q (if gl then nl else nr) (zsum o) (o, st)
      = @search_nearest_euclidean Z ZE V mE vis sp indices q (if gl then nl else nr) (zsum o) (o, st))
      by (destruct gl; auto).
    rewrite E1. clear E1.
    destruct (@search_nearest_euclidean Z ZE V mE vis sp indices q (if gl then nl else nr) (zsum o) (o, st))
      as [[o1 st1]| |] eqn:Es; cbn [bind]; try reflexivity.
    apply euclidean_restore in Es. subst o1. cbn [fst snd].
    destruct (at_ o (bs_split_dim br)) as [oo| |] eqn:Eo; cbn [bind]; try reflexivity.
    apply at_ok in Eo.
    assert (Ho' : off_ok (set_nth o (bs_split_dim br) no)) by (apply set_nth_Forall; auto).
    assert (Lo' : length (set_nth o (bs_split_dim br) no) = sp_sdim sp) by (rewrite length_set_nth; exact Lo).
    pose proof (zsum_set o (bs_split_dim br) oo no Eo) as Hz.
    pose proof (zsum_set o (bs_split_dim br) oo 0%Z Eo) as Hz0.
    pose proof (zsum_range _ Ho') as R1. rewrite Lo' in R1.
    assert (R0 : off_ok (set_nth o (bs_split_dim br) 0%Z)) by (apply set_nth_Forall; [exact Ho|lia]).
    apply zsum_range in R0.
    rewrite length_set_nth, Lo in R0.
    rewrite !fit_id. rewrite (fit_in lo hi ovf (zsum o - oo)) by lia.
    rewrite (fit_in lo hi ovf (zsum o - oo + no)) by lia.
    destruct (_ <=? _)%Z; [|reflexivity].
    rewrite <- Hz.
    assert (E2 : @search_nearest_euclidean Z ZM V mM vis sp indices q (if gl then nr else nl)
                   (zsum (set_nth o (bs_split_dim br) no)) (set_nth o (bs_split_dim br) no, st1)
      = @search_nearest_euclidean Z ZE V mE vis sp indices q (if gl then nr else nl)
                   (zsum (set_nth o (bs_split_dim br) no)) (set_nth o (bs_split_dim br) no, st1))
      by (destruct gl; auto).
    rewrite E2. reflexivity.
Qed.

End Sim.

(** ** The two metrics *)
Section Metric.
Variables (lo hi : Z) (ovf : Z -> Z) (B : Z).
Hypotheses (HB : (0 <= B)%Z) (Hlo : (lo <= - (4 * B))%Z) (Hlo0 : (lo < 0)%Z) (Hhi : (4 * B <= hi)%Z) (Hhi1 : (1 <= hi)%Z).
Local Notation ZM := (Int_scalar lo hi ovf).
Local Notation ZE := (Int_scalar lo hi (fun x => x)).

(** The largest contribution of one coordinate. *)
Definition int_cap (em : exact_metric) : Z :=
  match em with L2Squared => (4 * (B * B))%Z | _ => (2 * B)%Z end.

Lemma sum_op_eq (opM opE : Z -> Z -> Z) cap n :
  (forall a b, inB B a -> inB B b -> opM a b = opE a b /\ (0 <= opE a b <= cap)%Z) ->
  (Z.of_nat n * cap <= hi)%Z ->
  forall q p, length q = n -> Forall (inB B) q -> Forall (inB B) p ->
  @sum_op Z ZM opM q p = @sum_op Z ZE opE q p.
Proof.
  intros OP Hn q p Lq Fq Fp. unfold sum_op.
  assert (G : forall l k acc, Forall (fun '(a, b) => inB B a /\ inB B b) l ->
    (0 <= acc <= Z.of_nat k * cap)%Z -> k + length l <= n ->
    fold_left (fun d '(a, b) => @s_add Z ZM d (opM a b)) l acc
    = fold_left (fun d '(a, b) => @s_add Z ZE d (opE a b)) l acc).
  { induction l as [|[a b] l IH]; intros k acc F Ha Hk; cbn [fold_left]; [reflexivity|].
    pose proof (Forall_inv F) as Fab. pose proof (Forall_inv_tail F) as Fl. cbn beta iota in Fab. destruct Fab as [Fa Fb].
    destruct (OP a b Fa Fb) as [-> Ho].
    cbn [length] in Hk. cbn [s_add Int_scalar]. rewrite fit_id.
    assert (0 <= acc + opE a b <= Z.of_nat (S k) * cap)%Z by lia.
    rewrite fit_in; [|split; [lia|]].
    - apply (IH (S k)); auto. lia.
    - assert (Z.of_nat (S k) * cap <= Z.of_nat (length q) * cap)%Z by (apply Z.mul_le_mono_nonneg_r; lia). lia. }
  apply (G _ 0).
  - clear - Fq Fp. revert p Fp. induction Fq as [|a q Fa Fq IH]; intros p Fp; [constructor|].
    destruct Fp as [|b p Fb Fp]; cbn [combine]; constructor; auto.
  - cbn. lia.
  - rewrite combine_length. lia.
Qed.

Lemma square_le x c : (- c <= x <= c)%Z -> (0 <= x * x <= c * c)%Z.
Proof. clear. intros H. nia. Qed.

Lemma metric_eq em n : em = L1 \/ em = L2Squared -> 1 <= n -> (Z.of_nat n * int_cap em <= hi)%Z ->
  (forall q p, length q = n -> Forall (inB B) q -> Forall (inB B) p ->
     m_dist (@metric_of Z ZM em) q p = m_dist (@metric_of Z ZE em) q p)
  /\ (forall x, (- (2 * B) <= x <= 2 * B)%Z ->
       m_app (@metric_of Z ZM em) x = m_app (@metric_of Z ZE em) x
       /\ (0 <= m_app (@metric_of Z ZE em) x <= int_cap em)%Z).
Proof.
  intros Hem Hn Hc.
  assert (Hcap : (0 <= int_cap em)%Z) by (destruct Hem; subst; cbn [int_cap]; nia).
  assert (Hc1 : (int_cap em <= hi)%Z) by nia.
  destruct Hem; subst em; cbn [metric_of m_dist m_app metric_l1 metric_l2_squared int_cap] in *; split.
  - apply sum_op_eq with (cap := (2 * B)%Z); [|exact Hc].
    intros a b Ha Hb. unfold inB in *. unfold r1_distance. cbn [s_abs s_sub Int_scalar].
    rewrite !fit_id, !(fit_in lo hi ovf (a - b)) by lia. rewrite fit_in by lia. split; [reflexivity|lia].
  - intros x Hx. cbn [s_abs Int_scalar]. rewrite fit_id, fit_in by lia. split; [reflexivity|lia].
  - apply sum_op_eq with (cap := (4 * (B * B))%Z); [|exact Hc].
    intros a b Ha Hb. unfold inB in *. unfold squared_r1_distance, squared. cbn [s_mul s_sub Int_scalar].
    rewrite !fit_id, !(fit_in lo hi ovf (a - b)) by lia.
    pose proof (square_le (a - b) (2 * B) ltac:(lia)).
    rewrite fit_in by lia. split; [reflexivity|lia].
  - intros x Hx. unfold squared. cbn [s_mul Int_scalar].
    pose proof (square_le x (2 * B) ltac:(lia)).
    rewrite fit_id, fit_in by lia. split; [reflexivity|lia].
Qed.
End Metric.
