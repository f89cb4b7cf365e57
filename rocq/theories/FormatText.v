(** Proofs about the file formats: text and poses. *)
From Coq Require Import Ascii String List ZArith Bool Arith Reals Lia Lra.
From Verif Require Import Base ModelSerial ModelFormat SpecSerial SpecFormat SpecReal FormatThms.
Import ListNotations.
Local Open Scope nat_scope.

(** * Lines *)
Lemma read_lines_line l rest cur : ~ In 10%Z l ->
  read_lines (l ++ 10%Z :: rest) cur = (rev cur ++ l) :: read_lines rest [].
Proof.
  revert cur. induction l as [|ch l IH]; intros cur H; cbn [app read_lines].
  - rewrite Z.eqb_refl, app_nil_r. reflexivity.
  - destruct (Z.eqb_spec ch 10) as [E|E]; [exfalso; apply H; left; assumption|].
    rewrite IH by (intros C; apply H; right; assumption). cbn [rev]. rewrite <- app_assoc. reflexivity.
Qed.

Lemma read_lines_last l cur : ~ In 10%Z l -> rev cur ++ l <> [] -> read_lines l cur = [rev cur ++ l].
Proof.
  revert cur. induction l as [|ch l IH]; intros cur H HN; cbn [read_lines].
  - destruct cur; [cbn in HN; congruence|]. rewrite app_nil_r. reflexivity.
  - destruct (Z.eqb_spec ch 10) as [E|E]; [exfalso; apply H; left; assumption|].
    rewrite IH; [cbn [rev]; rewrite <- app_assoc; reflexivity|intros C; apply H; right; assumption|].
    cbn [rev]. rewrite <- app_assoc. assumption.
Qed.

Lemma read_lines_text ls last : Forall (fun l => ~ In 10%Z l) ls -> ~ In 10%Z last ->
  read_lines (flat_map (fun l => l ++ [10%Z]) ls ++ last) []
  = ls ++ (match last with [] => [] | _ :: _ => [last] end).
Proof.
  intros H HL. induction H as [|l ls Hl H IH]; cbn [flat_map app].
  - destruct last as [|ch r] eqn:E; [reflexivity|]. rewrite <- E in *. rewrite read_lines_last; [reflexivity|assumption|].
    rewrite E. cbn. discriminate.
  - rewrite <- !app_assoc. cbn [app]. rewrite read_lines_line by assumption. cbn [rev app]. rewrite IH. reflexivity.
Qed.

(** * Words *)
Lemma is_space_iff ch : is_space ch = true <-> white ch.
Proof.
  unfold is_space, white. rewrite orb_true_iff, andb_true_iff, Z.eqb_eq, !Z.leb_le. reflexivity.
Qed.
Lemma not_space ch : ~ white ch -> is_space ch = false.
Proof. intros H. apply not_true_is_false. rewrite is_space_iff. exact H. Qed.

Lemma drop_blank s t : Forall (fun ch => is_space ch = true) s ->
  match t with [] => True | ch :: _ => is_space ch = false end ->
  drop_while is_space (s ++ t) = t.
Proof.
  intros H Ht. induction H as [|ch s Hc H IH]; cbn [app drop_while].
  - destruct t; [reflexivity|]. cbn. rewrite Ht. reflexivity.
  - rewrite Hc. assumption.
Qed.

Lemma take_word w more : Forall (fun ch => is_space ch = false) w ->
  match more with [] => True | ch :: _ => is_space ch = true end ->
  take_while (fun ch => negb (is_space ch)) (w ++ more) = w
  /\ drop_while (fun ch => negb (is_space ch)) (w ++ more) = more.
Proof.
  intros H Hm. induction H as [|ch w Hc H [IH1 IH2]]; cbn [app].
  - destruct more; [auto|]. cbn. rewrite Hm. auto.
  - cbn. rewrite Hc. cbn. rewrite IH1, IH2. auto.
Qed.

Lemma extract_word_one s w more v : is_blank s -> is_word w ->
  match more with [] => True | ch :: _ => is_space ch = true end ->
  extract_word (s ++ w ++ more) v = (w, more).
Proof.
  intros Hs [Hn Hw0] Hm. unfold extract_word.
  assert (Hw : Forall (fun ch => is_space ch = false) w) by (eapply Forall_impl; [|exact Hw0]; exact not_space).
  assert (Hs' : Forall (fun ch => is_space ch = true) s) by (eapply Forall_impl; [|exact Hs]; cbn; intros ch [Hc _]; apply is_space_iff; exact Hc).
  assert (HH : match w ++ more with [] => True | ch :: _ => is_space ch = false end).
  { destruct w; [congruence|]. inversion Hw; subst. assumption. }
  rewrite drop_blank by assumption. destruct (take_word w more Hw Hm) as [E1 E2].
  rewrite E1, E2. destruct (w ++ more) as [|? ?] eqn:E; [|reflexivity].
  destruct w; [congruence|discriminate].
Qed.

Lemma blank_head s t : is_blank s -> s <> [] -> match s ++ t with [] => True | ch :: _ => is_space ch = true end.
Proof. intros H HN. destruct s; [congruence|]. inversion H; subst. cbn. apply is_space_iff. tauto. Qed.

Section Parse.
Context {T : Type} {S : Scalar T} (strtod : list Z -> T).

Lemma parse_line line w1 w2 w3 : scan_line line w1 w2 w3 ->
  parse_point strtod line = [strtod w1; strtod w2; strtod w3].
Proof.
  intros (s0 & s1 & s2 & more & -> & W1 & W2 & W3 & B0 & B1 & B2 & N1 & N2 & HM & _). unfold parse_point.
  rewrite (extract_word_one s0 w1) by (assumption || (apply blank_head; assumption)).
  rewrite (extract_word_one s1 w2) by (assumption || (apply blank_head; assumption)).
  rewrite (extract_word_one s2 w3); [reflexivity|assumption|assumption|].
  destruct HM as [->|(ch & r & -> & H)]; [exact I|apply is_space_iff; assumption].
Qed.

Lemma word_no_newline w : is_word w -> ~ In 10%Z w.
Proof. intros [_ H] C. rewrite Forall_forall in H. apply H in C. apply C. right. lia. Qed.
Lemma blank_no_newline s : is_blank s -> ~ In 10%Z s.
Proof. intros H C. unfold is_blank in H. rewrite Forall_forall in H. apply H in C. tauto. Qed.

Lemma scan_line_no_newline line w1 w2 w3 : scan_line line w1 w2 w3 -> ~ In 10%Z line.
Proof.
  intros (s0 & s1 & s2 & more & -> & W1 & W2 & W3 & B0 & B1 & B2 & _ & _ & _ & HM) C.
  repeat (apply in_app_or in C; destruct C as [C|C]; [revert C; first [apply word_no_newline; assumption | apply blank_no_newline; assumption]|]).
  contradiction.
Qed.

Lemma scan_line_nonempty line w1 w2 w3 : scan_line line w1 w2 w3 -> line <> [].
Proof.
  intros (s0 & s1 & s2 & more & -> & [W1 _] & _) C. apply app_eq_nil in C as [_ C]. apply app_eq_nil in C as [C _]. congruence.
Qed.

(** One point per line; the last line may lack its end. *)
Lemma read_scan_lines pose (ls : list (list Z * (list Z * list Z * list Z))) (ended : bool) :
  Forall (fun '(l, (w1, w2, w3)) => scan_line l w1 w2 w3) ls ->
  read_scan strtod pose
    (if ended then flat_map (fun l => fst l ++ [10%Z]) ls
     else match rev ls with
          | [] => []
          | l :: r => flat_map (fun l => fst l ++ [10%Z]) (rev r) ++ fst l
          end)
  = map (fun '(_, (w1, w2, w3)) => transform pose [strtod w1; strtod w2; strtod w3]) ls.
Proof.
  intros H.
  assert (HN : Forall (fun l => ~ In 10%Z l) (map fst ls)).
  { rewrite Forall_map. eapply Forall_impl; [|exact H]. intros [l [[w1 w2] w3]] HS. eapply scan_line_no_newline. exact HS. }
  assert (EM : forall l : list (list Z * (list Z * list Z * list Z)),
            flat_map (fun l => fst l ++ [10%Z]) l = flat_map (fun l => l ++ [10%Z]) (map fst l)).
  { induction l; cbn; [reflexivity|]. rewrite IHl. reflexivity. }
  assert (EL : read_lines (if ended then flat_map (fun l => fst l ++ [10%Z]) ls
     else match rev ls with
          | [] => []
          | l :: r => flat_map (fun l => fst l ++ [10%Z]) (rev r) ++ fst l
          end) [] = map fst ls).
  { destruct ended.
    - rewrite EM. rewrite <- (app_nil_r (flat_map _ _)). rewrite (read_lines_text _ [] HN) by (intros []).
      apply app_nil_r.
    - destruct (rev ls) as [|l r] eqn:E.
      + apply (f_equal (@rev _)) in E. rewrite rev_involutive in E. rewrite E. reflexivity.
      + assert (E' : ls = rev r ++ [l]) by (rewrite <- (rev_involutive ls), E; reflexivity).
        rewrite E' in H, HN |- *. rewrite map_app in HN. apply Forall_app in HN as [HN1 HN2].
        apply Forall_app in H as [_ H2]. inversion H2 as [|? ? H3 _]; subst. inversion HN2; subst.
        rewrite EM, read_lines_text by assumption. rewrite map_app. cbn [map].
        destruct l as [l [[w1 w2] w3]]. cbn [fst] in *. destruct l; [|reflexivity].
        exfalso. eapply scan_line_nonempty; [exact H3|reflexivity]. }
  unfold read_scan. rewrite EL, map_map. apply map_ext_in. intros [l [[w1 w2] w3]] Hin.
  rewrite Forall_forall in H. specialize (H _ Hin). cbn [fst]. rewrite (parse_line l w1 w2 w3) by exact H. reflexivity.
Qed.

(** * Directories *)
Variables (num_get : list Z -> extraction T) (sin_ cos_ : T -> T) (deg_to_rad : T).

Lemma dir_find_in dir name b : NoDup (map fst dir) -> In (name, b) dir -> dir_find dir name = Some b.
Proof.
  unfold dir_find. induction dir as [|[n b'] dir IH]; intros HD HI; [destruct HI|].
  cbn [map fst] in HD. inversion HD; subst. cbn [find fst]. destruct (chars_eqb n name) eqn:E.
  - apply chars_eqb_eq in E. subst. destruct HI as [HI|HI]; [congruence|].
    exfalso. apply H1. change name with (fst (name, b)). apply in_map. assumption.
  - destruct HI as [HI|HI]; [|apply IH; assumption]. inversion HI; subst.
    exfalso. assert (chars_eqb name name = true) by (apply chars_eqb_eq; reflexivity). congruence.
Qed.

Lemma pose_name_3d stem : is_scan_name (stem ++ chars ".3d") = true -> pose_name (stem ++ chars ".3d") = stem ++ chars ".pose".
Proof.
  intros H. assert (L : length stem = 7).
  { assert (L : length (stem ++ chars ".3d") = 10).
    { unfold is_scan_name in H. destruct (stem ++ chars ".3d") as [|a1 [|a2 [|a3 [|a4 [|a5 [|a6 [|a7 [|a8 [|a9 [|a10 [|]]]]]]]]]]]; try discriminate. reflexivity. }
    rewrite app_length in L. change (length (chars ".3d")) with 3 in L. lia. }
  unfold pose_name. rewrite app_nth2 by lia. rewrite L. cbn [Nat.sub].
  change (nth 0 (chars ".3d") 0 =? 46)%Z with true. cbv iota.
  rewrite firstn_app, L, Nat.sub_diag, firstn_O, app_nil_r, firstn_all2 by lia. reflexivity.
Qed.

Lemma read_scans_all {U} (cast : T -> U) dir scans pts (pose_of : list Z -> isometry) :
  NoDup (map fst dir) ->
  (forall name text, In (name, text) scans ->
     is_scan_name name = true
     /\ exists stem ptext, name = stem ++ chars ".3d" /\ In (stem ++ chars ".pose", ptext) dir
        /\ read_pose num_get sin_ cos_ deg_to_rad ptext = Ok (pose_of name)) ->
  read_scans strtod num_get sin_ cos_ deg_to_rad cast dir scans pts
  = Ok (inr (pts ++ flat_map (fun f => map (map cast) (read_scan strtod (pose_of (fst f)) (snd f))) scans)).
Proof.
  intros HD. revert pts. induction scans as [|[name text] scans IH]; intros pts H; cbn [read_scans flat_map].
  - rewrite app_nil_r. reflexivity.
  - destruct (H name text (or_introl eq_refl)) as (HN & stem & ptext & -> & HI & HP).
    rewrite pose_name_3d by assumption. rewrite (dir_find_in dir _ _ HD HI). cbn [io_ret io_bind bind].
    rewrite HP. cbn [io_lift io_bind bind]. rewrite IH.
    + cbn [fst snd]. rewrite <- app_assoc. reflexivity.
    + intros n t Hin. apply (H n t). right. assumption.
Qed.

Lemma read_uosr_all {U} (cast : T -> U) dir pts (pose_of : list Z -> isometry) :
  NoDup (map fst dir) ->
  (forall name text, In (name, text) dir -> is_scan_name name = true ->
     exists stem ptext, name = stem ++ chars ".3d" /\ In (stem ++ chars ".pose", ptext) dir
        /\ read_pose num_get sin_ cos_ deg_to_rad ptext = Ok (pose_of name)) ->
  read_uosr strtod num_get sin_ cos_ deg_to_rad cast (Some dir) pts
  = Ok (inr (pts ++ flat_map (fun f => map (map cast) (read_scan strtod (pose_of (fst f)) (snd f)))
                     (filter (fun f => is_scan_name (fst f)) dir))).
Proof.
  intros HD H. unfold read_uosr. apply read_scans_all; [assumption|].
  intros name text Hin. apply filter_In in Hin as [Hin HN]. split; [exact HN|]. apply (H name text Hin HN).
Qed.

(** * write_ascii *)
Variable (print : T -> list Z).

Lemma ascii_line p : length p = 3 -> (forall x, In x p -> is_word (print x)) ->
  scan_line (print_point print p) (print (get p 0)) (print (get p 1)) (print (get p 2)).
Proof.
  destruct p as [|x [|y [|z [|]]]]; try discriminate. intros _ H.
  exists [], (chars " "), (chars " "), []. unfold print_point, get. cbn [flat_map nth app].
  split; [rewrite !app_nil_r, <- !app_assoc; reflexivity|].
  split; [apply H; cbn; auto|]. split; [apply H; cbn; auto|]. split; [apply H; cbn; auto|].
  assert (B : is_blank (chars " ")) by (vm_compute; repeat constructor; congruence).
  split; [constructor|]. split; [exact B|]. split; [exact B|]. split; [discriminate|]. split; [discriminate|].
  split; [left; reflexivity|]. intros [].
Qed.

Lemma ascii_round_trip name v fs : v <> [] -> Forall (fun p => length p = 3) v ->
  (forall p x, In p v -> In x p -> is_word (print x) /\ strtod (print x) = x) ->
  fs_writable fs name = true ->
  exists fs' bytes, write_ascii print name v fs = Ok (inr fs')
    /\ fs_bytes fs' name = Some bytes
    /\ (forall other, other <> name -> fs_bytes fs' other = fs_bytes fs other)
    /\ map (parse_point strtod) (read_lines bytes []) = v.
Proof.
  intros HN HL HP HW. unfold write_ascii, write_file. rewrite HW. destruct v as [|p0 v0] eqn:Ev; [congruence|].
  rewrite <- Ev in *. clear HN.
  eexists. eexists. split; [reflexivity|]. cbn [fs_bytes]. split.
  { destruct (chars_eqb name name) eqn:E; [reflexivity|].
    exfalso. assert (chars_eqb name name = true) by (apply chars_eqb_eq; reflexivity). congruence. }
  split.
  { intros other HO. destruct (chars_eqb other name) eqn:E; [|reflexivity]. apply chars_eqb_eq in E. congruence. }
  assert (HS : forall p, In p v -> scan_line (print_point print p) (print (get p 0)) (print (get p 1)) (print (get p 2))).
  { intros p Hp. rewrite Forall_forall in HL. apply ascii_line; [apply HL; assumption|]. intros x Hx. apply (HP p x Hp Hx). }
  assert (EM : flat_map (fun p => print_point print p ++ [10%Z]) v
               = flat_map (fun l => l ++ [10%Z]) (map (print_point print) v)).
  { clear. induction v; cbn; [reflexivity|]. rewrite IHv. reflexivity. }
  rewrite EM, <- (app_nil_r (flat_map _ _)), read_lines_text.
  - rewrite app_nil_r, map_map. rewrite <- (map_id v) at 2. apply map_ext_in. intros p Hp.
    rewrite (parse_line _ _ _ _ (HS p Hp)). rewrite Forall_forall in HL. specialize (HL p Hp).
    destruct p as [|x [|y [|z [|]]]]; try discriminate. unfold get. cbn [nth].
    destruct (HP _ x Hp ltac:(cbn; auto)) as [_ ->]. destruct (HP _ y Hp ltac:(cbn; auto)) as [_ ->].
    destruct (HP _ z Hp ltac:(cbn; auto)) as [_ ->]. reflexivity.
  - rewrite Forall_map, Forall_forall. intros p Hp. eapply scan_line_no_newline. apply HS. assumption.
  - intros [].
Qed.
End Parse.

(** * Poses *)
Section Pose.
Variable (mx : R).
Local Instance RS : Scalar R := R_scalar mx.
Local Open Scope R_scope.

Lemma euler_isometry (e t p q : list R) :
  sq_dist3 (transform (from_euler sin cos e t) p) (transform (from_euler sin cos e t) q) = sq_dist3 p q.
Proof.
  unfold sq_dist3, transform, from_euler, get. cbn -[Rplus Rmult Rminus sin cos].
  pose proof (sin2_cos2 (nth 0 e 0)) as Hx. pose proof (sin2_cos2 (nth 1 e 0)) as Hy. pose proof (sin2_cos2 (nth 2 e 0)) as Hz.
  unfold Rsqr in *.
  generalize dependent (sin (nth 0 e 0)). generalize dependent (sin (nth 1 e 0)). generalize dependent (sin (nth 2 e 0)).
  generalize (cos (nth 0 e 0)). generalize (cos (nth 1 e 0)). generalize (cos (nth 2 e 0)).
  intros cz cy cx sz Hz sy Hy sx Hx.
  assert (Hx' : sx * sx = 1 - cx * cx) by lra. assert (Hy' : sy * sy = 1 - cy * cy) by lra.
  assert (Hz' : sz * sz = 1 - cz * cz) by lra.
  set (p0 := nth 0 p 0). set (p1 := nth 1 p 0). set (p2 := nth 2 p 0).
  set (q0 := nth 0 q 0). set (q1 := nth 1 q 0). set (q2 := nth 2 q 0).
  ring [Hx' Hy' Hz'].
Qed.

Lemma euler_orientation (e t o p q r : list R) :
  let f := transform (from_euler sin cos e t) in
  orient3 (f o) (f p) (f q) (f r) = orient3 o p q r.
Proof.
  unfold orient3, transform, from_euler, get. cbn -[Rplus Rmult Rminus sin cos].
  pose proof (sin2_cos2 (nth 0 e 0)) as Hx. pose proof (sin2_cos2 (nth 1 e 0)) as Hy. pose proof (sin2_cos2 (nth 2 e 0)) as Hz.
  unfold Rsqr in *.
  generalize dependent (sin (nth 0 e 0)). generalize dependent (sin (nth 1 e 0)). generalize dependent (sin (nth 2 e 0)).
  generalize (cos (nth 0 e 0)). generalize (cos (nth 1 e 0)). generalize (cos (nth 2 e 0)).
  intros cz cy cx sz Hz sy Hy sx Hx.
  assert (Hx' : sx * sx = 1 - cx * cx) by lra. assert (Hy' : sy * sy = 1 - cy * cy) by lra.
  assert (Hz' : sz * sz = 1 - cz * cz) by lra.
  ring [Hx' Hy' Hz'].
Qed.
End Pose.

Section Pose2.
Variable (mx : R).
Local Instance RS2 : Scalar R := R_scalar mx.
Local Open Scope R_scope.

Lemma euler_rotations (e t p : list R) :
  transform (from_euler sin cos e t) p
  = let r := rot_x (nth 0 e 0) (rot_y (nth 1 e 0) (rot_z (nth 2 e 0) p)) in
    [nth 0 r 0 + nth 0 t 0; nth 1 r 0 + nth 1 t 0; nth 2 r 0 + nth 2 t 0].
Proof.
  unfold transform, from_euler, get, rot_x, rot_y, rot_z. cbn -[Rplus Rmult Rminus sin cos].
  f_equal; [ring|]. f_equal; [ring|]. f_equal. ring.
Qed.

Lemma scan_numbers {T} (num_get : list Z -> extraction T) xs text rest :
  numbers_in num_get xs text rest -> scan_doubles num_get (length xs) text = Ok xs.
Proof.
  revert text. induction xs as [|x xs IH]; intros text H; [reflexivity|].
  destruct H as (more & E & H). cbn [length scan_doubles]. rewrite E, IH by exact H. reflexivity.
Qed.

(** Every pose that is read is such a motion. *)
Lemma pose_motion num_get deg text pose :
  read_pose num_get sin cos deg text = Ok pose ->
  exists t e, pose = from_euler sin cos (map (fun x => x * deg) e) t.
Proof.
  unfold read_pose. destruct (scan_doubles num_get 6 text) as [xs| |] eqn:E; cbn [bind]; try discriminate.
  intros H. inversion H; subst. exists (firstn 3 xs), (skipn 3 xs). reflexivity.
Qed.

Lemma scan_distances strtod num_get deg ptext pose :
  read_pose num_get sin cos deg ptext = Ok pose ->
  forall p q o r,
  let f := transform pose in
  sq_dist3 (f p) (f q) = sq_dist3 p q /\ orient3 (f o) (f p) (f q) (f r) = orient3 o p q r
  /\ (forall text, length (read_scan strtod pose text) = length (read_lines text [])).
Proof.
  intros H p q o r. cbv zeta. destruct (pose_motion _ _ _ _ H) as (t & e & ->).
  split; [apply euler_isometry|]. split; [apply euler_orientation|].
  intros text. unfold read_scan. apply map_length.
Qed.
End Pose2.
