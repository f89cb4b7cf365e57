(** Programs for the examples of PropThrow.v, and truncated files. *)
From Coq Require Import List ZArith Bool Arith Permutation Lia.
From Verif Require Import Base ModelBox ModelBuild ModelSearch ModelSerial ModelMemory ModelHeap ModelThrow Spec SpecHeap SpecThrow SpecSerial
  Instances BuildThms SerialThms Examples HeapTop HeapEx ThrowTop.
Import ListNotations.
Local Open Scope nat_scope.

Theorem truncated_throws (T : Type) (SC : Scalar T) (little : bool) (it : index_type) (tc : codec T) (fit : T -> Prop)
    (sp : space T) (alg : std_algos) (pads : nat -> nat -> Z) (m : metric T) (fuel : nat)
    (stop : stop_condition) (bnds : start_bounds T) (ru : rule) (tree : kd_tree T) (p lost : list Z)
    (mp : moved_parts T) (ops : list (tree_op T * faults)) (w : world m) (l : list (option (answer T) * bool)) (x : nat) (sp' : space T) :
  (0 < it_bits it <= 64)%Z -> (it_bits it mod 8 = 0)%Z -> codec_ok tc fit -> decodes tc ->
  ord_laws SC fit -> wf_space sp -> all_coords fit sp -> std_laws alg -> std_in_place alg ->
  (ru = midpoint_max_side -> mid_ok SC fit) -> bounds_coords fit sp bnds ->
  (Z.of_nat (sp_sdim sp) < 2 ^ 31)%Z -> (Z.of_nat (length (sp_pts sp)) <= it_max it)%Z ->
  kd_tree_make alg it m fuel sp stop bnds ru = Ok tree ->
  p ++ lost = kd_tree_save little it tc pads tree -> lost <> [] ->
  try_run alg little it tc m mp fuel (tree_start m) ops = Ok (w, l) -> w_obj w x = None ->
  exists w', try_step alg little it tc m mp fuel w (TLoad x sp' p) throwing_stream = Ok (w', None, true) /\ unharmed w w'.
Proof.
  intros [H0 H64] H8 HT DC OL WF OKS SL AL HM HB HS HL H E N R EX.
  pose proof (tree_load_prefix little it tc fit H0 H8 HT sp alg OL WF OKS SL pads m fuel stop bnds ru tree p lost
           HM HB HS HL H64 H E N) as P.
  assert (PD : load_data little it tc (m_cat m) (Some p) = Ub UbShortRead).
  { unfold kd_tree_load in P. destruct (load_data little it tc (m_cat m) (Some p)) as [[d s]| |]; cbn [bind] in P; congruence. }
  pose proof (stream_throws alg little it tc m mp fuel AL DC ops w l x sp' p R EX) as S. rewrite PD in S. exact S.
Qed.

Lemma ex_decodes : decodes ex_codec.
Proof. intros b. cbn. discriminate. Qed.

(** Nothing goes wrong. *)
Definition no_fault : faults := Faults (fun _ => false) (fun _ => false) (fun _ _ _ => false) false.
(** The box of the root cannot be copied for the right child. *)
Definition bad_copy : faults := Faults (fun _ => false) (fun _ => false) (fun d _ _ => d =? 0) false.
(** The root box cannot be copied into the finished tree. *)
Definition bad_end : faults := Faults (fun k => k =? 3) (fun _ => false) (fun _ _ _ => false) false.

Definition ex_try (ops : list (tree_op Z * faults)) :=
  @try_run Z Z32 std_example true it_int ex_codec ex_m emptied 500 (tree_start ex_m) ops.

(** A tree; one of 399 nodes, which needs two chunks, with memory for one of them;
    a question; the second tree again, which fails twice more before it is
    made; a file without its last byte. *)
Definition ex_attempts : list (tree_op Z * faults) :=
  [(ex_build 0 ex_int 2, no_fault); (ex_build 1 ex_line 1, memory_for 1 1); (ex_near 0 [6; 1]%Z, no_fault);
   (ex_build 1 ex_line 1, bad_copy); (ex_build 1 ex_line 1, bad_end); (ex_build 1 ex_line 1, no_fault);
   (TLoad 2 ex_int (removelast ex_saved), throwing_stream); (ex_near 1 [6]%Z, no_fault); (ex_near 0 [6; 1]%Z, no_fault)].
Definition ex_over : list (tree_op Z * faults) := [(TDestroy 0, no_fault); (TDestroy 1, no_fault)].
