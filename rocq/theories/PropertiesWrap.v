(** Property theorems about sizes no buffer can have.  A caller may pass any
    [usize].  In a debug build the theorems on the parsers cover every one of
    them; in a release build those of PropertiesParser.v stop at [isize::MAX],
    beyond which the position may wrap (F1).  Here is what release builds do with
    every [usize], exactly, and which properties fail there. *)
From Verif Require Import Base ModelErrors ModelSplitVec ModelParser SpecParser SpecWrap
  ProofParserProps ProofWrap.

(** *** C02 *)

(** Every history with every [usize], equal to the machine that computes
    positions modulo 2^64.  Partial: that is not the stack of byte lists. *)
Theorem C02_release_exact_partial : forall buf ops,
  zlen buf <= isize_max -> Forall arg_ok ops ->
  history (byte_h Release) ops (bp_from_buffer buf) = history (tape_h false buf) ops tape_init.
Proof. exact release_exact. Qed.
Print Assumptions C02_release_exact_partial.

(** The machine at work: a window opened by wrapping ends before the position.
    Its remainder is reported as 2^64 - 1, no byte of it can be read, skipping one
    panics, and skipping 2^64 - 1 moves back to its end. *)
Definition wrapping_ops : list any_op :=
  [AnyOp (OpConsume 2); AnyOp (OpSetFit (2 ^ 64 - 1)); AnyOp OpRemainder; AnyOp OpConsumeByte;
   AnyOp (OpSkip (2 ^ 64 - 1)); AnyOp OpTestTarget; AnyOp OpEnforceTarget; AnyOp OpConsumeByte].
Example wrapping_works :
  Forall arg_ok wrapping_ops /\ Forall arg_ok [AnyOp (OpConsume 2); AnyOp (OpSetFit (2 ^ 64 - 1)); AnyOp (OpSkip 1)] /\
  history (byte_h Release) wrapping_ops (bp_from_buffer [10; 20; 30]) =
    [ObsBytes [10; 20]; ObsUnit; ObsNum (2 ^ 64 - 1); ObsFail; ObsNum (2 ^ 64 - 1); ObsBool true; ObsUnit; ObsByte 20] /\
  history (byte_h Release) [AnyOp (OpConsume 2); AnyOp (OpSetFit (2 ^ 64 - 1)); AnyOp (OpSkip 1)]
    (bp_from_buffer [10; 20; 30]) = [ObsBytes [10; 20]; ObsUnit; ObsPanic].
Proof.
  split; [repeat constructor; vm_compute; (discriminate || reflexivity)|].
  split; [repeat constructor; vm_compute; (discriminate || reflexivity)|].
  split; vm_compute; reflexivity.
Qed.

(** *** C01 *)

(** [consume] of every [usize] in every state of a release build that calls with
    any [usize] lead to: granted in the cases of the property; refused otherwise,
    except that a sum beyond 2^64 may fall back under the limit, and then the
    call reads outside the buffer. *)
Theorem C01_release_consume_partial : forall buf ops p n,
  zlen buf <= isize_max -> Forall arg_ok ops -> is_usize n ->
  after (byte_h Release) ops (bp_from_buffer buf) = Some p ->
  (bp_offset p + n <= bp_view_len p -> exists p',
     byte_h Release _ (OpConsume n) p = (ROk (zslice (bp_offset p) (bp_offset p + n) buf), p') /\
     bp_offset p' = bp_offset p + n /\ bp_view_len p' = bp_view_len p) /\
  (bp_view_len p < bp_offset p + n < 2 ^ 64 \/ 2 ^ 64 + bp_view_len p < bp_offset p + n ->
     exists e, byte_h Release _ (OpConsume n) p = (RErr e, p)) /\
  (2 ^ 64 <= bp_offset p + n <= 2 ^ 64 + bp_view_len p ->
     fst (byte_h Release _ (OpConsume n) p) = RUB).
Proof. exact release_consume. Qed.
Print Assumptions C01_release_consume_partial.

(** All three cases occur in one state. *)
Example release_consume_works :
  exists p, after (byte_h Release) [AnyOp (OpConsume 2)] (bp_from_buffer [10; 20; 30]) = Some p /\
    fst (byte_h Release _ (OpConsume 1) p) = ROk [30] /\
    (exists e, fst (byte_h Release _ (OpConsume 2) p) = RErr e) /\
    fst (byte_h Release _ (OpConsume (2 ^ 64 - 2)) p) = RUB.
Proof.
  eexists. split; [vm_compute; reflexivity|]. split; [vm_compute; reflexivity|].
  split; [eexists; vm_compute; reflexivity|]. vm_compute. reflexivity.
Qed.

(** *** C08 *)

(** Exactly when a history of a ByteParser in a release build reads outside the
    buffer: some [consume] asks for so much that position plus size passes 2^64
    and falls back to at most the end of the window. *)
Theorem C08_release_exactly_partial : forall buf ops,
  zlen buf <= isize_max -> Forall arg_ok ops ->
  (In ObsUB (history (byte_h Release) ops (bp_from_buffer buf)) <->
   exists before n later p, ops = before ++ AnyOp (OpConsume n) :: later /\
     after (byte_h Release) before (bp_from_buffer buf) = Some p /\
     2 ^ 64 <= bp_offset p + n <= 2 ^ 64 + bp_view_len p).
Proof. exact release_ub_exactly. Qed.
Print Assumptions C08_release_exactly_partial.

(** A MemoParser can also do so without such a [consume], when a call is refused
    and it prints its log. *)
Theorem C08_release_memo_refuted : exists buf ops,
  zlen buf <= isize_max /\ Forall arg_ok ops /\
  Forall (fun a => match a with AnyOp (OpConsume n) => 0 <= n <= isize_max | _ => True end) ops /\
  In ObsUB (history (memo_h Release) ops (mp_from_buffer buf)).
Proof.
  exists [10; 20; 30], [AnyOp (OpConsume 2); AnyOp (OpSetFit (2 ^ 64 - 1)); AnyOp (OpSkip (2 ^ 64 - 1)); AnyOp OpConsumeByte].
  split; [vm_compute; discriminate|].
  split; [repeat constructor; vm_compute; (discriminate || reflexivity)|].
  split; [repeat constructor; vm_compute; (discriminate || reflexivity)|].
  vm_compute. tauto.
Qed.
Print Assumptions C08_release_memo_refuted.

(** *** C03 *)

Theorem C03_release_exact_partial : forall buf ops,
  zlen buf <= isize_max -> Forall arg_ok ops ->
  history (memo_h Release) ops (mp_from_buffer buf) = history (tape_h true buf) ops tape_init.
Proof. exact release_exact_memo. Qed.
Print Assumptions C03_release_exact_partial.

(** With any [usize], the two agree as long as no call is refused. *)
Theorem C03_release_granted_partial : forall buf ops,
  zlen buf <= isize_max -> Forall arg_ok ops ->
  ~ In ObsFail (history (byte_h Release) ops (bp_from_buffer buf)) ->
  ~ In ObsPanic (history (byte_h Release) ops (bp_from_buffer buf)) ->
  history (memo_h Release) ops (mp_from_buffer buf) = history (byte_h Release) ops (bp_from_buffer buf).
Proof. exact memo_until_refused. Qed.
Print Assumptions C03_release_granted_partial.

Example release_granted_works :
  history (byte_h Release) [AnyOp (OpConsume 3); AnyOp (OpSkipExactly (2 ^ 64 - 3)); AnyOp (OpConsume 3)]
    (bp_from_buffer [1; 2; 3; 4]) = [ObsBytes [1; 2; 3]; ObsUnit; ObsBytes [1; 2; 3]].
Proof. vm_compute. reflexivity. Qed.

(** Then a refusal is an error of one and a panic of the other: the log, printed
    on the way out, no longer fits the buffer. *)
Theorem C03_release_refuted : exists buf ops,
  zlen buf <= isize_max /\ Forall arg_ok ops /\
  In ObsPanic (history (memo_h Release) ops (mp_from_buffer buf)) /\
  ~ In ObsPanic (history (byte_h Release) ops (bp_from_buffer buf)).
Proof.
  exists [1; 2; 3; 4], [AnyOp (OpConsume 3); AnyOp (OpSkipExactly (2 ^ 64 - 3)); AnyOp (OpConsume 3); AnyOp (OpConsume 4)].
  split; [vm_compute; discriminate|].
  split; [repeat constructor; vm_compute; (discriminate || reflexivity)|].
  split; [vm_compute; tauto|].
  vm_compute. intros H. repeat (destruct H as [H | H]; [discriminate|]). exact H.
Qed.
Print Assumptions C03_release_refuted.

(** *** C04 *)

(** Debug builds of ByteParser agree with SliceParser for every [usize]. *)
Theorem C04_debug_all_sizes : forall buf ops,
  zlen buf <= isize_max -> Forall arg_ok ops -> closes_clean ops (w_init buf) ->
  agrees_or_panics (history (byte_h Debug) ops (bp_from_buffer buf))
                   (history slice_h ops (sp_from_buffer buf)).
Proof. exact slice_agrees_debug. Qed.
Print Assumptions C04_debug_all_sizes.

Example debug_all_sizes_works :
  history (byte_h Debug) [AnyOp (OpConsume 1); AnyOp (OpConsume (2 ^ 64 - 1))] (bp_from_buffer [1; 2]) = [ObsBytes [1]; ObsPanic] /\
  history slice_h [AnyOp (OpConsume 1); AnyOp (OpConsume (2 ^ 64 - 1))] (sp_from_buffer [1; 2]) = [ObsBytes [1]; ObsFail].
Proof. split; vm_compute; reflexivity. Qed.

(** Release builds do not. *)
Theorem C04_release_refuted : exists buf ops,
  zlen buf <= isize_max /\ Forall arg_ok ops /\ closes_clean ops (w_init buf) /\
  history slice_h ops (sp_from_buffer buf) = [ObsBytes [1]; ObsFail; ObsByte 2] /\
  history (byte_h Release) ops (bp_from_buffer buf) = [ObsBytes [1]; ObsUnit; ObsByte 1].
Proof.
  exists [1; 2], [AnyOp (OpConsume 1); AnyOp (OpSkipExactly (2 ^ 64 - 1)); AnyOp OpConsumeByte].
  split; [vm_compute; discriminate|].
  split; [repeat constructor; vm_compute; (discriminate || reflexivity)|].
  split; [cbn [closes_clean]; tauto|].
  split; vm_compute; reflexivity.
Qed.
Print Assumptions C04_release_refuted.

(** *** C05 *)

(** A release build opens a window far wider than what is left. *)
Theorem C05_release_refuted : exists buf p n rem p',
  zlen buf <= isize_max /\ reaches Release (byte_h Release) (bp_from_buffer buf) p /\ is_usize n /\
  byte_h Release Z OpRemainder p = (ROk rem, p) /\ rem < n /\
  byte_h Release unit (OpSetFit n) p = (ROk tt, p') /\
  (exists e, byte_h Release byte OpConsumeByte p' = (RErr e, p')).
Proof.
  eexists [10; 20; 30], _, (2 ^ 64 - 1), 1, _.
  split; [vm_compute; discriminate|].
  split. { exists [AnyOp (OpConsume 2)]. split; [repeat constructor; vm_compute; discriminate|]. vm_compute; reflexivity. }
  split; [vm_compute; split; [discriminate | reflexivity]|].
  split; [vm_compute; reflexivity|]. split; [reflexivity|].
  split; [vm_compute; reflexivity|]. eexists. vm_compute. reflexivity.
Qed.
Print Assumptions C05_release_refuted.

(** *** C11 *)

(** [skip_exactly] succeeds where [consume] of as many bytes cannot. *)
Theorem C11_release_refuted : exists buf p n p',
  zlen buf <= isize_max /\ reaches Release (byte_h Release) (bp_from_buffer buf) p /\ is_usize n /\
  byte_h Release unit (OpSkipExactly n) p = (ROk tt, p') /\ bp_offset p' < bp_offset p /\
  fst (byte_h Release _ (OpConsume n) p) = RUB.
Proof.
  eexists [10; 20; 30], _, (2 ^ 64 - 1), _.
  split; [vm_compute; discriminate|].
  split. { exists [AnyOp (OpConsume 2)]. split; [repeat constructor; vm_compute; discriminate|]. vm_compute; reflexivity. }
  split; [vm_compute; split; [discriminate | reflexivity]|].
  split; [vm_compute; reflexivity|]. split; [reflexivity|]. vm_compute. reflexivity.
Qed.
Print Assumptions C11_release_refuted.

(** *** C44 *)

(** In a window that ends before the position the iterator ends at once, but
    [remainder] is not 0. *)
Theorem C44_release_refuted : exists buf ops p,
  zlen buf <= isize_max /\ Forall arg_ok ops /\ after (byte_h Release) ops (bp_from_buffer buf) = Some p /\
  run (byte_h Release) p_iter_next p = (ROk None, p) /\
  byte_h Release Z OpRemainder p = (ROk (2 ^ 64 - 1), p).
Proof.
  eexists [10; 20; 30], [AnyOp (OpConsume 2); AnyOp (OpSetFit (2 ^ 64 - 1))], _.
  split; [vm_compute; discriminate|].
  split; [repeat constructor; vm_compute; (discriminate || reflexivity)|].
  split; [vm_compute; reflexivity|]. split; vm_compute; reflexivity.
Qed.
Print Assumptions C44_release_refuted.

(** *** C94 *)

(** A method that panics has changed nothing, for every [usize] in release builds
    too (C94_unchanged_byte and C94_unchanged_memo have them for debug builds). *)
Theorem C94_unchanged_all_sizes_byte : forall buf pre p, zlen buf <= isize_max -> Forall arg_ok pre ->
  after (byte_h Release) pre (bp_from_buffer buf) = Some p ->
  forall (X : Set) (o : pop X) p', arg_ok (AnyOp o) -> byte_h Release X o p = (RPanic, p') -> p' = p.
Proof. exact panic_unchanged_byte. Qed.
Print Assumptions C94_unchanged_all_sizes_byte.

Theorem C94_unchanged_all_sizes_memo : forall buf pre p, zlen buf <= isize_max -> Forall arg_ok pre ->
  after (memo_h Release) pre (mp_from_buffer buf) = Some p ->
  forall (X : Set) (o : pop X) p', arg_ok (AnyOp o) -> memo_h Release X o p = (RPanic, p') -> p' = p.
Proof. exact panic_unchanged_memo. Qed.
Print Assumptions C94_unchanged_all_sizes_memo.

Example release_panics :
  exists p, after (memo_h Release) [AnyOp (OpConsume 2); AnyOp (OpSetFit (2 ^ 64 - 1))] (mp_from_buffer [10; 20; 30]) = Some p /\
    memo_h Release Z (OpSkip 1) p = (RPanic, p).
Proof. eexists. split; [vm_compute; reflexivity|]. vm_compute. reflexivity. Qed.
