(** Property theorems about the parsers.  Vocabulary: SpecParser.v (the
    reference machine and histories), ModelParser.v (the modelled code).

    [byte_h m], [memo_h m], [slice_h] are the three parsers as functions from
    an operation and a state to a result and a new state; [m] is the build
    profile.  [arg_fits m] allows every [usize] argument in debug builds and
    every size up to [isize::MAX] in release builds. *)
From Verif Require Import Base ModelErrors ModelSplitVec ModelParser SpecParser
  ProofParserProps ProofParserClean ProofParserMisc ProofParserRefuted ProofParserExact.

(** *** C01 *)
Theorem C01_consume_exact : forall m buf p n,
  zlen buf <= isize_max -> reaches m (byte_h m) (bp_from_buffer buf) p -> size_fits m n ->
  exists rem,
    byte_h m Z OpRemainder p = (ROk rem, p) /\ 0 <= rem /\ bp_offset p + rem <= zlen buf /\
    (n <= rem ->
       exists p',
         byte_h m _ (OpConsume n) p = (ROk (zslice (bp_offset p) (bp_offset p + n) buf), p') /\
         bp_offset p' = bp_offset p + n /\
         byte_h m Z OpRemainder p' = (ROk (rem - n), p')) /\
    (rem < n ->
       (exists e, byte_h m _ (OpConsume n) p = (RErr e, p)) \/
       (m = Debug /\ fst (byte_h m _ (OpConsume n) p) = RPanic)) /\
    (1 <= rem ->
       exists b p', byte_h m _ OpConsumeByte p = (ROk b, p') /\
                    byte_h m _ (OpConsume 1) p = (ROk [b], p')) /\
    (rem = 0 -> exists e, byte_h m _ OpConsumeByte p = (RErr e, p)).
Proof. exact consume_exact. Qed.
Print Assumptions C01_consume_exact.

(** The failure exactly: a debug build panics when position plus request
    exceeds [usize]; otherwise an error names position, request and limit, and
    nothing changes. *)
Theorem C01_consume_fails : forall m buf p n,
  zlen buf <= isize_max -> reaches m (byte_h m) (bp_from_buffer buf) p -> size_fits m n ->
  bp_view_len p - bp_offset p < n ->
  byte_h m _ (OpConsume n) p =
    (if usize_mod <=? bp_offset p + n then RPanic
     else RErr (EWindow (ConsumeWouldExceedLimit (bp_offset p) n (bp_view_len p))), p).
Proof. exact consume_fails. Qed.
Print Assumptions C01_consume_fails.

(** The offset is the number of bytes consumed so far, so "the next bytes"
    above are the next unconsumed ones. *)
Theorem C01_offset_counts_consumed : forall m buf ops p,
  zlen buf <= isize_max -> Forall (arg_fits m) ops ->
  after (byte_h m) ops (bp_from_buffer buf) = Some p ->
  bp_offset p = consumed_total ops (history (byte_h m) ops (bp_from_buffer buf)).
Proof. exact offset_counts_consumed. Qed.
Print Assumptions C01_offset_counts_consumed.

Theorem C01_consume_exact_slice : forall s rest n,
  0 <= n ->
  slice_h Z OpRemainder (s :: rest) = (ROk (zlen s), s :: rest) /\
  (n <= zlen s -> slice_h _ (OpConsume n) (s :: rest) = (ROk (ztake n s), zdrop n s :: rest)) /\
  (zlen s < n -> exists e, slice_h _ (OpConsume n) (s :: rest) = (RErr e, s :: rest)) /\
  (forall b t, s = b :: t -> slice_h _ OpConsumeByte (s :: rest) = (ROk b, t :: rest)) /\
  (s = [] -> exists e, slice_h _ OpConsumeByte (s :: rest) = (RErr e, s :: rest)).
Proof. exact sp_consume_exact. Qed.
Print Assumptions C01_consume_exact_slice.

(** Outside [arg_fits]: in a release build a huge size is accepted and moves
    the offset backwards. *)
Theorem C01_huge_size_refuted :
  exists buf ops n p p', zlen buf <= isize_max /\ Forall arg_ok ops /\ is_usize n /\
    after (byte_h Release) ops (bp_from_buffer buf) = Some p /\
    byte_h Release unit (OpSkipExactly n) p = (ROk tt, p') /\ bp_offset p' < bp_offset p.
Proof. exact release_skip_backwards. Qed.
Print Assumptions C01_huge_size_refuted.

Definition sample_ops : list any_op :=
  [AnyOp (OpSetFit 4); AnyOp (OpConsume 1); AnyOp (OpSetFit 2); AnyOp (OpConsume 2);
   AnyOp OpEnforceTarget; AnyOp (OpSkip 0)].
Example sample_reaches : reaches Debug (byte_h Debug) (bp_from_buffer [1; 2; 3; 4; 5; 6])
    (mkBP [1; 2; 3; 4; 5; 6] (mkCO 6 [4] 3)) /\
  Forall (arg_fits Release) sample_ops.
Proof.
  split; [|repeat constructor; discriminate].
  exists sample_ops. split; [|reflexivity].
  args.
Qed.

(** *** C02 *)
Theorem C02_byte_refines_stack : forall m buf ops,
  zlen buf <= isize_max -> Forall (arg_fits m) ops ->
  agrees_or_panics (history (byte_h m) ops (bp_from_buffer buf))
                   (history (spec_h Merge) ops (w_init buf)) /\
  (m = Release -> history (byte_h m) ops (bp_from_buffer buf)
                  = history (spec_h Merge) ops (w_init buf)).
Proof. exact byte_refines_stack. Qed.
Print Assumptions C02_byte_refines_stack.

(** Debug builds exactly: the reference machine with overflow checks. *)
Theorem C02_debug_exact : forall buf ops,
  zlen buf <= isize_max -> Forall (arg_fits Debug) ops ->
  history (byte_h Debug) ops (bp_from_buffer buf) = history (spec_debug_h (zlen buf) Merge) ops (w_init buf).
Proof. exact debug_history. Qed.
Print Assumptions C02_debug_exact.

Theorem C02_debug_exact_memo : forall buf ops,
  zlen buf <= isize_max -> Forall (arg_fits Debug) ops ->
  history (memo_h Debug) ops (mp_from_buffer buf) = history (spec_debug_h (zlen buf) Merge) ops (w_init buf).
Proof. exact memo_debug_history. Qed.
Print Assumptions C02_debug_exact_memo.

Example C02_debug_sample :
  history (spec_debug_h 3 Merge) [AnyOp (OpSetFit 2); AnyOp (OpSetFit 3); AnyOp (OpSetFit 4); AnyOp OpRemainder] (w_init [1; 2; 3])
  = [ObsUnit; ObsFail; ObsPanic].
Proof. reflexivity. Qed.

Example C02_sample :
  history (spec_h Merge) sample_ops (w_init [1; 2; 3; 4; 5; 6])
  = [ObsUnit; ObsBytes [1]; ObsUnit; ObsBytes [2; 3]; ObsUnit; ObsNum 0].
Proof. reflexivity. Qed.

(** The one difference: opening an impossible window panics in debug builds. *)
Theorem C02_open_panics_refuted :
  exists buf n, 0 <= n <= 255 /\
    fst (byte_h Debug unit (OpSetFit n) (bp_from_buffer buf)) = RPanic.
Proof. exact open_error_panics. Qed.
Print Assumptions C02_open_panics_refuted.

(** *** C03 *)
Theorem C03_memo_equals_byte : forall m buf ops,
  zlen buf <= isize_max -> Forall (arg_fits m) ops ->
  history (memo_h m) ops (mp_from_buffer buf) = history (byte_h m) ops (bp_from_buffer buf) /\
  (forall p, after (memo_h m) ops (mp_from_buffer buf) = Some p ->
     exists q, after (byte_h m) ops (bp_from_buffer buf) = Some q /\
       mp_offset p = bp_offset q /\ mp_view_len p = bp_view_len q).
Proof. exact memo_equals_byte. Qed.
Print Assumptions C03_memo_equals_byte.

(** For whole programs the error values agree too. *)
Theorem C03_memo_equals_byte_programs : forall m buf A (pg : prog A),
  zlen buf <= isize_max -> prog_fits m pg ->
  fst (run (memo_h m) pg (mp_from_buffer buf)) = fst (run (byte_h m) pg (bp_from_buffer buf)).
Proof. exact memo_equals_byte_prog. Qed.
Print Assumptions C03_memo_equals_byte_programs.

(** *** C04 *)
Theorem C04_slice_agrees_with_byte : forall buf ops,
  zlen buf <= isize_max -> Forall arg_small ops -> closes_clean ops (w_init buf) ->
  history slice_h ops (sp_from_buffer buf) =
  history (byte_h Release) ops (bp_from_buffer buf) /\
  agrees_or_panics (history (byte_h Debug) ops (bp_from_buffer buf))
                   (history slice_h ops (sp_from_buffer buf)).
Proof. exact slice_agrees_with_byte. Qed.
Print Assumptions C04_slice_agrees_with_byte.

Example C04_sample : closes_clean sample_ops (w_init [1; 2; 3; 4; 5; 6]) /\ Forall arg_small sample_ops.
Proof.
  split; [|repeat constructor; discriminate].
  vm_compute. repeat (split; try exact I; try discriminate; try reflexivity).
Qed.

(** SliceParser is exactly the reference machine that drops the unread bytes
    of a window whose closing fails. *)
Theorem C04_slice_refines_dropping_stack : forall buf ops,
  bracketed Drop ops (w_init buf) ->
  history slice_h ops (sp_from_buffer buf) = history (spec_h Drop) ops (w_init buf).
Proof. exact slice_history_exact. Qed.
Print Assumptions C04_slice_refines_dropping_stack.

(** In every history, closings without a window of the caller's own included, it
    is the machine that has the whole input in a window to begin with... *)
Theorem C04_slice_all_histories : forall buf ops,
  Forall arg_ok ops -> asks_inside Drop ops (mkW buf [[]]) ->
  history slice_h ops (sp_from_buffer buf) = history (spec_h Drop) ops (mkW buf [[]]).
Proof. exact slice_whole. Qed.
Print Assumptions C04_slice_all_histories.
Example C04_slice_all_histories_case :
  let ops := [AnyOp (OpConsume 2); AnyOp OpTestTarget; AnyOp OpEnforceTarget; AnyOp OpConsumeByte; AnyOp (OpSetFit 1); AnyOp OpEnforceTarget] in
  Forall arg_ok ops /\ asks_inside Drop ops (mkW [1; 2] [[]]) /\
  history slice_h ops (sp_from_buffer [1; 2]) = [ObsBytes [1; 2]; ObsBool true; ObsUnit; ObsFail; ObsFail; ObsFail].
Proof. split; [repeat constructor; (discriminate || reflexivity)|]. split; [|reflexivity]. vm_compute. repeat split; discriminate. Qed.
(** ... but for requests of no bytes once that window has been closed: reading
    none fails, a window of none is granted but not opened. *)
Theorem C04_slice_closed : forall ops, history slice_h ops [] = map closed_answer ops.
Proof. exact slice_closed. Qed.
Print Assumptions C04_slice_closed.
Example C04_slice_closed_case :
  after slice_h [AnyOp OpEnforceTarget] (sp_from_buffer []) = Some [] /\
  map closed_answer [AnyOp (OpSetFit 0); AnyOp (OpConsume 0); AnyOp OpEnforceTarget] = [ObsUnit; ObsFail; ObsFail].
Proof. split; reflexivity. Qed.

(** The hypothesis of C04 is needed. *)
Theorem C04_unclean_close_refuted :
  exists buf ops, Forall arg_small ops /\
    history slice_h ops (sp_from_buffer buf) <> history (byte_h Release) ops (bp_from_buffer buf).
Proof. exact slice_drops_residue. Qed.
Print Assumptions C04_unclean_close_refuted.

(** *** C05 *)
Theorem C05_set_fit_exact : forall m buf p n,
  zlen buf <= isize_max -> reaches m (byte_h m) (bp_from_buffer buf) p -> size_fits m n ->
  exists rem, byte_h m Z OpRemainder p = (ROk rem, p) /\
    (n <= rem -> exists p', byte_h m _ (OpSetFit n) p = (ROk tt, p') /\
        byte_h m Z OpRemainder p' = (ROk n, p') /\ bp_offset p' = bp_offset p /\
        bp_view_len p' <= bp_view_len p) /\
    (rem < n -> (exists e, byte_h m _ (OpSetFit n) p = (RErr e, p)) \/
                (m = Debug /\ fst (byte_h m _ (OpSetFit n) p) = RPanic)).
Proof. exact set_fit_exact. Qed.
Print Assumptions C05_set_fit_exact.

Theorem C05_window_protects : forall m buf p p1 n ops p2,
  zlen buf <= isize_max -> reaches m (byte_h m) (bp_from_buffer buf) p -> size_fits m n ->
  byte_h m unit (OpSetFit n) p = (ROk tt, p1) ->
  Forall (arg_fits m) ops -> window_kept 0 ops (history (byte_h m) ops p1) ->
  after (byte_h m) ops p1 = Some p2 ->
  bp_offset p2 <= bp_offset p + n.
Proof. exact window_protects. Qed.
Print Assumptions C05_window_protects.

Example C05_sample :
  let p1 := mkBP [1; 2; 3; 4; 5; 6] (mkCO 6 [4] 0) in
  window_kept 0 (tl sample_ops) (history (byte_h Debug) (tl sample_ops) p1) /\
  exists p2, after (byte_h Debug) (tl sample_ops) p1 = Some p2 /\ bp_offset p2 = 3.
Proof. split; [vm_compute; exact I|]. eexists; split; reflexivity. Qed.

(** *** C06 *)
(** Proved: when closing succeeds, fails, and what success does.  Missing (and
    false, see below): a failed attempt leaves the window in force. *)
Theorem C06_enforce_target_partial : forall m buf ops p w,
  zlen buf <= isize_max -> Forall (arg_fits m) ops ->
  after (byte_h m) ops (bp_from_buffer buf) = Some p ->
  after (spec_h Merge) ops (w_init buf) = Some w ->
  byte_h m Z OpRemainder p = (ROk (zlen (w_cur w)), p) /\
  (w_outer w = [] ->
     byte_h m unit OpEnforceTarget p = (RErr (EWindow CloseWithoutWindow), p)) /\
  (w_outer w <> [] -> w_cur w <> [] ->
     fst (byte_h m unit OpEnforceTarget p) = RErr (EWindow (CloseWithResidue (zlen (w_cur w))))) /\
  (forall next rest, w_outer w = next :: rest -> w_cur w = [] ->
     exists p', byte_h m unit OpEnforceTarget p = (ROk tt, p') /\
       bp_offset p' = bp_offset p /\
       byte_h m Z OpRemainder p' = (ROk (zlen next), p')).
Proof. exact bp_enforce_cases. Qed.
Print Assumptions C06_enforce_target_partial.

Theorem C06_failed_close_refuted :
  exists m buf p p' e, reaches m (byte_h m) (bp_from_buffer buf) p /\
    byte_h m unit OpEnforceTarget p = (RErr e, p') /\
    bp_view_len p < bp_view_len p' /\
    fst (byte_h m _ (OpConsume 3) p) <> ROk [1; 2; 3] /\
    fst (byte_h m _ (OpConsume 3) p') = ROk [1; 2; 3].
Proof. exact failed_close_lifts_window. Qed.
Print Assumptions C06_failed_close_refuted.

Example C06_sample :
  after (spec_h Merge) sample_ops (w_init [1; 2; 3; 4; 5; 6]) = Some (mkW [4] [[5; 6]]).
Proof. reflexivity. Qed.

(** *** C07 *)
Theorem C07_test_predicts_byte : forall m buf ops p w,
  zlen buf <= isize_max -> Forall (arg_fits m) ops ->
  after (byte_h m) ops (bp_from_buffer buf) = Some p ->
  after (spec_h Merge) ops (w_init buf) = Some w ->
  exists b, byte_h m bool OpTestTarget p = (ROk b, p) /\
            (b = true <-> w_outer w <> [] /\ w_cur w = []) /\
            (b = true <-> fst (byte_h m unit OpEnforceTarget p) = ROk tt).
Proof. exact bp_test_exact. Qed.
Print Assumptions C07_test_predicts_byte.

Theorem C07_test_predicts_memo : forall m buf p,
  zlen buf <= isize_max -> reaches m (memo_h m) (mp_from_buffer buf) p ->
  exists b, memo_h m bool OpTestTarget p = (ROk b, p) /\
            (b = true <-> fst (memo_h m unit OpEnforceTarget p) = ROk tt).
Proof. exact mp_test_predicts. Qed.
Print Assumptions C07_test_predicts_memo.

Theorem C07_test_predicts_slice : forall p : slice_parser,
  exists b, slice_h bool OpTestTarget p = (ROk b, p) /\
            (b = true <-> fst (slice_h unit OpEnforceTarget p) = ROk tt).
Proof. exact sp_test_predicts. Qed.
Print Assumptions C07_test_predicts_slice.

(** SliceParser answers true although no window is open. *)
Theorem C07_slice_base_window_refuted :
  exists buf, history slice_h [AnyOp OpTestTarget; AnyOp OpEnforceTarget] (sp_from_buffer buf)
      = [ObsBool true; ObsUnit] /\
    history (spec_h Keep) [AnyOp OpTestTarget; AnyOp OpEnforceTarget] (w_init buf)
      = [ObsBool false; ObsFail].
Proof. exact slice_closes_unopened. Qed.
Print Assumptions C07_slice_base_window_refuted.

(** *** C08 *)
(** Full for debug builds and for SliceParser; in release builds only for
    sizes up to [isize::MAX] (a larger one is refuted below). *)
Theorem C08_byte_no_ub_partial : forall m buf ops,
  zlen buf <= isize_max -> Forall (arg_fits m) ops ->
  ~ In ObsUB (history (byte_h m) ops (bp_from_buffer buf)).
Proof. exact bp_no_ub. Qed.
Print Assumptions C08_byte_no_ub_partial.

Theorem C08_memo_no_ub_partial : forall m buf ops,
  zlen buf <= isize_max -> Forall (arg_fits m) ops ->
  ~ In ObsUB (history (memo_h m) ops (mp_from_buffer buf)).
Proof. exact mp_no_ub. Qed.
Print Assumptions C08_memo_no_ub_partial.

Theorem C08_slice_no_ub : forall ops p,
  ~ In ObsUB (history slice_h ops p) /\ ~ In ObsPanic (history slice_h ops p).
Proof. exact sp_no_ub. Qed.
Print Assumptions C08_slice_no_ub.

Theorem C08_release_huge_size_refuted :
  exists buf ops, zlen buf <= isize_max /\ Forall arg_ok ops /\
    In ObsUB (history (byte_h Release) ops (bp_from_buffer buf)).
Proof. exact release_consume_ub. Qed.
Print Assumptions C08_release_huge_size_refuted.

(** *** C09 *)
Theorem C09_cleanup_byte : forall m buf ops p w,
  zlen buf <= isize_max -> Forall (arg_fits m) ops ->
  after (byte_h m) ops (bp_from_buffer buf) = Some p ->
  after (spec_h Merge) ops (w_init buf) = Some w ->
  exists lo, bp_cleanup m p = ROk lo /\
    lo_bytes lo = zdrop (bp_offset p) buf /\
    lo_segments lo = unread_segments w.
Proof. exact bp_cleanup_spec. Qed.
Print Assumptions C09_cleanup_byte.

Theorem C09_cleanup_memo : forall m buf ops p w,
  zlen buf <= isize_max -> Forall (arg_fits m) ops ->
  after (memo_h m) ops (mp_from_buffer buf) = Some p ->
  after (spec_h Merge) ops (w_init buf) = Some w ->
  exists lo, mp_cleanup m p = ROk lo /\
    lo_bytes lo = zdrop (mp_offset p) buf /\
    lo_segments lo = unread_segments w.
Proof. exact mp_cleanup_spec. Qed.
Print Assumptions C09_cleanup_memo.

Theorem C09_cleanup_slice : forall p : slice_parser,
  exists lo, sp_cleanup p = ROk lo /\ lo_bytes lo = concat p /\ lo_segments lo = p.
Proof. exact sp_cleanup_spec. Qed.
Print Assumptions C09_cleanup_slice.

(** Its length counts the unread bytes.  It is reported empty exactly when no
    byte is left and no window is open, so not exactly when no byte is left. *)
Theorem C09_empty_byte_partial : forall m buf ops p w lo,
  zlen buf <= isize_max -> Forall (arg_fits m) ops ->
  after (byte_h m) ops (bp_from_buffer buf) = Some p ->
  after (spec_h Merge) ops (w_init buf) = Some w ->
  bp_cleanup m p = ROk lo ->
  lo_len lo = zlen buf - bp_offset p /\
  (lo_is_empty lo = true <-> bp_offset p = zlen buf /\ w_outer w = []).
Proof. exact cleanup_empty. Qed.
Print Assumptions C09_empty_byte_partial.

Theorem C09_empty_memo_partial : forall m buf ops p w lo,
  zlen buf <= isize_max -> Forall (arg_fits m) ops ->
  after (memo_h m) ops (mp_from_buffer buf) = Some p ->
  after (spec_h Merge) ops (w_init buf) = Some w ->
  mp_cleanup m p = ROk lo ->
  lo_len lo = zlen buf - mp_offset p /\
  (lo_is_empty lo = true <-> mp_offset p = zlen buf /\ w_outer w = []).
Proof. exact memo_cleanup_empty. Qed.
Print Assumptions C09_empty_memo_partial.

(** SliceParser's base view counts as a window (F4), so only a parser whose
    base view has been closed reports an empty leftover. *)
Theorem C09_empty_slice_partial : forall (p : slice_parser) lo, sp_cleanup p = ROk lo ->
  lo_len lo = zlen (concat p) /\ (lo_is_empty lo = true <-> p = []).
Proof. exact slice_cleanup_empty. Qed.
Print Assumptions C09_empty_slice_partial.

Theorem C09_empty_with_window_refuted :
  exists m buf p lo, reaches m (byte_h m) (bp_from_buffer buf) p /\
    bp_cleanup m p = ROk lo /\ lo_bytes lo = [] /\ lo_is_empty lo = false.
Proof. exact byteless_leftover_not_empty. Qed.
Print Assumptions C09_empty_with_window_refuted.

Theorem C09_slice_empty_refuted :
  exists buf p lo, history slice_h [AnyOp OpConsumeByte] (sp_from_buffer buf) = [ObsByte 7] /\
    after slice_h [AnyOp OpConsumeByte] (sp_from_buffer buf) = Some p /\
    sp_cleanup p = ROk lo /\ lo_bytes lo = [] /\ lo_is_empty lo = false.
Proof. exact slice_leftover_not_empty. Qed.
Print Assumptions C09_slice_empty_refuted.

Example C09_sample :
  unread_segments (mkW [4] [[5; 6]]) = [[4]; [5; 6]] /\
  exists lo, bp_cleanup Debug (mkBP [1; 2; 3; 4; 5; 6] (mkCO 6 [4] 3)) = ROk lo /\
             lo_segments lo = [[4]; [5; 6]].
Proof. split; [reflexivity|]. eexists; split; vm_compute; reflexivity. Qed.

(** *** C10 *)
(** Missing (and false, see below): histories that use [skip_exactly]. *)
Theorem C10_memo_log_partial : forall m buf ops p,
  zlen buf <= isize_max -> Forall (arg_fits m) ops -> Forall no_skip_exactly ops ->
  after (memo_h m) ops (mp_from_buffer buf) = Some p ->
  exists sv, @mp_dump unit m p = ROk sv /\
    sv_into_inner sv = ztake (mp_offset p) buf /\
    (let (bytes, lens) := sv_into_parts sv in cut lens bytes) =
      groups_read Merge ops (w_init buf) /\
    concat (groups_read Merge ops (w_init buf)) = ztake (mp_offset p) buf.
Proof. exact memo_log. Qed.
Print Assumptions C10_memo_log_partial.

Example C10_sample :
  Forall no_skip_exactly sample_ops /\
  groups_read Merge sample_ops (w_init [1; 2; 3; 4; 5; 6]) = [[1]; [2; 3]; []].
Proof. split; [repeat constructor|reflexivity]. Qed.

(** All histories: the dump shows a prefix of the input, of the length and in
    the groups of the calls logged. *)
Theorem C10_memo_log_exact : forall m buf ops p,
  zlen buf <= isize_max -> Forall (arg_fits m) ops -> after (memo_h m) ops (mp_from_buffer buf) = Some p ->
  exists sv, @mp_dump unit m p = ROk sv /\
    sv_into_parts sv = (ztake (fold_right Z.add 0 (logged Merge ops (w_init buf))) buf, logged Merge ops (w_init buf)).
Proof. exact memo_log_exact. Qed.
Print Assumptions C10_memo_log_exact.

Example C10_logged_sample :
  logged Merge [AnyOp OpConsumeByte; AnyOp (OpSkipExactly 2); AnyOp (OpSkip 9)] (w_init [1; 2; 3; 4; 5]) = [1; 2].
Proof. reflexivity. Qed.

Theorem C10_skip_exactly_refuted :
  exists m buf ops p sv, Forall (arg_fits m) ops /\
    after (memo_h m) ops (mp_from_buffer buf) = Some p /\
    @mp_dump unit m p = ROk sv /\ sv_into_inner sv <> ztake (mp_offset p) buf.
Proof. exact skip_exactly_not_logged. Qed.
Print Assumptions C10_skip_exactly_refuted.

(** *** C11 *)
Theorem C11_skip_is_consume_byte : forall m buf p n,
  zlen buf <= isize_max -> reaches m (byte_h m) (bp_from_buffer buf) p -> size_fits m n ->
  (exists rem p' bs,
     byte_h m Z OpRemainder p = (ROk rem, p) /\
     byte_h m Z (OpSkip n) p = (ROk (Z.min rem n), p') /\
     byte_h m _ (OpConsume (Z.min rem n)) p = (ROk bs, p')) /\
  (exists r p',
     byte_h m _ (OpConsume n) p = (r, p') /\
     byte_h m unit (OpSkipExactly n) p = (rmap (fun _ => tt) r, p')).
Proof. exact bp_skip_is_consume. Qed.
Print Assumptions C11_skip_is_consume_byte.

Theorem C11_skip_is_consume_slice : forall (p : slice_parser) n,
  p <> [] -> 0 <= n ->
  (exists p' bs,
     slice_h Z (OpSkip n) p = (ROk (Z.min (sp_remainder p) n), p') /\
     slice_h _ (OpConsume (Z.min (sp_remainder p) n)) p = (ROk bs, p')) /\
  (exists r p',
     slice_h _ (OpConsume n) p = (r, p') /\
     slice_h unit (OpSkipExactly n) p = (rmap (fun _ => tt) r, p')).
Proof. exact sp_skip_is_consume. Qed.
Print Assumptions C11_skip_is_consume_slice.
(** With every window closed, even the whole buffer's, nothing is left to skip. *)
Theorem C11_skip_closed_slice : forall n,
  slice_h Z (OpSkip n) [] = (ROk 0, []) /\
  slice_h unit (OpSkipExactly n) [] = (rmap (fun _ => tt) (fst (slice_h _ (OpConsume n) [])), []).
Proof. exact sp_skip_closed. Qed.
Print Assumptions C11_skip_closed_slice.

(** *** C32, for any program over the parser interface *)
Theorem C32_parsers_agree_on_programs : forall m buf A (pg : prog A),
  zlen buf <= isize_max -> try_bytes_only pg -> fst (run contract_h pg (w_init buf)) <> RUB ->
  agrees_with m (fst (run contract_h pg (w_init buf))) (fst (run (byte_h m) pg (bp_from_buffer buf))) /\
  agrees_with m (fst (run contract_h pg (w_init buf))) (fst (run (memo_h m) pg (mp_from_buffer buf))) /\
  agrees_with m (fst (run contract_h pg (w_init buf))) (fst (run slice_h pg (sp_from_buffer buf))).
Proof. exact parsers_agree. Qed.
Print Assumptions C32_parsers_agree_on_programs.

(** *** C44 *)
Theorem C44_byte_iterator : forall m buf p,
  zlen buf <= isize_max -> reaches m (byte_h m) (bp_from_buffer buf) p ->
  exists fuel p',
    run (byte_h m) (drain fuel) p = (ROk (zslice (bp_offset p) (bp_view_len p) buf), p') /\
    bp_offset p' = bp_view_len p /\ bp_view_len p' = bp_view_len p /\
    run (byte_h m) p_iter_next p' = (ROk None, p').
Proof. exact byte_iter_yields_rest. Qed.
Print Assumptions C44_byte_iterator.

Theorem C44_memo_iterator : forall m buf p,
  zlen buf <= isize_max -> reaches m (memo_h m) (mp_from_buffer buf) p ->
  exists fuel p',
    run (memo_h m) (drain fuel) p = (ROk (zslice (mp_offset p) (mp_view_len p) buf), p') /\
    mp_offset p' = mp_view_len p /\ mp_view_len p' = mp_view_len p /\
    run (memo_h m) p_iter_next p' = (ROk None, p').
Proof. exact memo_iter_yields_rest. Qed.
Print Assumptions C44_memo_iterator.

Theorem C44_slice_iterator : forall (s : list byte) rest,
  run slice_h (drain (S (length s))) (s :: rest) = (ROk s, [] :: rest) /\
  run slice_h p_iter_next ([] :: rest) = (ROk None, [] :: rest).
Proof. exact slice_iter_yields_rest. Qed.
Print Assumptions C44_slice_iterator.

(** *** C45 *)
(** Missing (and false, see below): the numbers in errors of [set_fit]. *)
Theorem C45_error_numbers_byte_partial : forall m buf p n,
  zlen buf <= isize_max -> reaches m (byte_h m) (bp_from_buffer buf) p -> size_fits m n ->
  exists rem, byte_h m Z OpRemainder p = (ROk rem, p) /\
  (forall e, fst (byte_h m _ (OpConsume n) p) = RErr e \/
             fst (byte_h m _ (OpSkipExactly n) p) = RErr e \/
             (n = 1 /\ fst (byte_h m _ OpConsumeByte p) = RErr e) ->
     e = EWindow (ConsumeWouldExceedLimit (bp_offset p) n (bp_view_len p)) /\
     bp_view_len p - bp_offset p = rem /\ rem < n) /\
  (forall r, fst (byte_h m unit OpEnforceTarget p) = RErr (EWindow (CloseWithResidue r)) ->
     r = rem /\ 0 < r) /\
  (forall e, fst (byte_h m unit (OpSetFit n) p) = RErr e -> rem < n).
Proof. exact bp_error_numbers. Qed.
Print Assumptions C45_error_numbers_byte_partial.

(** What a failed [set_fit] says, and when it panics. *)
Theorem C45_set_fit_fails_partial : forall m buf p n,
  zlen buf <= isize_max -> reaches m (byte_h m) (bp_from_buffer buf) p -> size_fits m n ->
  bp_view_len p - bp_offset p < n ->
  byte_h m _ (OpSetFit n) p =
    (if bp_offset p + n <=? zlen buf then RErr (EWindow (OpenWouldExceedWindow (bp_view_len p) (bp_offset p + n)))
     else if n <=? zlen buf then RErr (EWindow (OpenWouldExceedBuffer (zlen buf - n) n))
     else match m with
          | Debug => RPanic
          | Release => RErr (EWindow (OpenWouldExceedBuffer (usize_mod + zlen buf - n) n))
          end, p).
Proof. exact set_fit_fails. Qed.
Print Assumptions C45_set_fit_fails_partial.

Theorem C45_error_numbers_slice : forall (p : slice_parser) n,
  (forall e, fst (slice_h _ (OpConsume n) p) = RErr e \/
             fst (slice_h _ (OpSkipExactly n) p) = RErr e \/
             (n = 1 /\ fst (slice_h _ OpConsumeByte p) = RErr e) ->
     e = EWindow (ConsumeWouldExceedLimit 0 n (sp_remainder p)) /\
     (p <> [] -> sp_remainder p < n)) /\
  (forall r, fst (slice_h unit OpEnforceTarget p) = RErr (EWindow (CloseWithResidue r)) ->
     r = sp_remainder p /\ 0 < r) /\
  (forall e, p <> [] -> fst (slice_h unit (OpSetFit n) p) = RErr e ->
     e = EWindow (OpenWouldExceedWindow (sp_remainder p) n) /\ sp_remainder p < n) /\
  (forall e, p = [] -> fst (slice_h unit (OpSetFit n) p) = RErr e ->
     e = EWindow (OpenWouldExceedBuffer 0 n) /\ n <> 0).
Proof. exact sp_error_numbers. Qed.
Print Assumptions C45_error_numbers_slice.

(** Closing a window from beyond its end reports by how much, in whatever state the parser is. *)
Theorem C45_overflow_excess : forall m,
  (forall p k, fst (byte_h m unit OpEnforceTarget p) = RErr (EWindow (OffsetOverflow k)) -> k = bp_offset p - bp_view_len p /\ 0 < k) /\
  (forall p k, fst (memo_h m unit OpEnforceTarget p) = RErr (EWindow (OffsetOverflow k)) -> k = mp_offset p - mp_view_len p /\ 0 < k) /\
  (forall p k, fst (slice_h unit OpEnforceTarget p) <> RErr (EWindow (OffsetOverflow k))).
Proof. exact overflow_excess. Qed.
Print Assumptions C45_overflow_excess.
(** A release build, two bytes read, a window that ends one byte before that. *)
Example C45_overflow_happens : exists p1 p2 p3,
  byte_h Release (list byte) (OpConsume 2) (bp_from_buffer [1; 2; 3]) = (ROk [1; 2], p1) /\
  byte_h Release unit (OpSetFit (usize_mod - 1)) p1 = (ROk tt, p2) /\
  byte_h Release unit OpEnforceTarget p2 = (RErr (EWindow (OffsetOverflow 1)), p3).
Proof. do 3 eexists. split; [vm_compute; reflexivity|]. split; vm_compute; reflexivity. Qed.

(** So does asking whether its end is reached. *)
Theorem C45_overflow_asking : forall m,
  (forall p k, fst (byte_h m bool OpTestTarget p) = RErr (EWindow (OffsetOverflow k)) -> k = bp_offset p - bp_view_len p /\ 0 < k) /\
  (forall p k, fst (memo_h m bool OpTestTarget p) = RErr (EWindow (OffsetOverflow k)) -> k = mp_offset p - mp_view_len p /\ 0 < k) /\
  (forall p k, fst (slice_h bool OpTestTarget p) <> RErr (EWindow (OffsetOverflow k))).
Proof. exact overflow_asking. Qed.
Print Assumptions C45_overflow_asking.
Example C45_overflow_asked : exists p1 p2,
  byte_h Release (list byte) (OpConsume 2) (bp_from_buffer [1; 2; 3]) = (ROk [1; 2], p1) /\
  byte_h Release unit (OpSetFit (usize_mod - 1)) p1 = (ROk tt, p2) /\
  fst (byte_h Release bool OpTestTarget p2) = RErr (EWindow (OffsetOverflow 1)).
Proof. do 2 eexists. split; [vm_compute; reflexivity|]. split; vm_compute; reflexivity. Qed.

Theorem C45_bytes_left_refuted :
  exists m buf p n k, reaches m (byte_h m) (bp_from_buffer buf) p /\
    fst (byte_h m unit (OpSetFit n) p) = RErr (EWindow (OpenWouldExceedBuffer k n)) /\
    k <> zlen buf - bp_offset p.
Proof. exact open_error_wrong_bytes_left. Qed.
Print Assumptions C45_bytes_left_refuted.

Theorem C45_window_width_refuted :
  exists m buf p n l r, reaches m (byte_h m) (bp_from_buffer buf) p /\
    fst (byte_h m unit (OpSetFit n) p) = RErr (EWindow (OpenWouldExceedWindow l r)) /\
    r <> n /\ ROk l <> fst (byte_h m Z OpRemainder p).
Proof. exact open_error_absolute. Qed.
Print Assumptions C45_window_width_refuted.

(** *** C47 *)
Theorem C47_get_slice_debug : forall E ix n buf,
  zlen buf <= isize_max -> is_usize ix -> is_usize n ->
  @vb_get_slice E Debug ix n buf =
    (if ix + n <=? zlen buf then ROk (zslice ix (ix + n) buf) else RPanic).
Proof. exact @vb_get_slice_debug. Qed.
Print Assumptions C47_get_slice_debug.

(** Missing (and false, see below): release builds with [ix + n] beyond [usize]. *)
Theorem C47_get_slice_partial : forall E m ix n buf,
  zlen buf <= isize_max -> 0 <= ix -> 0 <= n -> ix + n < usize_mod ->
  @vb_get_slice E m ix n buf =
    (if ix + n <=? zlen buf then ROk (zslice ix (ix + n) buf) else RPanic).
Proof. exact @vb_get_slice_spec. Qed.
Print Assumptions C47_get_slice_partial.

(** Missing (and false, see below): the index equal to the length. *)
Theorem C47_get_byte_partial : forall E ix buf,
  0 <= ix -> ix <> zlen buf ->
  @vb_get_byte E ix buf =
    match nth_error buf (Z.to_nat ix) with Some b => ROk b | None => RPanic end.
Proof. exact @vb_get_byte_spec. Qed.
Print Assumptions C47_get_byte_partial.

Theorem C47_slice_buffer : forall E n buf,
  0 <= n ->
  @slb_split E n buf = (if n <=? zlen buf then ROk (ztake n buf, zdrop n buf) else RPanic) /\
  @slb_take E n buf = (if n <=? zlen buf then ROk (ztake n buf, zdrop n buf) else RPanic) /\
  slb_cut_first buf = (match buf with [] => None | b :: t => Some (b, t) end) /\
  @slb_cut_first_unchecked E buf = (match slb_cut_first buf with Some bt => ROk bt | None => RUB end).
Proof. exact @slb_accessors. Qed.
Print Assumptions C47_slice_buffer.

Theorem C47_get_byte_end_refuted : exists ix buf, ix = zlen buf /\ @vb_get_byte unit ix buf = RUB.
Proof. exact get_byte_end_ub. Qed.
Print Assumptions C47_get_byte_end_refuted.

Theorem C47_get_slice_wrap_refuted :
  exists ix n buf, is_usize ix /\ is_usize n /\ @vb_get_slice unit Release ix n buf = RUB.
Proof. exact get_slice_wrap_ub. Qed.
Print Assumptions C47_get_slice_wrap_refuted.

Example C47_sample : @vb_get_slice unit Debug 1 2 [5; 6; 7] = ROk [6; 7] /\ 1 + 2 < usize_mod.
Proof. split; reflexivity. Qed.
