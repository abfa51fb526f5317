(** Property theorems about parsers in a program that catches panics
    ([std::panic::catch_unwind]).  Vocabulary: SpecUnwind.v ([carry_on], [expected],
    [interrupted]), SpecAfter.v ([inside]), SpecParser.v (the reference machine). *)
From Verif Require Import Base ModelErrors ModelSplitVec ModelParser ModelInt ModelSchema
  SpecParser SpecCodec SpecAfter SpecUnwind ProofAfter ProofUnwind.

(** *** C94
    In a debug build some calls panic instead of failing (F2).  A caller that
    catches the panic has the parser as it was before the call. *)
Theorem C94_unchanged_byte : forall m buf pre p, zlen buf <= isize_max -> Forall (arg_fits m) pre ->
  after (byte_h m) pre (bp_from_buffer buf) = Some p ->
  forall (X : Set) (o : pop X) p', arg_fits m (AnyOp o) -> byte_h m X o p = (RPanic, p') -> p' = p.
Proof. exact byte_panic_unchanged. Qed.
Print Assumptions C94_unchanged_byte.

Theorem C94_unchanged_memo : forall m buf pre p, zlen buf <= isize_max -> Forall (arg_fits m) pre ->
  after (memo_h m) pre (mp_from_buffer buf) = Some p ->
  forall (X : Set) (o : pop X) p', arg_fits m (AnyOp o) -> memo_h m X o p = (RPanic, p') -> p' = p.
Proof. exact memo_panic_unchanged. Qed.
Print Assumptions C94_unchanged_memo.

(** So a history of calls in which every panic is caught shows what the reference
    machine shows, a panic counting as a failure. *)
Theorem C94_history_byte : forall m buf ops, zlen buf <= isize_max -> Forall (arg_fits m) ops ->
  Forall2 (expected m) (carry_on (byte_h m) ops (bp_from_buffer buf)) (history (spec_h Merge) ops (w_init buf)).
Proof. exact byte_carry_on. Qed.
Print Assumptions C94_history_byte.

Theorem C94_history_memo : forall m buf ops, zlen buf <= isize_max -> Forall (arg_fits m) ops ->
  Forall2 (expected m) (carry_on (memo_h m) ops (mp_from_buffer buf)) (history (spec_h Merge) ops (w_init buf)).
Proof. exact memo_carry_on. Qed.
Print Assumptions C94_history_memo.

(** No method of the slice parser panics. *)
Theorem C94_slice_quiet : forall (X : Set) (o : pop X) p p', slice_h X o p <> (RPanic, p').
Proof. exact slice_never_panics. Qed.
Print Assumptions C94_slice_quiet.

(** A decoder that panics has used bytes of the innermost window only, and leaves a
    state that the parser's methods lead to. *)
Theorem C94_byte : forall cf D t f, wf_defs D = true -> wf_ty D t = true -> pads_ok cf D t = true ->
  forall buf pre, bytes_ok buf -> zlen buf <= isize_max ->
  forall p w p', Forall (arg_fits (cf_mode cf)) pre ->
  after (byte_h (cf_mode cf)) pre (bp_from_buffer buf) = Some p ->
  after (spec_h Merge) pre (w_init buf) = Some w ->
  run (byte_h (cf_mode cf)) (parse cf D f t) p = (RPanic, p') ->
  interrupted (cf_mode cf) (byte_h (cf_mode cf)) Merge p w p'.
Proof. exact byte_interrupted. Qed.
Print Assumptions C94_byte.

Theorem C94_memo : forall cf D t f, wf_defs D = true -> wf_ty D t = true -> pads_ok cf D t = true ->
  forall buf pre, bytes_ok buf -> zlen buf <= isize_max ->
  forall p w p', Forall (arg_fits (cf_mode cf)) pre ->
  after (memo_h (cf_mode cf)) pre (mp_from_buffer buf) = Some p ->
  after (spec_h Merge) pre (w_init buf) = Some w ->
  run (memo_h (cf_mode cf)) (parse cf D f t) p = (RPanic, p') ->
  interrupted (cf_mode cf) (memo_h (cf_mode cf)) Merge p w p'.
Proof. exact memo_interrupted. Qed.
Print Assumptions C94_memo.

Theorem C94_slice : forall cf D t f, wf_defs D = true -> wf_ty D t = true -> pads_ok cf D t = true ->
  forall buf pre, bytes_ok buf -> zlen buf <= isize_max ->
  forall p w p', bracketed Drop pre (w_init buf) ->
  after slice_h pre (sp_from_buffer buf) = Some p ->
  after (spec_h Drop) pre (w_init buf) = Some w ->
  run slice_h (parse cf D f t) p = (RPanic, p') ->
  interrupted (cf_mode cf) slice_h Drop p w p'.
Proof. exact slice_interrupted. Qed.
Print Assumptions C94_slice.

(** In particular [cleanup] hands back the end of the input, and does not panic
    itself. *)
Theorem C94_leftover : forall cf D t f buf p',
  wf_defs D = true -> wf_ty D t = true -> pads_ok cf D t = true ->
  bytes_ok buf -> zlen buf <= isize_max ->
  run (byte_h (cf_mode cf)) (parse cf D f t) (bp_from_buffer buf) = (RPanic, p') ->
  exists lo used, bp_cleanup (cf_mode cf) p' = ROk lo /\ buf = used ++ lo_bytes lo.
Proof. exact interrupted_leftover. Qed.
Print Assumptions C94_leftover.

(** A window that is too wide, caught, and then the bytes one after the other. *)
Example C94_history_case :
  carry_on (byte_h Debug) [AnyOp (OpSetFit 2); AnyOp OpConsumeByte; AnyOp (OpSetFit 4); AnyOp OpConsumeByte; AnyOp OpEnforceTarget; AnyOp OpConsumeByte]
    (bp_from_buffer [7; 8; 9])
  = [ObsUnit; ObsByte 7; ObsPanic; ObsByte 8; ObsUnit; ObsByte 9] /\
  history (spec_h Merge) [AnyOp (OpSetFit 2); AnyOp OpConsumeByte; AnyOp (OpSetFit 4); AnyOp OpConsumeByte; AnyOp OpEnforceTarget; AnyOp OpConsumeByte]
    (w_init [7; 8; 9])
  = [ObsUnit; ObsByte 7; ObsFail; ObsByte 8; ObsUnit; ObsByte 9].
Proof. split; vm_compute; reflexivity. Qed.

(** A length prefix of 5 before two bytes: the prefix is used, the bytes are left. *)
Example C94_case :
  let cf := mkConfig Debug false false false false false in
  exists p', wf_ty [] (TDyn PrefU8 TBytes) = true /\
    run (byte_h Debug) (parse cf [] 3 (TDyn PrefU8 TBytes)) (bp_from_buffer [5; 1; 2]) = (RPanic, p') /\
    carry_on (byte_h Debug) [AnyOp OpRemainder; AnyOp (OpConsume 2)] p' = [ObsNum 2; ObsBytes [1; 2]].
Proof. cbv zeta. eexists. split; [reflexivity|]. split; [vm_compute; reflexivity|]. vm_compute; reflexivity. Qed.

(** The decoder of variable padding asserts that there is room for the padding; with
    the slice parser too, that panics in a debug build. *)
Example C94_slice_case :
  let cf := mkConfig Debug false false false false false in
  exists p', wf_ty [] (TVPad 4 TBytes) = true /\ pads_ok cf [] (TVPad 4 TBytes) = true /\
    run slice_h (parse cf [] 3 (TVPad 4 TBytes)) (sp_from_buffer [1; 2]) = (RPanic, p') /\
    history slice_h [AnyOp OpRemainder; AnyOp (OpConsume 2)] p' = [ObsNum 2; ObsBytes [1; 2]].
Proof. cbv zeta. eexists. split; [reflexivity|]. split; [reflexivity|]. split; [vm_compute; reflexivity|]. vm_compute; reflexivity. Qed.
