(** Property theorems about the state a decoder leaves its parser in.  Vocabulary:
    SpecAfter.v ([inside], [leaves]), SpecParser.v (the reference machine). *)
From Verif Require Import Base ModelErrors ModelSplitVec ModelParser ModelInt ModelSchema SpecParser SpecCodec SpecAfter ProofAfter.

(** *** C81
    A decoder is given a parser in any state its methods can lead to.  Whether it
    succeeds or fails, it has used bytes of the innermost window only, from its
    beginning, and the windows around that one are as they were; after success no
    further window is open.  The state is one that the parser's own methods lead to,
    so that whatever is said of histories of calls (C01 to C11) holds afterwards. *)
Theorem C81_byte : forall cf D t f, wf_defs D = true -> wf_ty D t = true -> pads_ok cf D t = true ->
  forall buf pre, bytes_ok buf -> zlen buf <= isize_max ->
  forall p w r p', Forall (arg_fits (cf_mode cf)) pre ->
  after (byte_h (cf_mode cf)) pre (bp_from_buffer buf) = Some p ->
  after (spec_h Merge) pre (w_init buf) = Some w ->
  run (byte_h (cf_mode cf)) (parse cf D f t) p = (r, p') ->
  leaves (cf_mode cf) (byte_h (cf_mode cf)) Merge p w r p'.
Proof. exact byte_leaves. Qed.
Print Assumptions C81_byte.

Theorem C81_memo : forall cf D t f, wf_defs D = true -> wf_ty D t = true -> pads_ok cf D t = true ->
  forall buf pre, bytes_ok buf -> zlen buf <= isize_max ->
  forall p w r p', Forall (arg_fits (cf_mode cf)) pre ->
  after (memo_h (cf_mode cf)) pre (mp_from_buffer buf) = Some p ->
  after (spec_h Merge) pre (w_init buf) = Some w ->
  run (memo_h (cf_mode cf)) (parse cf D f t) p = (r, p') ->
  leaves (cf_mode cf) (memo_h (cf_mode cf)) Merge p w r p'.
Proof. exact memo_leaves. Qed.
Print Assumptions C81_memo.

Theorem C81_slice : forall cf D t f, wf_defs D = true -> wf_ty D t = true -> pads_ok cf D t = true ->
  forall buf pre, bytes_ok buf -> zlen buf <= isize_max ->
  forall p w r p', bracketed Drop pre (w_init buf) ->
  after slice_h pre (sp_from_buffer buf) = Some p ->
  after (spec_h Drop) pre (w_init buf) = Some w ->
  run slice_h (parse cf D f t) p = (r, p') ->
  leaves (cf_mode cf) slice_h Drop p w r p'.
Proof. exact slice_leaves. Qed.
Print Assumptions C81_slice.

(** In particular [cleanup] after a failure hands back the end of the input. *)
Theorem C81_leftover : forall cf D t f buf e p',
  wf_defs D = true -> wf_ty D t = true -> pads_ok cf D t = true ->
  bytes_ok buf -> zlen buf <= isize_max ->
  run (byte_h (cf_mode cf)) (parse cf D f t) (bp_from_buffer buf) = (RErr e, p') ->
  exists lo used, bp_cleanup (cf_mode cf) p' = ROk lo /\ buf = used ++ lo_bytes lo.
Proof. exact byte_leftover. Qed.
Print Assumptions C81_leftover.

(** F37: the windows a failed decoder has opened stay open.  A length-prefixed bool
    over [02 07 09 04 04] fails at [07]; the parser then admits to one byte, the
    rest of the payload, although three are left. *)
Theorem C81_window_left_open : exists D t buf f e p',
  wf_defs D = true /\ wf_ty D t = true /\ bytes_ok buf /\
  run (byte_h Release) (parse (mkConfig Release false false false false false) D f t) (bp_from_buffer buf) = (RErr e, p') /\
  byte_h Release Z OpRemainder p' = (ROk 1, p') /\ zlen buf - bp_offset p' = 3.
Proof. exact left_open. Qed.
Print Assumptions C81_window_left_open.

(** A window of six bytes, one of them read, then the same type fails inside it:
    one more window is open, the outer one is as it was. *)
Example C81_case :
  let pre := [AnyOp (OpSetFit 6); AnyOp OpConsumeByte] in
  let cf := mkConfig Debug false false false false false in
  exists p e p',
    Forall (arg_fits Debug) pre /\
    after (byte_h Debug) pre (bp_from_buffer [1; 2; 7; 9; 4; 4; 8]) = Some p /\
    after (spec_h Merge) pre (w_init [1; 2; 7; 9; 4; 4; 8]) = Some (mkW [2; 7; 9; 4; 4] [[8]]) /\
    run (byte_h Debug) (parse cf [] 3 (TDyn PrefU8 TBool)) p = (RErr e, p') /\
    inside (mkW [9] [[4; 4]; [8]]) (mkW [2; 7; 9; 4; 4] [[8]]) /\
    history (byte_h Debug) [AnyOp OpRemainder; AnyOp (OpConsume 1); AnyOp OpEnforceTarget; AnyOp (OpConsume 2); AnyOp OpEnforceTarget; AnyOp OpConsumeByte] p'
    = [ObsNum 1; ObsBytes [9]; ObsUnit; ObsBytes [4; 4]; ObsUnit; ObsByte 8].
Proof.
  cbv zeta. do 3 eexists. split; [repeat constructor; discriminate|].
  split; [vm_compute; reflexivity|]. split; [reflexivity|]. split; [vm_compute; reflexivity|].
  split; [exists [[4; 4]], [2; 7]; split; reflexivity|]. vm_compute; reflexivity.
Qed.

(** Success: the byte behind the value is next, in the window it was in. *)
Example C81_success :
  let cf := mkConfig Debug false false false false false in
  exists p', run slice_h (parse cf [] 3 (TDyn PrefU8 TBool)) (sp_from_buffer [1; 255; 6]) = (ROk (VWrap (VBool true)), p') /\
    leaves Debug slice_h Drop (sp_from_buffer [1; 255; 6]) (w_init [1; 255; 6]) (@ROk parse_error _ (VWrap (VBool true))) p' /\
    history slice_h [AnyOp OpConsumeByte] p' = [ObsByte 6].
Proof.
  cbv zeta. eexists. split; [vm_compute; reflexivity|]. split; [|reflexivity].
  exists [AnyOp (OpConsume 1); AnyOp (OpSetFit 1); AnyOp OpConsumeByte; AnyOp OpEnforceTarget], (mkW [6] []).
  split; [repeat constructor; discriminate|]. split; [cbn; repeat split; discriminate|].
  split; [reflexivity|]. split; [reflexivity|]. split; [|reflexivity]. exists [], [1; 255]. split; reflexivity.
Qed.
