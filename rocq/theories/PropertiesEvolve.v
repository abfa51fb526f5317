(** C77: messages outlive their schema.

    [evolves D D'] and [widens t t'] (SpecEvolve): the later schema has wider ranges,
    higher limits, more variants and more definitions. *)
From Verif Require Import Base BaseLemmas ModelErrors ModelInt ModelFloat ModelParser ModelTarget ModelSchema SpecCodec SpecWork SpecEvolve
  ProofSettle ProofEvolve ProofWork.
From Coq Require Import ZifyBool.

(** The later reader gets from an old message what the old reader got. *)
Theorem C77_new_reader D D' w cf t t' input v :
  evolves D D' -> wf_defs D = true -> wf_defs D' = true -> widens t t' -> wf_ty D t = true -> wf_ty D' t' = true ->
  decodes w cf D t input (ROk v) -> decodes w cf D' t' input (ROk v).
Proof. exact (fun HE W W' => new_reader D D' HE W W' w cf t t' input v). Qed.
Print Assumptions C77_new_reader.

(** The old reader gets from a new message the same value if that is a value it
    knows, and otherwise an error: never another value, a panic or no answer. *)
Theorem C77_old_reader D D' w cf t t' input v :
  evolves D D' -> wf_defs D = true -> wf_defs D' = true -> widens t t' -> wf_ty D t = true -> wf_ty D' t' = true ->
  bytes_ok input -> zlen input <= isize_max ->
  decodes w cf D' t' input (ROk v) ->
  if well_typed D v t then decodes w cf D t input (ROk v)
  else exists e, decodes w cf D t input (RErr (DParse e)).
Proof. exact (fun HE W W' H WT WT' => old_reader D D' HE w cf t t' input v H W W' WT WT'). Qed.
Print Assumptions C77_old_reader.

(** Values of the old schema are values of the new one, and are written alike. *)
Theorem C77_values D D' v t t' :
  evolves D D' -> wf_defs D = true -> wf_defs D' = true -> widens t t' -> wf_ty D t = true -> wf_ty D' t' = true ->
  well_typed D v t = true -> well_typed D' v t' = true.
Proof. exact (fun HE W W' => typed_new D D' HE W W' v t t'). Qed.
Print Assumptions C77_values.
Theorem C77_encoding D D' cf kf {U} (T : target U) v t t' :
  evolves D D' -> wf_defs D = true -> wf_defs D' = true -> widens t t' -> wf_ty D t = true -> wf_ty D' t' = true ->
  well_typed D v t = true ->
  encode cf D' kf T v t' = encode cf D kf T v t /\ enc_len cf D' kf v t' = enc_len cf D kf v t.
Proof. exact (fun HE W W' => encode_same D D' HE W W' cf kf T v t t'). Qed.
Print Assumptions C77_encoding.

(** An example: a recursive enum that gets a variant, a limit that is raised, a
    range that grows, and a definition. *)
Definition v1_defs : list def :=
  [DData U8 [(0, [TRanged U8 0 9]); (3, [TDyn PrefU8 (TLim 2 (TBox (TNamed 0)))])]; DCStyle U16 [1; 2]].
Definition v2_defs : list def :=
  [DData U8 [(0, [TRanged U8 0 99]); (3, [TDyn PrefU8 (TLim 5 (TBox (TNamed 0)))]); (1, [TNamed 2; TNamed 1])];
   DCStyle U16 [1; 2; 0]; DStruct [TBool]].
Lemma v1_v2 : evolves v1_defs v2_defs.
Proof.
  exists (firstn 2 v2_defs), [DStruct [TBool]]. split; [reflexivity|].
  cbn [firstn v1_defs v2_defs]. constructor; [|constructor; [apply (wd_cstyle U16 [1; 2] [0])|constructor]].
  apply (wd_data U8 _ [(0, [TRanged U8 0 99]); (3, [TDyn PrefU8 (TLim 5 (TBox (TNamed 0)))])] [(1, [TNamed 2; TNamed 1])]).
  constructor; [|constructor; [|constructor]]; (split; [reflexivity|]); cbn [snd].
  - constructor; [apply wd_ranged; lia|constructor].
  - constructor; [|constructor]. apply wd_dyn, wd_lim; [lia|]. apply wd_box, wd_basic. reflexivity.
Qed.
Example C77_case : wf_defs v1_defs = true /\ wf_defs v2_defs = true /\
  decodes WByte plain v1_defs (TNamed 0) [3; 4; 0; 5; 0; 6] (ROk (VEnum 1 [VWrap (VSeq [VWrap (VEnum 0 [VInt 5]); VWrap (VEnum 0 [VInt 6])])])) /\
  decodes WByte plain v2_defs (TNamed 0) [3; 4; 1; 255; 0; 2] (ROk (VEnum 1 [VWrap (VSeq [VWrap (VEnum 2 [VStruct [VBool true]; VEnum 1 []])])])) /\
  exists e, decodes WByte plain v1_defs (TNamed 0) [3; 4; 1; 255; 0; 2] (RErr (DParse e)).
Proof.
  split; [reflexivity|]. split; [reflexivity|].
  split; [|split; [|eexists]]; (eapply (decodes_at WByte) with (f := 9%nat); [vm_compute; reflexivity|discriminate]).
Qed.

(** What [widens] leaves out for a reason.  With a lower positive MIN a number is read
    from an old message, but as a different one (7 was 1 + 6, and is now 6); *)
Example C77_positive_min :
  to_bytes plain [] 1 (VInt 6) (TRanged U8 1 9) = ROk [6] /\
  decodes WByte plain [] (TRanged U8 0 9) [6] (ROk (VInt 6)) /\
  ri_to_i32 (E := unit) false Debug 1 9 6 = ROk 7 /\ ri_to_i32 (E := unit) false Debug 0 9 6 = ROk 6.
Proof.
  split; [reflexivity|]. split; [|split; reflexivity].
  eapply (decodes_at WByte) with (f := 9%nat); [vm_compute; reflexivity|discriminate].
Qed.
(** and a FixSeq that becomes a LimSeq no longer stops by itself. *)
Example C77_fix_to_lim :
  decodes WByte plain [DStruct [TFix 1 (TInt U8); TInt U8]] (TNamed 0) [7; 8] (ROk (VStruct [VSeq [VInt 7]; VInt 8])) /\
  exists e, decodes WByte plain [DStruct [TLim 1 (TInt U8); TInt U8]] (TNamed 0) [7; 8] (RErr (DParse e)).
Proof. split; [|eexists]; (eapply (decodes_at WByte) with (f := 9%nat); [vm_compute; reflexivity|discriminate]). Qed.
