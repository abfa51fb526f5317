(** Property theorems about encodings that are interrupted by a panic, for a target
    that outlives it.  Vocabulary: SpecInterrupt.v ([written]), SpecTarget.v
    ([collects]), SpecCodec.v ([format], [well_typed], [valid]). *)
From Verif Require Import Base ModelTarget ModelInt ModelSchema ModelInterrupt SpecTarget SpecCodec SpecInterrupt ProofInterrupt.

(** *** C95
    The writer that keeps the state of the target is [write_to]. *)
Theorem C95_same : forall cf D kf v U (T : target U) t u,
  write_to cf D kf v U T t u =
  match write_st cf D kf v U T t u with
  | (ROk n, u') => ROk (n, u')
  | (RErr e, _) => RErr e
  | (RPanic, _) => RPanic
  | (RUB, _) => RUB
  | (RDiv, _) => RDiv
  end.
Proof. exact interrupt_same. Qed.
Print Assumptions C95_same.

(** Whatever the target held it still holds, and behind it exactly the fields before
    the length-prefixed field that cannot be encoded.  (RDiv: a static size that the
    compiler could not have computed.) *)
Theorem C95_exact : forall cf D kf v t, wf_defs D = true -> wf_ty D t = true -> well_typed D v t = true ->
  zlen (format D v t) <= isize_max -> (cf_est_override cf = true -> zeros D v t = 0) ->
  forall U (T : target U) holds, collects T holds -> forall u pre, holds u pre ->
  match write_st cf D kf v U T t u with
  | (ROk n, u') => snd (written (negb (cf_est_override cf)) D v t) = true /\ n = zlen (format D v t) /\ holds u' (pre ++ format D v t)
  | (RPanic, u') => snd (written (negb (cf_est_override cf)) D v t) = false /\
                    holds u' (pre ++ fst (written (negb (cf_est_override cf)) D v t))
  | (RDiv, _) => cf_est_override cf = true
  | _ => False
  end.
Proof. exact interrupt_exact. Qed.
Print Assumptions C95_exact.

(** The vector, the hex string, StrictBuilder and MemoBuilder. *)
Theorem C95_library : forall cf D kf v t, wf_defs D = true -> wf_ty D t = true -> well_typed D v t = true ->
  zlen (format D v t) <= isize_max -> (cf_est_override cf = true -> zeros D v t = 0) ->
  forall w u u', write_st cf D kf v (tg_state w) (tg_of w) t u = (RPanic, u') ->
  valid D v t = false /\ tg_bytes w u' = tg_bytes w u ++ fst (written (negb (cf_est_override cf)) D v t).
Proof. exact interrupt_library. Qed.
Print Assumptions C95_library.

(** What is written is the beginning of the wire format, and all of it is written
    exactly if the value can be encoded. *)
Theorem C95_written : forall c D v t, well_typed D v t = true ->
  (exists rest, format D v t = fst (written c D v t) ++ rest) /\ snd (written c D v t) = valid D v t.
Proof. exact interrupt_written. Qed.
Print Assumptions C95_written.

(** A length-prefixed value is written with all of its payload or not at all. *)
Theorem C95_whole : forall cf D kf v s t, wf_defs D = true -> wf_ty D t = true -> well_typed D v (TDyn s t) = true ->
  zlen (format D v (TDyn s t)) <= isize_max -> cf_est_override cf = false ->
  forall U (T : target U) holds, collects T holds -> forall u pre, holds u pre ->
  (exists u', write_st cf D kf v U T (TDyn s t) u = (ROk (zlen (format D v (TDyn s t))), u') /\ holds u' (pre ++ format D v (TDyn s t))) \/
  (exists u', write_st cf D kf v U T (TDyn s t) u = (RPanic, u') /\ holds u' pre).
Proof. exact interrupt_whole. Qed.
Print Assumptions C95_whole.

(** F48: not with enc_len_estimable_override.  The length of the outer payload, 257,
    is computed without looking at the inner one, which does not fit its prefix; the
    outer prefix is left behind on its own. *)
Theorem C95_dangling_with_override : exists cf D kf v s t u', cf_est_override cf = true /\ wf_ty D (TDyn s t) = true /\ well_typed D v (TDyn s t) = true /\
  write_st cf D kf v (list byte) tg_vec (TDyn s t) [7] = (RPanic, u') /\ u' = [7; 1; 1].
Proof. exact interrupt_dangling. Qed.
Print Assumptions C95_dangling_with_override.

(** A struct of a byte, an optional string with a one-byte prefix and another byte,
    the string being 256 bytes long: the first byte and the tag of Some are left. *)
Example C95_case :
  let D := [DStruct [TInt U8; TOption (TDyn PrefU8 TBytes); TInt U8]] in
  let v := VStruct [VInt 3; VSome (VWrap (VBytes (repeat 9 256))); VInt 4] in
  let cf := mkConfig Debug false false false false false in
  wf_defs D = true /\ wf_ty D (TNamed 0) = true /\ well_typed D v (TNamed 0) = true /\
  zlen (format D v (TNamed 0)) <= isize_max /\
  written true D v (TNamed 0) = ([3; 255], false) /\
  write_st cf D 5 v (list byte) tg_vec (TNamed 0) [7] = (RPanic, [7; 3; 255]).
Proof. cbv zeta. split; [reflexivity|]. split; [reflexivity|]. split; [reflexivity|]. split; [vm_compute; discriminate|]. split; vm_compute; reflexivity. Qed.

(** In a sequence the elements before the bad one are complete. *)
Example C95_case_seq :
  let v := VSeq [VWrap (VBytes [1; 2]); VWrap (VBytes (repeat 9 256)); VWrap (VBytes [5])] in
  let cf := mkConfig Release false false false false false in
  write_st cf [] 5 v (list byte) tg_vec (TSeq (TDyn PrefU8 TBytes)) [] = (RPanic, [2; 1; 2]).
Proof. vm_compute; reflexivity. Qed.
