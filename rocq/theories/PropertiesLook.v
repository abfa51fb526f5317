(** Property theorems: decoding a self-delimiting type looks at nothing beyond what
    it consumes, so messages can follow one another (C79). *)
From Verif Require Import Base ModelErrors ModelParser ModelInt ModelSchema SpecParser SpecCodec
  BaseLemmas ProofCodecThms ProofSettle ProofLook PropertiesCodec.

(** What was read is a prefix of the input, and with anything else behind it, and
    through any parser, the same is read. *)
Theorem C79_no_lookahead : forall cf D I, wf_defs D = true -> disciplined D I = true ->
  forall t, wf_ty D t = true -> self_delimiting I t = true ->
  forall w input v rest, bytes_ok input -> zlen input <= isize_max -> reads w cf D t input (ROk (v, rest)) ->
  exists pre, input = pre ++ rest /\
  forall w' rest', bytes_ok rest' -> zlen (pre ++ rest') <= isize_max -> reads w' cf D t (pre ++ rest') (ROk (v, rest')).
Proof. exact no_lookahead. Qed.
Print Assumptions C79_no_lookahead.

(** If the cut takes away any of the bytes that were consumed, no value is read. *)
Theorem C79_cut : forall cf D I, wf_defs D = true -> disciplined D I = true ->
  forall t, wf_ty D t = true -> self_delimiting I t = true ->
  forall w p q v rest, bytes_ok (p ++ q) -> zlen (p ++ q) <= isize_max ->
  reads w cf D t (p ++ q) (ROk (v, rest)) -> zlen rest < zlen q ->
  forall w' v' rest', ~ reads w' cf D t p (ROk (v', rest')).
Proof. exact cut_refused. Qed.
Print Assumptions C79_cut.

(** Messages one after the other are the elements of a [Sequence]. *)
Theorem C79_stream : forall cf D I, wf_defs D = true -> disciplined D I = true ->
  forall t, wf_ty D t = true -> self_delimiting I t = true ->
  forall ms vs w w', nonempty I t = true -> bytes_ok (concat ms) -> zlen (concat ms) <= isize_max ->
  Forall2 (fun m v => reads w cf D t m (ROk (v, []))) ms vs ->
  reads w' cf D (TSeq t) (concat ms) (ROk (VSeq vs, [])).
Proof. exact stream_read. Qed.
Print Assumptions C79_stream.

(** There is one way only to split a stream into messages. *)
Theorem C79_split : forall cf D I, wf_defs D = true -> disciplined D I = true ->
  forall t, wf_ty D t = true -> self_delimiting I t = true ->
  forall ms ms' w w', nonempty I t = true -> bytes_ok (concat ms) -> zlen (concat ms) <= isize_max ->
  Forall (fun m => exists v, reads w cf D t m (ROk (v, []))) ms ->
  Forall (fun m => exists v, reads w' cf D t m (ROk (v, []))) ms' ->
  concat ms = concat ms' -> ms = ms'.
Proof. exact stream_split. Qed.
Print Assumptions C79_split.

(** Two numbers, the first not in shortest form (F11): it is accepted, and so is
    what follows. *)
Example C79_case :
  reads WByte debug [] (TSeq TN) [129; 0; 5] (ROk (VSeq [VInt 1; VInt 5], [])).
Proof.
  apply (C79_stream debug [] [] eq_refl eq_refl TN eq_refl eq_refl [[129; 0]; [5]] [VInt 1; VInt 5] WSlice WByte);
    [reflexivity|apply bytes_ok_check; reflexivity|vm_compute; discriminate|].
  constructor; [|constructor; [|constructor]]; (eapply (reads_at WSlice) with (f := 9%nat); [vm_compute; reflexivity|discriminate]).
Qed.
(** The restriction is needed: [FixSeq<(), 1>] asks whether anything is left. *)
Example C79_looks_ahead :
  reads WByte debug [] (TFix 1 TUnit) [7] (ROk (VSeq [VUnit], [7])) /\
  exists e, reads WByte debug [] (TFix 1 TUnit) [] (RErr e).
Proof.
  split; [|eexists]; (eapply (reads_at WByte) with (f := 9%nat); [vm_compute; reflexivity|discriminate]).
Qed.
