(** Property theorems: parsers written outside the library (C78).

    [honours h sees] (SpecCustom.v): the methods [h] keep the contract of the
    [Parser] trait. *)
From Verif Require Import Base ModelErrors ModelParser ModelInt ModelSchema SpecParser SpecCodec SpecGrammar SpecCustom
  BaseLemmas ProofParserSim ProofSettle ProofGrammar ProofCustom PropertiesCodec ProofCodecThms.

(** What such a parser reads from its input is what the grammar says. *)
Theorem C78_exactly_the_grammar : forall P (h : handler P) sees, honours h sees ->
  forall cf D t input p, wf_defs D = true -> wf_ty D t = true -> bytes_ok input -> zlen input <= isize_max ->
  sees p (w_init input) ->
  forall v rest, pads_ok cf D t = true ->
  reads_through h p cf D t (ROk (v, rest)) <-> denotes (cf_check_padding cf) D t input v rest.
Proof. exact @through_exact. Qed.
Print Assumptions C78_exactly_the_grammar.

(** Without any restriction on padding: it reads all that the grammar has. *)
Theorem C78_whole_grammar : forall P (h : handler P) sees, honours h sees ->
  forall cf D t input p, wf_defs D = true -> wf_ty D t = true -> bytes_ok input -> zlen input <= isize_max ->
  sees p (w_init input) ->
  forall v rest, denotes (cf_check_padding cf) D t input v rest -> reads_through h p cf D t (ROk (v, rest)).
Proof. exact @through_complete. Qed.
Print Assumptions C78_whole_grammar.

(** It reads what the parsers of the library read. *)
Theorem C78_as_the_library : forall P (h : handler P) sees, honours h sees ->
  forall cf D t input p, wf_defs D = true -> wf_ty D t = true -> bytes_ok input -> zlen input <= isize_max ->
  sees p (w_init input) ->
  forall w v rest, pads_ok cf D t = true ->
  reads_through h p cf D t (ROk (v, rest)) <-> reads w cf D t input (ROk (v, rest)).
Proof. exact @through_same. Qed.
Print Assumptions C78_as_the_library.

(** Anything else is refused with an error, the parser's or one of the library; only the debug assertion of
    VPadded can panic. *)
Theorem C78_refuses : forall P (h : handler P) sees, honours h sees ->
  forall cf D t input p, wf_defs D = true -> wf_ty D t = true -> bytes_ok input -> zlen input <= isize_max ->
  sees p (w_init input) ->
  forall I R, pads_ok cf D t = true -> terminating D I R = true -> loops_ok I t = true ->
  (forall v rest, ~ denotes (cf_check_padding cf) D t input v rest) ->
  (exists e, reads_through h p cf D t (RErr e)) \/ (cf_mode cf = Debug /\ reads_through h p cf D t RPanic).
Proof. exact @through_refuses. Qed.
Print Assumptions C78_refuses.

(** The contract can be kept: by a list of windows, by the SliceParser in every
    build, and by the ByteParser in release builds. *)
Theorem C78_stack : forall e, exists sees, honours (stack_h e) sees /\ forall buf, sees (buf, []) (w_init buf).
Proof. exact stack_keeps. Qed.
Print Assumptions C78_stack.
Theorem C78_slice : exists sees, honours slice_h sees /\ forall buf, sees (sp_from_buffer buf) (w_init buf).
Proof. exact slice_keeps. Qed.
Print Assumptions C78_slice.
Theorem C78_byte : exists sees, honours (byte_h Release) sees /\
  forall buf, zlen buf <= isize_max -> sees (bp_from_buffer buf) (w_init buf).
Proof. exact byte_keeps. Qed.
Print Assumptions C78_byte.

(** The list of windows reads the sample of PropertiesCodec.v and leaves the byte
    after it. *)
Example C78_case :
  reads_through (stack_h (EWindow CloseWithoutWindow)) (sample_bytes ++ [7], []) debug sample_defs sample_ty (ROk (sample_val, [7])).
Proof.
  destruct (C78_stack (EWindow CloseWithoutWindow)) as (sees & H & Hs).
  apply (C78_as_the_library _ _ sees H debug sample_defs sample_ty (sample_bytes ++ [7])) with (w := WByte);
    [reflexivity|reflexivity|apply bytes_ok_check; reflexivity|vm_compute; discriminate|apply Hs|reflexivity|].
  eapply (reads_at WByte) with (f := 9%nat); [vm_compute; reflexivity|discriminate].
Qed.
(** Of the input cut short it reports its own error. *)
Example C78_refused :
  fst (run (stack_h (EWindow CloseWithoutWindow)) (then_rest (parse debug sample_defs 9 sample_ty)) (firstn 2 sample_bytes, []))
  = RErr (EWindow CloseWithoutWindow).
Proof. vm_compute. reflexivity. Qed.
