(** C86: what decoders made of decoders written elsewhere accept. *)
From Verif Require Import Base BaseLemmas ModelErrors ModelParser ModelInt ModelTarget ModelSchema ModelOpen
  SpecParser SpecCodec SpecOpen SpecAccept ProofAccept ProofCodecThms.

(** [try_decode] succeeds with what the decoder takes off the input; nothing may be
    left if complete parsing is asked for. *)
Theorem C86_decode : forall w cf A (c : codec A) f, tidy (c_parse c f) ->
  forall input v, bytes_ok input /\ zlen input <= isize_max -> (w = WSlice -> cf_complete cf = false) ->
  (c_decode_with w cf c f input = ROk v <->
   exists rest, takes w cf c f input v rest /\ (cf_complete cf = true -> rest = [])).
Proof. exact (fun w cf A => @accept_decode w cf A). Qed.
Print Assumptions C86_decode.

(** Without complete parsing [try_decode] ends as the decoder does; and for the
    types of the library it is the [try_decode] of the other theorems. *)
Theorem C86_decode_fails : forall w cf A (c : codec A) f input, cf_complete cf = false ->
  c_decode_with w cf c f input =
  match run_with w (cf_mode cf) (c_parse c f) input with
  | ROk v => ROk v | RErr e => RErr (DParse e) | RPanic => RPanic | RUB => RUB | RDiv => RDiv
  end.
Proof. exact decode_fails. Qed.
Print Assumptions C86_decode_fails.

Theorem C86_decode_library : forall w cf D kf t f input,
  c_decode_with w cf (c_schema cf D kf t) f input = decode_with w cf D f t input.
Proof. exact decode_schema. Qed.
Print Assumptions C86_decode_library.

(** A length prefix confines every decoder: its payload is what the prefix says,
    the decoder sees just the payload and has to use all of it. *)
Theorem C86_dynamic : forall w cf A (c : codec A) f, tidy (c_parse c f) ->
  forall s input v rest, bytes_ok input /\ zlen input <= isize_max ->
  (takes w cf (c_dyn cf s c) f input v rest <->
   exists payload, input = pref_format s (zlen payload) ++ payload ++ rest /\ zlen payload <= pref_max s /\
     takes w cf c f payload v []).
Proof. exact (fun w cf A => @accept_dyn w cf A). Qed.
Print Assumptions C86_dynamic.

Theorem C86_option : forall w cf A (c : codec A) f, tidy (c_parse c f) ->
  forall input v rest, bytes_ok input /\ zlen input <= isize_max ->
  (takes w cf (c_option cf c) f input v rest <->
   match v with
   | None => input = 0 :: rest
   | Some v => exists mid, input = 255 :: mid /\ takes w cf c f mid v rest
   end).
Proof. exact (fun w cf A => @accept_option w cf A). Qed.
Print Assumptions C86_option.

Theorem C86_nullable : forall w cf A (c : codec A) f, tidy (c_parse c f) ->
  forall input v rest, bytes_ok input /\ zlen input <= isize_max ->
  (takes w cf (c_nullable cf c) f input v rest <->
   match v with
   | None => input = [] /\ rest = []
   | Some v => input <> [] /\ takes w cf c f input v rest
   end).
Proof. exact (fun w cf A => @accept_nullable w cf A). Qed.
Print Assumptions C86_nullable.

(** Sequences read to the end (of their window), limited ones not more than [n]
    elements, fixed ones exactly [n].  The fuel stands for the running time. *)
Theorem C86_sequence : forall w cf A (c : codec A) f, tidy (c_parse c f) ->
  forall input vs rest, bytes_ok input /\ zlen input <= isize_max ->
  (takes w cf (c_seq cf c) f input vs rest <->
   rest = [] /\ takes_all w cf c f input vs [] /\ (List.length vs < f)%nat).
Proof. exact (fun w cf A => @accept_seq w cf A). Qed.
Print Assumptions C86_sequence.

Theorem C86_lim : forall w cf A (c : codec A) f, tidy (c_parse c f) ->
  forall n input vs rest, 0 <= n -> bytes_ok input /\ zlen input <= isize_max ->
  (takes w cf (c_lim cf n c) f input vs rest <->
   rest = [] /\ takes_all w cf c f input vs [] /\ zlen vs <= n /\ (List.length vs < f)%nat).
Proof. exact (fun w cf A => @accept_lim w cf A). Qed.
Print Assumptions C86_lim.

Theorem C86_fix : forall w cf A (c : codec A) f, tidy (c_parse c f) ->
  forall n input vs rest, bytes_ok input /\ zlen input <= isize_max ->
  (takes w cf (c_fix cf n c) f input vs rest <->
   takes_all w cf c f input vs rest /\ zlen vs = n /\ (List.length vs < f)%nat).
Proof. exact (fun w cf A => @accept_fix w cf A). Qed.
Print Assumptions C86_fix.

(** VPadded leaves the last [n] bytes alone.  (With fewer than [n] bytes debug
    builds panic and release builds leave the contract of the parser: F7.) *)
Theorem C86_vpadded : forall w cf A (c : codec A) f, tidy (c_parse c f) ->
  forall n input v rest, bytes_ok input /\ zlen input <= isize_max -> 0 <= n <= zlen input ->
  (takes w cf (c_vpad cf n c) f input v rest <->
   exists payload, input = payload ++ rest /\ zlen rest = n /\ takes w cf c f payload v []).
Proof. exact (fun w cf A => @accept_vpad w cf A). Qed.
Print Assumptions C86_vpadded.

Theorem C86_padded : forall w cf A (c : codec A) f, tidy (c_parse c f) ->
  forall n input v rest, bytes_ok input /\ zlen input <= isize_max -> 0 <= n <= isize_max ->
  (takes w cf (c_pad cf n c) f input v rest <->
   exists padding, takes w cf c f input v (padding ++ rest) /\ zlen padding = n /\
     (cf_check_padding cf = true -> Forall (fun b => b = 0) padding)).
Proof. exact (fun w cf A => @accept_pad w cf A). Qed.
Print Assumptions C86_padded.

Theorem C86_box : forall w cf A (c : codec A) f, tidy (c_parse c f) ->
  forall input v rest, bytes_ok input /\ zlen input <= isize_max ->
  (takes w cf (c_box cf c) f input v rest <-> takes w cf c f input v rest).
Proof. exact (fun w cf A => @accept_box w cf A). Qed.
Print Assumptions C86_box.

Theorem C86_struct : forall w cf f B S (fs : fields B) (build : B -> S) (split : S -> B) input s rest,
  tidy_fields fs f -> bytes_ok input /\ zlen input <= isize_max ->
  (takes w cf (c_struct cf fs build split) f input s rest <->
   exists b, s = build b /\ takes_fields w cf f fs input b rest).
Proof. exact (fun w cf f B S => @accept_struct w cf f B S). Qed.
Print Assumptions C86_struct.

Theorem C86_enum : forall w cf S k (vs : list (variant S)) f input s rest,
  Forall (fun va => tidy_fields (va_fields va) f) vs ->
  NoDup (map va_tag vs) -> Forall (fun va => ik_in k (va_tag va) = true) vs ->
  bytes_ok input /\ zlen input <= isize_max ->
  (takes w cf (c_data cf k vs) f input s rest <->
   exists va x mid, In va vs /\ s = va_build va x /\ input = int_format k (va_tag va) ++ mid /\
     takes_fields w cf f (va_fields va) mid x rest).
Proof. exact (fun w cf S => @accept_data w cf S). Qed.
Print Assumptions C86_enum.

(** What the wrappers make keeps to the rules again, so that all of this applies
    to any nesting of them. *)
Theorem C86_tidy_wrappers : forall cf A (c : codec A) f, tidy (c_parse c f) ->
  tidy (c_parse (c_option cf c) f) /\ tidy (c_parse (c_nullable cf c) f) /\ tidy (c_parse (c_seq cf c) f) /\
  (forall n, tidy (c_parse (c_lim cf n c) f)) /\ (forall n, tidy (c_parse (c_fix cf n c) f)) /\
  (forall s, tidy (c_parse (c_dyn cf s c) f)) /\
  (forall n, 0 <= n -> cf_mode cf = Debug -> tidy (c_parse (c_vpad cf n c) f)) /\
  (forall n, 0 <= n <= isize_max -> tidy (c_parse (c_pad cf n c) f)) /\
  tidy (c_parse (c_box cf c) f).
Proof. exact (fun cf A => @tidy_wrappers cf A). Qed.
Print Assumptions C86_tidy_wrappers.
Theorem C86_tidy_struct : forall cf f B S (fs : fields B) (build : B -> S) (split : S -> B),
  tidy_fields fs f -> tidy (c_parse (c_struct cf fs build split) f).
Proof. exact (fun cf f B S => @tidy_struct cf f B S). Qed.
Print Assumptions C86_tidy_struct.
Theorem C86_tidy_enum : forall cf S k (vs : list (variant S)) f,
  Forall (fun va => tidy_fields (va_fields va) f) vs -> tidy (c_parse (c_data cf k vs) f).
Proof. exact (fun cf S => @tidy_data cf S). Qed.
Print Assumptions C86_tidy_enum.
Theorem C86_tidy_library : forall cf D kf t f,
  wf_defs D = true -> wf_ty D t = true -> pads_ok cf D t = true -> tidy (c_parse (c_schema cf D kf t) f).
Proof. exact tidy_schema. Qed.
Print Assumptions C86_tidy_library.

(** Decoders written by hand keep to the rules if they are put together like
    this. *)
Theorem C86_tidy_ops :
  tidy p_consume_byte /\ tidy p_remainder /\ (forall n, 0 <= n <= isize_max -> tidy (p_consume n)) /\
  (forall A (a : A), tidy (PRet a)) /\ (forall A e, tidy (@PErr A e)) /\ (forall A, tidy (@PPanic A)).
Proof. exact tidy_ops. Qed.
Print Assumptions C86_tidy_ops.
Theorem C86_tidy_bind : forall A B (pg : prog A) (k : A -> prog B), tidy pg -> (forall a, tidy (k a)) -> tidy (pbind pg k).
Proof. exact (fun A B => @tidy_bind A B). Qed.
Print Assumptions C86_tidy_bind.
Theorem C86_tidy_window : forall A n (pg : prog A), 0 <= n <= isize_max -> tidy pg ->
  tidy (p_set_fit n ;;; v <- pg ;; p_enforce_target ;;; PRet v).
Proof. exact (fun A => @tidy_window A). Qed.
Print Assumptions C86_tidy_window.
Theorem C86_tidy_string : forall cf f, tidy (c_parse (c_string cf) f).
Proof. exact tidy_string. Qed.
Print Assumptions C86_tidy_string.

(** Strings that end with a zero byte, in a length prefix. *)
Definition ex_cf : config := mkConfig Debug true false false true true.
Definition ex_string : codec (list byte) := c_dyn ex_cf PrefU8 (c_string ex_cf).
Example C86_case_takes : takes WByte ex_cf ex_string 9 [3; 104; 105; 0; 7] [104; 105] [7].
Proof. vm_compute. reflexivity. Qed.
Example C86_case_apart : exists payload,
  [3; 104; 105; 0; 7] = pref_format PrefU8 (zlen payload) ++ payload ++ [7] /\ zlen payload <= pref_max PrefU8 /\
  takes WByte ex_cf (c_string ex_cf) 9 payload [104; 105] [].
Proof.
  apply (C86_dynamic WByte ex_cf _ (c_string ex_cf) 9 (C86_tidy_string ex_cf 9) PrefU8); [|exact C86_case_takes].
  split; [apply bytes_ok_check; reflexivity|discriminate].
Qed.
(** The same string behind a prefix that is too long: no decoder can make sense of
    that. *)
Example C86_case_longer : forall v, c_decode_with WByte ex_cf ex_string 9 [4; 104; 105; 0; 7] <> ROk v.
Proof. intros v H. vm_compute in H. discriminate H. Qed.

(** A decoder that does not keep to the rules: it closes the window of the length
    prefix and takes a byte that belongs to somebody else.  It gets away with it. *)
Definition ex_thief : codec (byte * byte) := with_blanket ex_cf (Some (Some 1)) (fun _ => ROk 1)
  (fun v U T => w_call (tg_push_one T (fst v)))
  (fun _ => a <- p_consume_byte ;; p_enforce_target ;;; b <- p_consume_byte ;; p_set_fit 0 ;;; PRet (a, b)).
Example C86_case_thief : takes WByte ex_cf (c_dyn ex_cf PrefU8 ex_thief) 9 [1; 9; 7] (9, 7) [].
Proof. vm_compute. reflexivity. Qed.
Example C86_case_not_tidy : ~ tidy (c_parse ex_thief 9).
Proof. intros [_ H]. apply (H [9; 7]); [apply bytes_ok_check; reflexivity|discriminate]. Qed.
