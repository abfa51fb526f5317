(** When an implementation of the traits for a type written outside the library
    is right, and what the wrappers of the library make of it. *)
From Verif Require Import Base ModelErrors ModelParser ModelInt ModelTarget ModelSchema ModelOpen SpecParser SpecTarget SpecCodec.

(** [Estimable]: [KNOWN], if it is a number, is the length of every encoding;
    [unknown] is the length of the encoding. *)
Definition estimates {A} (c : codec A) (ok : A -> Prop) (fmt : A -> list byte) : Prop :=
  c_known c <> None /\
  (forall n, c_known c = Some (Some n) -> forall v, ok v -> zlen (fmt v) = n) /\
  (forall v, ok v -> zlen (fmt v) <= isize_max -> c_unknown c v = ROk (zlen (fmt v))).

(** [c] implements the wire format [fmt] for the values in [ok].  [after] tells
    what may follow the encoding in the window it is read from: anything for a
    type that knows where it ends, nothing for one that reads all there is. *)
Record implements (cf : config) {A} (c : codec A) (ok : A -> Prop) (fmt : A -> list byte)
  (after : list byte -> Prop) : Prop := {
  (* write_to adds the format to any target and returns its length *)
  im_write : forall v, ok v -> zlen (fmt v) <= isize_max ->
    forall U (T : target U) holds, collects T holds -> forall u pre, holds u pre ->
    exists u', c_write c v U T u = ROk (zlen (fmt v), u') /\ holds u' (pre ++ fmt v);
  (* enc_len is that length *)
  im_len : forall v, ok v -> zlen (fmt v) <= isize_max -> c_enc_len c v = ROk (zlen (fmt v));
  (* so is the estimate, in builds that use it for enc_len *)
  im_size : cf_est_override cf = true -> estimates c ok fmt;
  (* parse takes the format off the window and gives the value back *)
  im_parse : forall v x outer, ok v -> after x -> zlen (fmt v ++ x) <= isize_max ->
    exists f0, forall f, (f0 <= f)%nat -> run contract_h (c_parse c f) (mkW (fmt v ++ x) outer) = (ROk v, mkW x outer);
  (* parse passes on every error of the parser, except that it may react to the end
     of the input met by consume_byte *)
  im_try : forall f, try_bytes_only (c_parse c f)
}.

(** What follows can be anything, or nothing, or [n] bytes. *)
Definition anything : list byte -> Prop := fun _ => True.
Definition nothing : list byte -> Prop := fun x => x = [].
Definition left_over (n : Z) : list byte -> Prop := fun x => zlen x = n.

(** The fields of a struct, where each but the last has to know where it ends, as
    far as the formats of those behind it require. *)
Inductive fields_implement (cf : config) (after : list byte -> Prop) :
  forall B, fields B -> (B -> Prop) -> (B -> list byte) -> Prop :=
| FI_nil : fields_implement cf after unit FNil (fun _ => True) (fun _ => [])
| FI_cons : forall A B (c : codec A) (fs : fields B) ok fmt here ok' fmt',
    implements cf c ok fmt here ->
    fields_implement cf after B fs ok' fmt' ->
    (forall v x, ok' v -> after x -> here (fmt' v ++ x)) ->
    fields_implement cf after (A * B) (FCons c fs)
      (fun v => ok (fst v) /\ ok' (snd v)) (fun v => fmt (fst v) ++ fmt' (snd v)).

(** The encoding of such a type, and decoding it through the parsers of the
    library. *)
Definition c_decode_with (w : which_parser) (cf : config) {A} (c : codec A) (f : nat) (input : list byte)
  : res decode_error A :=
  match w with
  | WByte => c_decode (byte_h (cf_mode cf)) (bp_cleanup (cf_mode cf)) (bp_from_buffer input) cf c f
  | WMemo => c_decode (memo_h (cf_mode cf)) (mp_cleanup (cf_mode cf)) (mp_from_buffer input) cf c f
  | WSlice => c_decode slice_h sp_cleanup (sp_from_buffer input) cf c f
  end.

(** The types of ModelSchema made with a wrapper, the same type made with the
    wrapper of ModelOpen, and how the values of the two correspond. *)
Inductive wraps (cf : config) (D : list def) (kf : nat) (t : ty) : ty -> forall A, codec A -> (A -> val) -> Prop :=
| Wr_option : wraps cf D kf t (TOption t) (option val) (c_option cf (c_schema cf D kf t))
    (fun v => match v with Some v => VSome v | None => VNone end)
| Wr_nullable : wraps cf D kf t (TNullable t) (option val) (c_nullable cf (c_schema cf D kf t))
    (fun v => match v with Some v => VSome v | None => VNone end)
| Wr_seq : wraps cf D kf t (TSeq t) (list val) (c_seq cf (c_schema cf D kf t)) VSeq
| Wr_lim : forall n, wraps cf D kf t (TLim n t) (list val) (c_lim cf n (c_schema cf D kf t)) VSeq
| Wr_fix : forall n, wraps cf D kf t (TFix n t) (list val) (c_fix cf n (c_schema cf D kf t)) VSeq
| Wr_dyn : forall s, wraps cf D kf t (TDyn s t) val (c_dyn cf s (c_schema cf D kf t)) VWrap
| Wr_vpad : forall n, wraps cf D kf t (TVPad n t) val (c_vpad cf n (c_schema cf D kf t)) VWrap
| Wr_pad : forall n, wraps cf D kf t (TPad n t) val (c_pad cf n (c_schema cf D kf t)) VWrap
| Wr_box : wraps cf D kf t (TBox t) val (c_box cf (c_schema cf D kf t)) VWrap.

(** What may follow a type of the library. *)
Definition after_kind (k : kind) : list byte -> Prop :=
  match k with Delim => anything | Leave n => left_over n end.

(** A type nobody put in the library: strings that end with a zero byte. *)
Fixpoint until_zero (fuel : nat) (seen : list byte) : prog (list byte) :=
  match fuel with
  | O => PDiv
  | S fuel => b <- p_consume_byte ;; if b =? 0 then PRet seen else until_zero fuel (seen ++ [b])
  end.
Definition c_string (cf : config) : codec (list byte) := with_blanket cf
  (Some None)
  (fun bs => uadd (cf_mode cf) (zlen bs) 1)
  (fun bs U T => w_add cf (w_call (tg_push_all T bs)) (w_call (tg_push_one T 0)))
  (fun f => until_zero f []).
Definition string_ok (bs : list byte) : Prop := Forall (fun b => b <> 0) bs.
Definition string_format (bs : list byte) : list byte := bs ++ [0].
