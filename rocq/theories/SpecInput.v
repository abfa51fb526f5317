(** What the inputs of [decode] mean. *)
From Verif Require Import Base ModelErrors ModelParser ModelSchema ModelHex ModelInput SpecCodec SpecHex.

(** The bytes an input stands for: a text is itself (its UTF-8 bytes) or, with
    implicit_hexstring, the bytes it denotes in hexadecimal. *)
Definition stands_for (implicit : bool) (src : source) (bs : list byte) : Prop :=
  match src with
  | SrcSlice b | SrcVec b | SrcArray b | SrcHexString b => bs = b
  | SrcStr s | SrcString s | SrcCow s => if implicit then loose_denotes s bs else bs = s
  end.

Definition text_of (src : source) : option (list byte) :=
  match src with SrcStr s | SrcString s | SrcCow s => Some s | _ => None end.

(** [try_decode], [decode] and [decode_memo] of the input end with [out]. *)
Definition tries (implicit : bool) (w : which_parser) (cf : config) (D : list def) (t : ty) (src : source)
  (out : res input_error val) : Prop :=
  settles (fun f => try_decode_from implicit cf t (decode_with w cf D f t) src) out.
Definition decode_gives (implicit : bool) (cf : config) (D : list def) (t : ty) (src : source) (out : res input_error val) : Prop :=
  settles (fun f => decode_from implicit cf D f t src) out.
Definition decode_memo_gives (implicit : bool) (cf : config) (D : list def) (t : ty) (src : source) (out : res input_error val) : Prop :=
  settles (fun f => decode_memo_from implicit cf D f t src) out.
