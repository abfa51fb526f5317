(** Model of the inputs [try_decode], [decode] and [decode_memo] accept
    (/repo/src/parse/buffer.rs, parse/mod.rs 1271-1310, conv/mod.rs 293-367,
    conv/error.rs), for the parsers over a [VecBuffer]. *)
From Verif Require Import Base ModelErrors ModelParser ModelSchema ModelHex.

(** What can be handed to [decode].  A text is the list of its UTF-8 bytes. *)
Inductive source :=
| SrcSlice (bs : list byte)      (* &[u8] *)
| SrcVec (bs : list byte)        (* Vec<u8> *)
| SrcArray (bs : list byte)      (* [u8; N] and &[u8; N] *)
| SrcHexString (bs : list byte)  (* HexString, by the bytes it holds *)
| SrcStr (s : list byte)         (* &str *)
| SrcString (s : list byte)      (* String, &String *)
| SrcCow (s : list byte).        (* Cow<str> *)

(** buffer.rs 260-310: [string_to_vecbuffer!]; [implicit] is the feature
    implicit_hexstring. *)
Definition vb_of_text (implicit : bool) (s : list byte) : res hex_error (list byte) :=
  if implicit then bytes_of_hex s else ROk s.

(** buffer.rs 230-310: the conversions into [VecBuffer]. *)
Definition into_vec_buffer (implicit : bool) (src : source) : res hex_error (list byte) :=
  match src with
  | SrcSlice bs => ROk bs
  | SrcVec bs => ROk bs
  | SrcArray bs => ROk bs
  | SrcHexString bs => ROk bs
  | SrcStr s => vb_of_text implicit s
  | SrcString s => vb_of_text implicit s
  | SrcCow s => vb_of_text implicit s
  end.

(** conv/error.rs 9-16: [DecodeError]; the last three variants are
    [decode_error]. *)
Inductive input_error := IConv (e : hex_error) | IDecode (e : decode_error).

(** prim.rs 76-94: without check_complete_parse, [try_decode], [decode] and
    [decode_memo] of () return at once, and do not convert their input. *)
Definition ignores_input (cf : config) (t : ty) : bool :=
  match t with TUnit => negb (cf_complete cf) | _ => false end.

(** conv/mod.rs 293-311 with parse/mod.rs 1299-1310: [try_decode] of any input;
    [?] converts the errors (conv/error.rs 18-40).  prim.rs 31-48, for () with
    check_complete_parse, does the same without calling [parse], which does
    nothing. *)
Definition try_decode_from (implicit : bool) (cf : config) (t : ty) (dec : list byte -> res decode_error val) (src : source)
  : res input_error val :=
  if ignores_input cf t then ROk VUnit else
  match into_vec_buffer implicit src with
  | ROk buf => match dec buf with RErr e => RErr (IDecode e) | ROk v => ROk v | RPanic => RPanic | RUB => RUB | RDiv => RDiv end
  | RErr e => RErr (IConv e)
  | RPanic => RPanic
  | RUB => RUB
  | RDiv => RDiv
  end.

(** [unwrap_or_else(|_| panic!(..))]. *)
Definition or_panic {E A} (r : res E A) : res E A :=
  match r with RErr _ => RPanic | _ => r end.

(** conv/mod.rs 354-367 (prim.rs 63-75 for ()): [decode], through [ByteParser]. *)
Definition decode_from (implicit : bool) (cf : config) (D : list def) (f : nat) (t : ty) (src : source) : res input_error val :=
  or_panic (try_decode_from implicit cf t (byte_decode cf D f t) src).

(** conv/mod.rs 327-339 (prim.rs 50-61 for ()): [decode_memo], through [MemoParser]. *)
Definition decode_memo_from (implicit : bool) (cf : config) (D : list def) (f : nat) (t : ty) (src : source) : res input_error val :=
  or_panic (try_decode_from implicit cf t (memo_decode cf D f t) src).

(** hexstring.rs 582-587: [hex!]: [expect]. *)
Definition hex_macro (s : list byte) : res hex_error (list byte) := or_panic (bytes_of_hex s).
