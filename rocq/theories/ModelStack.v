(** How deeply the calls of a decoder nest: [ModelSchema.parse] with the number
    of calls that may be open at the same time, and the number of rounds of each
    loop, counted apart.  The bodies are those of [ModelSchema.parse], with the
    same citations. *)
From Verif Require Import Base ModelErrors ModelParser ModelInt ModelFloat ModelZarith
  ModelUtf8 ModelTarget ModelSchema SpecCodec.
Local Open Scope prog_scope.

(** [T::parse], at most [frames] of which are open at a time.  The
    implementations that call others: conv/mod.rs 420-432 (Option), schema.rs
    189-213 (Padded) and 338-350 (Nullable), seq/mod.rs 227-237, seq/lim.rs
    296-309, seq/fix.rs 276-297, dynamic.rs 389-399 and 463-476, autobox.rs
    252-256, adt.rs 342-360, decode_derive/src/lib.rs 36-52.  [PDiv]: a further
    frame or a further round would be needed.  Simplification: one frame per call
    of [parse], whatever its size; the calls of the parser and of the number
    types, which do not nest, are left out, and the call on the payload of a data!
    variant (adt.rs 342-360) shares the frame of the call on its enum. *)
Fixpoint parse_in (cf : config) (D : list def) (rounds frames : nat) (t : ty) : prog val :=
  match frames with
  | O => PDiv
  | S f =>
      match t with
      | TUnit => PRet VUnit
      | TBool => b <- p_take_bool ;; PRet (VBool b)
      | TInt k => z <- p_int k ;; PRet (VInt z)
      | TRanged k lo hi => z <- p_ranged cf k lo hi ;; PRet (VInt z)
      | TF64 => z <- p_int U64 ;; PRet (VInt z)
      | TRangedF lo hi =>
          z <- p_int U64 ;;
          z <- plift (ext_float (rf_try_from_f64 lo hi z)) ;;
          PRet (VInt z)
      | TN =>
          bs <- p_take_self_terminating zarith_terminal ;;
          z <- plift (n_deserialize bs) ;; PRet (VInt z)
      | TZ =>
          bs <- p_take_self_terminating zarith_terminal ;;
          z <- plift (z_deserialize bs) ;; PRet (VInt z)
      | TBytes =>
          rem <- p_remainder ;; bs <- p_take_dynamic rem ;; PRet (VBytes bs)
      | TString =>
          rem <- p_remainder ;; bs <- p_take_dynamic rem ;; PRet (VBytes (utf8_lossy bs))
      | TFixedBytes n => bs <- p_take_fixed n ;; PRet (VBytes bs)
      | TFixedString n => bs <- p_take_fixed n ;; PRet (VBytes bs)
      | TOption t =>
          tag <- p_take_tagword U8 [0; 255] ;;
          if tag =? 255 then v <- parse_in cf D rounds f t ;; PRet (VSome v)
          else if tag =? 0 then PRet VNone
          else PPanic
      | TNullable t =>
          rem <- p_remainder ;;
          if negb (rem =? 0) then v <- parse_in cf D rounds f t ;; PRet (VSome v) else PRet VNone
      | TSeq t => vs <- p_seq_loop rounds (parse_in cf D rounds f t) [] ;; PRet (VSeq vs)
      | TLim n t => vs <- p_lim_loop rounds n (parse_in cf D rounds f t) [] ;; PRet (VSeq vs)
      | TFix n t => vs <- p_fix_loop rounds n (parse_in cf D rounds f t) [] ;; PRet (VSeq vs)
      | TDyn s t =>
          buflen <- p_pref cf s ;;
          p_set_fit buflen ;;;
          v <- parse_in cf D rounds f t ;;
          p_enforce_target ;;;
          PRet (VWrap v)
      | TVPad n t =>
          rem <- p_remainder ;;
          plift (debug_assert (cf_mode cf) (n <=? rem)) ;;;
          win <- plift (usub (cf_mode cf) rem n) ;;
          p_set_fit win ;;;
          v <- parse_in cf D rounds f t ;;
          p_enforce_target ;;;
          PRet (VWrap v)
      | TPad n t =>
          v <- parse_in cf D rounds f t ;;
          padding <- p_consume n ;;
          if cf_check_padding cf && negb (forallb (Z.eqb 0) padding)
          then PErr (EToken (NonNullPaddingByte padding))
          else PRet (VWrap v)
      | TBox t => v <- parse_in cf D rounds f t ;; PRet (VWrap v)
      | TNamed i =>
          match nth_error D i with
          | None => PPanic
          | Some (DStruct ts) => vs <- p_fields (parse_in cf D rounds f) ts ;; PRet (VStruct vs)
          | Some (DCStyle k tags) =>
              tag <- p_take_tagword k tags ;;
              match find_tag tag tags with
              | Some ix => PRet (VEnum ix [])
              | None => PPanic
              end
          | Some (DData k alts) =>
              tag <- p_take_tagword k (map fst alts) ;;
              match find_tag tag (map fst alts) with
              | Some ix =>
                  match nth_error alts ix with
                  | Some (_, ts) => vs <- p_fields (parse_in cf D rounds f) ts ;; PRet (VEnum ix vs)
                  | None => PPanic
                  end
              | None => PPanic
              end
          end
      end
  end.


(** conv/mod.rs 293-310, as [ModelSchema.try_decode]. *)
Definition try_decode_in {P} (h : handler P) (cleanup : P -> cleanup_result) (init : P)
  (cf : config) (D : list def) (frames rounds : nat) (t : ty) : res decode_error val :=
  let '(r, p) := run h (parse_in cf D rounds frames t) init in
  match r with
  | RErr e => RErr (DParse e)
  | RPanic => RPanic
  | RUB => RUB
  | RDiv => RDiv
  | ROk v =>
      if cf_complete cf then
        match cleanup p with
        | ROk lo => if lo_is_empty lo then ROk v else RErr (DNonEmpty lo)
        | RErr e => RErr (DInvariant e)
        | RPanic => RPanic
        | RUB => RUB
        | RDiv => RDiv
        end
      else ROk v
  end.

(** parse/byteparser.rs, memoparser.rs, sliceparser.rs: the three parsers. *)
Definition decode_in (w : which_parser) (cf : config) (D : list def) (frames rounds : nat) (t : ty)
  (input : list byte) : res decode_error val :=
  match w with
  | WByte => try_decode_in (byte_h (cf_mode cf)) (bp_cleanup (cf_mode cf)) (bp_from_buffer input) cf D frames rounds t
  | WMemo => try_decode_in (memo_h (cf_mode cf)) (mp_cleanup (cf_mode cf)) (mp_from_buffer input) cf D frames rounds t
  | WSlice => try_decode_in slice_h sp_cleanup (sp_from_buffer input) cf D frames rounds t
  end.
