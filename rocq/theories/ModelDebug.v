(** Model of the [Debug] texts ([{:?}]) of values.

    Texts as in ModelDisplay.v.  Derived implementations (rustc's
    [#[derive(Debug)]]) go through core's [debug_tuple], [debug_struct] and
    [debug_list]; no alternate flag is asked for.  Names are not part of a [def];
    they stand in a second environment. *)
From Coq Require Import String.
From Verif Require Import Base ModelErrors ModelUtf8 ModelInt ModelHex ModelSchema ModelDisplay ModelText.

(** A struct (or the payload struct of a variant of data!, adt.rs 256-271): its name
    and, if its fields have names, these. *)
Record label := mkLabel { lb_name : list byte; lb_fields : option (list (list byte)) }.
(** The names of a definition: a struct's, or those of the variants. *)
Inductive labels :=
| LStruct (l : label)
| LCStyle (names : list (list byte))
| LData (ls : list label).

(** core [DebugList], [DebugTuple] and [DebugStruct]: the parts are separated by ", ". *)
Fixpoint join_more (ds : list (list byte)) : list byte :=
  match ds with
  | [] => []
  | d :: ds => txt ", " ++ d ++ join_more ds
  end.
Definition join (ds : list (list byte)) : list byte :=
  match ds with
  | [] => []
  | d :: ds => d ++ join_more ds
  end.
Definition debug_list (ds : list (list byte)) : list byte := txt "[" ++ join ds ++ txt "]".
Definition debug_tuple (name : list byte) (ds : list (list byte)) : list byte := name ++ txt "(" ++ join ds ++ txt ")".
Definition debug_struct (name : list byte) (fs ds : list (list byte)) : list byte :=
  name ++ txt " { " ++ join (map (fun p => fst p ++ txt ": " ++ snd p) (combine fs ds)) ++ txt " }".
(** [#[derive(Debug)]]: a struct without fields is its name. *)
Definition debug_derived (l : label) (ds : list (list byte)) : list byte :=
  match ds with
  | [] => lb_name l
  | _ =>
      match lb_fields l with
      | None => debug_tuple (lb_name l) ds
      | Some fs => debug_struct (lb_name l) fs ds
      end
  end.
Definition debug_bytes (bs : list byte) : list byte := debug_list (map show_int bs).

(** The parts in order; the first that panics ends it. *)
Fixpoint all_ok {A} (l : list (wres A)) : wres (list A) :=
  match l with
  | [] => ROk []
  | x :: l => rbind x (fun a => rbind (all_ok l) (fun r => ROk (a :: r)))
  end.

Section Debug.
(** [num64] is [Debug] of f64 in core, [printable] whether core's tables let
    [char::escape_debug_ext] leave a character as it is, [plain] whether byte
    strings are [Vec<u8>] rather than [Bytes]. *)
Variables (cf : config) (D : list def) (L : list labels) (kf : nat)
  (num64 : Z -> list byte) (printable : Z -> bool) (plain : bool).

(** core/src/str/validations.rs [next_code_point]: the number of a character. *)
Definition code_point (ch : list byte) : Z :=
  match ch with
  | [b0] => b0
  | [b0; b1] => b0 mod 32 * 64 + b1 mod 64
  | [b0; b1; b2] => b0 mod 16 * 4096 + b1 mod 64 * 64 + b2 mod 64
  | [b0; b1; b2; b3] => b0 mod 8 * 262144 + b1 mod 64 * 4096 + b2 mod 64 * 64 + b3 mod 64
  | _ => 0
  end.
(** core [char::escape_debug_ext], single quotes left alone. *)
Definition escape_char (ch : list byte) : list byte :=
  let c := code_point ch in
  if c =? 0 then txt "\0"
  else if c =? 9 then txt "\t"
  else if c =? 13 then txt "\r"
  else if c =? 10 then txt "\n"
  else if (c =? 92) || (c =? 34) then txt "\" ++ ch
  else if printable c then ch
  else txt "\u{" ++ digits 16 lower_digit c ++ txt "}".
Fixpoint escape_loop (fuel : nat) (l : list byte) : list byte :=
  match fuel, l with
  | _, [] => []
  | O, _ => []
  | S fuel, b0 :: rest =>
      let (n, _) := utf8_next b0 rest in
      escape_char (firstn n l) ++ escape_loop fuel (skipn n l)
  end.
(** core [Debug for str]. *)
Definition str_debug (l : list byte) : list byte := [34] ++ escape_loop (List.length l) l ++ [34].

(** core [Debug for Option<T>]. *)
Definition option_debug (d : option (list byte)) : list byte :=
  match d with None => txt "None" | Some d => debug_tuple (txt "Some") [d] end.

(** [Debug] of every type: core for (), bool, integers, f64, String, Vec<u8> and
    Option; derived at int.rs 134, float.rs 131, fixed.rs 29 and 275, schema.rs
    116, 247 and 363, seq/mod.rs 75, lim.rs 48, fix.rs 74, adt.rs 48 and 279, and
    on the user's structs; written out at zarith.rs 55-59 and 185-189, dynamic.rs
    218-228 ([enc_len] may panic) and 424-428, autobox.rs 204-208 and adt.rs
    332-340.  Inside LimSeq and FixSeq both storages print as a list. *)
Fixpoint debug_val (v : val) (t : ty) : wres (list byte) :=
  match t, v with
  | TUnit, VUnit => ROk (txt "()")
  | TBool, VBool b => ROk (if b then txt "true" else txt "false")
  | TInt _, VInt z => ROk (show_int z)
  | TRanged _ _ _, VInt z => ROk (debug_tuple (txt "RangedInt") [show_int z])
  | TF64, VInt z => ROk (num64 z)
  | TRangedF _ _, VInt z => ROk (debug_struct (txt "RangedFloat") [txt "val"] [num64 z])
  | TN, VInt z => ROk (debug_n z)
  | TZ, VInt z => ROk (debug_z z)
  | TBytes, VBytes bs => ROk (if plain then debug_bytes bs else debug_tuple (txt "Bytes") [debug_bytes bs])
  | TString, VBytes bs => ROk (str_debug bs)
  | TFixedBytes _, VBytes bs => ROk (debug_tuple (txt "FixedBytes") [debug_bytes bs])
  | TFixedString _, VBytes bs => ROk (debug_struct (txt "FixedString") [txt "contents"] [debug_bytes bs])
  | TOption _, VNone => ROk (option_debug None)
  | TOption t, VSome v => rbind (debug_val v t) (fun d => ROk (option_debug (Some d)))
  | TNullable _, VNone => ROk (debug_tuple (txt "Nullable") [option_debug None])
  | TNullable t, VSome v => rbind (debug_val v t) (fun d => ROk (debug_tuple (txt "Nullable") [option_debug (Some d)]))
  | TSeq t, VSeq vs =>
      rbind (all_ok (map (fun v => debug_val v t) vs)) (fun ds => ROk (debug_tuple (txt "Sequence") [debug_list ds]))
  | TLim _ t, VSeq vs =>
      rbind (all_ok (map (fun v => debug_val v t) vs)) (fun ds => ROk (debug_tuple (txt "LimSeq") [debug_list ds]))
  | TFix _ t, VSeq vs =>
      rbind (all_ok (map (fun v => debug_val v t) vs)) (fun ds => ROk (debug_tuple (txt "FixSeq") [debug_list ds]))
  | TDyn s t, VWrap v =>
      rbind (enc_len cf D kf v t) (fun n => rbind (debug_val v t) (fun d =>
        ROk (txt "[" ++ show_int n ++ pref_suffix s ++ txt " bytes|" ++ d ++ txt "]")))
  | TVPad _ t, VWrap v | TBox t, VWrap v => debug_val v t
  | TPad _ t, VWrap v => rbind (debug_val v t) (fun d => ROk (debug_tuple (txt "Padded") [d]))
  | TNamed i, _ =>
      match nth_error D i, nth_error L i, v with
      | Some (DStruct ts), Some (LStruct l), VStruct vs =>
          rbind (all_ok (map2 debug_val (RErr tt) vs ts)) (fun ds => ROk (debug_derived l ds))
      | Some (DCStyle _ _), Some (LCStyle names), VEnum ix [] =>
          match nth_error names ix with Some name => ROk name | None => RErr tt end
      | Some (DData _ alts), Some (LData ls), VEnum ix vs =>
          match nth_error alts ix, nth_error ls ix with
          | Some (_, ts), Some l =>
              rbind (all_ok (map2 debug_val (RErr tt) vs ts)) (fun ds => ROk (txt "#" ++ debug_derived l ds))
          | _, _ => RErr tt
          end
      | _, _, _ => RErr tt
      end
  | _, _ => RErr tt
  end.
End Debug.
