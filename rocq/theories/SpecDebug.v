(** What debug texts are stated with. *)
From Coq Require Import String.
From Verif Require Import Base ModelErrors ModelInt ModelSchema ModelDisplay ModelDebug SpecHex SpecUtf8 SpecDisplay SpecText SpecCodec SpecCompare.

(** Names: of letters, digits, '_' and characters outside ASCII. *)
Definition name_char (c : byte) : bool :=
  ((48 <=? c) && (c <=? 57)) || ((65 <=? c) && (c <=? 90)) || (c =? 95) || ((97 <=? c) && (c <=? 122)) || (128 <=? c).
Definition name_ok (s : list byte) : bool := negb (zlen s =? 0) && forallb name_char s.
Definition label_ok (n : nat) (l : label) : Prop :=
  name_ok (lb_name l) = true /\ match lb_fields l with None => True | Some fs => List.length fs = n end.

(** Names go with the definitions; no two variants have the same. *)
Definition names_of (d : def) (l : labels) : Prop :=
  match d, l with
  | DStruct ts, LStruct l => label_ok (List.length ts) l
  | DCStyle _ tags, LCStyle names =>
      List.length names = List.length tags /\ NoDup names /\ Forall (fun s => name_ok s = true) names
  | DData _ alts, LData ls => NoDup (map lb_name ls) /\ Forall2 (fun a l => label_ok (List.length (snd a)) l) alts ls
  | _, _ => False
  end.
Definition labelled (D : list def) (L : list labels) : Prop := Forall2 names_of D L.

(** What is asked of the texts of 64-bit numbers: they are made of letters, digits,
    '.' and '-', and only NaNs share a text. *)
Definition number_char (c : byte) : bool := name_char c || (c =? 45) || (c =? 46).
Definition float_text (num64 : Z -> list byte) : Prop :=
  (forall z, num64 z <> [] /\ forallb number_char (num64 z) = true) /\
  (forall a b, is_u64 a = true -> is_u64 b = true -> num64 a = num64 b ->
     a = b \/ (f64_number a = false /\ f64_number b = false)).

(** No NaN in the value. *)
Fixpoint all_numbers (D : list def) (v : val) (t : ty) : bool :=
  match t, v with
  | TF64, VInt z | TRangedF _ _, VInt z => f64_number z
  | TOption t, VSome v | TNullable t, VSome v => all_numbers D v t
  | TSeq t, VSeq vs | TLim _ t, VSeq vs | TFix _ t, VSeq vs => forallb (fun v => all_numbers D v t) vs
  | TDyn _ t, VWrap v | TVPad _ t, VWrap v | TPad _ t, VWrap v | TBox t, VWrap v => all_numbers D v t
  | TNamed i, _ =>
      match nth_error D i, v with
      | Some (DStruct ts), VStruct vs => all2 (all_numbers D) vs ts
      | Some (DData _ alts), VEnum ix vs =>
          match nth_error alts ix with Some (_, ts) => all2 (all_numbers D) vs ts | None => true end
      | _, _ => true
      end
  | _, _ => true
  end.

(** What is inside any Dynamic can be encoded. *)
Fixpoint contents_fit (D : list def) (v : val) (t : ty) : bool :=
  match t, v with
  | TDyn _ t, VWrap v => valid D v t
  | TOption t, VSome v | TNullable t, VSome v => contents_fit D v t
  | TSeq t, VSeq vs | TLim _ t, VSeq vs | TFix _ t, VSeq vs => forallb (fun v => contents_fit D v t) vs
  | TVPad _ t, VWrap v | TPad _ t, VWrap v | TBox t, VWrap v => contents_fit D v t
  | TNamed i, _ =>
      match nth_error D i, v with
      | Some (DStruct ts), VStruct vs => all2 (contents_fit D) vs ts
      | Some (DData _ alts), VEnum ix vs =>
          match nth_error alts ix with Some (_, ts) => all2 (contents_fit D) vs ts | None => true end
      | _, _ => true
      end
  | _, _ => true
  end.

(** Where a value's text can end in a larger one: at the end, or before one of
    these: comma, space, closing parenthesis, bracket or brace. *)
Definition ends_value (rest : list byte) : Prop :=
  match rest with
  | [] => True
  | c :: _ => In c (txt ", )]}")
  end.

(** *** The text itself *)
Fixpoint commas (ds : list (list byte)) : list byte :=
  match ds with
  | [] => []
  | [d] => d
  | d :: ds => d ++ txt ", " ++ commas ds
  end.
Definition list_text (ds : list (list byte)) : list byte := txt "[" ++ commas ds ++ txt "]".
Definition tuple_text (name : list byte) (ds : list (list byte)) : list byte := name ++ txt "(" ++ commas ds ++ txt ")".
(** A struct, by its name and the names of its fields. *)
Inductive struct_text : label -> list (list byte) -> list byte -> Prop :=
| struct_unit l : struct_text l [] (lb_name l)
| struct_tuple name ds : ds <> [] -> struct_text (mkLabel name None) ds (tuple_text name ds)
| struct_fields name fs ds : ds <> [] -> List.length fs = List.length ds ->
    struct_text (mkLabel name (Some fs)) ds
      (name ++ txt " { " ++ commas (map (fun '(f, d) => f ++ txt ": " ++ d) (combine fs ds)) ++ txt " }").

(** A character in a quoted text. *)
Inductive quoted_char (printable : Z -> bool) : Z -> list byte -> Prop :=
| quoted_nul : quoted_char printable 0 (txt "\0")
| quoted_tab : quoted_char printable 9 (txt "\t")
| quoted_cr : quoted_char printable 13 (txt "\r")
| quoted_lf : quoted_char printable 10 (txt "\n")
| quoted_backslash : quoted_char printable 92 (txt "\\")
| quoted_quote : quoted_char printable 34 (txt "\" ++ [34])
| quoted_plain c : ~ In c [0; 9; 13; 10; 92; 34] -> printable c = true -> quoted_char printable c (utf8_encode c)
| quoted_number c s : ~ In c [0; 9; 13; 10; 92; 34] -> printable c = false -> numeral 16 s c -> Forall lower_hex s ->
    quoted_char printable c (txt "\u{" ++ s ++ txt "}").

Section Text.
Variables (D : list def) (L : list labels) (num64 : Z -> list byte) (printable : Z -> bool) (plain : bool).

Inductive byte_list : list byte -> list byte -> Prop :=
| byte_list_text bs ds : Forall2 (fun b d => decimal d b) bs ds -> byte_list bs (list_text ds).

Inductive debug_of : ty -> val -> list byte -> Prop :=
| debug_unit : debug_of TUnit VUnit (txt "()")
| debug_true : debug_of TBool (VBool true) (txt "true")
| debug_false : debug_of TBool (VBool false) (txt "false")
| debug_int k z s : decimal s z -> debug_of (TInt k) (VInt z) s
| debug_ranged k lo hi z s : decimal s z -> debug_of (TRanged k lo hi) (VInt z) (txt "RangedInt(" ++ s ++ txt ")")
| debug_f64 z : debug_of TF64 (VInt z) (num64 z)
| debug_rangedf lo hi z : debug_of (TRangedF lo hi) (VInt z) (txt "RangedFloat { val: " ++ num64 z ++ txt " }")
| debug_nat z s : decimal s z -> debug_of TN (VInt z) (utf8_string [0x2115] ++ txt "(" ++ s ++ txt ")")
| debug_zed z s : decimal s z -> debug_of TZ (VInt z) (utf8_string [0x2124] ++ txt "(" ++ s ++ txt ")")
| debug_vec bs s : plain = true -> byte_list bs s -> debug_of TBytes (VBytes bs) s
| debug_bytes_ bs s : plain = false -> byte_list bs s -> debug_of TBytes (VBytes bs) (txt "Bytes(" ++ s ++ txt ")")
| debug_string cs ss : Forall scalar cs -> Forall2 (quoted_char printable) cs ss ->
    debug_of TString (VBytes (utf8_string cs)) ([34] ++ concat ss ++ [34])
| debug_fixed_bytes n bs s : byte_list bs s -> debug_of (TFixedBytes n) (VBytes bs) (txt "FixedBytes(" ++ s ++ txt ")")
| debug_fixed_string n bs s : byte_list bs s ->
    debug_of (TFixedString n) (VBytes bs) (txt "FixedString { contents: " ++ s ++ txt " }")
| debug_none t : debug_of (TOption t) VNone (txt "None")
| debug_some t v s : debug_of t v s -> debug_of (TOption t) (VSome v) (txt "Some(" ++ s ++ txt ")")
| debug_absent t : debug_of (TNullable t) VNone (txt "Nullable(None)")
| debug_present t v s : debug_of t v s -> debug_of (TNullable t) (VSome v) (txt "Nullable(Some(" ++ s ++ txt "))")
| debug_seq t vs ds : debug_each t vs ds -> debug_of (TSeq t) (VSeq vs) (txt "Sequence(" ++ list_text ds ++ txt ")")
| debug_lim n t vs ds : debug_each t vs ds -> debug_of (TLim n t) (VSeq vs) (txt "LimSeq(" ++ list_text ds ++ txt ")")
| debug_fix n t vs ds : debug_each t vs ds -> debug_of (TFix n t) (VSeq vs) (txt "FixSeq(" ++ list_text ds ++ txt ")")
| debug_dyn p t v n s : decimal n (zlen (format D v t)) -> debug_of t v s ->
    debug_of (TDyn p t) (VWrap v) (txt "[" ++ n ++ prefix_name p ++ txt " bytes|" ++ s ++ txt "]")
| debug_vpad n t v s : debug_of t v s -> debug_of (TVPad n t) (VWrap v) s
| debug_pad n t v s : debug_of t v s -> debug_of (TPad n t) (VWrap v) (txt "Padded(" ++ s ++ txt ")")
| debug_box t v s : debug_of t v s -> debug_of (TBox t) (VWrap v) s
| debug_struct_ i ts l vs ds s : nth_error D i = Some (DStruct ts) -> nth_error L i = Some (LStruct l) ->
    debug_fields ts vs ds -> struct_text l ds s -> debug_of (TNamed i) (VStruct vs) s
| debug_cstyle i k tags names ix name : nth_error D i = Some (DCStyle k tags) -> nth_error L i = Some (LCStyle names) ->
    nth_error names ix = Some name -> debug_of (TNamed i) (VEnum ix []) name
| debug_data i k alts ls ix tag ts l vs ds s :
    nth_error D i = Some (DData k alts) -> nth_error L i = Some (LData ls) ->
    nth_error alts ix = Some (tag, ts) -> nth_error ls ix = Some l ->
    debug_fields ts vs ds -> struct_text l ds s -> debug_of (TNamed i) (VEnum ix vs) (txt "#" ++ s)
with debug_each : ty -> list val -> list (list byte) -> Prop :=
| each_nil t : debug_each t [] []
| each_cons t v vs d ds : debug_of t v d -> debug_each t vs ds -> debug_each t (v :: vs) (d :: ds)
with debug_fields : list ty -> list val -> list (list byte) -> Prop :=
| fields_nil : debug_fields [] [] []
| fields_cons t ts v vs d ds : debug_of t v d -> debug_fields ts vs ds -> debug_fields (t :: ts) (v :: vs) (d :: ds).
End Text.
