(** What the codecs are supposed to do, written without reference to how they
    do it: which values a type has ([valid]), their wire format ([format]), and
    when a composed type can be decoded at all ([kind_of], [disciplined]). *)
From Verif Require Import Base ModelErrors ModelSplitVec ModelParser ModelInt ModelFloat ModelUtf8 ModelTarget ModelSchema.

(** ------------------------------------------------------------------ *)
(** * Numbers *)

(** [n] bytes of the number [z], most significant first, written out with
    division and remainder. *)
Fixpoint big_endian (n : nat) (z : Z) : list byte :=
  match n with
  | O => []
  | S n => big_endian n (z / 256) ++ [z mod 256]
  end.

(** Groups of 7 bits, least significant first, all but the last marked with the
    high bit; [z] must be below [128 ^ fuel]. *)
Fixpoint groups7 (fuel : nat) (z : Z) : list byte :=
  match fuel with
  | O => []
  | S fuel => if z <? 128 then [z] else (z mod 128 + 128) :: groups7 fuel (z / 128)
  end.
(** Enough groups for [z]: one per binary digit, plus one. *)
Definition fuel7 (z : Z) : nat := S (Z.to_nat (Z.log2 z)).
Definition natural_format (z : Z) : list byte := groups7 (fuel7 z) z.

(** Sign in bit 6 of the first byte, which holds the low 6 bits; then groups of
    7 bits as above. *)
Definition integer_format (z : Z) : list byte :=
  let sign := if z <? 0 then 64 else 0 in
  let a := Z.abs z in
  if a <? 64 then [sign + a]
  else (128 + sign + a mod 64) :: natural_format (a / 64).

(** ------------------------------------------------------------------ *)
(** * Wire format *)

Definition all2 {A B} (f : A -> B -> bool) : list A -> list B -> bool :=
  fix go l l' :=
    match l, l' with
    | [], [] => true
    | a :: l, b :: l' => f a b && go l l'
    | _, _ => false
    end.

(** Concatenation of [f] over paired elements. *)
Definition concat2 {A B} (f : A -> B -> list byte) : list A -> list B -> list byte :=
  fix go l l' :=
    match l, l' with
    | a :: l, b :: l' => f a b ++ go l l'
    | _, _ => []
    end.

Definition pref_format (s : len_pref) (n : Z) : list byte :=
  big_endian (Z.to_nat (pref_len s)) n.

Definition int_format (k : int_kind) (z : Z) : list byte :=
  big_endian (Z.to_nat (ik_len k)) (z mod 256 ^ ik_len k).

Fixpoint format (D : list def) (v : val) (t : ty) : list byte :=
  match t, v with
  | TUnit, _ => []
  | TBool, VBool b => [if b then 255 else 0]
  | TInt k, VInt z => int_format k z
  | TRanged k _ _, VInt z => int_format k z
  | TF64, VInt z | TRangedF _ _, VInt z => big_endian 8 z
  | TN, VInt z => natural_format z
  | TZ, VInt z => integer_format z
  | TBytes, VBytes bs | TString, VBytes bs | TFixedBytes _, VBytes bs | TFixedString _, VBytes bs =>
      bs
  | TOption _, VNone => [0]
  | TOption t, VSome v => 255 :: format D v t
  | TNullable _, VNone => []
  | TNullable t, VSome v => format D v t
  | TSeq t, VSeq vs | TLim _ t, VSeq vs | TFix _ t, VSeq vs =>
      concat (map (fun v => format D v t) vs)
  | TDyn s t, VWrap v => pref_format s (zlen (format D v t)) ++ format D v t
  | TVPad _ t, VWrap v => format D v t
  | TPad n t, VWrap v => format D v t ++ repeat 0 (Z.to_nat n)
  | TBox t, VWrap v => format D v t
  | TNamed i, _ =>
      match nth_error D i, v with
      | Some (DStruct ts), VStruct vs => concat2 (format D) vs ts
      | Some (DCStyle k tags), VEnum ix _ => int_format k (nth ix tags 0)
      | Some (DData k alts), VEnum ix vs =>
          let alt := nth ix alts (0, []) in
          int_format k (fst alt) ++ concat2 (format D) vs (snd alt)
      | _, _ => []
      end
  | _, _ => []
  end.

(** ------------------------------------------------------------------ *)
(** * Valid values *)

Definition byteb (b : Z) : bool := (0 <=? b) && (b <? 256).

(** The stored number of a RangedInt: the number itself, or its distance from a
    positive MIN. *)
Definition ranged_ok (k : int_kind) (lo hi z : Z) : bool :=
  ik_in k z &&
  (if 0 <? lo then (0 <=? z) && (z + lo <=? hi) else (lo <=? z) && (z <=? hi)).

Definition is_u64 (z : Z) : bool := (0 <=? z) && (z <? 2 ^ 64).

(** [valid_gen true]: the value can be encoded; in particular every payload of a
    Dynamic is short enough for its prefix.  [valid_gen false]: the same without
    the condition on payload lengths, which only encoding can check. *)
Fixpoint valid_gen (fits : bool) (D : list def) (v : val) (t : ty) : bool :=
  match t, v with
  | TUnit, VUnit => true
  | TBool, VBool _ => true
  | TInt k, VInt z => ik_in k z
  | TRanged k lo hi, VInt z => ranged_ok k lo hi z
  | TF64, VInt z => is_u64 z
  | TRangedF lo hi, VInt z => is_u64 z && f64_le lo z && f64_le z hi
  | TN, VInt z => 0 <=? z
  | TZ, VInt z => true
  | TBytes, VBytes bs => forallb byteb bs
  | TString, VBytes bs => forallb byteb bs && utf8_valid bs
  | TFixedBytes n, VBytes bs | TFixedString n, VBytes bs => forallb byteb bs && (zlen bs =? n)
  | TOption _, VNone => true
  | TOption t, VSome v => valid_gen fits D v t
  | TNullable _, VNone => true
  | TNullable t, VSome v => valid_gen fits D v t
  | TSeq t, VSeq vs => forallb (fun v => valid_gen fits D v t) vs
  | TLim n t, VSeq vs => forallb (fun v => valid_gen fits D v t) vs && (zlen vs <=? n)
  | TFix n t, VSeq vs => forallb (fun v => valid_gen fits D v t) vs && (zlen vs =? n)
  | TDyn s t, VWrap v => valid_gen fits D v t && implb fits (zlen (format D v t) <=? pref_max s)
  | TVPad _ t, VWrap v => valid_gen fits D v t
  | TPad _ t, VWrap v => valid_gen fits D v t
  | TBox t, VWrap v => valid_gen fits D v t
  | TNamed i, _ =>
      match nth_error D i, v with
      | Some (DStruct ts), VStruct vs => all2 (valid_gen fits D) vs ts
      | Some (DCStyle _ tags), VEnum ix [] => (ix <? length tags)%nat
      | Some (DData _ alts), VEnum ix vs =>
          match nth_error alts ix with
          | Some (_, ts) => all2 (valid_gen fits D) vs ts
          | None => false
          end
      | _, _ => false
      end
  | _, _ => false
  end.
Definition valid := valid_gen true.
Definition well_typed := valid_gen false.

(** ------------------------------------------------------------------ *)
(** * Well-formed types: what Rust and the codec generator guarantee *)

Definition sizeb (n : Z) : bool := (0 <=? n) && (n <=? isize_max).
Definition tag_kind (k : int_kind) : bool :=
  match k with U8 | U16 | U32 => true | _ => false end.
Fixpoint nodupb (l : list Z) : bool :=
  match l with [] => true | x :: l => negb (existsb (Z.eqb x) l) && nodupb l end.

Fixpoint wf_ty (D : list def) (t : ty) : bool :=
  match t with
  | TFixedBytes n | TFixedString n => sizeb n
  | TOption t | TNullable t | TSeq t | TBox t | TDyn _ t => wf_ty D t
  | TLim n t | TFix n t | TVPad n t | TPad n t => sizeb n && wf_ty D t
  | TNamed i => (i <? length D)%nat
  (* invalid_range_checking rejects other bounds at run time *)
  | TRanged _ lo hi => ri_sanity lo hi
  | TRangedF lo hi => is_u64 lo && is_u64 hi
  | _ => true
  end.
Definition wf_def (D : list def) (d : def) : bool :=
  match d with
  | DStruct ts => forallb (wf_ty D) ts
  | DCStyle k tags => tag_kind k && nodupb tags && forallb (ik_in k) tags
  | DData k alts =>
      tag_kind k && nodupb (map fst alts) && forallb (ik_in k) (map fst alts) &&
      forallb (fun a => forallb (wf_ty D) (snd a)) alts
  end.
Definition wf_defs (D : list def) : bool := forallb (wf_def D) D.

(** ------------------------------------------------------------------ *)
(** * Length discipline

    How a type decides where its encoding ends.
    [Delim]: from the bytes themselves (self-delimiting).
    [Leave n]: it takes everything up to the last [n] bytes of its window. *)
Inductive kind := Delim | Leave (n : Z).

(** What is claimed of a named type: its kind, whether every encoding is
    non-empty, and the length all its encodings share, if any. *)
Record tinfo := mkInfo { ti_kind : kind; ti_nonempty : bool; ti_len : option Z }.

Section Discipline.
Variable I : list tinfo.

Definition info (i : nat) : tinfo := nth i I (mkInfo Delim false None).

Definition opt_add (a b : option Z) : option Z :=
  match a, b with Some x, Some y => Some (x + y) | _, _ => None end.

(** The common length of all encodings of a type. *)
Fixpoint len_of (t : ty) : option Z :=
  match t with
  | TUnit => Some 0
  | TBool => Some 1
  | TInt k | TRanged k _ _ => Some (ik_len k)
  | TF64 | TRangedF _ _ => Some 8
  | TN | TZ | TBytes | TString => None
  | TFixedBytes n | TFixedString n => Some n
  | TOption t => match len_of t with Some n => if n =? 0 then Some 1 else None | None => None end
  | TNullable t => match len_of t with Some n => if n =? 0 then Some 0 else None | None => None end
  | TSeq _ | TLim _ _ => None
  | TFix n t => match len_of t with Some m => Some (n * m) | None => None end
  | TDyn s t => opt_add (Some (pref_len s)) (len_of t)
  | TVPad _ t | TBox t => len_of t
  | TPad n t => opt_add (len_of t) (Some n)
  | TNamed i => ti_len (info i)
  end.
Definition len_fields (ts : list ty) : option Z :=
  fold_right (fun t acc => opt_add (len_of t) acc) (Some 0) ts.

(** Every encoding has at least one byte. *)
Fixpoint nonempty (t : ty) : bool :=
  match t with
  | TUnit | TBytes | TString | TNullable _ | TSeq _ | TLim _ _ => false
  | TFixedBytes n | TFixedString n => 0 <? n
  | TFix n t => (0 <? n) && nonempty t
  | TVPad _ t | TBox t => nonempty t
  | TPad n t => nonempty t || (0 <? n)
  | TNamed i => ti_nonempty (info i)
  | _ => true
  end.

(** The kind of a type; [None]: it is not decodable in general. *)
Definition greedy_ok (k : kind) : bool :=
  match k with Delim => true | Leave n => n =? 0 end.

Fixpoint kind_of (t : ty) : option kind :=
  match t with
  | TBytes | TString => Some (Leave 0)
  | TOption t | TBox t => kind_of t
  | TNullable t =>
      match kind_of t with
      | Some k => if greedy_ok k && nonempty t then Some (Leave 0) else None
      | None => None
      end
  | TSeq t | TLim _ t =>
      match kind_of t with
      | Some Delim => if nonempty t then Some (Leave 0) else None
      | _ => None
      end
  | TFix n t =>
      match kind_of t with
      | Some Delim => if nonempty t || (n =? 0) then Some Delim else None
      | _ => None
      end
  | TDyn _ t =>
      match kind_of t with
      | Some k => if greedy_ok k then Some Delim else None
      | None => None
      end
  | TVPad n t =>
      match kind_of t with
      | Some k => if greedy_ok k then Some (Leave n) else None
      | None => None
      end
  | TPad n t =>
      match kind_of t with
      | Some Delim => Some Delim
      | Some (Leave m) => if n <=? m then Some (Leave (m - n)) else None
      | None => None
      end
  | TNamed i => Some (ti_kind (info i))
  | _ => Some Delim
  end.

(** Fields in sequence: after a field that leaves [n] bytes only self-delimiting
    fields of known total length at most [n] may follow. *)
Fixpoint kind_fields (ts : list ty) : option kind :=
  match ts with
  | [] => Some Delim
  | t :: ts =>
      match kind_of t, kind_fields ts with
      | Some Delim, k => k
      | Some (Leave n), Some Delim =>
          match len_fields ts with
          | Some m => if (0 <=? m) && (m <=? n) then Some (Leave (n - m)) else None
          | None => None
          end
      | _, _ => None
      end
  end.

(** A type of kind [k] may be used where kind [k'] is expected. *)
Definition kind_leb (k k' : kind) : bool :=
  match k, k' with
  | Delim, _ => true
  | Leave n, Leave n' => n =? n'
  | Leave _, Delim => false
  end.
Definition kind_check (k : option kind) (k' : kind) : bool :=
  match k with Some k => kind_leb k k' | None => false end.

Definition len_check (l : option Z) (claimed : option Z) : bool :=
  match claimed with
  | None => true
  | Some n => match l with Some m => n =? m | None => false end
  end.

Definition check_def (d : def) (i : tinfo) : bool :=
  match d with
  | DStruct ts =>
      kind_check (kind_fields ts) (ti_kind i) &&
      implb (ti_nonempty i) (existsb nonempty ts) &&
      len_check (len_fields ts) (ti_len i)
  | DCStyle k _ =>
      len_check (Some (ik_len k)) (ti_len i)
  | DData k alts =>
      forallb (fun a =>
        kind_check (kind_fields (snd a)) (ti_kind i) &&
        len_check (opt_add (Some (ik_len k)) (len_fields (snd a))) (ti_len i)) alts
  end.
End Discipline.

(** The claims [I] about the named types of [D] are right. *)
Definition disciplined (D : list def) (I : list tinfo) : bool :=
  (length D =? length I)%nat && all2 (check_def I) D I.

(** ------------------------------------------------------------------ *)
(** * Further classes of types *)

(** Every element of an unbounded sequence occupies at least one byte. *)
Fixpoint loops_ok (I : list tinfo) (t : ty) : bool :=
  match t with
  | TSeq t => nonempty I t && loops_ok I t
  | TLim _ t | TFix _ t | TOption t | TNullable t | TBox t | TDyn _ t | TVPad _ t | TPad _ t => loops_ok I t
  | _ => true
  end.

(** Rounds that bounded sequences of possibly empty elements may take. *)
Fixpoint rounds (I : list tinfo) (t : ty) : Z :=
  match t with
  | TLim n t | TFix n t => Z.max (if nonempty I t then 0 else Z.max 0 n + 1) (rounds I t)
  | TSeq t | TOption t | TNullable t | TBox t | TDyn _ t | TVPad _ t | TPad _ t => rounds I t
  | _ => 0
  end.

(** The named types that may be entered before a byte has been read. *)
Fixpoint heads (t : ty) : list nat :=
  match t with
  | TNullable t | TSeq t | TLim _ t | TFix _ t | TVPad _ t | TPad _ t | TBox t => heads t
  | TNamed i => [i]
  | _ => []
  end.
Fixpoint field_heads (I : list tinfo) (ts : list ty) : list nat :=
  match ts with
  | [] => []
  | t :: ts => heads t ++ (if nonempty I t then [] else field_heads I ts)
  end.

(** Conditions for termination: claims about non-empty types are right, loops
    make progress, and a struct enters, before reading anything, only structs of
    smaller rank ([R]); so no type contains itself without a byte in between. *)
Definition rank (R : list nat) (i : nat) : nat := nth i R O.
Definition field_types (d : def) : list (list ty) :=
  match d with
  | DStruct ts => [ts]
  | DCStyle _ _ => []
  | DData _ alts => map snd alts
  end.
Definition term_def (I : list tinfo) (R : list nat) (i : nat) (d : def) : bool :=
  forallb (forallb (loops_ok I)) (field_types d) &&
  match d with
  | DStruct ts =>
      implb (ti_nonempty (info I i)) (existsb (nonempty I) ts) &&
      forallb (fun j => (rank R j <? rank R i)%nat) (field_heads I ts)
  | _ => true
  end.
Fixpoint forallb_from {A} (f : nat -> A -> bool) (i : nat) (l : list A) : bool :=
  match l with [] => true | a :: l => f i a && forallb_from f (S i) l end.
Definition terminating (D : list def) (I : list tinfo) (R : list nat) : bool :=
  forallb_from (term_def I R) O D.

(** Nesting depth of a type, largest depth in an environment, largest rank. *)
Fixpoint depth (t : ty) : Z :=
  match t with
  | TOption t | TNullable t | TSeq t | TBox t | TLim _ t | TFix _ t | TDyn _ t | TVPad _ t | TPad _ t =>
      1 + depth t
  | _ => 1
  end.
Definition zmax_list (l : list Z) : Z := fold_right Z.max 0 l.
Definition max_depth (D : list def) : Z :=
  zmax_list (map depth (concat (concat (map field_types D)))).
Definition max_rank (R : list nat) : Z := zmax_list (map Z.of_nat R).

(** A bound on nesting and loop rounds, linear in the number of input bytes. *)
Definition max_rounds (D : list def) (I : list tinfo) : Z :=
  zmax_list (map (rounds I) (concat (concat (map field_types D)))).
Definition step_bound (D : list def) (I : list tinfo) (R : list nat) (t : ty) (n : Z) : Z :=
  (n + 1) * (max_rank R + 2) * (max_depth D + 1) + depth t + 1 + Z.max (rounds I t) (max_rounds D I).

(** No VPadded of positive width (see F7 in DESIGN.md). *)
Fixpoint vpad_free (t : ty) : bool :=
  match t with
  | TVPad n t => (n =? 0) && vpad_free t
  | TOption t | TNullable t | TSeq t | TBox t | TLim _ t | TFix _ t | TDyn _ t | TPad _ t => vpad_free t
  | _ => true
  end.
Definition vpad_free_defs (D : list def) : bool :=
  forallb (fun d => forallb (forallb vpad_free) (field_types d)) D.

(** No length-prefixed or virtually padded component: no windows are opened. *)
Fixpoint window_free (t : ty) : bool :=
  match t with
  | TVPad _ _ | TDyn _ _ => false
  | TOption t | TNullable t | TSeq t | TBox t | TLim _ t | TFix _ t | TPad _ t => window_free t
  | _ => true
  end.
Definition window_free_defs (D : list def) : bool :=
  forallb (fun d => forallb (forallb window_free) (field_types d)) D.

(** Types whose every accepted encoding is the one that encoding produces:
    no N, Z (redundant groups are accepted), no String (replacement
    characters), Padded only when padding is checked. *)
Fixpoint canonical (cf : config) (t : ty) : bool :=
  match t with
  | TN | TZ | TString => false
  | TPad _ t => cf_check_padding cf && canonical cf t
  | TVPad _ t | TOption t | TNullable t | TSeq t | TBox t | TLim _ t | TFix _ t | TDyn _ t => canonical cf t
  | _ => true
  end.
Definition canonical_defs (cf : config) (D : list def) : bool :=
  forallb (fun d => forallb (forallb (canonical cf)) (field_types d)) D.

(** No String: decoding never produces more bytes than it read. *)
Fixpoint string_free (t : ty) : bool :=
  match t with
  | TString => false
  | TPad _ t | TVPad _ t | TOption t | TNullable t | TSeq t | TBox t | TLim _ t | TFix _ t | TDyn _ t =>
      string_free t
  | _ => true
  end.
Definition string_free_defs (D : list def) : bool :=
  forallb (fun d => forallb (forallb string_free) (field_types d)) D.

(** ------------------------------------------------------------------ *)
(** * Zero-valued naturals inside a value (see F8 in DESIGN.md) *)
Definition sum2 {A B} (f : A -> B -> Z) : list A -> list B -> Z :=
  fix go l l' :=
    match l, l' with
    | a :: l, b :: l' => f a b + go l l'
    | _, _ => 0
    end.
Fixpoint zeros (D : list def) (v : val) (t : ty) : Z :=
  match t, v with
  | TN, VInt z => if z =? 0 then 1 else 0
  | TOption t, VSome v | TNullable t, VSome v => zeros D v t
  | TSeq t, VSeq vs | TLim _ t, VSeq vs | TFix _ t, VSeq vs =>
      fold_right Z.add 0 (map (fun v => zeros D v t) vs)
  | TDyn _ t, VWrap v | TVPad _ t, VWrap v | TPad _ t, VWrap v | TBox t, VWrap v => zeros D v t
  | TNamed i, _ =>
      match nth_error D i, v with
      | Some (DStruct ts), VStruct vs => sum2 (zeros D) vs ts
      | Some (DData _ alts), VEnum ix vs => sum2 (zeros D) vs (snd (nth ix alts (0, [])))
      | _, _ => 0
      end
  | _, _ => 0
  end.

(** ------------------------------------------------------------------ *)
(** * The library's three parsers *)
Inductive which_parser := WByte | WMemo | WSlice.
Definition decode_with (w : which_parser) : config -> list def -> nat -> ty -> list byte -> res decode_error val :=
  match w with WByte => byte_decode | WMemo => memo_decode | WSlice => slice_decode end.

(** The model takes a number of steps; an answer other than "out of steps" given
    for all large numbers of steps is the answer of the program. *)
Definition settles {E A} (r : nat -> res E A) (out : res E A) : Prop :=
  out <> RDiv /\ exists f0, forall f, (f0 <= f)%nat -> r f = out.

(** [try_decode] of the type [t] through the parser [w] ends with [out]. *)
Definition decodes (w : which_parser) (cf : config) (D : list def) (t : ty) (input : list byte)
  (out : res decode_error val) : Prop :=
  settles (fun f => decode_with w cf D f t input) out.

(** Running calls on a fresh parser over [input]. *)
Definition run_with {A} (w : which_parser) (m : mode) (pg : prog A) (input : list byte) : pres A :=
  match w with
  | WByte => fst (run (byte_h m) pg (bp_from_buffer input))
  | WMemo => fst (run (memo_h m) pg (mp_from_buffer input))
  | WSlice => fst (run slice_h pg (sp_from_buffer input))
  end.

(** [parse], then fetch everything that is left in the parser. *)
Definition then_rest {A} (pg : prog A) : prog (A * list byte) :=
  (v <- pg ;; n <- p_remainder ;; rest <- p_consume n ;; PRet (v, rest))%prog.
Definition reads (w : which_parser) (cf : config) (D : list def) (t : ty) (input : list byte)
  (out : pres (val * list byte)) : Prop :=
  settles (fun f => run_with w (cf_mode cf) (then_rest (parse cf D f t)) input) out.

(** Release builds compute the window of a VPadded with wrapping subtraction
    (F7); there we exclude VPadded of positive width. *)
Definition pads_ok (cf : config) (D : list def) (t : ty) : bool :=
  match cf_mode cf with Debug => true | Release => vpad_free t && vpad_free_defs D end.

(** The types that are decoded on their own, and the self-delimiting ones. *)
Definition decodable (I : list tinfo) (t : ty) : bool :=
  match kind_of I t with Some k => greedy_ok k | None => false end.
Definition self_delimiting (I : list tinfo) (t : ty) : bool :=
  match kind_of I t with Some Delim => true | _ => false end.

(** ------------------------------------------------------------------ *)
(** * The library's byte-holding targets *)
Inductive which_target := ToVec | ToHex | ToStrict | ToMemo.
Definition tg_state (w : which_target) : Type :=
  match w with
  | ToVec => list byte | ToHex => hex_string | ToStrict => strict_builder | ToMemo => split_vec byte
  end.
Definition tg_of (w : which_target) : target (tg_state w) :=
  match w with ToVec => tg_vec | ToHex => tg_hex | ToStrict => tg_strict | ToMemo => tg_memo end.
Definition tg_bytes (w : which_target) : tg_state w -> list byte :=
  match w with
  | ToVec => fun u => u | ToHex => hx_bytes | ToStrict => strict_finalize | ToMemo => memo_into_vec
  end.

(** Reading elements of the type [t] one after the other, starting at [a], can
    leave [b]. *)
Inductive eats (w : which_parser) (cf : config) (D : list def) (t : ty) : list byte -> list byte -> Prop :=
| eats_none : forall a, eats w cf D t a a
| eats_one : forall a b c v, reads w cf D t a (ROk (v, b)) -> eats w cf D t b c -> eats w cf D t a c.

(** Somewhere before the end of the input an element takes no bytes. *)
Definition gets_stuck (w : which_parser) (cf : config) (D : list def) (t : ty) (input : list byte) : Prop :=
  exists rest v, rest <> [] /\ eats w cf D t input rest /\ reads w cf D t rest (ROk (v, rest)).
