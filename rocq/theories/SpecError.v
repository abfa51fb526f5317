(** What the error of a failed decoding must say: it names a requirement that
    the type really makes, and quotes bytes that are really in the input and
    do not meet it. *)
From Verif Require Import Base ModelErrors ModelParser ModelInt ModelFloat ModelSchema SpecCodec.

(** [u] occurs in the definition of [t]: it is the type of a part of the
    values of [t] (at any depth, through the named types). *)
Inductive part (D : list def) : ty -> ty -> Prop :=
| part_here t : part D t t
| part_option t u : part D t u -> part D (TOption t) u
| part_nullable t u : part D t u -> part D (TNullable t) u
| part_seq t u : part D t u -> part D (TSeq t) u
| part_lim n t u : part D t u -> part D (TLim n t) u
| part_fix n t u : part D t u -> part D (TFix n t) u
| part_prefix s t u : part D (pref_ty s) u -> part D (TDyn s t) u
| part_dyn s t u : part D t u -> part D (TDyn s t) u
| part_vpad n t u : part D t u -> part D (TVPad n t) u
| part_pad n t u : part D t u -> part D (TPad n t) u
| part_box t u : part D t u -> part D (TBox t) u
| part_struct i ts t u : nth_error D i = Some (DStruct ts) -> In t ts -> part D t u -> part D (TNamed i) u
| part_data i k alts tag ts t u :
    nth_error D i = Some (DData k alts) -> In (tag, ts) alts -> In t ts -> part D t u -> part D (TNamed i) u.

(** The type [t] starts with a tag of width [k], one of [tags]. *)
Definition tagged (D : list def) (t : ty) (k : int_kind) (tags : list Z) : Prop :=
  match t with
  | TOption _ => k = U8 /\ tags = [0; 255]
  | TNamed i =>
      match nth_error D i with
      | Some (DCStyle k' tags') => k = k' /\ tags = tags'
      | Some (DData k' alts) => k = k' /\ tags = map fst alts
      | _ => False
      end
  | _ => False
  end.

(** The bytes [bs] are somewhere in [input], next to each other. *)
Definition occurs (bs input : list byte) : Prop := exists before after, input = before ++ bs ++ after.

(** [val], as the type stores it, breaks the bounds [lo], [hi]; the numbers in
    the error are those of the comparison that failed.  (For [0 < lo] the
    stored number is the difference to [lo].) *)
Definition blames_bounds (lo hi val : Z) (e : bounds_error) : Prop :=
  match e with
  | BUnderflow min v => v = val /\ min = lo /\ val < lo
  | BOverflow max v => v = val /\ max = (if 0 <? lo then hi - lo else hi) /\ max < val
  | BIllegalNegative min v => v = val /\ min = lo /\ 0 < lo /\ val < 0
  | BInvalidBounds _ _ | BFailed => False
  end.

(** On f64, "not at least" and "not at most": NaN is neither. *)
Definition blames_bounds_float (lo hi val : Z) (e : bounds_error) : Prop :=
  match e with
  | BUnderflow min v => v = val /\ min = lo /\ f64_le lo val = false
  | BOverflow max v => v = val /\ max = hi /\ f64_le val hi = false
  | BInvalidBounds min max => min = lo /\ max = hi /\ f64_le lo hi = false
  | BIllegalNegative _ _ | BFailed => False
  end.

(** The error [e] of decoding [input] as [t] is justified. *)
Definition justified (cf : config) (D : list def) (t : ty) (input : list byte) (e : parse_error) : Prop :=
  match e with
  (* too few bytes, or a length prefix that does not fit; the numbers are the
     subject of C45 *)
  | EWindow (ConsumeWouldExceedLimit _ _ _)
  | EWindow (OpenWouldExceedBuffer _ _)
  | EWindow (OpenWouldExceedWindow _ _) => True
  | EWindow (CloseWithResidue n) => 0 < n
  | EWindow CloseWithoutWindow | EWindow (OffsetOverflow _) => False
  | EInternal SliceCoerceFailure => False
  | EInternal NoValidTags => exists u k, part D t u /\ tagged D u k []
  | EToken (InvalidBoolean b) => part D t TBool /\ occurs [b] input /\ b <> 0 /\ b <> 255
  | EToken (InvalidTag w actual (Some tags)) =>
      exists u k, part D t u /\ tagged D u k tags /\ w = tag_width_of k /\
        occurs (int_format k actual) input /\ ~ In actual tags
  | EToken (InvalidTag _ _ None) => False
  (* the bytes read before the missing one, all announcing a next one *)
  | EToken (NonTerminating buf) =>
      (part D t TN \/ part D t TZ) /\ occurs buf input /\ (forall b, In b buf -> 128 <= b)
  | EToken (NonNullPaddingByte padding) =>
      cf_check_padding cf = true /\ (exists n u, part D t (TPad n u) /\ zlen padding = n) /\
      occurs padding input /\ (exists b, In b padding /\ b <> 0)
  | EExternal (IntRangeViolation e) =>
      exists k lo hi val, part D t (TRanged k lo hi) /\ occurs (int_format k val) input /\ blames_bounds lo hi val e
  | EExternal (FloatRangeViolation e) =>
      exists lo hi val, part D t (TRangedF lo hi) /\ occurs (int_format U64 val) input /\
        blames_bounds_float lo hi val e
  | EExternal (LengthViolation (TooLong limit actual)) =>
      (exists u, part D t (TLim limit u)) /\ limit < actual
  | EExternal (LengthViolation (WrongLength exact actual)) =>
      (exists u, part D t (TFix exact u)) /\ 0 <= actual < exact
  | EExternal UncoercableString | EExternal (WidthViolation _) | EExternal GenericError => False
  end.
