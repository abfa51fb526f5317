(** Which inputs send a release build out of bounds while decoding, or make it
    panic (F7).

    A release build computes the window of a [VPadded<T, N>] as "what is left minus
    [N]" with wrapping arithmetic.  With fewer than [N] bytes left, a ByteParser and
    a MemoParser are given a window that ends [N] bytes before the end of the
    enclosing one, which is before the current position; what is left in it seems to
    be almost 2^64 bytes.  A [T] that asks for everything up to the end of such a
    window reads outside of the buffer.  A [T] that reads a natural number or an
    integer of any size, which begins by setting that much memory aside, panics. *)
From Verif Require Import Base ModelErrors ModelInt ModelSchema SpecCodec SpecGrammar.

(** Types that ask for everything up to the end of the window. *)
Definition all_left (t : ty) : bool := match t with TBytes | TString => true | _ => false end.
(** Types that set memory aside for everything up to the end of the window. *)
Definition big_number (t : ty) : bool := match t with TN | TZ => true | _ => false end.

Section Inside.
Variable what : ty -> bool.
Variable D : list def.

(** Types that read nothing at all, even where something seems to be left. *)
Inductive idle : ty -> Prop :=
| idle_unit : idle TUnit
| idle_box : forall t, idle t -> idle (TBox t)
| idle_nullable : forall t, idle t -> idle (TNullable t)
| idle_fix : forall n t, idle t -> idle (TFix n t)
| idle_fix_none : forall t, idle (TFix 0 t)
| idle_struct : forall i ts, nth_error D i = Some (DStruct ts) -> idle_all ts -> idle (TNamed i)
with idle_all : list ty -> Prop :=
| idle_nil : idle_all []
| idle_cons : forall t ts, idle t -> idle_all ts -> idle_all (t :: ts).

(** [wild L t]: the first thing a [t] reads is one of the types [what], in a window
    that ends at [L]. *)
Inductive wild : Z -> ty -> Prop :=
| wild_first : forall L t, what t = true -> wild L t
| wild_box : forall L t, wild L t -> wild L (TBox t)
| wild_nullable : forall L t, wild L t -> wild L (TNullable t)
| wild_padded : forall L n t, wild L t -> wild L (TPad n t)
| wild_seq : forall L t, wild L t -> wild L (TSeq t)
| wild_lim : forall L n t, wild L t -> wild L (TLim n t)
| wild_fix : forall L n t, 0 < n -> wild L t -> wild L (TFix n t)
| wild_vpad : forall L n t, n <= L -> wild (L - n) t -> wild L (TVPad n t)
| wild_struct : forall L i ts, nth_error D i = Some (DStruct ts) -> wild_turn L ts -> wild L (TNamed i)
with wild_turn : Z -> list ty -> Prop :=
| wild_here : forall L t ts, wild L t -> wild_turn L (t :: ts)
| wild_later : forall L t ts, idle t -> wild_turn L ts -> wild_turn L (t :: ts).
End Inside.

Section Spill.
Variable what : ty -> bool.
Variable checked : bool.
Variable D : list def.

(** [spills e t bs]: [bs] is left of a window that ends [e] bytes into the input. *)
Inductive spills : Z -> ty -> list byte -> Prop :=
| spill_here : forall e n t bs, zlen bs < n -> n <= e -> wild what D (e - n) t -> spills e (TVPad n t) bs
(* or further inside *)
| spill_payload : forall e s t payload r, zlen payload <= pref_max s -> spills (e - zlen r) t payload ->
    spills e (TDyn s t) (pref_format s (zlen payload) ++ payload ++ r)
| spill_body : forall e n t body r, zlen r = n -> spills (e - n) t body -> spills e (TVPad n t) (body ++ r)
| spill_padded : forall e n t bs, spills e t bs -> spills e (TPad n t) bs
| spill_box : forall e t bs, spills e t bs -> spills e (TBox t) bs
| spill_some : forall e t bs, spills e t bs -> spills e (TOption t) (255 :: bs)
| spill_nonnull : forall e t bs, bs <> [] -> spills e t bs -> spills e (TNullable t) bs
(* or after some elements or fields *)
| spill_seq : forall e t bs vs mid, many checked D t bs vs mid -> mid <> [] -> spills e t mid -> spills e (TSeq t) bs
| spill_lim : forall e n t bs vs mid, many checked D t bs vs mid -> zlen vs <= n -> mid <> [] -> spills e t mid -> spills e (TLim n t) bs
| spill_fix : forall e n t bs vs mid, many checked D t bs vs mid -> zlen vs < n -> mid <> [] -> spills e t mid -> spills e (TFix n t) bs
| spill_struct : forall e i ts bs, nth_error D i = Some (DStruct ts) -> spills_turn e ts bs -> spills e (TNamed i) bs
| spill_data : forall e i k alts ix tag ts bs, nth_error D i = Some (DData k alts) -> nth_error alts ix = Some (tag, ts) ->
    spills_turn e ts bs -> spills e (TNamed i) (int_format k tag ++ bs)
with spills_turn : Z -> list ty -> list byte -> Prop :=
| spill_now : forall e t ts bs, spills e t bs -> spills_turn e (t :: ts) bs
| spill_later : forall e t ts bs v mid, denotes checked D t bs v mid -> spills_turn e ts mid -> spills_turn e (t :: ts) bs.
End Spill.
