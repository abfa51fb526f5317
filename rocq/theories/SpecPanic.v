(** Which inputs make a debug build panic while decoding: those in which a length
    prefix announces an absurd number of bytes, or virtual padding does not fit,
    before anything else is found to be wrong.  In the style of SpecGrammar. *)
From Verif Require Import Base ModelErrors ModelInt ModelSchema SpecCodec SpecGrammar.

Section Panic.
Variable checked : bool.
Variable D : list def.
(** Announced lengths that set off the panic. *)
Variable absurd : Z -> Prop.

Inductive trips : ty -> list byte -> Prop :=
| trip_announced : forall s t n r, 0 <= n <= pref_max s -> absurd n -> trips (TDyn s t) (pref_format s n ++ r)
| trip_vpad : forall n t bs, zlen bs < n -> trips (TVPad n t) bs
(* or further inside *)
| trip_payload : forall s t payload r, zlen payload <= pref_max s -> trips t payload ->
    trips (TDyn s t) (pref_format s (zlen payload) ++ payload ++ r)
| trip_body : forall n t body r, zlen r = n -> trips t body -> trips (TVPad n t) (body ++ r)
| trip_padded : forall n t bs, trips t bs -> trips (TPad n t) bs
| trip_box : forall t bs, trips t bs -> trips (TBox t) bs
| trip_some : forall t bs, trips t bs -> trips (TOption t) (255 :: bs)
| trip_nonnull : forall t bs, bs <> [] -> trips t bs -> trips (TNullable t) bs
(* or after some elements or fields *)
| trip_seq : forall t bs vs mid, many checked D t bs vs mid -> mid <> [] -> trips t mid -> trips (TSeq t) bs
| trip_lim : forall n t bs vs mid, many checked D t bs vs mid -> zlen vs <= n -> mid <> [] -> trips t mid -> trips (TLim n t) bs
| trip_fix : forall n t bs vs mid, many checked D t bs vs mid -> zlen vs < n -> mid <> [] -> trips t mid -> trips (TFix n t) bs
| trip_struct : forall i ts bs, nth_error D i = Some (DStruct ts) -> trips_turn ts bs -> trips (TNamed i) bs
| trip_data : forall i k alts ix tag ts bs, nth_error D i = Some (DData k alts) -> nth_error alts ix = Some (tag, ts) ->
    trips_turn ts bs -> trips (TNamed i) (int_format k tag ++ bs)
with trips_turn : list ty -> list byte -> Prop :=
| turn_here : forall t ts bs, trips t bs -> trips_turn (t :: ts) bs
| turn_later : forall t ts bs v mid, denotes checked D t bs v mid -> trips_turn ts mid -> trips_turn (t :: ts) bs.
End Panic.
