(** The wire grammar: which bytes denote which value of a type.

    [denotes t bs v rest]: read as a [t], the bytes [bs] of a window denote [v]
    and leave [rest].  There are no parsers, positions, windows or errors here;
    [checked] says whether padding bytes must be 0 (feature check_padding). *)
From Verif Require Import Base ModelErrors ModelInt ModelFloat ModelSchema SpecCodec SpecNum SpecUtf8.

Section Grammar.
Variable checked : bool.
Variable D : list def.

Inductive denotes : ty -> list byte -> val -> list byte -> Prop :=
| den_unit : forall r, denotes TUnit r VUnit r
| den_true : forall r, denotes TBool (255 :: r) (VBool true) r
| den_false : forall r, denotes TBool (0 :: r) (VBool false) r
| den_int : forall k z r, ik_min k <= z <= ik_max k -> denotes (TInt k) (int_format k z ++ r) (VInt z) r
| den_ranged : forall k lo hi z r, ik_min k <= z <= ik_max k -> lo <= ranged_value lo z <= hi ->
    denotes (TRanged k lo hi) (int_format k z ++ r) (VInt z) r
| den_float : forall z r, 0 <= z < 2 ^ 64 -> denotes TF64 (big_endian 8 z ++ r) (VInt z) r
| den_ranged_float : forall lo hi z r, 0 <= z < 2 ^ 64 -> f64_le lo z = true -> f64_le z hi = true ->
    denotes (TRangedF lo hi) (big_endian 8 z ++ r) (VInt z) r
| den_natural : forall bs r, marked bs -> denotes TN (bs ++ r) (VInt (groups_value bs)) r
| den_integer : forall bs r, marked bs -> denotes TZ (bs ++ r) (VInt (signed_groups_value bs)) r
| den_bytes : forall bs, denotes TBytes bs (VBytes bs) []
| den_string : forall bs cs, substituted bs cs -> denotes TString bs (VBytes (utf8_string cs)) []
| den_fixed_bytes : forall n bs r, zlen bs = n -> denotes (TFixedBytes n) (bs ++ r) (VBytes bs) r
| den_fixed_string : forall n bs r, zlen bs = n -> denotes (TFixedString n) (bs ++ r) (VBytes bs) r
| den_none : forall t r, denotes (TOption t) (0 :: r) VNone r
| den_some : forall t bs v r, denotes t bs v r -> denotes (TOption t) (255 :: bs) (VSome v) r
| den_null : forall t, denotes (TNullable t) [] VNone []
| den_nonnull : forall t bs v r, bs <> [] -> denotes t bs v r -> denotes (TNullable t) bs (VSome v) r
| den_seq : forall t bs vs, many t bs vs [] -> denotes (TSeq t) bs (VSeq vs) []
| den_lim : forall n t bs vs, many t bs vs [] -> zlen vs <= n -> denotes (TLim n t) bs (VSeq vs) []
| den_fix : forall n t bs vs r, many t bs vs r -> zlen vs = n -> denotes (TFix n t) bs (VSeq vs) r
| den_dyn : forall s t payload v r, zlen payload <= pref_max s -> denotes t payload v [] ->
    denotes (TDyn s t) (pref_format s (zlen payload) ++ payload ++ r) (VWrap v) r
| den_vpad : forall n t body v r, zlen r = n -> denotes t body v [] -> denotes (TVPad n t) (body ++ r) (VWrap v) r
| den_pad : forall n t bs v padding r, denotes t bs v (padding ++ r) -> zlen padding = n ->
    (checked = true -> Forall (fun b => b = 0) padding) -> denotes (TPad n t) bs (VWrap v) r
| den_box : forall t bs v r, denotes t bs v r -> denotes (TBox t) bs (VWrap v) r
| den_struct : forall i ts bs vs r, nth_error D i = Some (DStruct ts) -> in_turn ts bs vs r ->
    denotes (TNamed i) bs (VStruct vs) r
| den_cstyle : forall i k tags ix tag r, nth_error D i = Some (DCStyle k tags) -> nth_error tags ix = Some tag ->
    denotes (TNamed i) (int_format k tag ++ r) (VEnum ix []) r
| den_data : forall i k alts ix tag ts bs vs r, nth_error D i = Some (DData k alts) ->
    nth_error alts ix = Some (tag, ts) -> in_turn ts bs vs r ->
    denotes (TNamed i) (int_format k tag ++ bs) (VEnum ix vs) r
(** Elements of one type, each begun before the end of the window. *)
with many : ty -> list byte -> list val -> list byte -> Prop :=
| many_none : forall t r, many t r [] r
| many_more : forall t bs v mid vs r, bs <> [] -> denotes t bs v mid -> many t mid vs r -> many t bs (v :: vs) r
(** Fields one after the other. *)
with in_turn : list ty -> list byte -> list val -> list byte -> Prop :=
| turn_none : forall r, in_turn [] r [] r
| turn_more : forall t ts bs v mid vs r, denotes t bs v mid -> in_turn ts mid vs r ->
    in_turn (t :: ts) bs (v :: vs) r.
End Grammar.
