(** Specification of C100: where in an encoding a part of a value lies. *)
From Verif Require Import Base ModelErrors ModelInt ModelSchema SpecCodec.

Section Spot.
Variable D : list def.

(** [spot t v at u x fill]: the value [v] of type [t] contains, at byte [at] of its
    encoding, the value [x] of type [u]; [fill y] is [v] with [y] in place of [x]. *)
Inductive spot : ty -> val -> Z -> ty -> val -> (val -> val) -> Prop :=
| spot_here : forall t v, spot t v 0 t v (fun y => y)
| spot_some : forall t v n u x fill, spot t v n u x fill ->
    spot (TOption t) (VSome v) (1 + n) u x (fun y => VSome (fill y))
| spot_nonnull : forall t v n u x fill, spot t v n u x fill ->
    spot (TNullable t) (VSome v) n u x (fun y => VSome (fill y))
| spot_seq : forall t before v after n u x fill, spot t v n u x fill ->
    spot (TSeq t) (VSeq (before ++ v :: after)) (zlen (concat (map (fun v => format D v t) before)) + n) u x
         (fun y => VSeq (before ++ fill y :: after))
| spot_lim : forall m t before v after n u x fill, spot t v n u x fill ->
    spot (TLim m t) (VSeq (before ++ v :: after)) (zlen (concat (map (fun v => format D v t) before)) + n) u x
         (fun y => VSeq (before ++ fill y :: after))
| spot_fix : forall m t before v after n u x fill, spot t v n u x fill ->
    spot (TFix m t) (VSeq (before ++ v :: after)) (zlen (concat (map (fun v => format D v t) before)) + n) u x
         (fun y => VSeq (before ++ fill y :: after))
| spot_dyn : forall s t v n u x fill, spot t v n u x fill ->
    spot (TDyn s t) (VWrap v) (pref_len s + n) u x (fun y => VWrap (fill y))
| spot_vpad : forall m t v n u x fill, spot t v n u x fill -> spot (TVPad m t) (VWrap v) n u x (fun y => VWrap (fill y))
| spot_pad : forall m t v n u x fill, spot t v n u x fill -> spot (TPad m t) (VWrap v) n u x (fun y => VWrap (fill y))
| spot_box : forall t v n u x fill, spot t v n u x fill -> spot (TBox t) (VWrap v) n u x (fun y => VWrap (fill y))
| spot_struct : forall i ts ts' t before v after n u x fill, nth_error D i = Some (DStruct (ts ++ t :: ts')) ->
    length before = length ts -> spot t v n u x fill ->
    spot (TNamed i) (VStruct (before ++ v :: after)) (zlen (concat2 (format D) before ts) + n) u x
         (fun y => VStruct (before ++ fill y :: after))
| spot_data : forall i k alts ix tag ts ts' t before v after n u x fill, nth_error D i = Some (DData k alts) ->
    nth_error alts ix = Some (tag, ts ++ t :: ts') ->
    length before = length ts -> spot t v n u x fill ->
    spot (TNamed i) (VEnum ix (before ++ v :: after)) (ik_len k + zlen (concat2 (format D) before ts) + n) u x
         (fun y => VEnum ix (before ++ fill y :: after)).
End Spot.

(** [bs] with [new] written over it at byte [n]. *)
Definition overwrite (bs : list byte) (n : Z) (new : list byte) : list byte :=
  ztake n bs ++ new ++ zdrop (n + zlen new) bs.
