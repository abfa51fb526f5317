(** Property theorems about comparing values (C68, C69) and about the self-check of
    the executable (C70).  [less] and [same] are in [SpecCompare]. *)
From Verif Require Import Base ModelErrors ModelInt ModelFloat ModelTarget ModelSchema ModelHex ModelInput ModelCompare ModelCheck
  SpecCodec SpecNum SpecInput SpecCompare SpecCheck ProofSettle ProofCompare ProofOrder ProofCheck ProofFloatEq PropertiesCodec.
Local Open Scope list_scope.

(** ------------------------------------------------------------------ *)
(** * C68 *)
Theorem C68_order : forall D v w t, wf_defs D = true -> well_typed D v t = true -> well_typed D w t = true ->
  (val_cmp D v w t = Some Lt <-> less D t v w) /\
  (val_cmp D v w t = Some Eq <-> same D t v w) /\
  (val_cmp D v w t = Some Gt <-> less D t w v).
Proof. exact val_cmp_three. Qed.
Print Assumptions C68_order.

Theorem C68_equality : forall D v w t, wf_defs D = true -> well_typed D v t = true -> well_typed D w t = true ->
  val_eq D v w t = true <-> same D t v w.
Proof. exact val_eq_same. Qed.
Print Assumptions C68_equality.

(** What [PartialOrd] and [PartialEq] demand of implementors. *)
Theorem C68_agree : forall D v w t, val_eq D v w t = true <-> val_cmp D v w t = Some Eq.
Proof. exact val_eq_cmp. Qed.
Print Assumptions C68_agree.
Theorem C68_dual : forall D v w t, val_cmp D w v t = option_map CompOpp (val_cmp D v w t).
Proof. exact val_cmp_dual. Qed.
Print Assumptions C68_dual.
Theorem C68_transitive : forall D u v w t c, val_cmp D u v t = Some c -> val_cmp D v w t = Some c -> val_cmp D u w t = Some c.
Proof. exact val_cmp_trans. Qed.
Print Assumptions C68_transitive.
Theorem C68_equal_substitutes : forall D u v w t c, val_eq D u v t = true ->
  (val_cmp D v w t = Some c -> val_cmp D u w t = Some c) /\ (val_cmp D w v t = Some c -> val_cmp D w u t = Some c).
Proof. exact val_eq_substitutes. Qed.
Print Assumptions C68_equal_substitutes.

(** Where no plain f64 occurs any two values compare, as [Ord] demands. *)
Theorem C68_total : forall D v w t, wf_defs D = true -> forallb no_nan_def D = true -> no_nan t = true ->
  well_typed D v t = true -> well_typed D w t = true -> less D t v w \/ same D t v w \/ less D t w v.
Proof. exact less_total. Qed.
Print Assumptions C68_total.

(** Floating-point numbers: exactly NaN compares with nothing. *)
Theorem C68_float : forall D a b, 0 <= a < 2 ^ 64 -> 0 <= b < 2 ^ 64 ->
  val_cmp D (VInt a) (VInt b) TF64 =
    if f64_number a && f64_number b then Some (Z.compare (f64_value a) (f64_value b)) else None.
Proof. exact (fun D => f64_cmp_value). Qed.
Print Assumptions C68_float.

(** An enum with discriminants 5, 2; a data enum; a struct holding both and bytes. *)
Definition cmp_defs : list def :=
  [DCStyle U8 [5; 2]; DData U8 [(9, [TNamed 0]); (3, [TBool; TDyn PrefU8 TString])]; DStruct [TNamed 1; TDyn PrefU8 (TSeq (TInt I8)); TOption TZ]].
Definition cmp_a : val := VStruct [VEnum 0 [VEnum 1 []]; VWrap (VSeq [VInt (-3)]); VNone].
Definition cmp_b : val := VStruct [VEnum 0 [VEnum 1 []]; VWrap (VSeq [VInt (-3); VInt (-5)]); VNone].
Definition cmp_c : val := VStruct [VEnum 0 [VEnum 0 []]; VWrap (VSeq []); VSome (VInt (-7))].
Definition cmp_d : val := VStruct [VEnum 1 [VBool false; VWrap (VBytes [])]; VWrap (VSeq []); VSome (VInt (-8))].
Example C68_meets :
  wf_defs cmp_defs = true /\ forallb no_nan_def cmp_defs = true /\
  forallb (fun v => well_typed cmp_defs v (TNamed 2)) [cmp_a; cmp_b; cmp_c; cmp_d] = true /\
  val_cmp cmp_defs cmp_a cmp_b (TNamed 2) = Some Lt /\ val_cmp cmp_defs cmp_b cmp_c (TNamed 2) = Some Lt /\
  val_cmp cmp_defs cmp_d cmp_c (TNamed 2) = Some Gt /\ val_eq cmp_defs cmp_a cmp_a (TNamed 2) = true.
Proof. vm_compute. repeat split. Qed.

(** ------------------------------------------------------------------ *)
(** * C69 *)

(** Without floating-point numbers equality is identity. *)
Theorem C69_identity_partial : forall D v w t, wf_defs D = true -> forallb no_float_def D = true -> no_float t = true ->
  well_typed D v t = true -> well_typed D w t = true -> val_eq D v w t = true <-> v = w.
Proof. exact val_eq_exact. Qed.
Print Assumptions C69_identity_partial.

(** ... and values are equal exactly if their encodings are. *)
Theorem C69_encoding_partial : forall cf D I kf v w t bs bs',
  wf_defs D = true -> disciplined D I = true -> wf_ty D t = true -> decodable I t = true ->
  forallb no_float_def D = true -> no_float t = true -> well_typed D v t = true -> well_typed D w t = true ->
  to_bytes cf D kf v t = ROk bs -> to_bytes cf D kf w t = ROk bs' -> zlen bs <= isize_max ->
  (cf_est_override cf = true -> zeros D v t = 0 /\ zeros D w t = 0) ->
  val_eq D v w t = true <-> bs = bs'.
Proof. exact val_eq_encoding. Qed.
Print Assumptions C69_encoding_partial.

(** Ranged floats too are equal to themselves. *)
Theorem C69_reflexive_partial : forall D v t, forallb no_nan_def D = true -> no_nan t = true -> well_typed D v t = true ->
  val_eq D v v t = true.
Proof. exact val_eq_refl. Qed.
Print Assumptions C69_reflexive_partial.

(** With floating-point numbers two values are equal exactly if neither holds a NaN
    and they differ in nothing but the signs of zeros. *)
Theorem C69_floats_partial : forall D v w t, wf_defs D = true -> well_typed D v t = true -> well_typed D w t = true ->
  val_eq D v w t = true <->
  every_float D f64_number v t = true /\ every_float D f64_number w t = true /\
  on_floats D positive_zero v t = on_floats D positive_zero w t.
Proof. exact val_eq_floats. Qed.
Print Assumptions C69_floats_partial.

(** Encodings tell all values apart, also those equality does not; among values
    without NaN and without -0.0 equality is equality of the encodings. *)
Theorem C69_encoding_floats_partial : forall cf D I kf v w t bs bs',
  wf_defs D = true -> disciplined D I = true -> wf_ty D t = true -> decodable I t = true ->
  well_typed D v t = true -> well_typed D w t = true ->
  to_bytes cf D kf v t = ROk bs -> to_bytes cf D kf w t = ROk bs' -> zlen bs <= isize_max ->
  (cf_est_override cf = true -> zeros D v t = 0 /\ zeros D w t = 0) ->
  (bs = bs' <-> v = w) /\
  (every_float D (fun b => f64_number b && negb (b =? 2 ^ 63)) v t = true ->
   every_float D (fun b => f64_number b && negb (b =? 2 ^ 63)) w t = true -> val_eq D v w t = true <-> bs = bs').
Proof. exact encoding_floats. Qed.
Print Assumptions C69_encoding_floats_partial.

Definition float_defs : list def := [DStruct [TF64; TRangedF 0xbff0000000000000 0x3ff0000000000000]; DData U8 [(0, [TNamed 0]); (1, [TDyn PrefU8 (TSeq TF64); TN])]].
Example C69_floats_meets :
  wf_defs float_defs = true /\
  let a := VEnum 1 [VWrap (VSeq [VInt 0; VInt (2 ^ 62)]); VInt 3] in
  let b := VEnum 1 [VWrap (VSeq [VInt (2 ^ 63); VInt (2 ^ 62)]); VInt 3] in
  let c := VEnum 0 [VStruct [VInt 0x7ff8000000000000; VInt 0]] in
  well_typed float_defs a (TNamed 1) = true /\ well_typed float_defs b (TNamed 1) = true /\ well_typed float_defs c (TNamed 1) = true /\
  val_eq float_defs a b (TNamed 1) = true /\ val_eq float_defs c c (TNamed 1) = false /\
  on_floats float_defs positive_zero b (TNamed 1) = a /\ every_float float_defs f64_number b (TNamed 1) = true /\
  every_float float_defs f64_number c (TNamed 1) = false.
Proof. vm_compute. repeat split. Qed.

(** With floating-point numbers: 0.0 and -0.0 are equal but encoded differently, also
    as members of a range ([-1.0, 1.0]); NaN is decoded to a value that is not equal
    to the one encoded. *)
Theorem C69_refuted :
  (forall cf D kf, forall t, t = TF64 \/ t = TRangedF 0xbff0000000000000 0x3ff0000000000000 -> exists v w bs bs',
    well_typed D v t = true /\ well_typed D w t = true /\ val_eq D v w t = true /\
    to_bytes cf D kf v t = ROk bs /\ to_bytes cf D kf w t = ROk bs' /\ bs <> bs') /\
  (forall cf D kf, exists v bs, well_typed D v TF64 = true /\ to_bytes cf D kf v TF64 = ROk bs /\ val_eq D v v TF64 = false).
Proof. exact float_equality. Qed.
Print Assumptions C69_refuted.

Definition cmp_info : list tinfo := [mkInfo Delim true None; mkInfo Delim true None; mkInfo Delim true None].
Example C69_meets :
  disciplined cmp_defs cmp_info = true /\ wf_ty cmp_defs (TNamed 2) = true /\ decodable cmp_info (TNamed 2) = true /\
  forallb no_float_def cmp_defs = true /\
  to_bytes release cmp_defs 9 cmp_a (TNamed 2) = ROk [9; 2; 1; 253; 0] /\
  to_bytes release cmp_defs 9 cmp_d (TNamed 2) = ROk [3; 0; 0; 0; 255; 72].
Proof. vm_compute. repeat split. Qed.

(** ------------------------------------------------------------------ *)
(** * C70 *)
(** With the feature implicit_hexstring a check passes exactly if the text is the
    hexadecimal form of the value's encoding (and the value holds no NaN, which is
    not equal to itself). *)
Theorem C70_check_partial : forall cf D I kf t s v,
  wf_defs D = true -> disciplined D I = true -> wf_ty D t = true -> decodable I t = true ->
  well_typed D v t = true -> zlen s <= isize_max -> (cf_est_override cf = true -> zeros D v t = 0) ->
  check_gives true cf D kf t s v (ROk tt) <->
  every_float D f64_number v t = true /\ exists bs, to_bytes cf D kf v t = ROk bs /\ s = hex_of_bytes bs.
Proof. exact check_passes_hex. Qed.
Print Assumptions C70_check_partial.

(** Without it, decoding takes the text itself for the encoding. *)
Theorem C70_check_either : forall implicit cf D I kf t s v,
  wf_defs D = true -> disciplined D I = true -> wf_ty D t = true -> decodable I t = true ->
  well_typed D v t = true -> zlen s <= isize_max -> (cf_est_override cf = true -> zeros D v t = 0) ->
  check_gives implicit cf D kf t s v (ROk tt) <->
  exists bs, to_bytes cf D kf v t = ROk bs /\ s = hex_of_bytes bs /\ decode_gives implicit cf D t (SrcStr s) (ROk v) /\
    every_float D f64_number v t = true.
Proof. exact check_passes. Qed.
Print Assumptions C70_check_either.

Theorem C70_main : forall cf, main_gives true cf (ROk tt).
Proof. exact main_passes. Qed.
Print Assumptions C70_main.

Theorem C70_main_refuted : forall cf, main_gives false cf RPanic.
Proof. exact main_panics. Qed.
Print Assumptions C70_main_refuted.

Example C70_meets :
  check_gives true release sample_defs 9 sample_ty (hex_of_bytes sample_bytes) sample_val (ROk tt) /\
  check_gives false release sample_defs 9 (TInt U8) [52; 50] (VInt 66) RPanic.
Proof.
  split.
  - apply (C70_check_partial release sample_defs sample_info); try reflexivity; [discriminate|].
    split; [vm_compute; reflexivity|]. exists sample_bytes. split; vm_compute; reflexivity.
  - split; [discriminate|]. exists 3%nat. intros f Hf. do 3 (destruct f as [|f]; [lia|]). vm_compute. reflexivity.
Qed.
