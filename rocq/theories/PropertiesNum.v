(** Property theorems about numbers, tags and strings (C13-C20, C40, C46).

    [to_bytes] is [to_bytes()]; [reads w cf D t input (ROk (v, rest))] says that
    [parse] of the type [t] through parser [w] over [input] gives [v] and leaves
    [rest]; [rejects] that [try_decode] ends with a parse error.  [int_format k]
    is two's complement, big-endian ([SpecCodec]). *)
From Verif Require Import Base ModelErrors ModelSplitVec ModelParser ModelInt ModelFloat ModelZarith ModelUtf8
  ModelTarget ModelSchema SpecParser SpecCodec SpecUtf8 SpecNum ProofCodecThms ProofNum ProofGrammar.

Definition dbg_cf := mkConfig Debug false false false false false.
Definition rel_cf := mkConfig Release false false false true true.
Definition small (input : list byte) : Prop := zlen input <= isize_max.

(** ------------------------------------------------------------------ *)
(** * C13 *)
Theorem C13_encode : forall cf D kf k z, ik_in k z = true ->
  to_bytes cf D kf (VInt z) (TInt k) = ROk (int_format k z) /\ zlen (int_format k z) = ik_len k /\
  bytes_ok (int_format k z).
Proof. exact int_encode. Qed.
Print Assumptions C13_encode.

Theorem C13_decode : forall w cf D k input v rest, bytes_ok input -> small input ->
  reads w cf D (TInt k) input (ROk (v, rest)) <->
  exists z, v = VInt z /\ ik_in k z = true /\ input = int_format k z ++ rest.
Proof. exact int_decode. Qed.
Print Assumptions C13_decode.

Theorem C13_every_bytes : forall w cf D kf k input rest,
  bytes_ok (input ++ rest) -> small (input ++ rest) -> zlen input = ik_len k ->
  exists z, reads w cf D (TInt k) (input ++ rest) (ROk (VInt z, rest)) /\ ik_in k z = true /\
            to_bytes cf D kf (VInt z) (TInt k) = ROk input.
Proof. exact int_every_bytes. Qed.
Print Assumptions C13_every_bytes.

Theorem C13_too_short : forall w cf D k input, bytes_ok input -> zlen input < ik_len k -> rejects w cf D (TInt k) input.
Proof. exact int_short_rejected. Qed.
Print Assumptions C13_too_short.

(** The format is the usual one. *)
Example C13_format :
  int_format U16 258 = [1; 2] /\ int_format I16 (-2) = [255; 254] /\ int_format I32 (-2 ^ 31) = [128; 0; 0; 0] /\
  int_format U64 (2 ^ 64 - 1) = [255; 255; 255; 255; 255; 255; 255; 255] /\ int_format I8 127 = [127] /\
  ik_in I32 (-2 ^ 31) = true /\ ik_in I32 (2 ^ 31) = false /\ ik_in U8 256 = false /\ ik_in I64 (- 2 ^ 63) = true.
Proof. vm_compute. repeat apply conj; reflexivity. Qed.
Example C13_meets : bytes_ok ([1; 2] ++ [3]) /\ small ([1; 2] ++ [3]) /\ zlen [1; 2] = ik_len U16.
Proof. split; [apply bytes_ok_check; reflexivity|]. split; [vm_compute; discriminate|reflexivity]. Qed.

(** ------------------------------------------------------------------ *)
(** * C14 *)
Theorem C14_bool : forall w cf D input v rest, bytes_ok input -> small input ->
  reads w cf D TBool input (ROk (v, rest)) <->
  (v = VBool true /\ input = 255 :: rest) \/ (v = VBool false /\ input = 0 :: rest).
Proof. exact bool_decode. Qed.
Print Assumptions C14_bool.

Theorem C14_bool_rejects : forall w cf D input, bytes_ok input -> small input ->
  (forall rest, input <> 255 :: rest /\ input <> 0 :: rest) -> rejects w cf D TBool input.
Proof. exact bool_rejected. Qed.
Print Assumptions C14_bool_rejects.

(** Enums without payload (cstyle!). *)
Theorem C14_cstyle : forall w cf D i input,
  wf_defs D = true -> bytes_ok input -> small input -> (i < length D)%nat ->
  forall k tags v rest, nth_error D i = Some (DCStyle k tags) ->
  reads w cf D (TNamed i) input (ROk (v, rest)) <->
  exists ix tag, v = VEnum ix [] /\ nth_error tags ix = Some tag /\ input = int_format k tag ++ rest.
Proof. exact cstyle_decode. Qed.
Print Assumptions C14_cstyle.

Theorem C14_cstyle_rejects : forall w cf D i k tags input, nth_error D i = Some (DCStyle k tags) ->
  bytes_ok input -> small input -> (forall tag rest, In tag tags -> input <> int_format k tag ++ rest) ->
  rejects w cf D (TNamed i) input.
Proof. exact cstyle_rejected. Qed.
Print Assumptions C14_cstyle_rejects.

(** Enums with payload (data!): the variant decoded is the one whose declared
    discriminant was read, and its payload is of that variant's type. *)
Theorem C14_data : forall w cf D i input,
  wf_defs D = true -> bytes_ok input -> small input -> (i < length D)%nat ->
  forall k alts v rest, nth_error D i = Some (DData k alts) ->
  reads w cf D (TNamed i) input (ROk (v, rest)) ->
  exists ix tag ts vs payload, v = VEnum ix vs /\ nth_error alts ix = Some (tag, ts) /\
    input = int_format k tag ++ payload ++ rest /\ all2 (well_typed D) vs ts = true.
Proof. exact data_decode. Qed.
Print Assumptions C14_data.

Theorem C14_data_rejects : forall w cf D i k alts input, nth_error D i = Some (DData k alts) ->
  bytes_ok input -> small input -> (forall tag rest, In tag (map fst alts) -> input <> int_format k tag ++ rest) ->
  rejects w cf D (TNamed i) input.
Proof. exact data_rejected. Qed.
Print Assumptions C14_data_rejects.

Theorem C14_option_rejects : forall w cf D t input, bytes_ok input -> small input ->
  (forall rest, input <> 255 :: rest /\ input <> 0 :: rest) -> rejects w cf D (TOption t) input.
Proof. exact option_rejected. Qed.
Print Assumptions C14_option_rejects.

Definition tag_defs : list def :=
  [DCStyle U16 [3; 400; 7]; DData U8 [(0, [TN]); (9, [TBool; TInt I32])]].
Example C14_meets :
  wf_defs tag_defs = true /\ vpad_free_defs tag_defs = true /\ (1 < length tag_defs)%nat /\
  nth_error tag_defs 0 = Some (DCStyle U16 [3; 400; 7]) /\
  byte_decode dbg_cf tag_defs 9 (TNamed 0) [1; 144] = ROk (VEnum 1 []) /\
  byte_decode dbg_cf tag_defs 9 (TNamed 1) [9; 255; 0; 0; 1; 0] = ROk (VEnum 1 [VBool true; VInt 256]).
Proof. vm_compute. repeat apply conj; try reflexivity. Qed.
Example C14_bad_tag : rejects WMemo rel_cf tag_defs (TNamed 0) [1; 145].
Proof.
  apply (C14_cstyle_rejects _ _ _ _ U16 [3; 400; 7]); [reflexivity|apply bytes_ok_check; reflexivity|vm_compute; discriminate|].
  intros tag rest [<-|[<-|[<-|[]]]]; discriminate.
Qed.

(** ------------------------------------------------------------------ *)
(** * C15 *)
Theorem C15_decode : forall w cf D k lo hi input v rest, bytes_ok input -> small input -> ri_sanity lo hi = true ->
  reads w cf D (TRanged k lo hi) input (ROk (v, rest)) <->
  exists z, v = VInt z /\ ik_in k z = true /\ input = int_format k z ++ rest /\ lo <= ranged_value lo z <= hi.
Proof. exact ranged_decode. Qed.
Print Assumptions C15_decode.

Theorem C15_rejects : forall w cf D k lo hi input rest z,
  bytes_ok rest -> small (int_format k z ++ rest) -> ri_sanity lo hi = true ->
  ik_in k z = true -> ~ lo <= ranged_value lo z <= hi -> input = int_format k z ++ rest ->
  rejects w cf D (TRanged k lo hi) input.
Proof. exact ranged_rejected. Qed.
Print Assumptions C15_rejects.

Theorem C15_encode : forall cf D kf k lo hi z,
  ri_sanity lo hi = true -> ik_in k z = true -> lo <= ranged_value lo z <= hi ->
  to_bytes cf D kf (VInt z) (TRanged k lo hi) = ROk (int_format k z).
Proof. exact ranged_encode. Qed.
Print Assumptions C15_encode.

(** RangedInt<u8, 1023, 1025>: 1024 is stored and written as 1; 3 is rejected. *)
Example C15_meets :
  ri_sanity 1023 1025 = true /\ ik_in U8 1 = true /\ ranged_value 1023 1 = 1024 /\ ranged_stored 1023 1024 = 1 /\
  to_bytes dbg_cf [] 0 (VInt 1) (TRanged U8 1023 1025) = ROk [1] /\
  ranged_value (-5) (-4) = -4 /\ ri_sanity (-5) 5 = true.
Proof. vm_compute. repeat apply conj; reflexivity. Qed.
Example C15_out_of_range : rejects WSlice dbg_cf [] (TRanged U8 1023 1025) [3; 9].
Proof.
  apply (C15_rejects _ _ _ _ _ _ _ [9] 3); try reflexivity; [apply bytes_ok_check; reflexivity|vm_compute; discriminate|].
  unfold ranged_value. cbn. intros [_ H]. apply H. reflexivity.
Qed.

(** ------------------------------------------------------------------ *)
(** * C16 *)

(** [try_from_i32], all ranges, provided [x - MIN] does not overflow i32 in a
    debug build; a number of the range which the backer cannot hold is refused. *)
Theorem C16_try_from_i32_partial : forall rc m k lo hi x, ri_sanity lo hi = true -> ik_in I32 x = true ->
  m = Release \/ ik_in I32 (x - Z.max 0 lo) = true ->
  (lo <= x <= hi /\ ik_in k (ranged_stored lo x) = true -> ri_try_from_i32 rc m k lo hi x = ROk (ranged_stored lo x)) /\
  (~ (lo <= x <= hi /\ ik_in k (ranged_stored lo x) = true) -> exists e, ri_try_from_i32 rc m k lo hi x = RErr e).
Proof. exact try_from_i32_exact. Qed.
Print Assumptions C16_try_from_i32_partial.

(** Otherwise the subtraction panics. *)
Theorem C16_try_from_i32_refuted : exists k lo hi x,
  ri_sanity lo hi = true /\ ik_in I32 x = true /\ ~ lo <= x <= hi /\ ri_try_from_i32 false Debug k lo hi x = RPanic.
Proof.
  exists U8, 10, 20, (-2 ^ 31). repeat (split; [reflexivity|]). split; [intros [H _]; apply H; reflexivity|reflexivity].
Qed.
Print Assumptions C16_try_from_i32_refuted.

(** And back. *)
Theorem C16_to_i32 : forall E rc m k lo hi x y, ri_sanity lo hi = true -> ik_in I32 x = true ->
  ri_try_from_i32 rc m k lo hi x = ROk y ->
  ranged_ok k lo hi y = true /\ @ri_to_i32 rc m lo hi E y = ROk x.
Proof. exact @try_from_i32_back. Qed.
Print Assumptions C16_to_i32.

(** Every value of the range has the number it stands for as its [to_i32]. *)
Theorem C16_value : forall E rc m k lo hi z, ri_sanity lo hi = true -> ranged_ok k lo hi z = true ->
  @ri_to_i32 rc m lo hi E z = ROk (ranged_value lo z).
Proof. exact @to_i32_value. Qed.
Print Assumptions C16_value.

(** [TryFrom] of any integer type: ranges with MIN <= 0 which the backer holds. *)
Theorem C16_try_from_partial : forall m k lo hi x, lo <= 0 -> backer_holds k lo hi ->
  (lo <= x <= hi -> ri_try_from m k lo hi x = ROk x) /\
  (~ lo <= x <= hi -> exists e, ri_try_from m k lo hi x = RErr e).
Proof. exact try_from_exact. Qed.
Print Assumptions C16_try_from_partial.

(** For MIN > 0 in-range numbers are refused and numbers below MIN panic: the
    bounds are checked as if [x] were an offset, and MIN subtracted after. *)
Theorem C16_try_from_refuted :
  (exists k lo hi x e, ri_sanity lo hi = true /\ backer_holds k lo hi /\ lo <= x <= hi /\
     forall m, ri_try_from m k lo hi x = RErr e) /\
  (exists k lo hi x, ri_sanity lo hi = true /\ backer_holds k lo hi /\ ~ lo <= x <= hi /\
     forall m, ri_try_from m k lo hi x = RPanic).
Proof.
  split.
  - exists U8, 10, 20, 15, (BOverflow 10 15). split; [reflexivity|]. split; [unfold backer_holds; cbn; split; discriminate|]. split; [split; discriminate|intros []; reflexivity].
  - exists U8, 10, 20, 5. split; [reflexivity|]. split; [unfold backer_holds; cbn; split; discriminate|].
    split; [intros [H _]; apply H; reflexivity|intros []; reflexivity].
Qed.
Print Assumptions C16_try_from_refuted.

(** What it does for MIN > 0: only MIN <= x <= MAX - MIN give a value that stands
    for [x]; numbers below MIN give, with a signed backer, a value outside the
    range, and otherwise panic. *)
Theorem C16_try_from_positive : forall m k lo hi x, ri_sanity lo hi = true -> 0 < lo ->
  (x < 0 \/ hi - lo < x -> exists e, ri_try_from m k lo hi x = RErr e) /\
  (0 <= x <= hi - lo -> ri_try_from m k lo hi x = if ik_in k (x - lo) then ROk (x - lo) else RPanic).
Proof. exact try_from_positive. Qed.
Print Assumptions C16_try_from_positive.
Theorem C16_try_from_invalid_refuted : exists k lo hi x y, ri_sanity lo hi = true /\ backer_holds k lo hi /\
  (forall m, ri_try_from m k lo hi x = ROk y) /\ ranged_ok k lo hi y = false /\
  forall rc m, @ri_to_i32 rc m lo hi parse_error y = RPanic.
Proof.
  exists I8, 10, 30, 5, (-5). split; [reflexivity|]. split; [unfold backer_holds; cbn; split; discriminate|].
  split; [intros []; reflexivity|]. split; [reflexivity|intros [] []; reflexivity].
Qed.
Print Assumptions C16_try_from_invalid_refuted.

(** A range wider than the backer: [TryFrom] panics on the numbers the backer
    cannot hold. *)
Theorem C16_narrow_refuted : exists k lo hi x,
  ri_sanity lo hi = true /\ lo <= x <= hi /\ forall m, ri_try_from m k lo hi x = RPanic.
Proof. exists U8, 0, 1000, 300. split; [reflexivity|]. split; [split; discriminate|intros []; reflexivity]. Qed.
Print Assumptions C16_narrow_refuted.

(** Conversions out: exact for MIN <= 0 ... *)
Theorem C16_into_partial : forall k lo hi dest z, lo <= 0 -> ranged_ok k lo hi z = true ->
  (ik_in dest z = true -> ri_into dest z = z) /\ ri_try_into dest z = (if ik_in dest z then Some z else None).
Proof. exact into_value. Qed.
Print Assumptions C16_into_partial.
(** ... and for MIN > 0 they give the offset, not the number. *)
Theorem C16_into_refuted : exists k lo hi dest z,
  ri_sanity lo hi = true /\ ranged_ok k lo hi z = true /\ ri_into dest z <> ranged_value lo z.
Proof. exists U8, 10, 20, I32, 1. split; [reflexivity|]. split; [reflexivity|discriminate]. Qed.
Print Assumptions C16_into_refuted.

(** Default, min_val, max_val. *)
Theorem C16_default_partial : forall E k lo hi, lo <= 0 -> lo <= hi -> backer_holds k lo hi ->
  (exists z, @ri_default k lo hi E = ROk z /\ ranged_ok k lo hi z = true /\
     forall y, lo <= y <= hi -> Z.abs z <= Z.abs y) /\
  ranged_ok k lo hi (ri_min_val k lo) = true /\ ri_min_val k lo = lo /\
  ranged_ok k lo hi (ri_max_val k hi) = true /\ ri_max_val k hi = hi.
Proof. exact @default_valid. Qed.
Print Assumptions C16_default_partial.
Theorem C16_default_refuted : exists k lo hi,
  ri_sanity lo hi = true /\ backer_holds k lo hi /\
  (exists z, @ri_default k lo hi parse_error = ROk z /\ ranged_ok k lo hi z = false) /\
  ranged_ok k lo hi (ri_min_val k lo) = false /\ ranged_ok k lo hi (ri_max_val k hi) = false.
Proof.
  exists U8, 10, 15. split; [reflexivity|]. split; [unfold backer_holds; cbn; split; discriminate|].
  split; [eexists; split; reflexivity|split; reflexivity].
Qed.
Print Assumptions C16_default_refuted.

Example C16_meets :
  ri_sanity (-300) 300 = true /\ backer_holds I16 (-300) 300 /\ ri_try_from Debug I16 (-300) 300 299 = ROk 299 /\
  ri_try_from_i32 true Debug U8 1023 1025 1024 = ROk 1 /\ ik_in I32 (1024 - Z.max 0 1023) = true /\
  backer_holds U8 1023 1025 /\ (exists e, ri_try_from_i32 true Debug U8 1023 1025 1026 = RErr e) /\
  @ri_default I16 (-300) (-20) parse_error = ROk (-20).
Proof. unfold backer_holds. vm_compute. repeat apply conj; try reflexivity; try discriminate. eexists; reflexivity. Qed.

(** ------------------------------------------------------------------ *)
(** * C17 *)
Theorem C17_encode : forall cf D kf z, 0 <= z -> zlen (natural_format z) <= isize_max ->
  exists out, to_bytes cf D kf (VInt z) TN = ROk out /\ bytes_ok out /\ marked out /\ groups_value out = z /\
    natural_minimal out.
Proof. exact nat_encode_meaning. Qed.
Print Assumptions C17_encode.

Theorem C17_round_trip : forall w cf D z rest, 0 <= z -> bytes_ok rest -> small (natural_format z ++ rest) ->
  exists out, to_bytes cf D 0 (VInt z) TN = ROk out /\ reads w cf D TN (out ++ rest) (ROk (VInt z, rest)).
Proof. exact n_round_trip. Qed.
Print Assumptions C17_round_trip.

Theorem C17_decode : forall w cf D input v rest, bytes_ok input -> small input ->
  reads w cf D TN input (ROk (v, rest)) <->
  exists bs, input = bs ++ rest /\ marked bs /\ v = VInt (groups_value bs).
Proof. exact n_decode. Qed.
Print Assumptions C17_decode.

Example C17_meets :
  natural_format 300 = [172; 2] /\ groups_value [172; 2] = 300 /\ natural_format 0 = [0] /\
  natural_format (2 ^ 100) = [128; 128; 128; 128; 128; 128; 128; 128; 128; 128; 128; 128; 128; 128; 4] /\
  small (natural_format (2 ^ 100) ++ [1; 2]) /\ bytes_ok [1; 2].
Proof. repeat split; try (vm_compute; reflexivity); [vm_compute; discriminate|apply bytes_ok_check; reflexivity]. Qed.

(** ------------------------------------------------------------------ *)
(** * C18 *)
Theorem C18_encode : forall cf D kf z, zlen (integer_format z) <= isize_max ->
  exists out, to_bytes cf D kf (VInt z) TZ = ROk out /\ bytes_ok out /\ marked out /\ signed_groups_value out = z /\
    integer_minimal out.
Proof. exact int_encode_meaning. Qed.
Print Assumptions C18_encode.

Theorem C18_round_trip : forall w cf D z rest, bytes_ok rest -> small (integer_format z ++ rest) ->
  exists out, to_bytes cf D 0 (VInt z) TZ = ROk out /\ reads w cf D TZ (out ++ rest) (ROk (VInt z, rest)).
Proof. exact z_round_trip. Qed.
Print Assumptions C18_round_trip.

Theorem C18_decode : forall w cf D input v rest, bytes_ok input -> small input ->
  reads w cf D TZ input (ROk (v, rest)) <->
  exists bs, input = bs ++ rest /\ marked bs /\ v = VInt (signed_groups_value bs).
Proof. exact z_decode. Qed.
Print Assumptions C18_decode.

Example C18_meets :
  integer_format (-77) = [205; 1] /\ signed_groups_value [205; 1] = -77 /\ integer_format (-1) = [65] /\
  integer_format 64 = [128; 1] /\ integer_format 0 = [0] /\
  integer_format (-2 ^ 69) = [192; 128; 128; 128; 128; 128; 128; 128; 128; 128; 1] /\
  small (integer_format (-2 ^ 69) ++ [1; 2]).
Proof. repeat split; try (vm_compute; reflexivity). vm_compute; discriminate. Qed.

(** ------------------------------------------------------------------ *)
(** * C19 *)

(** Missing: other representations are accepted too (next theorem).  Those are
    longer than, or as long as, the one written, and the one written is the only
    one without a redundant final group (or, for Z, without a negative zero). *)
Theorem C19_natural_partial : forall w cf D kf input z rest, bytes_ok input -> small input ->
  reads w cf D TN input (ROk (VInt z, rest)) ->
  exists bs out, input = bs ++ rest /\ to_bytes cf D kf (VInt z) TN = ROk out /\ zlen out <= zlen bs /\
    (natural_minimal bs <-> bs = out).
Proof. exact n_canonical. Qed.
Print Assumptions C19_natural_partial.

Theorem C19_integer_partial : forall w cf D kf input z rest, bytes_ok input -> small input ->
  reads w cf D TZ input (ROk (VInt z, rest)) ->
  exists bs out, input = bs ++ rest /\ to_bytes cf D kf (VInt z) TZ = ROk out /\ zlen out <= zlen bs /\
    (integer_minimal bs <-> bs = out).
Proof. exact z_canonical. Qed.
Print Assumptions C19_integer_partial.

Theorem C19_natural_refuted : exists cf input z out,
  (forall w, reads w cf [] TN input (ROk (VInt z, []))) /\ to_bytes cf [] 0 (VInt z) TN = ROk out /\ out <> input.
Proof.
  exists rel_cf, [128; 0], 0, [0]. split; [|split; [reflexivity|discriminate]].
  intros w. apply C17_decode; [apply bytes_ok_check; reflexivity|vm_compute; discriminate|].
  exists [128; 0]. split; [reflexivity|]. split; [|reflexivity]. cbn. split; [discriminate|reflexivity].
Qed.
Print Assumptions C19_natural_refuted.

Theorem C19_integer_refuted : exists cf input z out,
  (forall w, reads w cf [] TZ input (ROk (VInt z, []))) /\ to_bytes cf [] 0 (VInt z) TZ = ROk out /\ out <> input.
Proof.
  exists rel_cf, [64], 0, [0]. split; [|split; [reflexivity|discriminate]].
  intros w. apply C18_decode; [apply bytes_ok_check; reflexivity|vm_compute; discriminate|].
  exists [64]. split; [reflexivity|]. split; [|reflexivity]. cbn. reflexivity.
Qed.
Print Assumptions C19_integer_refuted.

Theorem C19_unterminated : forall w cf D input, bytes_ok input -> small input -> Forall (fun b => 128 <= b) input ->
  rejects w cf D TN input /\ rejects w cf D TZ input.
Proof. exact unterminated_rejected. Qed.
Print Assumptions C19_unterminated.
Example C19_meets : natural_minimal [172; 2] /\ ~ natural_minimal [172; 130; 0] /\ integer_minimal [205; 1] /\ ~ integer_minimal [64].
Proof.
  split; [right; discriminate|]. split; [intros [H|H]; [discriminate H|apply H; reflexivity]|].
  split; [discriminate|intros H; apply H; reflexivity].
Qed.

(** ------------------------------------------------------------------ *)
(** * C20: a double is its bit pattern *)
Theorem C20_round_trip : forall w cf D kf b rest, 0 <= b < 2 ^ 64 -> bytes_ok rest -> zlen rest <= isize_max - 8 ->
  to_bytes cf D kf (VInt b) TF64 = ROk (big_endian 8 b) /\
  reads w cf D TF64 (big_endian 8 b ++ rest) (ROk (VInt b, rest)).
Proof. exact float_round_trip. Qed.
Print Assumptions C20_round_trip.

Theorem C20_every_bytes : forall w cf D kf input rest, bytes_ok (input ++ rest) -> small (input ++ rest) -> zlen input = 8 ->
  exists b, reads w cf D TF64 (input ++ rest) (ROk (VInt b, rest)) /\ 0 <= b < 2 ^ 64 /\
            to_bytes cf D kf (VInt b) TF64 = ROk input.
Proof. exact f64_every_bytes. Qed.
Print Assumptions C20_every_bytes.

Theorem C20_ranged : forall w cf D lo hi input v rest,
  bytes_ok input -> small input -> is_u64 lo = true -> is_u64 hi = true ->
  reads w cf D (TRangedF lo hi) input (ROk (v, rest)) <->
  exists b, v = VInt b /\ 0 <= b < 2 ^ 64 /\ input = big_endian 8 b ++ rest /\ f64_le lo b = true /\ f64_le b hi = true.
Proof. exact ranged_float_decode. Qed.
Print Assumptions C20_ranged.

Theorem C20_not_nan : forall lo b hi, f64_le lo b = true -> f64_le b hi = true -> f64_is_nan b = false.
Proof. exact float_between. Qed.
Print Assumptions C20_not_nan.

(** The comparison is that of the exact values. *)
Theorem C20_order : forall a b, 0 <= a < 2 ^ 64 -> 0 <= b < 2 ^ 64 -> f64_finite a = true -> f64_finite b = true ->
  f64_le a b = (f64_value a <=? f64_value b).
Proof. exact f64_le_value. Qed.
Print Assumptions C20_order.

Theorem C20_constructors : forall lo hi x,
  (f64_le lo x = true /\ f64_le x hi = true <-> rf_try_from_f64 lo hi x = ROk x) /\
  (forall y, rf_try_from_f64 lo hi x = ROk y -> y = x) /\
  (forall E y, @rf_from_f64 E lo hi x = ROk y <-> y = x /\ f64_le lo x = true /\ f64_le x hi = true).
Proof. exact ranged_float_constructor. Qed.
Print Assumptions C20_constructors.

Theorem C20_default : forall E lo hi,
  (f64_le lo hi = true -> exists z, @rf_default E lo hi = ROk z /\ f64_le lo z = true /\ f64_le z hi = true /\
     (f64_le lo 0 = true -> f64_le 0 hi = true -> z = 0) /\ (f64_lt 0 lo = true -> z = lo) /\ (f64_lt hi 0 = true -> z = hi)) /\
  (f64_le lo hi = false -> @rf_default E lo hi = RPanic).
Proof. exact @ranged_float_default. Qed.
Print Assumptions C20_default.

(** 1.0 = 0x3ff0..., 2.5 = 0x4004..., -0.0 = 0x8000..., +inf = 0x7ff0..., NaN = 0x7ff8.... *)
Example C20_meets :
  let one := 0x3ff0000000000000 in let two_and_half := 0x4004000000000000 in let neg_zero := 0x8000000000000000 in
  let inf := 0x7ff0000000000000 in let nan := 0x7ff8000000000001 in
  f64_le one two_and_half = true /\ f64_le two_and_half one = false /\ f64_le neg_zero 0 = true /\ f64_le 0 neg_zero = true /\
  f64_le one inf = true /\ f64_le one nan = false /\ f64_le nan one = false /\ f64_is_nan nan = true /\
  2 * f64_value two_and_half = 5 * f64_value one /\ f64_finite inf = false /\ f64_value 1 = 1 /\
  byte_decode dbg_cf [] 3 (TRangedF one two_and_half) (big_endian 8 nan) <> ROk (VInt nan) /\
  byte_decode dbg_cf [] 3 TF64 (big_endian 8 nan) = ROk (VInt nan).
Proof. vm_compute. repeat apply conj; try reflexivity; discriminate. Qed.

(** ------------------------------------------------------------------ *)
(** * C40: a Rust string is a list of Unicode scalar values *)
Theorem C40_round_trip : forall w cf D kf cs, Forall scalar cs -> zlen (utf8_string cs) <= isize_max ->
  (w = WSlice -> cf_complete cf = false) ->
  to_bytes cf D kf (VBytes (utf8_string cs)) TString = ROk (utf8_string cs) /\
  decodes w cf D TString (utf8_string cs) (ROk (VBytes (utf8_string cs))).
Proof. exact string_round_trip. Qed.
Print Assumptions C40_round_trip.

Theorem C40_lossy : forall w cf D input, bytes_ok input -> small input -> (w = WSlice -> cf_complete cf = false) ->
  (forall cs, Forall scalar cs -> input <> utf8_string cs) ->
  exists good bad cs, input = utf8_string good ++ bad /\ bad <> [] /\
    (forall c rest, scalar c -> bad <> utf8_encode c ++ rest) /\
    Forall scalar good /\ Forall scalar cs /\
    decodes w cf D TString input (ROk (VBytes (utf8_string (good ++ 0xfffd :: cs)))).
Proof. exact string_not_utf8. Qed.
Print Assumptions C40_lossy.

(** Exactly: what decoding returns is the input with maximal subparts
    substituted, of which there is one for all bytes. *)
Theorem C40_lossy_exact : forall w cf D input cs, bytes_ok input -> small input -> (w = WSlice -> cf_complete cf = false) ->
  substituted input cs -> decodes w cf D TString input (ROk (VBytes (utf8_string cs))).
Proof. exact string_substituted. Qed.
Print Assumptions C40_lossy_exact.

Theorem C40_lossy_total : forall input, bytes_ok input -> exists cs, substituted input cs /\ Forall scalar cs /\
  forall cs', substituted input cs' -> utf8_string cs' = utf8_string cs.
Proof. exact string_has_substitution. Qed.
Print Assumptions C40_lossy_total.

(** A truncated euro sign before a letter becomes one U+FFFD, two stray
    continuation bytes become two. *)
Example C40_substituted :
  byte_decode dbg_cf [] 3 TString [0xe2; 0x82; 0x41; 0x80; 0x80] = ROk (VBytes (utf8_string [0xfffd; 0x41; 0xfffd; 0xfffd])).
Proof. vm_compute. reflexivity. Qed.

Example C40_meets :
  utf8_string [0x41; 0xe9; 0x20ac; 0x1f600] = [0x41; 0xc3; 0xa9; 0xe2; 0x82; 0xac; 0xf0; 0x9f; 0x98; 0x80] /\
  Forall scalar [0x41; 0xe9; 0x20ac; 0x1f600] /\
  byte_decode dbg_cf [] 3 TString [0x41; 0xc3; 0x42] = ROk (VBytes (utf8_string [0x41; 0xfffd; 0x42])).
Proof.
  split; [reflexivity|]. split; [|vm_compute; reflexivity]. repeat constructor; unfold scalar; lia.
Qed.

(** ------------------------------------------------------------------ *)
(** * C46: with MIN > 0 the argument is, as documented, the offset from MIN *)
Theorem C46_restrict : forall val min max,
  (restrict val min max = ROk val <-> if 0 <? min then 0 <= val <= max - min else min <= val <= max) /\
  (max < min -> (0 < min -> 0 <= val) -> restrict val min max = RErr (BInvalidBounds min max)) /\
  (0 < min -> val < 0 -> restrict val min max = RErr (BIllegalNegative min val)) /\
  (0 < min <= max -> max - min < val -> restrict val min max = RErr (BOverflow (max - min) val)) /\
  (min <= 0 -> min <= max -> val < min -> restrict val min max = RErr (BUnderflow min val)) /\
  (min <= 0 -> min <= max -> max < val -> restrict val min max = RErr (BOverflow max val)).
Proof. exact restrict_classifies. Qed.
Print Assumptions C46_restrict.

Theorem C46_restrict_float : forall val min max,
  (f64_le min val = true /\ f64_le val max = true -> restrict_float val min max = ROk val) /\
  (f64_le min max = true -> f64_le min val = false -> restrict_float val min max = RErr (BUnderflow min val)) /\
  (f64_le min val = true -> f64_le val max = false -> f64_le min max = true -> restrict_float val min max = RErr (BOverflow max val)) /\
  (f64_le min max = false -> restrict_float val min max = RErr (BInvalidBounds min max)).
Proof. exact restrict_float_classifies. Qed.
Print Assumptions C46_restrict_float.
Example C46_meets :
  restrict 3 (-5) 5 = ROk 3 /\ restrict 6 (-5) 5 = RErr (BOverflow 5 6) /\ restrict 3 10 13 = ROk 3 /\
  restrict 11 10 13 = RErr (BOverflow 3 11) /\ restrict (-1) 10 13 = RErr (BIllegalNegative 10 (-1)) /\
  restrict 0 5 3 = RErr (BInvalidBounds 5 3).
Proof. repeat apply conj; reflexivity. Qed.
