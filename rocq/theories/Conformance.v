(** The assertions of /repo's own unit tests and doc comments, evaluated in the
    model.  These are tests, not proofs: evidence that the model computes what
    the code computes.  Each example cites the test it transcribes.

    Left out: assertions about the size of a Rust type (adt.rs 37), about Rust
    traits only (conv/error.rs 82) and about references into a wrapper
    (autobox.rs 105-175, fixed.rs 62-134), which have no content in the model. *)
From Coq Require Import String.
From Verif Require Import Base ModelErrors ModelSplitVec ModelParser ModelInt ModelFloat ModelZarith ModelUtf8
  ModelTarget ModelSchema ModelHex ModelHexString ModelDisplay ModelSeq ModelScan SpecCodec.
Import ListNotations.
Local Open Scope Z_scope.
Local Open Scope list_scope.

(** The two build profiles with the default features (none). *)
Definition test_build := mkConfig Debug false false false false false.
Definition release_build := mkConfig Release false false false false false.
Definition builds := [test_build; release_build].

(** [hex!("..")] *)
Definition hexbytes (s : string) : list byte :=
  match bytes_of_hex (txt s) with ROk bs => bs | _ => [] end.

(** [encode_decode] (int.rs 584-593, float.rs 366-373): the value encodes, through
    a StrictBuilder, to the hex text, which decodes to the value. *)
Definition encode_decode (t : ty) (case : val * string) : Prop :=
  let (v, enc) := case in
  forall cf, In cf builds ->
    rmap (fun b => hex_of_bytes (strict_finalize b)) (encode cf [] 9 tg_strict v t) = ROk (txt enc) /\
    forall w, decode_with w cf [] 9 t (hexbytes enc) = ROk v.

Ltac each :=
  repeat (apply Forall_cons; [|]); try apply Forall_nil;
  cbn [encode_decode]; intros cf [<- | [<- | []]];
  (split; [vm_compute; reflexivity | intros []; vm_compute; reflexivity]).

(** int.rs 594-606 *)
Example u8_encode_decode : Forall (encode_decode (TInt U8))
  [(VInt 0, "00"); (VInt 1, "01"); (VInt 0x7f, "7f"); (VInt 0x80, "80"); (VInt 0xff, "ff")]%string.
Proof. each. Qed.

(** int.rs 608-618 *)
Example i8_encode_decode : Forall (encode_decode (TInt I8))
  [(VInt 0, "00"); (VInt 1, "01"); (VInt 0x7f, "7f"); (VInt (-128), "80"); (VInt (-1), "ff")]%string.
Proof. each. Qed.

(** int.rs 620-630 *)
Example u16_encode_decode : Forall (encode_decode (TInt U16))
  [(VInt 0, "0000"); (VInt 1, "0001"); (VInt 0x7fff, "7fff"); (VInt 0x8000, "8000"); (VInt 0xffff, "ffff")]%string.
Proof. each. Qed.

(** int.rs 632-642 *)
Example i16_encode_decode : Forall (encode_decode (TInt I16))
  [(VInt 0, "0000"); (VInt 1, "0001"); (VInt 0x7fff, "7fff"); (VInt (-0x8000), "8000"); (VInt (-1), "ffff")]%string.
Proof. each. Qed.

(** int.rs 644-652 *)
Example u30_encode_decode : Forall (encode_decode (TRanged U32 0 (2 ^ 30 - 1)))
  [(VInt 0, "00000000"); (VInt 1, "00000001"); (VInt 0x3fffffff, "3fffffff")]%string.
Proof. each. Qed.

(** int.rs 654-664 *)
Example i31_encode_decode : Forall (encode_decode (TRanged I32 (- 2 ^ 30) (2 ^ 30 - 1)))
  [(VInt 0, "00000000"); (VInt 1, "00000001"); (VInt 0x3fffffff, "3fffffff");
   (VInt (-0x40000000), "c0000000"); (VInt (-1), "ffffffff")]%string.
Proof. each. Qed.

(** int.rs 665-675 *)
Example i32_encode_decode : Forall (encode_decode (TInt I32))
  [(VInt 0, "00000000"); (VInt 1, "00000001"); (VInt 0x7fffffff, "7fffffff");
   (VInt (-0x80000000), "80000000"); (VInt (-1), "ffffffff")]%string.
Proof. each. Qed.

(** int.rs 677-687 *)
Example i64_encode_decode : Forall (encode_decode (TInt I64))
  [(VInt 0, "0000000000000000"); (VInt 1, "0000000000000001"); (VInt 0x7fffffffffffffff, "7fffffffffffffff");
   (VInt (-0x8000000000000000), "8000000000000000"); (VInt (-1), "ffffffffffffffff")]%string.
Proof. each. Qed.

(** int.rs 689-702 *)
Example short_high : Forall (encode_decode (TRanged U8 256 257)) [(VInt 0, "00"); (VInt 1, "01")]%string.
Proof. each. Qed.

(** int.rs 697-701, 316-320, 346-349: a stored 0 in a range above 0 stands for the
    lower bound. *)
Definition of_zero (m : mode) (lo hi : Z) : res unit (Z * Z) :=
  rbind (ri_from_underlying false lo hi 0) (fun v =>
  rbind (ri_to_underlying false lo hi v) (fun u =>
  rbind (ri_to_i32 false m lo hi v) (fun i => ROk (u, i)))).
Example underlying_zero : forall m,
  of_zero m 256 257 = ROk (0, 256) /\ of_zero m 1023 1025 = ROk (0, 1023) /\ of_zero m 1024 1200 = ROk (0, 1024).
Proof. intros []; repeat apply conj; vm_compute; reflexivity. Qed.

(** int.rs 49-71 *)
Example ocaml_limits :
  min_ocaml = - Z.shiftl 1 30 /\ min_ocaml = ik_min I32 / 2 /\
  max_ocaml = Z.shiftl 1 30 - 1 /\ max_ocaml = ik_max I32 / 2 /\
  u30_max = Z.shiftl 1 30 - 1 /\ u30_max = Z.shiftr (ik_max U32) 2.
Proof. repeat apply conj; vm_compute; reflexivity. Qed.

(** float.rs 375-384.  A float is its bits, so the table is read off the
    constants of std: 1.0, PI, E. *)
Example f64_encode_decode : Forall (encode_decode TF64)
  [(VInt 0, "0000000000000000"); (VInt 0x3ff0000000000000, "3ff0000000000000");
   (VInt 0x400921fb54442d18, "400921fb54442d18"); (VInt 0x4005bf0a8b145769, "4005bf0a8b145769")]%string.
Proof. each. Qed.

(** float.rs 386-398, over 0.0 to 1.0: 0.0, 1.0, FRAC_1_PI, LN_2. *)
Example unit_encode_decode : Forall (encode_decode (TRangedF 0 0x3ff0000000000000))
  [(VInt 0, "0000000000000000"); (VInt 0x3ff0000000000000, "3ff0000000000000");
   (VInt 0x3fd45f306dc9c883, "3fd45f306dc9c883"); (VInt 0x3fe62e42fefa39ef, "3fe62e42fefa39ef")]%string.
Proof. each. Qed.

(** float.rs 88-91: the default of the range -0.1 to 0.1 is 0.0. *)
Example float_default : @rf_default unit 0xbfb999999999999a 0x3fb999999999999a = ROk 0.
Proof. vm_compute. reflexivity. Qed.

(** zarith.rs 151-155 *)
Example n_deserialize_test :
  @n_deserialize unit [0x00] = ROk 0 /\ @n_deserialize unit [0x01] = ROk 1 /\
  @n_deserialize unit [0x80; 0x01] = ROk 128.
Proof. repeat split; vm_compute; reflexivity. Qed.

(** zarith.rs 330-351 *)
Example z_encode_decode : Forall (encode_decode TZ)
  [(VInt 0, "00"); (VInt 1, "01"); (VInt 64, "8001"); (VInt (-32), "60")]%string.
Proof. each. Qed.

(** prim.rs 113-121 *)
Example unit_decode : encode_decode TUnit (VUnit, ""%string).
Proof. each. Qed.

(** conv/mod.rs 430-446 *)
Example bytes_encode : forall cf, In cf builds ->
  rmap strict_finalize (encode cf [] 9 tg_strict (VBytes (txt "foo")) TBytes) = ROk (txt "foo").
Proof. intros cf [<- | [<- | []]]; vm_compute; reflexivity. Qed.

(** fixed.rs 493-522: the string decodes to itself, encodes to itself and shows
    as itself.  [sayonara] is the UTF-8 of the second string. *)
Definition sayonara : list byte :=
  [0xe3; 0x81; 0x95; 0xe3; 0x82; 0x88; 0xe3; 0x81; 0xaa; 0xe3; 0x82; 0x89].
Example charstring : Forall (fun case => forall cf, In cf builds ->
    (forall w, decode_with w cf [] 9 (TFixedString 12) case = ROk (VBytes case)) /\
    fs_try_from_bytes 12 case = ROk case /\
    rmap strict_finalize (encode cf [] 9 tg_strict (VBytes case) (TFixedString 12)) = ROk case /\
    fs_as_string_lossy case = case) [txt "hello world!"; sayonara].
Proof.
  repeat (apply Forall_cons; [|]); try apply Forall_nil; intros cf [<- | [<- | []]];
    (split; [intros []; vm_compute; reflexivity | repeat split; vm_compute; reflexivity]).
Qed.

(** fixed.rs 532-548 *)
Example bytestring_hex : encode_decode (TFixedBytes 4) (VBytes [0xde; 0xad; 0xbe; 0xef], "deadbeef"%string).
Proof. each. Qed.
Example bytestring_ascii : encode_decode (TFixedBytes 12) (VBytes (txt "hello world!"), "68656c6c6f20776f726c6421"%string).
Proof. each. Qed.

(** fixed.rs 318-327 *)
Example mogami :
  let s := hexbytes "e38195e381bfe381a0e3828ce38292e38182e381a4e38281e381a6e381afe38284e38197e38282e3818ce381bfe3818ce3828f" in
  zlen s = 51 /\ fs_try_from_array s = ROk s /\ fs_as_string_lossy s = s.
Proof. repeat split; vm_compute; reflexivity. Qed.

(** fixed.rs 341-347: a crab and the byte 0xff. *)
Example utf8_check :
  fs_is_valid_utf8 [0xf0; 0x9f; 0xa6; 0x80] = true /\ fs_is_valid_utf8 [0xff] = false.
Proof. split; vm_compute; reflexivity. Qed.

(** fixed.rs 380-384: the truncated character becomes one U+FFFD. *)
Example lossy : fs_as_string_lossy [0x00; 0x61; 0xec; 0xad] = [0x00; 0x61; 0xef; 0xbf; 0xbd].
Proof. vm_compute. reflexivity. Qed.

(** hexstring.rs 74-76, 124-126, 277-279, 306-308, 327-330 *)
Example hex_examples :
  hex_of_bytes [0xde; 0xad; 0xbe; 0xef] = txt "deadbeef" /\
  bytes_of_hex (txt "deadbeef") = ROk [0xde; 0xad; 0xbe; 0xef] /\
  hs_make (MkText (txt "deadbeef")) = hs_make (MkCopy [0xde; 0xad; 0xbe; 0xef]) /\
  hs_make (MkText (txt "deadbeef")) = hs_make (MkVec [0xde; 0xad; 0xbe; 0xef]) /\
  rmap hs_text (hs_make MkNew) = ROk (txt "") /\
  rmap hs_text (hs_make (MkVec [0xde; 0xad; 0xbe; 0xef])) = ROk (txt "deadbeef").
Proof. repeat split; vm_compute; reflexivity. Qed.

(** dynamic.rs 320-353 *)
Example max_len_examples :
  pref_max PrefU8 = Z.shiftl 1 8 - 1 /\ pref_max PrefU16 = Z.shiftl 1 16 - 1 /\ pref_max PrefU30 = Z.shiftl 1 30 - 1.
Proof. repeat apply conj; vm_compute; reflexivity. Qed.

(** adt.rs 27-33: [SmallPrime]; the third variant is Five. *)
Example small_prime : forall cf w, In cf builds ->
  decode_with w cf [DCStyle U8 [2; 3; 5; 7]] 9 (TNamed 0) [0x05] = ROk (VEnum 2 []) /\
  nth 2 [2; 3; 5; 7] 0 = 5.
Proof. intros cf [] [<- | [<- | []]]; (split; [vm_compute|]; reflexivity). Qed.

(** adt.rs 240-245: [SmallPrimePower]. *)
Example small_prime_power : forall cf w, In cf builds ->
  decode_with w cf [DData U8 [(2, [TInt U8]); (3, [TInt U8]); (5, [TInt U8])]] 9 (TNamed 0) (hexbytes "0501") =
    ROk (VEnum 2 [VInt 1]).
Proof. intros cf [] [<- | [<- | []]]; vm_compute; reflexivity. Qed.

(** adt.rs 247-253: [WideUnit]. *)
Example wide_unit : forall cf, In cf builds ->
  enc_len cf [DData U16 [(0, [])]] 9 (VEnum 0 []) (TNamed 0) = enc_len cf [] 9 (VInt 0) (TInt U16) /\
  enc_len cf [DStruct []] 9 (VStruct []) (TNamed 0) = enc_len cf [] 9 VUnit TUnit.
Proof. intros cf [<- | [<- | []]]; split; vm_compute; reflexivity. Qed.

(** autobox.rs 22-36: [U8Seq], a recursive struct. *)
Example u8seq : forall cf, In cf builds ->
  to_bytes cf [DStruct [TInt U8; TOption (TBox (TNamed 0))]] 9
    (VStruct [VInt 5; VSome (VWrap (VStruct [VInt 7; VNone]))]) (TNamed 0) = ROk [0x05; 0xff; 0x07; 0x00].
Proof. intros cf [<- | [<- | []]]; vm_compute; reflexivity. Qed.

(** conv/mod.rs 228-260: [MyType], a struct around a sequence of structs. *)
Example my_type : forall cf w, In cf builds ->
  decode_with w cf [DStruct [TBool; TInt U8]; DStruct [TSeq (TNamed 0)]] 9 (TNamed 1) [0xff; 0x2a] =
    ROk (VStruct [VSeq [VStruct [VBool true; VInt 42]]]).
Proof. intros cf [] [<- | [<- | []]]; vm_compute; reflexivity. Qed.

(** parse/mod.rs 1320-1333 *)
Example skip_exactly_tests : forall m,
  let p := bp_from_buffer [1; 2; 3; 4; 5] in
  bp_offset p = 0 /\
  fst (bp_skip_exactly m 1 p) = ROk tt /\ bp_offset (snd (bp_skip_exactly m 1 p)) = 1 /\
  (forall u, fst (bp_skip_exactly m 10 p) <> ROk u).
Proof. intros []; repeat split; try (vm_compute; reflexivity); intros u; vm_compute; discriminate. Qed.

(** parse/mod.rs 1360-1384 *)
Example fast_kv_lookup : forall cf, In cf builds ->
  let bytes := to_bytes_full cf [DStruct [TFixedBytes 2; TInt I8]] 9
    (VWrap (VSeq [VStruct [VBytes [0xec; 0xad]; VInt 5]; VStruct [VBytes [0x50; 0x50]; VInt 42]]))
    (TDyn PrefU30 (TSeq (TNamed 0))) in
  let search k :=
    rbind bytes (fun bs => match fst (run (memo_h (cf_mode cf))
      (p_process_prefix cf PrefU30 ;;; p_kv_search 9 k 1 (from_be_bytes I8)) (mp_from_buffer bs)) with
      | ROk x => ROk x | _ => RPanic end) in
  search [0x50; 0x50] = ROk (Some 42) /\ search [0x49; 0x51] = ROk None.
Proof. intros cf [<- | [<- | []]]; split; vm_compute; reflexivity. Qed.

(** internal/splitvec.rs 896-910.  Taking [n] spans in order: *)
Fixpoint spans_all (m : mode) (n : nat) (it : spans_iter Z) : res unit (list (option (list Z))) :=
  match n with
  | O => ROk []
  | S n => rbind (spans_next m it) (fun '(o, it) => rbind (spans_all m n it) (fun l => ROk (o :: l)))
  end.
Example iter_spans_test : forall m,
  let ten := seq 0 10 in
  let svec := fold_left (fun v i => sv_split_force (sv_extend_current_from_slice (repeat (Z.of_nat i) i) v)) ten sv_new in
  spans_all m 11 (sv_spans_iter svec) = ROk (map (fun i => Some (repeat (Z.of_nat i) i)) ten ++ [None]).
Proof. intros []; vm_compute; reflexivity. Qed.

(** internal/splitvec.rs 73-76, 93-101, 232-238, 273-283 *)
Example span_buffer_examples :
  sb_is_empty sb_new = true /\
  (* the active span starts at 0, also after a flush *)
  or_zero (sb_active sb_new) = 0 /\ or_zero (sb_active (sb_flush (sb_set_active 10 sb_new))) = 0 /\
  sb_is_empty (sb_increment 0 sb_new) = false /\
  sb_is_contiguous sb_new = true /\
  sb_is_contiguous (sb_increment 10 sb_new) = true /\
  sb_is_contiguous (sb_flush (sb_increment 10 sb_new)) = true /\
  sb_is_contiguous (sb_increment 10 (sb_flush (sb_increment 10 sb_new))) = false.
Proof. repeat apply conj; vm_compute; reflexivity. Qed.

(** internal/splitvec.rs 451-456, 547-552, 568-573, 592-597, 626-632, 683-688, 699-708, 721-734 *)
Example split_vec_examples :
  let v123 := sv_from_vec [1; 2; 3] in
  sv_is_empty (@sv_new Z) = true /\ sv_is_empty (sv_split (@sv_new Z)) = true /\
  sv_into_inner (sv_push_current 4 v123) = [1; 2; 3; 4] /\ sv_is_contiguous (sv_push_current 4 v123) = true /\
  sv_into_inner (sv_extend_current [4; 5; 6] v123) = [1; 2; 3; 4; 5; 6] /\
  sv_is_contiguous (sv_extend_current [4; 5; 6] v123) = true /\
  sv_into_inner (sv_extend_current_from_slice [4; 5; 6] v123) = [1; 2; 3; 4; 5; 6] /\
  sv_is_contiguous (sv_extend_current_from_slice [4; 5; 6] v123) = true /\
  sv_into_inner (fst (sv_append_current [4; 5; 6] v123)) = [1; 2; 3; 4; 5; 6] /\
  snd (sv_append_current [4; 5; 6] v123) = [] /\
  sv_len (@sv_new Z) = 0 /\ sv_len (sv_extend_current_from_slice (repeat 0 32) sv_new) = 32 /\
  sv_is_empty (sv_extend_current [] (sv_split (@sv_new Z))) = false /\
  sv_is_contiguous (@sv_new Z) = true /\ sv_is_contiguous (sv_split (@sv_new Z)) = true /\
  let hello := sv_split (sv_extend_current_from_slice (txt "Hello World!") (sv_split sv_new)) in
  sv_is_contiguous hello = true /\ sv_is_contiguous (sv_extend_current [] hello) = false.
Proof. repeat apply conj; vm_compute; reflexivity. Qed.

(** internal/offset.rs 182-192: what [advance] promises, here for a few calls; C45
    and C46 have it for all. *)
Example advance_contract : forall m, Forall (fun n =>
    let it := mkCO 9 [7; 4] 2 in
    match @co_advance unit m n it with
    | ROk (old, valid, it') => old = co_index it /\ co_index it' = if valid then co_index it + n else co_index it
    | _ => False
    end) [0; 1; 2; 3; 9].
Proof. intros []; repeat (apply Forall_cons; [split; reflexivity|]); apply Forall_nil. Qed.
Example frame_stack_new : fs_peek [] = None.
Proof. reflexivity. Qed.

(** main.rs 6-27, with the feature implicit_hexstring; without it the program
    panics at its first check (C70, F30). *)
Example main_checks : Forall (encode_decode (TInt U8)) [(VInt 0xff, "ff"); (VInt 0x42, "42")]%string.
Proof. each. Qed.
