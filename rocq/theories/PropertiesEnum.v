(** Property theorems about the enum helpers (C52), the errors of decoding
    (C53) and the numeric methods of the parsers (C54).

    [reads w cf D t input out]: [parse] of [t] through parser [w] over [input]
    ends with [out], a value and the bytes left, or an error.  [decodes]: the
    same for [try_decode].  [justified] is in [SpecError]. *)
From Verif Require Import Base ModelErrors ModelParser ModelInt ModelFloat ModelSchema ModelEnum ModelTake
  SpecParser SpecCodec SpecError SpecEnum ProofCodecThms ProofSettle ProofNum ProofError ProofEnum ProofTake PropertiesNum.
From Coq Require Import String.
Local Open Scope list_scope.

(** ------------------------------------------------------------------ *)
(** * C52 *)
(** [is_valid_tag], [iter_tags], [try_from] agree; for any discriminants. *)
Theorem C52_valid_tags : forall tags z,
  (is_valid_tag tags z = true <-> In z (iter_tags tags)) /\
  (is_valid_tag tags z = true <-> exists ix, try_from_tag tags z = ROk ix) /\
  (is_valid_tag tags z = false <-> try_from_tag tags z = RErr (mkTagError z (Some tags))).
Proof. exact valid_tag_iff. Qed.
Print Assumptions C52_valid_tags.

(** [try_from] is the inverse of [get_tagval]. *)
Theorem C52_try_from_inverse : forall tags, NoDup tags -> forall z ix,
  try_from_tag tags z = ROk ix <-> get_tagval tags ix = Some z.
Proof. exact try_from_inverse. Qed.
Print Assumptions C52_try_from_inverse.

(** [get_name] gives the name of the variant with that discriminant, and
    nothing exactly for the numbers that are not valid tags. *)
Theorem C52_names : forall tags names, NoDup tags -> List.length names = List.length tags -> forall z name,
  get_name tags names z = Some name <->
  exists ix, get_tagval tags ix = Some z /\ nth_error names ix = Some name.
Proof. exact name_of_variant. Qed.
Print Assumptions C52_names.

Theorem C52_no_name : forall tags names, List.length names = List.length tags -> forall z,
  get_name tags names z = None <-> is_valid_tag tags z = false.
Proof. exact named_iff_valid. Qed.
Print Assumptions C52_no_name.

Definition colors : list Z := [3; 0; 200].
Example C52_colors :
  NoDup colors /\ try_from_tag colors 200 = ROk 2%nat /\ get_tagval colors 2 = Some 200 /\
  get_name colors ["Red"; "Green"; "Blue"]%string 0 = Some "Green"%string /\
  try_from_tag colors 7 = RErr (mkTagError 7 (Some [3; 0; 200])) /\ is_valid_tag colors 7 = false.
Proof. split; [apply nodupb_spec; reflexivity|]. repeat split; reflexivity. Qed.

(** Decoding an enum of [cstyle!] is reading its number and [try_from]: the
    same variant, or the same error. *)
Theorem C52_decode_is_try_from : forall w cf D i, wf_defs D = true -> forall k tags z rest,
  nth_error D i = Some (DCStyle k tags) -> tags <> [] ->
  ik_in k z = true -> bytes_ok rest -> small (int_format k z ++ rest) ->
  reads w cf D (TNamed i) (int_format k z ++ rest)
    (match try_from_tag tags z with
     | ROk ix => ROk (VEnum ix [], rest)
     | RErr e => RErr (promote k e)
     | _ => RPanic
     end).
Proof. exact cstyle_decode_try_from. Qed.
Print Assumptions C52_decode_is_try_from.

(** An enum of [data!] refuses any other number, with the error that quotes it
    and lists the discriminants; Option likewise. *)
Theorem C52_data_refuses : forall w cf D i k alts z rest,
  nth_error D i = Some (DData k alts) -> alts <> [] ->
  ik_in k z = true -> small (int_format k z ++ rest) -> ~ In z (iter_tags (map fst alts)) ->
  decodes w cf D (TNamed i) (int_format k z ++ rest)
    (RErr (DParse (EToken (InvalidTag (tag_width_of k) z (Some (map fst alts)))))).
Proof. exact data_bad_tag. Qed.
Print Assumptions C52_data_refuses.

Theorem C52_option_refuses : forall w cf D t z rest,
  ik_in U8 z = true -> small (z :: rest) -> z <> 0 -> z <> 255 ->
  decodes w cf D (TOption t) (z :: rest) (RErr (DParse (EToken (InvalidTag TagU8 z (Some [0; 255]))))).
Proof. exact option_bad_tag. Qed.
Print Assumptions C52_option_refuses.

(** The encoding of an enum value starts with its [get_tagval], big-endian. *)
Theorem C52_encoding_starts_with_tag : forall cf D i, wf_defs D = true -> forall kf ix vs bs k tags,
  (nth_error D i = Some (DCStyle k tags) \/
   exists alts, nth_error D i = Some (DData k alts) /\ tags = map fst alts) ->
  cf_est_override cf = false -> well_typed D (VEnum ix vs) (TNamed i) = true ->
  small (format D (VEnum ix vs) (TNamed i)) ->
  to_bytes cf D kf (VEnum ix vs) (TNamed i) = ROk bs ->
  exists tag payload, get_tagval tags ix = Some tag /\ In tag (iter_tags tags) /\ bs = int_format k tag ++ payload.
Proof. exact enum_encoding_tag. Qed.
Print Assumptions C52_encoding_starts_with_tag.

Definition enum_defs : list def :=
  [DCStyle U16 colors; DData U8 [(9, [TBool]); (4, [TInt U16; TNamed 0])]].
Example C52_enum_defs :
  wf_defs enum_defs = true /\
  to_bytes dbg_cf enum_defs 9 (VEnum 1 [VInt 258; VEnum 2 []]) (TNamed 1) = ROk [4; 1; 2; 0; 200] /\
  well_typed enum_defs (VEnum 1 [VInt 258; VEnum 2 []]) (TNamed 1) = true /\
  run_with WSlice Debug (parse dbg_cf enum_defs 9 (TNamed 0)) [0; 200] = ROk (VEnum 2 []) /\
  decode_with WByte dbg_cf enum_defs 9 (TNamed 0) [0; 201] =
    RErr (DParse (EToken (InvalidTag TagU16 201 (Some [3; 0; 200])))) /\
  decode_with WMemo dbg_cf enum_defs 9 (TNamed 1) [7; 0] =
    RErr (DParse (EToken (InvalidTag TagU8 7 (Some [9; 4])))).
Proof. repeat split; vm_compute; reflexivity. Qed.

(** [data!] accepts two variants with the same discriminant (the compiler only
    warns of an unreachable arm): the second one then decodes as the first. *)
Definition twice : list def := [DData U8 [(1, [TInt U8]); (1, [TInt I8])]].
Theorem C52_duplicate_discriminant_refuted : exists D v bs v',
  (forall kf, to_bytes dbg_cf D kf v (TNamed 0) = ROk bs) /\
  (forall w, decodes w dbg_cf D (TNamed 0) bs (ROk v')) /\ v' <> v.
Proof.
  exists twice, (VEnum 1 [VInt 5]), [1; 5], (VEnum 0 [VInt 5]). split; [|split].
  - intros kf. destruct kf; vm_compute; reflexivity.
  - intros w. destruct w; eapply decodes_at with (f := 9%nat); (vm_compute; reflexivity) || discriminate.
  - discriminate.
Qed.
Print Assumptions C52_duplicate_discriminant_refuted.

(** ------------------------------------------------------------------ *)
(** * C53 *)
(** A parse error names a requirement of the type and quotes bytes of the
    input that do not meet it. *)
Theorem C53_errors_justified : forall cf D t input,
  wf_defs D = true -> wf_ty D t = true -> pads_ok cf D t = true -> bytes_ok input -> small input ->
  forall w e, decodes w cf D t input (RErr (DParse e)) -> justified cf D t input e.
Proof. exact errors_justified. Qed.
Print Assumptions C53_errors_justified.

Definition shop : list def := [DStruct [TBool; TRanged U8 10 20; TLim 2 (TInt U8)]].
Example C53_cases :
  (forall e, In e [EToken (InvalidBoolean 7)] -> decodes WByte dbg_cf shop (TNamed 0) [7; 1; 1] (RErr (DParse e))) /\
  decodes WSlice dbg_cf shop (TNamed 0) [255; 11; 1]
    (RErr (DParse (EExternal (IntRangeViolation (BOverflow 10 11))))) /\
  decodes WMemo rel_cf shop (TNamed 0) [255; 3; 1; 2; 3] (RErr (DParse (EExternal (LengthViolation (TooLong 2 3))))) /\
  wf_defs shop = true /\ wf_ty shop (TNamed 0) = true /\ pads_ok dbg_cf shop (TNamed 0) = true.
Proof.
  split; [|split; [|split; [|repeat split; vm_compute; reflexivity]]].
  - intros e [<-|[]]. eapply (decodes_at WByte) with (f := 9%nat); [vm_compute; reflexivity|discriminate].
  - eapply (decodes_at WSlice) with (f := 9%nat); [vm_compute; reflexivity|discriminate].
  - eapply (decodes_at WMemo) with (f := 9%nat); [vm_compute; reflexivity|discriminate].
Qed.
(** [justified] tells such errors from others. *)
Example C53_justified_rejects :
  ~ justified dbg_cf shop (TNamed 0) [7; 1; 1] (EToken (InvalidBoolean 8)) /\
  ~ justified dbg_cf shop (TNamed 0) [0; 1; 1] (EToken (InvalidBoolean 0)) /\
  ~ justified dbg_cf shop (TNamed 0) [7; 1; 1] (EToken (InvalidTag TagU8 7 (Some [0; 255]))) /\
  ~ justified dbg_cf shop (TNamed 0) [0; 1; 1] (EExternal (LengthViolation (TooLong 2 2))).
Proof.
  repeat apply conj.
  - intros (_ & (b & a & H) & _). destruct b as [|x [|y [|z [|u b]]]]; cbn [app] in H; discriminate H || (injection H; intros; discriminate).
  - intros (_ & _ & H & _). apply H. reflexivity.
  - intros (u & k & P & T & _).
    assert (N : forall t u, part shop t u -> In t [TBool; TRanged U8 10 20; TLim 2 (TInt U8); TInt U8; TNamed 0] ->
      In u [TBool; TRanged U8 10 20; TLim 2 (TInt U8); TInt U8; TNamed 0]).
    { clear. intros t u P. induction P; cbn [In]; intros Hin; auto;
        repeat (destruct Hin as [Hin|Hin]; [try discriminate Hin|]); try contradiction.
      - injection Hin as <- <-. apply IHP. cbn. tauto.
      - injection Hin as <-. cbn in H. injection H as <-. apply IHP. cbn in H0. cbn. tauto.
      - injection Hin as <-. discriminate H. }
    apply N in P; [|cbn; tauto]. cbn in P. repeat (destruct P as [<-|P]; [exact T|]). contradiction P.
  - intros ((u & _) & H). lia.
Qed.

(** [take_tagword] with any list of accepted numbers, given as an array, a
    slice, a vector or a set ([lists]): an accepted number is returned, any
    other reported together with the whole list. *)
Theorem C53_take_tagword : forall w m k v tags z rest,
  lists v tags -> ik_in k z = true -> small (int_format k z ++ rest) ->
  run_with w m (then_rest (p_take_tagword_by k v)) (int_format k z ++ rest) =
  if existsb (Z.eqb z) tags then ROk (z, rest)
  else RErr (match tags with
             | [] => EInternal NoValidTags
             | _ => EToken (InvalidTag (tag_width_of k) z (Some tags))
             end).
Proof. exact tagword_by. Qed.
Print Assumptions C53_take_tagword.

(** In every state of every parser: never a number that is not listed. *)
Theorem C53_take_tagword_sound : forall P (h : handler P) k v tags p z p',
  lists v tags -> run h (p_take_tagword_by k v) p = (ROk z, p') -> In z tags.
Proof. exact @tagword_only_valid. Qed.
Print Assumptions C53_take_tagword_sound.

Example C53_take_tagword_case :
  lists (tv_hashset [4; 700]) [4; 700] /\
  run_with WByte Debug (p_take_tagword_by U16 (tv_hashset [4; 700])) [2; 188; 1] = ROk 700 /\
  run_with WMemo Debug (p_take_tagword_by U16 (tv_array [4; 700])) [2; 189; 1] =
    RErr (EToken (InvalidTag TagU16 701 (Some [4; 700]))) /\
  run_with WSlice Debug (p_take_tagword_by U8 (tv_slice [])) [2] = RErr (EInternal NoValidTags).
Proof. unfold lists. repeat split; auto; vm_compute; reflexivity. Qed.

(** ------------------------------------------------------------------ *)
(** * C54 *)
(** [take_u8] ... [take_i64] do what decoding the type does: the same result
    and the same parser afterwards, in every reachable state. *)
Theorem C54_take_is_decode : forall buf, bytes_ok buf -> small buf ->
  (forall m p, reaches m (byte_h m) (bp_from_buffer buf) p ->
     forall k, run (byte_h m) (p_take k) p = run (byte_h m) (p_int k) p) /\
  (forall m p, reaches m (memo_h m) (mp_from_buffer buf) p ->
     forall k, run (memo_h m) (p_take k) p = run (memo_h m) (p_int k) p) /\
  (forall m p, reaches m slice_h (sp_from_buffer buf) p ->
     forall k, run slice_h (p_take k) p = run slice_h (p_int k) p).
Proof. exact take_is_decode. Qed.
Print Assumptions C54_take_is_decode.

(** So they return the number whose big-endian form comes next. *)
Theorem C54_take_value : forall w m k z rest,
  ik_in k z = true -> bytes_ok rest -> small (int_format k z ++ rest) ->
  run_with w m (then_rest (p_take k)) (int_format k z ++ rest) = ROk (z, rest).
Proof. exact take_value. Qed.
Print Assumptions C54_take_value.

(** And fail on fewer bytes than the type has. *)
Theorem C54_take_short : forall w m k input,
  bytes_ok input -> zlen input < ik_len k -> exists e, run_with w m (p_take k) input = RErr e.
Proof. exact take_short. Qed.
Print Assumptions C54_take_short.

(** [take_f64] likewise: it is decoding an f64, a bit pattern of eight bytes,
    most significant first. *)
Theorem C54_take_f64 :
  (forall P (h : handler P) cf D f p,
     run h (z <- p_take_f64 ;; PRet (VInt z)) p = run h (parse cf D (S f) TF64) p) /\
  (forall w m bits rest, 0 <= bits < 2 ^ 64 -> bytes_ok rest -> small (big_endian 8 bits ++ rest) ->
     run_with w m (then_rest p_take_f64) (big_endian 8 bits ++ rest) = ROk (bits, rest)) /\
  (forall w m input, bytes_ok input -> zlen input < 8 -> exists e, run_with w m p_take_f64 input = RErr e).
Proof. exact take_float. Qed.
Print Assumptions C54_take_f64.

Example C54_case :
  run_with WSlice Debug (then_rest (p_take I8)) [254; 1] = ROk (-2, [1]) /\
  run_with WByte Release (then_rest (p_take I16)) [254; 1; 9] = ROk (-511, [9]) /\
  run_with WMemo Debug (p_take U32) [254; 1; 9] = RErr (EWindow (ConsumeWouldExceedLimit 0 4 3)) /\
  run_with WMemo Debug (then_rest p_take_f64) [63; 240; 0; 0; 0; 0; 0; 0; 5] = ROk (4607182418800017408, [5]).
Proof. repeat split; vm_compute; reflexivity. Qed.
