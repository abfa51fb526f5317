(** C31: exactly when decoding panics.

    [trips] (SpecPanic) describes the offending inputs: what precedes the
    offending place is well formed, and there either a length prefix announces an
    absurd number of bytes or virtual padding does not fit.  For a ByteParser and
    a MemoParser a length is absurd when it exceeds that of the whole input (F2);
    for a SliceParser no length is.  A release build does not panic there, but it
    lets virtual padding that does not fit make a window that ends before the
    current position: [spills] (SpecSpill) describes the inputs that make a type of
    interest the first thing to be read in such a window. *)
From Verif Require Import Base BaseLemmas ModelErrors ModelInt ModelParser ModelSchema SpecParser SpecCodec SpecNum SpecGrammar SpecPanic SpecSpill
  ProofCodecThms ProofSettle ProofGrammar ProofPanic ProofSpillEnd.
From Coq Require Import ZifyBool.

(** An optional natural number followed by length-prefixed byte strings. *)
Definition panic_defs : list def := [DStruct [TOption TN; TSeq (TDyn PrefU8 TBytes)]].
Definition panic_info : list tinfo := [mkInfo (Leave 0) false None].
Definition panic_build : config := mkConfig Debug false false false false false.

(** Partial: the full claim, that there are no such inputs, is false (F2, F7). *)
Theorem C31_panics_exactly_partial : forall w cf D t input,
  wf_defs D = true -> wf_ty D t = true -> bytes_ok input -> zlen input <= isize_max ->
  (decodes w cf D t input RPanic <->
   (cf_mode cf = Debug /\ trips (cf_check_padding cf) D (fun n => w <> WSlice /\ zlen input < n) t input) \/
   (cf_mode cf = Release /\ w <> WSlice /\ spills big_number (cf_check_padding cf) D (zlen input) t input)).
Proof. exact panics_iff. Qed.
Print Assumptions C31_panics_exactly_partial.
(** The second byte string announces 9 bytes, of an input of 6. *)
Example C31_panics_exactly_case :
  wf_defs panic_defs = true /\ wf_ty panic_defs (TNamed 0%nat) = true /\
  trips false panic_defs (fun n => WByte <> WSlice /\ zlen [255; 5; 1; 7; 9; 1] < n) (TNamed 0%nat) [255; 5; 1; 7; 9; 1] /\
  decodes WByte panic_build panic_defs (TNamed 0%nat) [255; 5; 1; 7; 9; 1] RPanic /\
  exists e, decodes WSlice panic_build panic_defs (TNamed 0%nat) [255; 5; 1; 7; 9; 1] (RErr e).
Proof.
  do 2 (split; [reflexivity|]). split; [|split].
  - eapply trip_struct; [reflexivity|]. eapply turn_later.
    { apply den_some. apply (den_natural false panic_defs [5] [1; 7; 9; 1]). reflexivity. }
    apply turn_here. eapply trip_seq with (mid := [9; 1]); [|discriminate|].
    + eapply many_more; [discriminate|apply (den_dyn false panic_defs PrefU8 TBytes [7] (VBytes [7]) [9; 1]); [vm_compute; discriminate|constructor]|constructor].
    + apply (trip_announced false panic_defs _ PrefU8 TBytes 9 [1]); [split; vm_compute; discriminate|]. split; [discriminate|reflexivity].
  - eapply (decodes_at WByte) with (f := 9%nat); [vm_compute; reflexivity|discriminate].
  - eexists. eapply (decodes_at WSlice) with (f := 9%nat); [vm_compute; reflexivity|discriminate].
Qed.

(** In a release build a natural number in the window of a VPadded that does not
    fit, which seems to have 2^64 - 1 bytes left: setting that much memory aside
    panics (F39). *)
Definition spill_build : config := mkConfig Release false false false false false.
Example C31_panics_exactly_release :
  spills big_number false [DStruct [TInt U8; TVPad 2 (TBox TN)]] (zlen [7; 1]) (TNamed 0%nat) [7; 1] /\
  decodes WByte spill_build [DStruct [TInt U8; TVPad 2 (TBox TN)]] (TNamed 0%nat) [7; 1] RPanic /\
  decodes WMemo spill_build [DStruct [TInt U8; TVPad 2 (TBox TN)]] (TNamed 0%nat) [7; 1] RPanic /\
  exists e, decodes WSlice spill_build [DStruct [TInt U8; TVPad 2 (TBox TN)]] (TNamed 0%nat) [7; 1] (RErr e).
Proof.
  split; [|split; [|split]].
  - eapply spill_struct; [reflexivity|]. eapply spill_later.
    + apply (den_int false [DStruct [TInt U8; TVPad 2 (TBox TN)]] U8 7 [1]). split; vm_compute; discriminate.
    + apply spill_now. apply spill_here; [reflexivity|vm_compute; discriminate|]. apply wild_box. apply wild_first. reflexivity.
  - eapply (decodes_at WByte) with (f := 9%nat); [vm_compute; reflexivity|discriminate].
  - eapply (decodes_at WMemo) with (f := 9%nat); [vm_compute; reflexivity|discriminate].
  - eexists. eapply (decodes_at WSlice) with (f := 9%nat); [vm_compute; reflexivity|discriminate].
Qed.

(** A release build computes the window of a VPadded with wrapping arithmetic.
    It reads outside of the buffer exactly on the inputs that [spills] (SpecSpill)
    describes, and on no others is its behaviour undefined.  Partial: the full
    claim, that there are no such inputs, is false (F7). *)
Theorem C31_undefined_exactly_partial : forall w cf D t input,
  wf_defs D = true -> wf_ty D t = true -> bytes_ok input -> zlen input <= isize_max ->
  (decodes w cf D t input RUB <->
   cf_mode cf = Release /\ w <> WSlice /\ spills all_left (cf_check_padding cf) D (zlen input) t input).
Proof. exact undefined_iff_spills. Qed.
Print Assumptions C31_undefined_exactly_partial.
(** A length-prefixed byte string, then everything but the last three bytes.
    After [1; 7] only two bytes are left. *)
Definition spill_defs : list def := [DStruct [TDyn PrefU8 TBytes; TVPad 3 (TNullable TBytes)]].
Example C31_undefined_exactly_case :
  wf_defs spill_defs = true /\ wf_ty spill_defs (TNamed 0%nat) = true /\
  spills all_left false spill_defs (zlen [1; 7; 8; 9]) (TNamed 0%nat) [1; 7; 8; 9] /\
  decodes WByte spill_build spill_defs (TNamed 0%nat) [1; 7; 8; 9] RUB /\
  (exists e, decodes WSlice spill_build spill_defs (TNamed 0%nat) [1; 7; 8; 9] (RErr e)) /\
  decodes WByte panic_build spill_defs (TNamed 0%nat) [1; 7; 8; 9] RPanic.
Proof.
  do 2 (split; [reflexivity|]). split; [|split; [|split]].
  - eapply spill_struct; [reflexivity|]. eapply spill_later.
    + apply (den_dyn false spill_defs PrefU8 TBytes [7] (VBytes [7]) [8; 9]); [vm_compute; discriminate|constructor].
    + apply spill_now. apply spill_here; [reflexivity|vm_compute; discriminate|]. apply wild_nullable. apply wild_first. reflexivity.
  - eapply (decodes_at WByte) with (f := 9%nat); [vm_compute; reflexivity|discriminate].
  - eexists. eapply (decodes_at WSlice) with (f := 9%nat); [vm_compute; reflexivity|discriminate].
  - eapply (decodes_at WByte) with (f := 9%nat); [vm_compute; reflexivity|discriminate].
Qed.
(** A number inside of the VPadded is checked for: no byte can be read, which is an error. *)
Example C31_undefined_exactly_error :
  ~ spills all_left false [] 2 (TVPad 1 (TInt U8)) [] /\
  exists e, decodes WByte spill_build [DStruct [TInt U8; TVPad 1 (TInt U8)]] (TNamed 0%nat) [7] (RErr e).
Proof.
  split.
  - intros H. inversion H; subst; [|].
    + match goal with W : wild _ _ _ (TInt _) |- _ => inversion W; subst; discriminate end.
    + match goal with Z : spills _ _ _ _ (TInt _) _ |- _ => inversion Z end.
  - eexists. eapply (decodes_at WByte) with (f := 9%nat); [vm_compute; reflexivity|discriminate].
Qed.

(** Every other input is answered with a value or an error. *)
Theorem C31_answers_partial : forall w cf D I R t input,
  wf_defs D = true -> wf_ty D t = true -> terminating D I R = true -> loops_ok I t = true ->
  bytes_ok input -> zlen input <= isize_max ->
  match cf_mode cf with
  | Debug => ~ trips (cf_check_padding cf) D (fun n => w <> WSlice /\ zlen input < n) t input
  | Release => w = WSlice \/ (~ spills all_left (cf_check_padding cf) D (zlen input) t input /\
                             ~ spills big_number (cf_check_padding cf) D (zlen input) t input)
  end ->
  (exists v, decodes w cf D t input (ROk v)) \/ (exists e, decodes w cf D t input (RErr e)).
Proof. exact answered. Qed.
Print Assumptions C31_answers_partial.
(** Announcing more bytes than are left but no more than the whole input has only fails. *)
Example C31_answers_case :
  terminating panic_defs panic_info [0%nat] = true /\ loops_ok panic_info (TNamed 0%nat) = true /\
  ~ trips false panic_defs (fun n => WByte <> WSlice /\ zlen [255; 5; 1; 7; 3; 1] < n) (TNamed 0%nat) [255; 5; 1; 7; 3; 1].
Proof.
  do 2 (split; [reflexivity|]). intros H.
  assert (P : decodes WByte panic_build panic_defs (TNamed 0%nat) [255; 5; 1; 7; 3; 1] RPanic).
  { apply C31_panics_exactly_partial; try reflexivity; [apply bytes_ok_check; reflexivity|vm_compute; discriminate|]. left. split; [reflexivity|exact H]. }
  assert (Q : exists e, decodes WByte panic_build panic_defs (TNamed 0%nat) [255; 5; 1; 7; 3; 1] (RErr e)).
  { eexists. eapply (decodes_at WByte) with (f := 9%nat); [vm_compute; reflexivity|discriminate]. }
  destruct Q as [e Q]. pose proof (settles_unique _ _ _ P Q) as E. discriminate E.
Qed.
(** In a release build, a VPadded that does not fit but begins with a number only fails. *)
Example C31_answers_release :
  ~ spills all_left false [] (zlen [7]) (TVPad 2 (TInt U8)) [7] /\ ~ spills big_number false [] (zlen [7]) (TVPad 2 (TInt U8)) [7] /\
  exists e, decodes WMemo spill_build [] (TVPad 2 (TInt U8)) [7] (RErr e).
Proof.
  assert (N : forall what, what (TInt U8) = false -> ~ spills what false [] (zlen [7]) (TVPad 2 (TInt U8)) [7]).
  { intros what E H. inversion H; subst.
    + match goal with W : wild _ _ _ (TInt _) |- _ => inversion W; subst; congruence end.
    + match goal with Z : spills _ _ _ _ (TInt _) _ |- _ => inversion Z end. }
  split; [apply N; reflexivity|]. split; [apply N; reflexivity|].
  eexists. eapply (decodes_at WMemo) with (f := 9%nat); [vm_compute; reflexivity|discriminate].
Qed.
