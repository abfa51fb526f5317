(** Property theorems about debug texts (C98). *)
From Coq Require Import String.
From Verif Require Import Base ModelErrors ModelHex ModelUtf8 ModelInt ModelSchema ModelDisplay ModelText ModelDebug.
From Verif Require Import SpecHex SpecUtf8 SpecDisplay SpecCodec SpecText SpecCompare SpecDebug ProofDisplay ProofDebug.

(** *** C98: debug texts *)
(** What [{:?}] prints for a value of any type, as long as what is inside any Dynamic
    can be encoded; otherwise it panics, see below. *)
Theorem C98_text_partial : forall cf D L kf num64 printable plain v t,
  labelled D L -> wf_defs D = true -> wf_ty D t = true -> well_typed D v t = true ->
  cf_est_override cf = false -> zlen (format D v t) <= isize_max ->
  if contents_fit D v t
  then exists s, debug_val cf D L kf num64 printable plain v t = ROk s /\ debug_of D L num64 printable plain t v s
  else debug_val cf D L kf num64 printable plain v t = RPanic.
Proof. intros cf D L kf num64 printable plain v t HL HD W V EO Z. exact (all_said cf D L kf num64 printable plain HL HD EO v t W V Z). Qed.
Print Assumptions C98_text_partial.

(** There is only one such text. *)
Theorem C98_text_unique : forall D L num64 printable plain v t s s',
  debug_of D L num64 printable plain t v s -> debug_of D L num64 printable plain t v s' -> s = s'.
Proof. exact text_unique. Qed.
Print Assumptions C98_text_unique.

(** Printing a value panics if inside a Dynamic there is a Dynamic whose contents are
    too long for their prefix. *)
Theorem C98_panics_refuted : exists v t, forall cf D L kf num64 printable plain, cf_est_override cf = false ->
  well_typed D v t = true /\ debug_val cf D L kf num64 printable plain v t = RPanic.
Proof.
  exists (VWrap (VWrap (VBytes (repeat 0 256)))), (TDyn PrefU30 (TDyn PrefU8 TBytes)).
  intros cf D L kf num64 printable plain EO. split; [reflexivity|].
  exact (nested_panic cf D L kf num64 printable plain EO).
Qed.
Print Assumptions C98_panics_refuted.

(** Whatever can be encoded can be printed. *)
Theorem C98_encodable_prints : forall cf D L kf num64 printable plain v t bs, labelled D L ->
  to_bytes cf D kf v t = ROk bs -> exists s, debug_val cf D L kf num64 printable plain v t = ROk s.
Proof. intros cf D L kf num64 printable plain v t bs HL. exact (encoded_shown cf D L kf num64 printable plain HL v t bs). Qed.
Print Assumptions C98_encodable_prints.

(** Two values of a type that print alike are the same; NaNs aside, see below. *)
Theorem C98_unambiguous_partial : forall cf D L kf num64 printable plain v w t s,
  labelled D L -> float_text num64 -> well_typed D v t = true -> well_typed D w t = true -> all_numbers D v t = true ->
  debug_val cf D L kf num64 printable plain v t = ROk s -> debug_val cf D L kf num64 printable plain w t = ROk s -> v = w.
Proof. intros cf D L kf num64 printable plain v w t s HL HF. exact (unambiguous cf D L kf num64 printable plain HL HF v w t s). Qed.
Print Assumptions C98_unambiguous_partial.

(** One can tell where a value's text ends: in a longer text, two readings of the
    beginning as a value followed by a separator or a closing parenthesis agree. *)
Theorem C98_delimited_partial : forall cf D L kf num64 printable plain v w t s s' rest rest',
  labelled D L -> float_text num64 -> well_typed D v t = true -> well_typed D w t = true -> all_numbers D v t = true ->
  debug_val cf D L kf num64 printable plain v t = ROk s -> debug_val cf D L kf num64 printable plain w t = ROk s' ->
  ends_value rest -> ends_value rest' -> s ++ rest = s' ++ rest' -> v = w /\ rest = rest'.
Proof.
  intros cf D L kf num64 printable plain v w t s s' rest rest' HL HF.
  exact (delimited cf D L kf num64 printable plain HL HF v w t s s' rest rest').
Qed.
Print Assumptions C98_delimited_partial.

(** All NaNs print alike. *)
Theorem C98_unambiguous_refuted : forall num64, (forall z, f64_number z = false -> num64 z = txt "NaN") ->
  exists v w t, v <> w /\ forall cf D L kf printable plain, well_typed D v t = true /\ well_typed D w t = true /\
    debug_val cf D L kf num64 printable plain v t = ROk (txt "NaN") /\
    debug_val cf D L kf num64 printable plain w t = ROk (txt "NaN").
Proof.
  intros num64 H. exists (VInt (2047 * 2 ^ 52 + 1)), (VInt (2047 * 2 ^ 52 + 2)), TF64. split; [discriminate|].
  intros cf D L kf printable plain. repeat split; cbn [debug_val]; rewrite H; reflexivity.
Qed.
Print Assumptions C98_unambiguous_refuted.

(** A schema, names for it, and a value. *)
Definition shape_defs : list def :=
  [ DStruct [TInt U8; TDyn PrefU16 TString];
    DCStyle U8 [0; 1];
    DData U8 [(0, []); (3, [TNamed 1; TSeq (TNamed 0)]); (4, [TF64])] ].
Definition shape_names : list labels :=
  [ LStruct (mkLabel (txt "Point") (Some [txt "x"; txt "tag"]));
    LCStyle [txt "Red"; txt "Green"];
    LData [mkLabel (txt "Nothing") None; mkLabel (txt "Many") (Some [txt "colour"; txt "points"]); mkLabel (txt "Size") None] ].
Definition shape_val : val :=
  VEnum 1 [VEnum 1 []; VSeq [VStruct [VInt 7; VWrap (VBytes [10; 97; 34])]; VStruct [VInt 0; VWrap (VBytes [])]]].
Example C98_sample :
  labelled shape_defs shape_names /\ wf_defs shape_defs = true /\ wf_ty shape_defs (TNamed 2) = true /\
  well_typed shape_defs shape_val (TNamed 2) = true /\ contents_fit shape_defs shape_val (TNamed 2) = true /\
  all_numbers shape_defs shape_val (TNamed 2) = true /\ zlen (format shape_defs shape_val (TNamed 2)) <= isize_max /\
  float_text show_int /\
  debug_val (mkConfig Debug false false false false false) shape_defs shape_names 4 show_int (fun c => 32 <=? c) true
    shape_val (TNamed 2) =
  ROk (txt "#Many { colour: Green, points: Sequence([Point { x: 7, tag: [3u16 bytes|" ++ [34] ++ txt "\na\" ++ [34; 34] ++
       txt "] }, Point { x: 0, tag: [0u16 bytes|" ++ [34; 34] ++ txt "] }]) }").
Proof.
  split; [|split; [|split; [|split; [|split; [|split; [|split; [|split]]]]]]].
  - repeat constructor; cbn; try (intros [E|[]]; discriminate E); try (intros [E|[E|[]]]; discriminate E); auto.
  - reflexivity.
  - reflexivity.
  - reflexivity.
  - reflexivity.
  - reflexivity.
  - vm_compute. discriminate.
  - split; [exact show_int_number|]. intros a b _ _ E. left. apply show_int_inj, E.
  - vm_compute. reflexivity.
Qed.
