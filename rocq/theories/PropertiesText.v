(** Property theorems about the texts of values (C74). *)
From Coq Require Import String.
From Verif Require Import Base ModelErrors ModelHex ModelUtf8 ModelInt ModelSeq ModelSchema ModelDisplay ModelText.
From Verif Require Import SpecHex SpecUtf8 SpecDisplay SpecCodec SpecText ProofText ProofCodecThms PropertiesCodec.

(** *** C74: the text of a value is that of its content *)
(** What [to_string] gives for a value of any type that has it is a faithful text of
    the value, and there is only one. *)
Theorem C74_display : forall D num64 v t s, textual t = true -> well_typed D v t = true ->
  (display num64 v t = Some s <-> text_of t v s).
Proof. exact display_text. Qed.
Print Assumptions C74_display.

(** Missing (and false, see below): fixed strings that are not UTF-8. *)
Theorem C74_unambiguous_partial : forall D num64 v w t,
  textual t = true -> well_typed D v t = true -> well_typed D w t = true ->
  utf8_within v t -> utf8_within w t -> display num64 v t = display num64 w t -> v = w.
Proof. exact display_unambiguous. Qed.
Print Assumptions C74_unambiguous_partial.

(** Two fixed strings that decode to different values can print alike. *)
Theorem C74_unambiguous_refuted : forall D num64, exists v w t,
  textual t = true /\ well_typed D v t = true /\ well_typed D w t = true /\
  display num64 v t = display num64 w t /\ v <> w.
Proof. intros D num64. exists (VBytes [255]), (VBytes [254]), (TFixedString 1). repeat split. discriminate. Qed.
Print Assumptions C74_unambiguous_refuted.

Definition euro_text : list byte := [226; 130; 172].
Example C74_display_sample :
  textual (TDyn PrefU8 (TBox (TFixedString 3))) = true /\
  well_typed [] (VWrap (VWrap (VBytes euro_text))) (TDyn PrefU8 (TBox (TFixedString 3))) = true /\
  utf8_within (VWrap (VWrap (VBytes euro_text))) (TDyn PrefU8 (TBox (TFixedString 3))) /\
  display (fun _ => []) (VWrap (VWrap (VBytes euro_text))) (TDyn PrefU8 (TBox (TFixedString 3))) = Some euro_text /\
  display (fun _ => []) (VWrap (VInt (-12))) (TBox (TInt I16)) = Some (txt "-12") /\
  display (fun _ => []) (VBytes [97; 226; 130]) (TFixedString 3) = Some [97; 239; 191; 189].
Proof.
  split; [reflexivity|]. split; [reflexivity|]. split.
  - exists [0x20ac]. split; [constructor; [left; lia|constructor]|reflexivity].
  - split; [reflexivity|]. split; reflexivity.
Qed.

(** A string of [n] bytes parses to a fixed string that prints as that string. *)
Theorem C74_fixed_string : forall n s, (exists cs, Forall scalar cs /\ s = utf8_string cs) -> zlen s = n ->
  exists v, fs_from_str n s = ROk v /\ fs_display v = s /\ fs_is_valid_utf8 v = true /\ fs_as_string_lossy v = s.
Proof. exact fixed_string_text. Qed.
Print Assumptions C74_fixed_string.

(** [is_valid_utf8] tells whether nothing is substituted in the text. *)
Theorem C74_valid_utf8 : forall v, bytes_ok v ->
  (fs_is_valid_utf8 v = true <-> exists cs, Forall scalar cs /\ v = utf8_string cs) /\
  (fs_is_valid_utf8 v = true -> fs_display v = v) /\ fs_as_string_lossy v = fs_display v.
Proof. exact valid_utf8_flag. Qed.
Print Assumptions C74_valid_utf8.

(** Fixed bytes print in hexadecimal, and [from_hex] reads them back. *)
Theorem C74_fixed_bytes : forall v, bytes_ok v ->
  hex_denotes (fb_lower_hex v) v /\ Forall lower_hex (fb_lower_hex v) /\ bytes_of_hex (fb_lower_hex v) = ROk v.
Proof. exact fixed_bytes_hex. Qed.
Print Assumptions C74_fixed_bytes.

Example C74_fixed_sample :
  fs_from_str 3 euro_text = ROk euro_text /\ fs_is_valid_utf8 euro_text = true /\
  fs_is_valid_utf8 [226; 130] = false /\ fs_display [226; 130] = [239; 191; 189] /\
  fb_lower_hex [222; 173; 10] = txt "dead0a".
Proof. repeat split. Qed.

(** The debug text of a dynamic value gives the true length of its payload. *)
Theorem C74_dynamic_debug : forall cf D kf dbg s v t bs, cf_est_override cf = false ->
  to_bytes cf D kf v t = ROk bs -> zlen bs <= isize_max ->
  exists ds, decimal ds (zlen bs) /\
    dyn_debug cf D kf dbg s v t = ROk (txt "[" ++ ds ++ prefix_name s ++ txt " bytes|" ++ dbg v t ++ txt "]").
Proof. exact dynamic_debug. Qed.
Print Assumptions C74_dynamic_debug.

Example C74_debug_sample :
  to_bytes release [] 9 (VBytes [1; 2; 3]) TBytes = ROk [1; 2; 3] /\
  dyn_debug release [] 9 (fun _ _ => txt "..") PrefU16 (VBytes [1; 2; 3]) TBytes = ROk (txt "[3u16 bytes|..]").
Proof. split; vm_compute; reflexivity. Qed.

(** With enc_len_estimable_override the length may be wrong (F8). *)
Theorem C74_dynamic_debug_refuted : exists cf D kf v t bs, forall dbg s,
  wf_defs D = true /\ wf_ty D t = true /\ well_typed D v t = true /\
  to_bytes cf D kf v t = ROk bs /\ zlen bs = 1 /\
  dyn_debug cf D kf dbg s v t = ROk (txt "[0" ++ prefix_name s ++ txt " bytes|" ++ dbg v t ++ txt "]").
Proof.
  exists (mkConfig Release false true false false false), [], 9%nat, (VInt 0), TN, [0]. intros dbg s.
  split; [reflexivity|]. split; [reflexivity|]. split; [reflexivity|]. split; [reflexivity|]. split; reflexivity.
Qed.
Print Assumptions C74_dynamic_debug_refuted.
