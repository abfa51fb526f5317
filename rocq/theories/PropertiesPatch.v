(** Property theorems about parts of a message (C100). *)
From Verif Require Import Base ModelErrors ModelInt ModelFloat ModelTarget ModelSchema.
From Verif Require Import SpecCodec SpecPatch ProofPatch PropertiesNum.

(** *** C100: parts of a message *)
(** The encoding of a part lies, unchanged, at its place in the encoding of the whole, and
    a self-delimiting part can be decoded from there. *)
Theorem C100_read : forall w cf D I kf t v n u x fill bs,
  wf_defs D = true -> disciplined D I = true -> wf_ty D t = true -> well_typed D v t = true -> cf_est_override cf = false ->
  to_bytes cf D kf v t = ROk bs -> zlen bs <= isize_max -> spot D t v n u x fill ->
  exists xs, to_bytes cf D kf x u = ROk xs /\ zslice n (n + zlen xs) bs = xs /\ n + zlen xs <= zlen bs /\
    (self_delimiting I u = true -> reads w cf D u (zdrop n bs) (ROk (x, zdrop (n + zlen xs) bs))).
Proof. exact part_read. Qed.
Print Assumptions C100_read.

(** Writing the encoding of another value over that of a part, of the same length, gives
    the encoding of the whole with that value as the part. *)
Theorem C100_replace : forall cf D kf t v n u x fill bs xs y new,
  wf_defs D = true -> wf_ty D t = true -> well_typed D v t = true -> well_typed D y u = true -> cf_est_override cf = false ->
  to_bytes cf D kf v t = ROk bs -> zlen bs <= isize_max -> spot D t v n u x fill ->
  to_bytes cf D kf x u = ROk xs -> to_bytes cf D kf y u = ROk new -> zlen new = zlen xs ->
  to_bytes cf D kf (fill y) t = ROk (overwrite bs n new).
Proof. exact part_replaced. Qed.
Print Assumptions C100_replace.

(** Any bytes at all written over a part of fixed length: the message decodes if and only
    if those bytes do, and then to the old value with what they decode to as that part. *)
Theorem C100_contained : forall w cf D I kf t v n u x fill bs new,
  wf_defs D = true -> disciplined D I = true -> wf_ty D t = true -> well_typed D v t = true -> decodable I t = true ->
  (cf_complete cf = true -> w <> WSlice) -> (cf_est_override cf = true -> zeros D v t = 0) ->
  to_bytes cf D kf v t = ROk bs -> zlen bs <= isize_max -> spot D t v n u x fill ->
  bytes_ok new -> self_delimiting I u = true -> len_of I u = Some (zlen new) ->
  zlen (overwrite bs n new) = zlen bs /\
  forall v2, decodes w cf D t (overwrite bs n new) (ROk v2) <-> exists y, v2 = fill y /\ decodes w cf D u new (ROk y).
Proof. exact damage_contained. Qed.
Print Assumptions C100_contained.

(** The same for the contents of a Dynamic, of whatever type. *)
Theorem C100_window : forall w cf D I kf t v n s u x fill bs new,
  wf_defs D = true -> disciplined D I = true -> wf_ty D t = true -> well_typed D v t = true -> decodable I t = true ->
  (cf_complete cf = true -> w <> WSlice) -> (cf_est_override cf = true -> zeros D v t = 0) ->
  to_bytes cf D kf v t = ROk bs -> zlen bs <= isize_max -> spot D t v n (TDyn s u) (VWrap x) fill ->
  bytes_ok new -> zlen new = zlen (format D x u) ->
  forall v2, decodes w cf D t (overwrite bs (n + pref_len s) new) (ROk v2) <->
             exists y, v2 = fill (VWrap y) /\ reads w cf D u new (ROk (y, [])).
Proof. exact window_damage. Qed.
Print Assumptions C100_window.

(** A field after fields of fixed lengths is at the same place in every value of a struct. *)
Theorem C100_field_place : forall D I i ts ts' t before x after m,
  wf_defs D = true -> disciplined D I = true -> nth_error D i = Some (DStruct (ts ++ t :: ts')) ->
  length before = length ts -> len_fields I ts = Some m -> valid D (VStruct (before ++ x :: after)) (TNamed i) = true ->
  spot D (TNamed i) (VStruct (before ++ x :: after)) m t x (fun y => VStruct (before ++ y :: after)).
Proof. exact fixed_place. Qed.
Print Assumptions C100_field_place.

(** Elements of fixed length [m] are [m] bytes apart. *)
Theorem C100_element_place : forall D I t before x after m,
  wf_defs D = true -> disciplined D I = true -> wf_ty D t = true -> len_of I t = Some m ->
  forallb (fun v => valid D v t) before = true -> let fill := fun y => VSeq (before ++ y :: after) in
  spot D (TSeq t) (VSeq (before ++ x :: after)) (zlen before * m) t x fill /\
  forall k, spot D (TLim k t) (VSeq (before ++ x :: after)) (zlen before * m) t x fill /\
            spot D (TFix k t) (VSeq (before ++ x :: after)) (zlen before * m) t x fill.
Proof. exact element_place. Qed.
Print Assumptions C100_element_place.

(** A flag inside the second of two records, and the text at the end. *)
Definition note_defs : list def :=
  [DStruct [TInt U16; TDyn PrefU8 (TSeq (TNamed 1)); TBool; TDyn PrefU16 TString]; DStruct [TFixedBytes 2; TOption TBool]].
Definition note_info : list tinfo := [mkInfo Delim true None; mkInfo Delim true None].
Definition note_of (flag : val) (text : val) : val :=
  VStruct [VInt 258; VWrap (VSeq [VStruct [VBytes [7; 8]; VNone]; VStruct [VBytes [1; 2]; VSome flag]]); VBool true; text].
Definition note_val : val := note_of (VBool true) (VWrap (VBytes [104; 105])).
Definition note_bytes : list byte := [1; 2; 7; 7; 8; 0; 1; 2; 255; 255; 255; 0; 2; 104; 105].
Example C100_meets :
  wf_defs note_defs = true /\ disciplined note_defs note_info = true /\ wf_ty note_defs (TNamed 0) = true /\
  well_typed note_defs note_val (TNamed 0) = true /\ decodable note_info (TNamed 0) = true /\
  to_bytes dbg_cf note_defs 9 note_val (TNamed 0) = ROk note_bytes /\
  spot note_defs (TNamed 0) note_val 9 TBool (VBool true) (fun y => note_of y (VWrap (VBytes [104; 105]))) /\
  self_delimiting note_info TBool = true /\ len_of note_info TBool = Some 1 /\
  spot note_defs (TNamed 0) note_val 11 (TDyn PrefU16 TString) (VWrap (VBytes [104; 105])) (note_of (VBool true)) /\
  decode_with WByte dbg_cf note_defs 9 (TNamed 0) (overwrite note_bytes 9 [0]) = ROk (note_of (VBool false) (VWrap (VBytes [104; 105]))) /\
  decode_with WByte dbg_cf note_defs 9 (TNamed 0) (overwrite note_bytes 9 [3]) <> ROk (note_of (VBool false) (VWrap (VBytes [104; 105]))) /\
  decode_with WByte dbg_cf note_defs 9 (TNamed 0) (overwrite note_bytes 13 [33; 63]) = ROk (note_of (VBool true) (VWrap (VBytes [33; 63]))).
Proof.
  assert (S1 : spot note_defs (TNamed 0) note_val 9 TBool (VBool true) (fun y => note_of y (VWrap (VBytes [104; 105])))).
  { exact (spot_struct note_defs 0 [TInt U16] [TBool; TDyn PrefU16 TString] _ [VInt 258] _ [VBool true; VWrap (VBytes [104; 105])] _ _ _ _ eq_refl eq_refl
      (spot_dyn _ PrefU8 _ _ _ _ _ _ (spot_seq _ (TNamed 1) [VStruct [VBytes [7; 8]; VNone]] _ [] _ _ _ _
        (spot_struct note_defs 1 [TFixedBytes 2] [] _ [VBytes [1; 2]] _ [] _ _ _ _ eq_refl eq_refl (spot_some _ _ _ _ _ _ _ (spot_here _ TBool (VBool true))))))). }
  assert (S2 : spot note_defs (TNamed 0) note_val 11 (TDyn PrefU16 TString) (VWrap (VBytes [104; 105])) (note_of (VBool true))).
  { exact (spot_struct note_defs 0 [TInt U16; TDyn PrefU8 (TSeq (TNamed 1)); TBool] [] _
      [VInt 258; VWrap (VSeq [VStruct [VBytes [7; 8]; VNone]; VStruct [VBytes [1; 2]; VSome (VBool true)]]); VBool true] _ [] _ _ _ _ eq_refl eq_refl (spot_here _ _ _)). }
  repeat apply conj; try exact S1; try exact S2; try (vm_compute; reflexivity). vm_compute. discriminate.
Qed.

(** Why the part must have a fixed length: over the first of two arbitrary-precision
    numbers, one byte is not the encoding of any number, yet the message still decodes; the
    second number has been taken into the first. *)
Example C100_unfixed :
  spot [] (TSeq TN) (VSeq [VInt 5; VInt 7]) 0 TN (VInt 5) (fun y => VSeq [y; VInt 7]) /\ self_delimiting [] TN = true /\ len_of [] TN = None /\
  to_bytes dbg_cf [] 9 (VSeq [VInt 5; VInt 7]) (TSeq TN) = ROk [5; 7] /\
  decode_with WByte dbg_cf [] 9 (TSeq TN) (overwrite [5; 7] 0 [133]) = ROk (VSeq [VInt 901]).
Proof.
  split; [exact (spot_seq [] TN [] _ [VInt 7] _ _ _ _ (spot_here _ TN (VInt 5)))|]. vm_compute. repeat apply conj; reflexivity.
Qed.
