(** Property theorems about sorting encodings (C99). *)
From Verif Require Import Base ModelErrors ModelInt ModelFloat ModelHex ModelTarget ModelSchema ModelCompare.
From Verif Require Import SpecCodec SpecHexString SpecCompare SpecSort ProofSort PropertiesNum.

(** *** C99: encodings that sort like the values *)
(** For the types described by [sorted true], comparing encodings byte by byte, as in a
    dictionary, is comparing the values. *)
Theorem C99_order : forall cf D I K kf t v w bs bs',
  wf_defs D = true -> disciplined D I = true -> sorted_defs D I K = true -> wf_ty D t = true -> sorted I K true t = true ->
  well_typed D v t = true -> well_typed D w t = true -> to_bytes cf D kf v t = ROk bs -> to_bytes cf D kf w t = ROk bs' ->
  zlen bs <= isize_max -> zlen bs' <= isize_max ->
  (less D t v w <-> before bs bs') /\ (same D t v w <-> bs = bs') /\ (less D t w v <-> before bs' bs).
Proof. exact sorted_order. Qed.
Print Assumptions C99_order.

(** For those described by [sorted false], also when other bytes follow, as in a
    composite key. *)
Theorem C99_composite : forall cf D I K kf t v w bs bs' x y,
  wf_defs D = true -> disciplined D I = true -> sorted_defs D I K = true -> wf_ty D t = true -> sorted I K false t = true ->
  well_typed D v t = true -> well_typed D w t = true -> to_bytes cf D kf v t = ROk bs -> to_bytes cf D kf w t = ROk bs' ->
  zlen bs <= isize_max -> zlen bs' <= isize_max ->
  (before (bs ++ x) (bs' ++ y) <-> less D t v w \/ same D t v w /\ before x y) /\ (bs = bs' <-> same D t v w).
Proof. exact sorted_anywhere. Qed.
Print Assumptions C99_composite.

(** The hex texts of the encodings sort alike. *)
Theorem C99_hex : forall cf D I K kf t v w bs bs',
  wf_defs D = true -> disciplined D I = true -> sorted_defs D I K = true -> wf_ty D t = true -> sorted I K true t = true ->
  well_typed D v t = true -> well_typed D w t = true -> to_bytes cf D kf v t = ROk bs -> to_bytes cf D kf w t = ROk bs' ->
  zlen bs <= isize_max -> zlen bs' <= isize_max ->
  (less D t v w <-> before (hex_of_bytes bs) (hex_of_bytes bs')).
Proof. exact sorted_hex. Qed.
Print Assumptions C99_hex.

(** None of the exclusions can be dropped: signed numbers, ranges with negative numbers,
    floats, ranges of floats with zero, arbitrary-precision numbers, contents of varying
    length behind a prefix, bytes before another field, discriminants out of order. *)
Theorem C99_exclusions :
  (forall k, unsigned k = false -> swapped [] (TInt k)) /\
  swapped [] (TRanged I8 (-1) 1) /\ swapped [] TF64 /\ swapped [] (TRangedF 0 0x3ff0000000000000) /\ swapped [] TN /\ swapped [] TZ /\
  swapped [] (TDyn PrefU8 TBytes) /\
  swapped [DStruct [TVPad 1 TBytes; TInt U8]] (TNamed 0) /\
  swapped [DData U8 [(1, []); (0, [])]] (TNamed 0) /\
  merged [] (TNullable TUnit) /\ merged [] (TSeq TUnit) /\ merged [] (TLim 2 TUnit).
Proof. exact unsorted_swapped. Qed.
Print Assumptions C99_exclusions.

(** A key of a level, an optional hash and a data enum, followed by a list of pairs. *)
Definition key_defs : list def :=
  [DData U8 [(2, [TInt U16]); (7, [TFixedBytes 2])];
   DStruct [TInt U32; TOption (TFixedBytes 2); TNamed 0];
   DStruct [TInt U8; TRanged U16 3 900];
   DStruct [TNamed 1; TDyn PrefU8 (TPad 1 (TFix 2 TBool)); TSeq (TNamed 2)]].
Definition key_info : list tinfo :=
  [mkInfo Delim true (Some 3); mkInfo Delim true None; mkInfo Delim true (Some 3); mkInfo (Leave 0) true None].
Definition key_places : list place := [Anywhere; Anywhere; Anywhere; AtEnd].
Definition key_of (n : Z) (h : val) (e : val) (l : list val) : val :=
  VStruct [VStruct [VInt n; h; e]; VWrap (VWrap (VSeq [VBool false; VBool true])); VSeq l].
Definition key_a : val := key_of 258 VNone (VEnum 1 [VBytes [0; 9]]) [VStruct [VInt 4; VInt 256]].
Definition key_b : val := key_of 258 (VSome (VBytes [0; 0])) (VEnum 0 [VInt 7]) [].
Definition key_c : val := key_of 258 (VSome (VBytes [0; 0])) (VEnum 0 [VInt 7]) [VStruct [VInt 0; VInt 0]].
Definition key_d : val := key_of 258 (VSome (VBytes [0; 0])) (VEnum 1 [VBytes [0; 0]]) [].
Example C99_meets :
  wf_defs key_defs = true /\ disciplined key_defs key_info = true /\ sorted_defs key_defs key_info key_places = true /\
  wf_ty key_defs (TNamed 3) = true /\ sorted key_info key_places true (TNamed 3) = true /\ sorted key_info key_places false (TNamed 1) = true /\
  forallb (fun v => well_typed key_defs v (TNamed 3)) [key_a; key_b; key_c; key_d] = true /\
  to_bytes dbg_cf key_defs 9 key_a (TNamed 3) = ROk [0; 0; 1; 2; 0; 7; 0; 9; 3; 0; 255; 0; 4; 1; 0] /\
  to_bytes dbg_cf key_defs 9 key_b (TNamed 3) = ROk [0; 0; 1; 2; 255; 0; 0; 2; 0; 7; 3; 0; 255; 0] /\
  to_bytes dbg_cf key_defs 9 key_c (TNamed 3) = ROk [0; 0; 1; 2; 255; 0; 0; 2; 0; 7; 3; 0; 255; 0; 0; 0; 0] /\
  to_bytes dbg_cf key_defs 9 key_d (TNamed 3) = ROk [0; 0; 1; 2; 255; 0; 0; 7; 0; 0; 3; 0; 255; 0] /\
  val_cmp key_defs key_a key_b (TNamed 3) = Some Lt /\ val_cmp key_defs key_b key_c (TNamed 3) = Some Lt /\ val_cmp key_defs key_c key_d (TNamed 3) = Some Lt.
Proof. vm_compute. repeat apply conj; reflexivity. Qed.
