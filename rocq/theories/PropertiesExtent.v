(** Property theorems about the smallest and largest messages (C101). *)
From Verif Require Import Base ModelErrors ModelInt ModelFloat ModelTarget ModelSchema.
From Verif Require Import SpecCodec SpecExtent ProofExtent PropertiesNum.

(** *** C101: the smallest and the largest messages of a type *)
Theorem C101_encoding : forall cf D J kf t v bs,
  wf_defs D = true -> sized D J = true -> wf_ty D t = true -> well_typed D v t = true ->
  (cf_est_override cf = true -> zeros D v t = 0) -> to_bytes cf D kf v t = ROk bs -> zlen bs <= isize_max ->
  within J t (zlen bs).
Proof. exact encoding_within. Qed.
Print Assumptions C101_encoding.

(** What a decoder takes from any input, not only from an encoding. *)
Theorem C101_reading : forall w cf D J t input v rest,
  wf_defs D = true -> sized D J = true -> wf_ty D t = true -> bytes_ok input -> zlen input <= isize_max ->
  reads w cf D t input (ROk (v, rest)) -> within J t (zlen input - zlen rest).
Proof. exact reading_within. Qed.
Print Assumptions C101_reading.

(** Input too short for the type is never accepted, nor, where everything must be
    consumed, input too long for it. *)
Theorem C101_decoding : forall w cf D J t input v,
  wf_defs D = true -> sized D J = true -> wf_ty D t = true -> bytes_ok input -> zlen input <= isize_max ->
  decodes w cf D t input (ROk v) -> least J t <= zlen input /\ (cf_complete cf = true -> within J t (zlen input)).
Proof. exact decoding_within. Qed.
Print Assumptions C101_decoding.

(** The bounds are the best ones: if they are for the named types, then for all others,
    unless a range is empty or a payload must stop short of its prefix. *)
Theorem C101_met : forall cf D J W kf t,
  wf_defs D = true -> sized D J = true -> reached D J W -> wf_ty D t = true -> cf_est_override cf = false ->
  (least_met J t = true -> least J t <= isize_max -> exists v bs, well_typed D v t = true /\ to_bytes cf D kf v t = ROk bs /\ zlen bs = least J t) /\
  (forall m, most_met J t = true -> most J t = Some m -> m <= isize_max ->
   exists v bs, well_typed D v t = true /\ to_bytes cf D kf v t = ROk bs /\ zlen bs = m).
Proof. exact bounds_met. Qed.
Print Assumptions C101_met.

(** A record, and a list linked through a data enum, in a bounded sequence. *)
Definition ext_defs : list def :=
  [DStruct [TInt U16; TDyn PrefU8 TBytes; TOption (TFixedBytes 4)]; DData U8 [(0, []); (1, [TInt U8; TNamed 1])]].
Definition ext_bounds : list (Z * option Z) := [(4, Some 263); (1, None)].
Definition ext_values : list (val * val) :=
  [(VStruct [VInt 0; VWrap (VBytes []); VNone], VStruct [VInt 0; VWrap (VBytes (repeat 0 255)); VSome (VBytes [1; 2; 3; 4])]); (VEnum 0 [], VUnit)].
Definition ext_ty : ty := TDyn PrefU16 (TLim 10 (TPad 2 (TNamed 0))).
Example C101_meets :
  wf_defs ext_defs = true /\ sized ext_defs ext_bounds = true /\ reached ext_defs ext_bounds ext_values /\ wf_ty ext_defs ext_ty = true /\
  least_met ext_bounds ext_ty = true /\ least ext_bounds ext_ty = 2 /\ most_met ext_bounds ext_ty = true /\ most ext_bounds ext_ty = Some 2652 /\
  most ext_bounds (TNamed 1) = None /\ most ext_bounds (TDyn PrefU8 (TNamed 1)) = Some 256.
Proof.
  assert (R : reached ext_defs ext_bounds ext_values).
  { intros i Hi. destruct i as [|[|i]]; [| |cbn in Hi; lia]; eexists _, _; (split; [reflexivity|]); (split; [vm_compute; reflexivity|]); (split; [vm_compute; reflexivity|]);
      intros m E; [injection E as <-; split; vm_compute; reflexivity|discriminate E]. }
  repeat apply conj; try exact R; vm_compute; reflexivity.
Qed.
