(** C64: a decoded value takes memory at most proportional to the input.

    [weight] (SpecSize) counts the nodes of a value, the bytes of its strings and
    the bytes of its numbers.  Decoders read from untrusted sources: an input of
    [n] bytes must not be able to make them build more than a fixed multiple of
    [n], the multiple depending on the type alone. *)
From Verif Require Import Base ModelErrors ModelInt ModelSchema SpecCodec SpecSize
  ModelParser SpecParser ProofCodecThms ProofSettle ProofSize.
From Coq Require Import ZifyBool.

(** A binary tree with labels, of type 0, and a list of optional trees, type 1. *)
Definition size_defs : list def :=
  [DData U8 [(0, [TN]); (1, [TNamed 0%nat; TNamed 0%nat]); (7, [TDyn PrefU8 TString])];
   DStruct [TLim 3 TUnit; TSeq (TOption (TBox (TNamed 0%nat)))]].
Definition size_info : list tinfo := [mkInfo Delim true None; mkInfo (Leave 0) false None].
Definition size_ranks : list nat := [0%nat; 1%nat].

(** Every type whose decoding terminates has such a multiple. *)
Theorem C64_proportional D I R t :
  wf_defs D = true -> wf_ty D t = true -> terminating D I R = true -> loops_ok I t = true ->
  exists K, forall cf input w v,
    bytes_ok input -> zlen input <= isize_max -> decodes w cf D t input (ROk v) ->
    weight v <= K * (1 + zlen input).
Proof. exact (decoded_proportional D I R t). Qed.
Print Assumptions C64_proportional.
Example C64_proportional_case :
  wf_defs size_defs = true /\ wf_ty size_defs (TNamed 1%nat) = true /\
  terminating size_defs size_info size_ranks = true /\ loops_ok size_info (TNamed 1%nat) = true.
Proof. repeat split. Qed.

(** The constants can be checked by computation: if [B] units per byte pay for
    every declaration, then nothing more is ever used. *)
Theorem C64_certificate B A cf D t input w v :
  linear B A D = true -> pays B A t = true -> wf_defs D = true -> wf_ty D t = true ->
  bytes_ok input -> zlen input <= isize_max -> decodes w cf D t input (ROk v) ->
  weight v <= base B A t + B * zlen input.
Proof. exact (decoded_linear B A cf D t input w v). Qed.
Print Assumptions C64_certificate.
(** Three units per byte, and six more, bound the lists of trees. *)
Example C64_certificate_case :
  linear 3 [-3; 6] size_defs = true /\ pays 3 [-3; 6] (TNamed 1%nat) = true /\ base 3 [-3; 6] (TNamed 1%nat) = 6.
Proof. repeat split. Qed.

(** It holds for every value read in the course of a decoding, in terms of the
    bytes consumed for it. *)
Theorem C64_read B A cf D t input w v rest :
  linear B A D = true -> pays B A t = true -> wf_defs D = true -> wf_ty D t = true ->
  bytes_ok input -> zlen input <= isize_max -> reads w cf D t input (ROk (v, rest)) ->
  weight v <= base B A t + B * (zlen input - zlen rest).
Proof. exact (read_linear B A cf D t input w v rest). Qed.
Print Assumptions C64_read.
Example C64_read_case :
  reads WByte (mkConfig Release false false false false false) size_defs (TNamed 0%nat) [1; 0; 5; 7; 1; 97; 9]
    (ROk (VEnum 1 [VEnum 0 [VInt 5]; VEnum 2 [VWrap (VBytes [97])]], [9])) /\
  weight (VEnum 1 [VEnum 0 [VInt 5]; VEnum 2 [VWrap (VBytes [97])]]) = 8.
Proof. split; [eapply (reads_at WByte) with (f := 9%nat); [vm_compute; reflexivity|discriminate]|reflexivity]. Qed.

(** The multiple does depend on the type: bounded sequences of empty elements
    cost nothing on the wire, so no multiple serves all types. *)
Theorem C64_no_common_multiple K : 0 <= K <= 2 ^ 60 -> exists t input v,
  wf_ty [] t = true /\ bytes_ok input /\ zlen input = 1 /\
  decodes WByte (mkConfig Release false false false false false) [] t input (ROk v) /\
  K * (1 + zlen input) < weight v.
Proof. exact (no_common_multiple K). Qed.
Print Assumptions C64_no_common_multiple.
