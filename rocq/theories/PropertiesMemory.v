(** C83: the memory that decoding reserves.

    [decode_memory] (ModelMemory) is what decoding has in use when it ends, and the
    most it had in use at any time.  [size_of] stands for the sizes the compiler
    gives to the types; the theorems hold for any. *)
From Verif Require Import Base ModelErrors ModelParser ModelInt ModelSchema ModelMemory SpecCodec SpecSize SpecWork SpecMemory
  ProofSize ProofWork ProofMemory PropertiesSize.
From Coq Require Import ZifyBool.

(** The program whose reservations are counted is the decoder: it gives the same
    answer and leaves the parser in the same state, whatever the parser. *)
Theorem C83_same_decoder P (h : handler P) size_of cf D f t p u :
  fst (mrun h (mparse size_of cf D f t) p u) = run h (parse cf D f t) p.
Proof. exact (same_parse h size_of cf D f t p u). Qed.
Print Assumptions C83_same_decoder.

(** Every type whose decoding terminates has a multiple that no input exceeds. *)
Theorem C83_proportional D I R t size_of :
  wf_defs D = true -> wf_ty D t = true -> terminating D I R = true -> loops_ok I t = true ->
  (forall t, 0 <= size_of t) ->
  exists K, forall cf input w f,
    zlen input <= isize_max -> at_most (decode_memory size_of w cf D f t input) <= K * (1 + zlen input).
Proof. exact (memory_proportional D I R t size_of). Qed.
Print Assumptions C83_proportional.
Example C83_proportional_case :
  wf_defs size_defs = true /\ wf_ty size_defs (TNamed 1%nat) = true /\
  terminating size_defs size_info size_ranks = true /\ loops_ok size_info (TNamed 1%nat) = true.
Proof. repeat split. Qed.

(** The constants can be checked by computation. *)
Theorem C83_certificate B A F cf D t size_of f w input :
  wf_defs D = true -> wf_ty D t = true -> linear B A D = true -> pays B A t = true -> bounded B A F D = true ->
  (forall t, 0 <= size_of t) -> zlen input <= isize_max ->
  at_most (decode_memory size_of w cf D f t input)
    <= largest_in size_of D t * (4 * tries B A F t - 1 + (4 * B + 1) * zlen input) + zlen input.
Proof. exact (fun HD HW HL HP HF Hs => memory_linear B A F cf D t size_of HD HW HL HP HF Hs f w input). Qed.
Print Assumptions C83_certificate.
(** Sizes as on a 64-bit machine: 24 bytes for a Vec or a String, 8 for a Box (and, at worst, 24 for an Option). *)
Definition sizes (t : ty) : Z :=
  match t with
  | TUnit => 0
  | TBool => 1
  | TInt k | TRanged k _ _ => ik_len k
  | TFixedBytes n | TFixedString n => Z.max 0 n
  | TBox _ | TF64 | TRangedF _ _ => 8
  | TNamed _ => 32
  | _ => 24
  end.
(** For the lists of trees of C64: 13 times 192 bytes per byte of the input. *)
Example C83_certificate_case :
  linear 3 [-3; 6] size_defs = true /\ pays 3 [-3; 6] (TNamed 1%nat) = true /\
  bounded 3 [-3; 6] [1; 11] size_defs = true /\ (forall t, 0 <= sizes t) /\
  largest_in sizes size_defs (TNamed 1%nat) = 192 /\ 4 * tries 3 [-3; 6] [1; 11] (TNamed 1%nat) - 1 = 43.
Proof. repeat split. intros t. destruct t; cbn [sizes]; try lia; destruct k; discriminate. Qed.
(** A text of two bytes that are not UTF-8 makes six, for which 18 are reserved
    beside the two; 12 are kept. *)
Example C83_counts :
  decode_memory sizes WByte plain [] 9 (TSeq (TInt U16)) [0; 1; 0; 2; 0; 3; 0; 4; 0; 5] = mkMem 16 24 /\
  decode_memory sizes WSlice plain [] 9 (TString) [255; 254] = mkMem 12 20 /\
  decode_memory sizes WMemo plain [] 9 (TFix 2 TN) [128; 1; 5; 9] = mkMem 48 54.
Proof. repeat split; vm_compute; reflexivity. Qed.

(** Nothing leaks: once a value has been decoded, what is in use is what the value
    holds, text with a capacity of up to twice its length. *)
Theorem C83_only_the_value size_of w cf D f t input v :
  decode_with w cf D f t input = ROk v ->
  held size_of 1 D v t <= in_use (decode_memory size_of w cf D f t input) <= held size_of 2 D v t.
Proof. exact (value_memory size_of w cf D f t input v). Qed.
Print Assumptions C83_only_the_value.
Example C83_only_the_value_case :
  decode_with WByte plain [] 9 (TSeq (TDyn PrefU8 TBytes)) [2; 7; 7; 0] = ROk (VSeq [VWrap (VBytes [7; 7]); VWrap (VBytes [])]) /\
  held sizes 1 [] (VSeq [VWrap (VBytes [7; 7]); VWrap (VBytes [])]) (TSeq (TDyn PrefU8 TBytes)) = 4 * 24 + 2.
Proof. split; vm_compute; reflexivity. Qed.

(** The multiple does depend on the bounds of the sequences in the type: room for
    all the elements is reserved before the first byte is looked at... *)
Theorem C83_slots_up_front size_of w cf D f t n input :
  n * size_of t <= at_most (decode_memory size_of w cf D (S f) (TLim n t) input) /\
  n * size_of t <= at_most (decode_memory size_of w cf D (S f) (TFix n t) input).
Proof. exact (slots_reserved size_of w cf D f t n input). Qed.
Print Assumptions C83_slots_up_front.
Example C83_slots_up_front_case :
  decode_memory sizes WByte plain [] 1 (TFix 1000000 (TInt I64)) [] = mkMem 8000000 8000000.
Proof. vm_compute. reflexivity. Qed.

(** ... and kept: [n] zero bytes, a list of [n] empty sequences of at most [N]
    bytes each, make a value that holds [n] times [N] bytes. *)
Theorem C83_slots_kept size_of w cf N n :
  0 <= N <= isize_max -> Z.of_nat n <= isize_max -> (forall t, 0 <= size_of t) -> size_of (TInt U8) = 1 ->
  (w = WSlice -> cf_complete cf = false) ->
  let t := TSeq (TDyn PrefU8 (TLim N (TInt U8))) in
  exists v, decodes w cf [] t (repeat 0 n) (ROk v) /\
  exists f0, forall f, (f0 <= f)%nat -> Z.of_nat n * N <= in_use (decode_memory size_of w cf [] f t (repeat 0 n)).
Proof. exact (slots_kept size_of w cf N n). Qed.
Print Assumptions C83_slots_kept.
Example C83_slots_kept_case :
  decode_memory sizes WByte plain [] 9 (TSeq (TDyn PrefU8 (TLim 65535 (TInt U8)))) [0; 0; 0] = mkMem (4 * 24 + 3 * 65535) (4 * 24 + 3 * 65535).
Proof. vm_compute. reflexivity. Qed.
