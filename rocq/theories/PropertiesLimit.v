(** C90: decoding where memory is finite.

    [limited_decode] (ModelLimit) decodes with an allocator that may refuse.
    [grants used n] tells whether it lets have [n] bytes while [used] are in use.
    [Aborted] is the end of the process. *)
From Verif Require Import Base ModelErrors ModelParser ModelInt ModelSchema ModelMemory ModelLimit SpecCodec SpecSize SpecWork SpecMemory
  ProofSize ProofWork ProofMemory ProofLimit PropertiesSize PropertiesMemory.
From Coq Require Import ZifyBool.

(** Whatever the allocator does, decoding gives the answer it always gives, or is
    aborted, or panics: no value changes for want of memory, nor does an error. *)
Theorem C90_no_other_answer size_of grants w cf D f t input :
  limited_decode size_of grants w cf D f t input = Ended (decode_with w cf D f t input) \/
  limited_decode size_of grants w cf D f t input = Aborted \/
  limited_decode size_of grants w cf D f t input = Ended RPanic.
Proof. exact (limited_either size_of grants D t w cf f input). Qed.
Print Assumptions C90_no_other_answer.

(** If the allocator grants whatever keeps the use within [M], and decoding needs no
    more than [M] (C83), decoding goes on as if memory had no end. *)
Theorem C90_enough size_of grants D t M w cf f input :
  wf_defs D = true -> wf_ty D t = true -> (forall t, 0 <= size_of t) ->
  (forall used n, used + n <= M -> grants used n = true) -> M <= isize_max ->
  at_most (decode_memory size_of w cf D f t input) <= M ->
  limited_decode size_of grants w cf D f t input = Ended (decode_with w cf D f t input).
Proof. exact (fun WD WT Sz => limited_enough size_of grants D t WD WT Sz M w cf f input). Qed.
Print Assumptions C90_enough.
(** 24 bytes do for five numbers of two bytes; 23 do not. *)
Definition up_to (M used n : Z) : bool := used + n <=? M.
Example C90_enough_case :
  (forall used n, used + n <= 24 -> up_to 24 used n = true) /\
  at_most (decode_memory sizes WByte plain [] 9 (TSeq (TInt U16)) [0; 1; 0; 2; 0; 3; 0; 4; 0; 5]) = 24 /\
  limited_decode sizes (up_to 24) WByte plain [] 9 (TSeq (TInt U16)) [0; 1; 0; 2; 0; 3; 0; 4; 0; 5]
    = Ended (ROk (VSeq [VInt 1; VInt 2; VInt 3; VInt 4; VInt 5])) /\
  limited_decode sizes (up_to 23) WByte plain [] 9 (TSeq (TInt U16)) [0; 1; 0; 2; 0; 3; 0; 4; 0; 5] = Aborted.
Proof. split; [unfold up_to; intros; lia|]. repeat split; vm_compute; reflexivity. Qed.

(** For every type whose decoding terminates there is a multiple of the length of the
    input with which memory never runs out, whatever the input. *)
Theorem C90_proportional D I R t size_of :
  wf_defs D = true -> wf_ty D t = true -> terminating D I R = true -> loops_ok I t = true ->
  (forall t, 0 <= size_of t) ->
  exists K, forall grants M cf input w f,
    (forall used n, used + n <= M -> grants used n = true) ->
    K * (1 + zlen input) <= M -> M <= isize_max -> zlen input <= isize_max ->
    limited_decode size_of grants w cf D f t input = Ended (decode_with w cf D f t input).
Proof. exact (limited_proportional D I R t size_of). Qed.
Print Assumptions C90_proportional.
Example C90_proportional_case :
  wf_defs size_defs = true /\ wf_ty size_defs (TNamed 1%nat) = true /\
  terminating size_defs size_info size_ranks = true /\ loops_ok size_info (TNamed 1%nat) = true.
Proof. repeat split. Qed.

(** The multiple depends on the bounds in the type: a sequence of at most, or exactly,
    [n] elements for which there is no room takes the process down, or panics if there
    can be none, whatever the input, be it empty or not a sequence at all. *)
Theorem C90_slots_up_front size_of grants w cf D f n t input :
  (isize_max < n * size_of t ->
     limited_decode size_of grants w cf D (S f) (TLim n t) input = Ended RPanic /\
     limited_decode size_of grants w cf D (S f) (TFix n t) input = Ended RPanic) /\
  (n * size_of t <= isize_max -> grants 0 (n * size_of t) = false ->
     limited_decode size_of grants w cf D (S f) (TLim n t) input = Aborted /\
     limited_decode size_of grants w cf D (S f) (TFix n t) input = Aborted).
Proof. exact (limited_slots size_of grants w cf D f n t input). Qed.
Print Assumptions C90_slots_up_front.
(** 2^40 places for numbers of two bytes, in 16 GB; 2^62 of them, anywhere. *)
Example C90_slots_up_front_case :
  decode_with WByte plain [] 9 (TLim (2 ^ 40) (TInt U16)) [] = ROk (VSeq []) /\
  wf_ty [] (TLim (2 ^ 40) (TInt U16)) = true /\
  limited_decode sizes (up_to (2 ^ 34)) WByte plain [] 9 (TLim (2 ^ 40) (TInt U16)) [] = Aborted /\
  limited_decode sizes (up_to (2 ^ 34)) WByte plain [] 9 (TLim (2 ^ 62) (TInt U16)) [] = Ended RPanic.
Proof. repeat split; vm_compute; reflexivity. Qed.
