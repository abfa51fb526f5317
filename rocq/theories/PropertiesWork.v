(** C75: decoding does work at most proportional to the input.

    [decode_effort] (SpecWork) counts the calls that decoding makes to its parser
    and the bytes these hand out, whether it ends in a value, an error, a panic or
    undefined behaviour. *)
From Verif Require Import Base ModelErrors ModelParser ModelInt ModelSchema SpecCodec SpecSize SpecWork
  ProofSize ProofWork PropertiesSize.
From Coq Require Import ZifyBool.

(** Every type whose decoding terminates has a multiple that no input exceeds. *)
Theorem C75_proportional D I R t :
  wf_defs D = true -> wf_ty D t = true -> terminating D I R = true -> loops_ok I t = true ->
  exists K, forall cf input w f,
    zlen input <= isize_max -> decode_effort w cf D f t input <= K * (1 + zlen input).
Proof. exact (effort_proportional D I R t). Qed.
Print Assumptions C75_proportional.
Example C75_proportional_case :
  wf_defs size_defs = true /\ wf_ty size_defs (TNamed 1%nat) = true /\
  terminating size_defs size_info size_ranks = true /\ loops_ok size_info (TNamed 1%nat) = true.
Proof. repeat split. Qed.

(** The constants can be checked by computation. *)
Theorem C75_certificate B A F cf D t f w input :
  wf_defs D = true -> wf_ty D t = true -> linear B A D = true -> pays B A t = true -> bounded B A F D = true ->
  zlen input <= isize_max ->
  decode_effort w cf D f t input <= 3 * tries B A F t - 1 + (3 * B + 1) * zlen input.
Proof. exact (fun HD HW HL HP HF => effort_linear B A F cf D t HD HW HL HP HF f w input). Qed.
Print Assumptions C75_certificate.
(** Ten units per byte, and 32 more, bound the lists of trees of C64. *)
Example C75_certificate_case :
  linear 3 [-3; 6] size_defs = true /\ pays 3 [-3; 6] (TNamed 1%nat) = true /\
  bounded 3 [-3; 6] [1; 11] size_defs = true /\ 3 * tries 3 [-3; 6] [1; 11] (TNamed 1%nat) - 1 = 32.
Proof. repeat split. Qed.
(** What a complete tree takes, and what one takes that is cut short. *)
Example C75_counts :
  decode_effort WByte plain size_defs 9 (TNamed 0%nat) [1; 0; 5; 7; 1; 97] = 16 /\
  decode_effort WSlice plain size_defs 9 (TNamed 0%nat) [1; 0; 5; 7; 2; 97] = 12.
Proof. split; vm_compute; reflexivity. Qed.

(** The multiple does depend on the type: a FixSeq of empty elements asks the
    parser once for each of them. *)
Theorem C75_no_common_multiple K : 0 <= K <= 2 ^ 60 -> exists t input f,
  wf_ty [] t = true /\ zlen input = 1 /\ K * (1 + zlen input) < decode_effort WByte plain [] f t input.
Proof. exact (no_common_effort K). Qed.
Print Assumptions C75_no_common_multiple.

(** And [loops_ok] is needed: one byte keeps a sequence of empty elements busy for
    as long as it is allowed to run. *)
Theorem C75_endless f : Z.of_nat f <= decode_effort WByte plain [] (S f) (TSeq TUnit) [7].
Proof. exact (endless_effort f). Qed.
Print Assumptions C75_endless.
Example C75_endless_case : loops_ok [] (TSeq TUnit) = false. Proof. reflexivity. Qed.
