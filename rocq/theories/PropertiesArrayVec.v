(** Property theorems about the features arrayvec_fixseq and arrayvec_limseq
    (C56): [avs_*] are the functions of FixSeq and LimSeq built with them. *)
From Verif Require Import Base ModelErrors ModelParser ModelInt ModelSchema ModelSeq ModelArrayVec SpecSeq
  SpecParser SpecCodec ProofSeq ProofArrayVec PropertiesNum.
Local Open Scope list_scope.

(** ------------------------------------------------------------------ *)
(** * C56 *)
(** [cap_ok n]: [n] elements fit an ArrayVec. *)
Theorem C56_constructors : forall A n, 0 <= n <= 2 ^ 32 - 1 ->
  avs_new n = ROk (@seq_new A) /\
  (forall m (seq : list A) x, avs_try_push m n seq x = try_push n seq x) /\
  (forall S (next : S -> option A * S) m it, avs_from_iter next m n it = seq_from_iter next m n it) /\
  (forall S (next : S -> option A * S) m seq it, zlen seq <= n ->
     avs_extend next m n seq it = seq_extend next m n seq it) /\
  (forall l : list A,
     avs_fix_try_from_slice n l = fix_try_from_slice n l /\
     avs_lim_try_from_slice n l = lim_try_from_slice n l /\
     avs_try_from_vec n l = fix_try_from_vec n l /\
     avs_try_from_vec n l = lim_try_from_vec n l /\
     avs_from_vec n l = lim_from_vec n l).
Proof. exact storage_constructors. Qed.
Print Assumptions C56_constructors.

(** Decoding gives the same answer, from every parser in every state, for any
    decoder of the elements. *)
Theorem C56_decoding : forall P (h : handler P) m n elem fuel p, 0 <= n <= 2 ^ 32 - 1 ->
  run h (avs_lim_parse m fuel n elem) p = run h (p_lim_loop fuel n elem []) p /\
  run h (avs_fix_parse m fuel n elem) p = run h (p_fix_loop fuel n elem []) p.
Proof. exact storage_decoding. Qed.
Print Assumptions C56_decoding.

(** What a vector was made into turns back into that vector. *)
Theorem C56_into_vec : forall A n (l seq : list A), 0 <= n <= 2 ^ 32 - 1 ->
  avs_try_from_vec n l = ROk seq \/ avs_lim_try_from_slice n l = ROk seq \/ avs_fix_try_from_slice n l = ROk seq ->
  avs_into_vec seq = l.
Proof. exact @storage_into_vec. Qed.
Print Assumptions C56_into_vec.

(** A larger bound panics only with the features. *)
Theorem C56_huge_bound_differs : exists n, 0 <= n <= isize_max /\
  avs_new n = @RPanic length_error (list Z) /\ avs_try_from_vec n [1] = RPanic /\ lim_try_from_vec n [1] = ROk [1].
Proof. exists (2 ^ 32). repeat split; discriminate || reflexivity. Qed.
Print Assumptions C56_huge_bound_differs.

Example C56_sample :
  avs_try_push Release 2 [7] 8 = ROk [7; 8] /\ avs_try_push Release 2 [7; 8] 9 = RErr (TooLong 2 3) /\
  avs_try_from_vec 3 [1; 2] = ROk [1; 2] /\ avs_from_vec 1 [1; 2] = RPanic /\
  run_with WByte Debug (avs_fix_parse Debug 9 2 (x <- p_int U8 ;; PRet (VInt x))) [5; 6; 7] = ROk [VInt 5; VInt 6] /\
  run_with WSlice Debug (avs_lim_parse Debug 9 2 (x <- p_int U8 ;; PRet (VInt x))) [5; 6; 7] =
    RErr (EExternal (LengthViolation (TooLong 2 3))).
Proof. repeat split; vm_compute; reflexivity. Qed.
