(** Property theorems: the methods of [Encode] that some types replace (C87).

    [call_write_to_vec], [call_encode], [call_to_bytes] and [call_to_bytes_full]
    are the calls a program makes, which go to the type's own method where it has
    one; [encode], [to_bytes] and [to_bytes_full] are the methods of the trait, made
    of [write_to].  [IsVec] and [IsBytes] tell [Vec<u8>] from [Bytes].  No vector
    has more than [isize_max] bytes. *)
From Verif Require Import Base ModelErrors ModelInt ModelTarget ModelSchema ModelOverride SpecTarget SpecCodec ProofOverride PropertiesCodec.
Local Open Scope list_scope.

(** The bytes are those of the trait's method. *)
Theorem C87_to_bytes : forall cf D kf v t, (forall bs, v = VBytes bs -> zlen bs <= isize_max) ->
  call_to_bytes cf D kf v t = to_bytes cf D kf v t.
Proof. exact same_to_bytes. Qed.
Print Assumptions C87_to_bytes.

Theorem C87_to_bytes_full : forall cf D kf v t, (forall bs, v = VBytes bs -> zlen bs <= isize_max) ->
  call_to_bytes_full cf D kf v t = to_bytes_full cf D kf v t.
Proof. exact same_to_bytes_full. Qed.
Print Assumptions C87_to_bytes_full.

(** [write_to_vec] adds what [to_bytes] returns to the end of the vector, and
    keeps what the vector held. *)
Theorem C87_write_to_vec : forall cf D kf v t buf, (forall bs, v = VBytes bs -> zlen bs <= isize_max) ->
  call_write_to_vec cf D kf v t buf =
  match call_to_bytes cf D kf v t with
  | ROk bs => ROk (buf ++ bs)
  | RErr e => RErr e
  | RPanic => RPanic
  | RUB => RUB
  | RDiv => RDiv
  end.
Proof. exact appends. Qed.
Print Assumptions C87_write_to_vec.

(** [encode] leaves any target that counts as documented as the trait's method
    leaves it. *)
Theorem C87_encode : forall cf D kf b U (T : target U) v t, counts T ->
  call_encode cf D kf b T v t = encode cf D kf T v t.
Proof. exact same_encode. Qed.
Print Assumptions C87_encode.

(** A target that miscounts is noticed by [Vec<u8>], in a debug build, and by no
    other type. *)
Theorem C87_miscount : forall cf D kf U (T : target U) bs, 0 <= fst (tg_push_all T bs (tg_create T)) <= isize_max ->
  call_encode cf D kf IsVec T (VBytes bs) TBytes =
  if (match cf_mode cf with Debug => negb (fst (tg_push_all T bs (tg_create T)) =? zlen bs) | Release => false end)
  then RPanic else encode cf D kf T (VBytes bs) TBytes.
Proof. exact vec_assert. Qed.
Print Assumptions C87_miscount.

Example C87_case :
  call_to_bytes release [] 9 (VBytes [1; 2]) (TFixedBytes 2) = ROk [1; 2] /\
  call_write_to_vec release [] 9 (VBytes [1; 2]) TBytes [7] = ROk [7; 1; 2] /\
  call_write_to_vec release sample_defs 9 sample_val sample_ty [7] = ROk (7 :: sample_bytes) /\
  call_encode release [] 9 IsBytes tg_strict (VBytes [1]) TBytes = ROk (mkStrict [1]) /\
  call_encode (mkConfig Debug false false false false false) [] 9 IsVec
    (mkTarget unit tt (fun _ u => u) (fun _ u => (0, u)) (fun _ u => (0, u)) (fun _ u => (0, u)) (fun u => u) (fun u => (0, u))) (VBytes [1]) TBytes = RPanic /\
  counts tg_strict /\ (forall bs, sample_val = VBytes bs -> zlen bs <= isize_max).
Proof.
  split; [reflexivity|]. split; [reflexivity|]. split; [vm_compute; reflexivity|]. split; [vm_compute; reflexivity|].
  split; [vm_compute; reflexivity|]. split; [intros u; repeat apply conj; reflexivity|discriminate].
Qed.
