(** C91: the memory that encoding into a vector takes.

    [vec_to_bytes] and [vec_to_bytes_full] (ModelCapacity) are [to_bytes] and
    [to_bytes_full] with the capacity of the vector and the number of times memory
    was asked for. *)
From Verif Require Import Base ModelErrors ModelTarget ModelInt ModelSchema ModelOverride ModelCapacity SpecTarget SpecCodec SpecCapacity
  ProofTarget ProofCapacity.
From Coq Require Import ZifyBool.

(** They give the bytes of the functions they stand for. *)
Theorem C91_same_bytes cf D kf v t :
  rmap vec_bytes (vec_to_bytes cf D kf v t) = call_to_bytes cf D kf v t /\
  rmap vec_bytes (vec_to_bytes_full cf D kf v t) = call_to_bytes_full cf D kf v t.
Proof. exact (capacity_same_bytes cf D kf v t). Qed.
Print Assumptions C91_same_bytes.

(** No target is told to expect more bytes than it gets, and by default each
    announcement is of exactly the bytes of the value that follows. *)
Theorem C91_announcements cf D kf v t bs :
  (cf_est_override cf = false \/ (wf_defs D = true /\ wf_ty D t = true /\ well_typed D v t = true)) ->
  to_bytes cf D kf v t = ROk bs -> zlen bs <= isize_max ->
  exists calls, pushed_by calls = bs /\ no_idle_announcement calls /\
    (cf_est_override cf = false -> exact_announcements calls) /\
    forall U (T : target U), counts T -> forall u, write_to cf D kf v U T t u = ROk (zlen bs, receive_all T calls u).
Proof. exact (fun HT HB HL => announcements_thm cf D kf v t bs (conj HT (conj HB HL))). Qed.
Print Assumptions C91_announcements.
Definition cap_default : config := mkConfig Release false false false false false.
Definition cap_override : config := mkConfig Release false true false false false.
(** A list in a frame within a frame. *)
Example C91_announcements_case :
  let v := VWrap (VStruct [VInt 7; VWrap (VSeq [VInt 1; VInt 2])]) in
  let D := [DStruct [TInt U8; TDyn PrefU8 (TSeq (TInt U16))]] in
  to_bytes cap_default D 9 v (TDyn PrefU30 (TNamed 0)) = ROk [0; 0; 0; 6; 7; 4; 0; 1; 0; 2] /\
  exists calls, write_to cap_default D 9 v _ tg_log (TDyn PrefU30 (TNamed 0)) [] = ROk (10, calls) /\
    filter (fun c => match c with CAnticipate _ | CPushAll _ => true | _ => false end) calls
      = [CAnticipate 10; CPushAll [0; 0; 0; 6]; CPushAll [7]; CAnticipate 5; CPushAll [4]; CPushAll [0; 1]; CPushAll [0; 2]].
Proof. split; [vm_compute; reflexivity|]. eexists. split; vm_compute; reflexivity. Qed.

(** A vector with room for the encoding is not reallocated. *)
Theorem C91_room cf D kf v t bs u :
  (cf_est_override cf = false \/ (wf_defs D = true /\ wf_ty D t = true /\ well_typed D v t = true)) ->
  to_bytes cf D kf v t = ROk bs -> zlen bs <= isize_max ->
  zlen bs <= vec_capacity u - zlen (vec_bytes u) ->
  append_to_vec cf D kf v t u = ROk (mkVec (vec_bytes u ++ bs) (vec_capacity u) (vec_allocations u)).
Proof. exact (fun HT HB HL => room_thm cf D kf v t bs u (conj HT (conj HB HL))). Qed.
Print Assumptions C91_room.
Example C91_room_case :
  append_to_vec cap_default [] 9 (VWrap (VBytes [5; 6])) (TDyn PrefU16 TBytes) (mkVec [9; 9] 6 1) = ROk (mkVec [9; 9; 0; 2; 5; 6] 6 1) /\
  append_to_vec cap_default [] 9 (VWrap (VBytes [5; 6])) (TDyn PrefU16 TBytes) (mkVec [9; 9] 5 1) = ROk (mkVec [9; 9; 0; 2; 5; 6] 10 2).
Proof. split; vm_compute; reflexivity. Qed.

(** "Zero reallocations": [to_bytes_full] asks for memory once, for exactly the
    bytes it returns.  With enc_len_estimable_override, if there is no natural number
    0 in the value (F8). *)
Theorem C91_full_allocates_once cf D kf v t bs :
  (cf_est_override cf = false \/ (wf_defs D = true /\ wf_ty D t = true /\ well_typed D v t = true /\ zeros D v t = 0)) ->
  to_bytes_full cf D kf v t = ROk bs -> zlen bs <= isize_max ->
  vec_to_bytes_full cf D kf v t = ROk (mkVec bs (zlen bs) (if zlen bs =? 0 then 0 else 1)).
Proof. exact (full_thm cf D kf v t bs). Qed.
Print Assumptions C91_full_allocates_once.
Definition cap_list (n : nat) : val := VSeq (repeat (VInt 300) n).
Example C91_full_allocates_once_case :
  to_bytes_full cap_override [] 9 (cap_list 20) (TSeq (TInt U16)) = ROk (concat (repeat [1; 44] 20)) /\
  well_typed [] (cap_list 20) (TSeq (TInt U16)) = true /\ zeros [] (cap_list 20) (TSeq (TInt U16)) = 0 /\
  vec_to_bytes_full cap_override [] 9 (cap_list 20) (TSeq (TInt U16)) = ROk (mkVec (concat (repeat [1; 44] 20)) 40 1) /\
  vec_to_bytes cap_override [] 9 (cap_list 20) (TSeq (TInt U16)) = ROk (mkVec (concat (repeat [1; 44] 20)) 64 4).
Proof. repeat split; vm_compute; reflexivity. Qed.
(** With such zeros it reallocates: nine of them are announced as no bytes. *)
Example C91_override_reallocates :
  vec_to_bytes_full cap_override [] 9 (VSeq (repeat (VInt 0) 9)) (TSeq TN) = ROk (mkVec (repeat 0 9) 16 2) /\
  vec_to_bytes_full cap_default [] 9 (VSeq (repeat (VInt 0) 9)) (TSeq TN) = ROk (mkVec (repeat 0 9) 9 1).
Proof. split; vm_compute; reflexivity. Qed.

(** [to_bytes] never takes more than twice the room of the bytes (or 8), and its
    reallocations are as many as the length has binary digits, not as the value has
    parts: 2 to their number is at most half the length, or 2. *)
Theorem C91_growth cf D kf v t bs :
  (cf_est_override cf = false \/ (wf_defs D = true /\ wf_ty D t = true /\ well_typed D v t = true)) ->
  to_bytes cf D kf v t = ROk bs -> zlen bs <= isize_max ->
  exists u, vec_to_bytes cf D kf v t = ROk u /\ vec_bytes u = bs /\
    zlen bs <= vec_capacity u <= Z.max 8 (2 * zlen bs) /\
    (vec_allocations u = 0 /\ vec_capacity u = 0 \/
     1 <= vec_allocations u /\ 4 * 2 ^ vec_allocations u <= Z.max 8 (2 * zlen bs)).
Proof. exact (fun HT HB HL => growth_thm cf D kf v t bs (conj HT (conj HB HL))). Qed.
Print Assumptions C91_growth.

(** By default a length-prefixed value is encoded with one allocation. *)
Theorem C91_dynamic_allocates_once cf D kf s v t bs :
  cf_est_override cf = false -> to_bytes cf D kf (VWrap v) (TDyn s t) = ROk bs -> zlen bs <= isize_max ->
  vec_to_bytes cf D kf (VWrap v) (TDyn s t) = ROk (mkVec bs (Z.max 8 (zlen bs)) 1).
Proof. exact (dynamic_thm cf D kf s v t bs). Qed.
Print Assumptions C91_dynamic_allocates_once.
Example C91_dynamic_allocates_once_case :
  to_bytes cap_default [] 9 (VWrap (cap_list 20)) (TDyn PrefU8 (TSeq (TInt U16))) = ROk (40 :: concat (repeat [1; 44] 20)).
Proof. vm_compute. reflexivity. Qed.
