(** C33 (histories), C34 and C48: bounded sequences and fixed-size strings. *)
From Verif Require Import Base ModelErrors ModelUtf8 ModelSchema ModelSeq SpecUtf8 SpecSeq ProofUtf8 ProofSeq.

(** ------------------------------------------------------------------ *)
(** * C33 *)
(** Whatever safe operations made it, with whatever iterators. *)
Theorem C33_histories : forall A n (seq : list A), 0 <= n -> built n seq -> zlen seq <= n.
Proof. exact @built_bounded. Qed.
Print Assumptions C33_histories.

Example C33_histories_ex : built 3 [1; 2].
Proof.
  eapply (built_push 3 [1] 2); [|reflexivity].
  eapply (built_push 3 [] 1); [apply built_new|reflexivity].
Qed.

(** Pushing [xs] one by one: the first [n - len] are accepted and stored in order,
    every later call fails and changes nothing. *)
Theorem C33_pushes : forall A n (xs seq : list A), zlen seq <= n ->
  push_calls n seq xs =
  (seq ++ firstn (Z.to_nat (n - zlen seq)) xs,
   map (fun i => Z.of_nat i <? n - zlen seq) (List.seq 0 (length xs))).
Proof. exact @push_calls_spec. Qed.
Print Assumptions C33_pushes.

Theorem C33_push_full : forall A n (seq : list A) x, zlen seq = n ->
  try_push n seq x = RErr (TooLong n (n + 1)) /\ push_calls n seq [x] = (seq, [false]).
Proof. exact @push_full. Qed.
Print Assumptions C33_push_full.

Example C33_pushes_ex : push_calls 3 [7] [1; 2; 3; 4] = ([7; 1; 2], [true; true; false; false]).
Proof. reflexivity. Qed.

(** ------------------------------------------------------------------ *)
(** * C34 *)
Theorem C34_lim_try_from : forall A n (l : list A),
  (zlen l <= n -> lim_try_from_slice n l = ROk l /\ lim_try_from_vec n l = ROk l /\ lim_from_vec n l = ROk l) /\
  (n < zlen l -> lim_try_from_slice n l = RErr (TooLong n (zlen l)) /\
                 lim_try_from_vec n l = RErr (TooLong n (zlen l)) /\ lim_from_vec n l = RPanic).
Proof. exact @lim_try_from. Qed.
Print Assumptions C34_lim_try_from.

Theorem C34_fix_try_from_vec : forall A n (l : list A),
  (zlen l <= n -> fix_try_from_vec n l = ROk l) /\
  (n < zlen l -> fix_try_from_vec n l = RErr (TooLong n (zlen l))).
Proof. exact @fix_vec. Qed.
Print Assumptions C34_fix_try_from_vec.

(** From a slice, FixSeq takes only exactly [n] elements ... *)
Theorem C34_fix_try_from_slice_partial : forall A n (l : list A),
  (zlen l = n -> fix_try_from_slice n l = ROk l) /\
  (zlen l <> n -> fix_try_from_slice n l = RErr (WrongLength n (zlen l))).
Proof. exact @fix_slice. Qed.
Print Assumptions C34_fix_try_from_slice_partial.

(** ... although its documentation says that a shorter one does not fail (F23). *)
Theorem C34_fix_try_from_slice_refuted :
  exists n (l : list Z) e, zlen l <= n /\ fix_try_from_slice n l = RErr e.
Proof. exact fix_slice_refuted. Qed.
Print Assumptions C34_fix_try_from_slice_refuted.

Example C34_try_from_ex :
  lim_try_from_vec 4 [1; 2; 3] = ROk [1; 2; 3] /\ fix_try_from_vec 4 [1; 2; 3] = ROk [1; 2; 3] /\
  fix_try_from_slice 3 [1; 2; 3] = ROk [1; 2; 3].
Proof. split; [|split]; reflexivity. Qed.

(** [collect] and [extend]: right for an iterator without items, and refused by a
    panic, as documented, for one with too many. *)
Theorem C34_collect_empty_partial : forall A S (next : S -> option A * S) m n seq it,
  fused next -> yields next it [] -> 0 <= n ->
  seq_from_iter next m n it = ROk [] /\
  (zlen seq <= n -> seq_extend next m n seq it = ROk seq).
Proof. exact @collect_empty. Qed.
Print Assumptions C34_collect_empty_partial.

Theorem C34_collect_too_long_partial : forall A S (next : S -> option A * S) m n seq it xs,
  yields next it xs -> 0 <= n ->
  (n < zlen xs -> seq_from_iter next m n it = RPanic) /\
  (n < zlen seq + zlen xs -> seq_extend next m n seq it = RPanic).
Proof. exact @collect_over. Qed.
Print Assumptions C34_collect_too_long_partial.

(** F10: the check consumes the iterator, so what fits is lost: the witness, and the
    fact that it is so for every (fused) iterator that fits. *)
Theorem C34_collect_refuted :
  (exists m n, seq_from_iter list_next m n [1; 2; 3] = ROk [] /\ n = 5 /\
               seq_extend list_next m n [9] [1; 2; 3] = ROk [9]) /\
  (forall A S (next : S -> option A * S) m n seq it xs, fused next -> yields next it xs ->
     (zlen xs <= n -> seq_from_iter next m n it = ROk []) /\
     (zlen seq + zlen xs <= n -> seq_extend next m n seq it = ROk seq)).
Proof. exact collect_loses_all. Qed.
Print Assumptions C34_collect_refuted.

Example C34_iterators_ex : forall (l : list Z), yields list_next l l /\ fused (@list_next Z).
Proof. intros l. split; [apply list_yields|apply list_fused]. Qed.

(** ------------------------------------------------------------------ *)
(** * C48 *)
Theorem C48_constructors : forall n bs v,
  (fb_try_from_slice n bs = ROk v <-> zlen bs = n /\ v = bs) /\
  (fb_try_from n bs = ROk v <-> zlen bs = n /\ v = bs) /\
  (fs_try_from_bytes n bs = ROk v <-> zlen bs = n /\ v = bs) /\
  (zlen bs <> n -> fb_try_from_slice n bs = RErr (WrongWidth n (zlen bs)) /\
                   fb_try_from n bs = RErr tt /\
                   fs_try_from_bytes n bs = RErr (WrongWidth n (zlen bs))).
Proof. exact fixed_constructors. Qed.
Print Assumptions C48_constructors.

Theorem C48_try_from_array : forall bs v, bytes_ok bs ->
  (fs_try_from_array bs = ROk v <-> v = bs /\ exists cs, Forall scalar cs /\ bs = utf8_string cs).
Proof. exact fixed_string_array. Qed.
Print Assumptions C48_try_from_array.

(** [From<[u8; N]>] of FixedString takes any array, UTF-8 or not. *)
Theorem C48_from_array_refuted :
  exists bs, bytes_ok bs /\ zlen bs = 1 /\ fs_from_array bs = bs /\ fs_try_from_array bs = RErr tt /\
             forall cs, Forall scalar cs -> bs <> utf8_string cs.
Proof. exact fixed_string_from_refuted. Qed.
Print Assumptions C48_from_array_refuted.

Example C48_ex :
  fb_try_from_slice 3 [1; 2; 3] = ROk [1; 2; 3] /\ fb_try_from_slice 3 [1; 2] = RErr (WrongWidth 3 2) /\
  fs_try_from_array [226; 130; 172] = ROk [226; 130; 172].
Proof. split; [|split]; reflexivity. Qed.
