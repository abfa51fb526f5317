(** Model of FixSeq and LimSeq when built with the features arrayvec_fixseq and
    arrayvec_limseq: their storage is then [arrayvec::ArrayVec<T, N>] (version
    0.7.2, modelled from its documentation) instead of [Vec<T>].  A value is the
    list of its elements, as in [ModelSeq]. *)
From Verif Require Import Base ModelErrors ModelParser ModelSchema ModelSeq.

(** ------------------------------------------------------------------ *)
(** * ArrayVec *)
(** [ArrayVec::new]: "The maximum capacity is limited to u32::MAX". *)
Definition av_new {E A} (n : Z) : res E (list A) :=
  if n <=? 2 ^ 32 - 1 then ROk [] else RPanic.

(** [ArrayVec::push_unchecked]: undefined unless there is room; a debug build
    checks. *)
Definition av_push_unchecked {E A} (m : mode) (n : Z) (v : list A) (x : A) : res E (list A) :=
  if zlen v <? n then ROk (v ++ [x]) else match m with Debug => RPanic | Release => RUB end.

(** [ArrayVec: Extend], [FromIterator]: "Panics if extending the vector exceeds
    its capacity".  [k] bounds the number of items ([take(k)]). *)
Fixpoint av_extend_take {E A S} (next : S -> option A * S) (n : Z) (k : nat) (s : S) (v : list A) : res E (list A) :=
  match k with
  | O => ROk v
  | Datatypes.S k =>
      match next s with
      | (Some x, s') => if zlen v <? n then av_extend_take next n k s' (v ++ [x]) else RPanic
      | (None, _) => ROk v
      end
  end.

(** [ArrayVec: TryFrom<&[T]>] then [unwrap]. *)
Definition av_try_from_unwrap {E A} (n : Z) (slice : list A) : res E (list A) :=
  if zlen slice <=? n then ROk slice else RPanic.

(** ------------------------------------------------------------------ *)
(** * FixSeq and LimSeq over it *)
(** fix.rs 77-90, lim.rs 52-56, 140-151: [new], [default]. *)
Definition avs_new {A} (n : Z) : res length_error (list A) := av_new n.

(** boundedseq_impl.rs 47-59 with fix.rs 99-110, lim.rs 127-137: [try_push]. *)
Definition avs_try_push {A} (m : mode) (n : Z) (seq : list A) (x : A) : res length_error (list A) :=
  if zlen seq <? n then av_push_unchecked m n seq x else RErr (TooLong n (n + 1)).

(** fix.rs 160-174, lim.rs 194-208: [extend]; here [N - self.len()]. *)
Definition avs_extend {A S} (next : S -> option A * S) (m : mode) (n : Z) (seq : list A) (iter : S) : res length_error (list A) :=
  rbind (usub m n (zlen seq)) (fun rem =>
  match iter_nth next (Z.to_nat rem) iter with
  | (Some _, _) => RPanic
  | (None, i) =>
      rbind (av_extend_take next n (Z.to_nat rem) i seq) (fun seq' =>
      rbind (debug_assert m (zlen seq' <=? n)) (fun _ => ROk seq'))
  end).

(** fix.rs 186-195, lim.rs 220-229: [from_iter]. *)
Definition avs_from_iter {A S} (next : S -> option A * S) (m : mode) (n : Z) (iter : S) : res length_error (list A) :=
  match iter_nth next (Z.to_nat n) iter with
  | (Some _, _) => RPanic
  | (None, i) =>
      rbind (av_new n) (fun v =>
      rbind (av_extend_take next n (Z.to_nat n) i v) (fun ret =>
      rbind (debug_assert m (zlen ret <=? n)) (fun _ => ROk ret)))
  end.

(** [value.into_iter().collect()] into an ArrayVec: fix.rs 41-43, lim.rs 97-100. *)
Definition avs_collect {A} (n : Z) (value : list A) : res length_error (list A) :=
  rbind (av_new n) (fun v => av_extend_take list_next n (S (length value)) value v).

(** fix.rs 228-238, lim.rs 252-261: [TryFrom<&[T]>]. *)
Definition avs_fix_try_from_slice {A} (n : Z) (slice : list A) : res length_error (list A) :=
  if negb (n =? zlen slice) then RErr (WrongLength n (zlen slice)) else av_try_from_unwrap n slice.
Definition avs_lim_try_from_slice {A} (n : Z) (slice : list A) : res length_error (list A) :=
  if n <? zlen slice then RErr (TooLong n (zlen slice)) else av_try_from_unwrap n slice.

(** fix.rs 241-254, lim.rs 264-277: [TryFrom<Vec<T>>]. *)
Definition avs_try_from_vec {A} (n : Z) (value : list A) : res length_error (list A) :=
  if n <? zlen value then RErr (TooLong n (zlen value)) else avs_collect n value.

(** lim.rs 112-118: [from_vec]. *)
Definition avs_from_vec {A} (n : Z) (value : list A) : res length_error (list A) :=
  rbind (rassert (zlen value <=? n)) (fun _ => avs_collect n value).

(** fix.rs 37-39, lim.rs 63-67: [into_vec], [Vec::from]. *)
Definition avs_into_vec {A} (seq : list A) : list A := seq.

Local Open Scope prog_scope.
(** lim.rs 296-309: [LimSeq::parse]. *)
Fixpoint avs_lim_loop (m : mode) (fuel : nat) (n : Z) (elem : prog val) (seq : list val) : prog (list val) :=
  match fuel with
  | O => PDiv
  | S fuel =>
      rem <- p_remainder ;;
      if rem =? 0 then PRet seq
      else v <- elem ;;
           seq' <- plift (ext_len (avs_try_push m n seq v)) ;;
           avs_lim_loop m fuel n elem seq'
  end.
Definition avs_lim_parse (m : mode) (fuel : nat) (n : Z) (elem : prog val) : prog (list val) :=
  seq <- plift (ext_len (avs_new n)) ;; avs_lim_loop m fuel n elem seq.

(** fix.rs 276-297: [FixSeq::parse]. *)
Fixpoint avs_fix_loop (m : mode) (fuel : nat) (n : Z) (elem : prog val) (seq : list val) : prog (list val) :=
  match fuel with
  | O => PDiv
  | S fuel =>
      rem <- p_remainder ;;
      if negb (rem =? 0) && (zlen seq <? n) then
        v <- elem ;;
        seq' <- plift (ext_len (avs_try_push m n seq v)) ;;
        avs_fix_loop m fuel n elem seq'
      else if zlen seq =? n then PRet seq
      else PErr (EExternal (LengthViolation (WrongLength n (zlen seq))))
  end.
Definition avs_fix_parse (m : mode) (fuel : nat) (n : Z) (elem : prog val) : prog (list val) :=
  seq <- plift (ext_len (avs_new n)) ;; avs_fix_loop m fuel n elem seq.
