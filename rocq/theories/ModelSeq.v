(** Model of the constructors of /repo/src/seq/fix.rs, /repo/src/seq/lim.rs and
    /repo/src/fixed.rs.

    With default features the storage of FixSeq and LimSeq is a [Vec]; a sequence
    is the list of its elements.  The two types have the same code up to names, so
    one definition stands for both unless it says otherwise. *)
From Verif Require Import Base ModelErrors ModelUtf8 ModelSchema.

(** ------------------------------------------------------------------ *)
(** * Iterators: a state and what [next] does to it (core) *)
Section Iterator.
Context {A S : Type} (next : S -> option A * S).

(** core [Iterator::nth(n)]: skips [n] items, stopping at the first [None], then
    calls [next]. *)
Fixpoint iter_nth (n : nat) (s : S) : option A * S :=
  match n with
  | O => next s
  | Datatypes.S n => match next s with (Some _, s') => iter_nth n s' | (None, s') => (None, s') end
  end.

(** [Vec::extend(iter.take(n))] / [Vec::from_iter(iter.take(n))] (alloc, core):
    [next] until it gives [None], at most [n] times. *)
Fixpoint extend_take (n : nat) (s : S) (v : list A) : list A :=
  match n with
  | O => v
  | Datatypes.S n => match next s with (Some x, s') => extend_take n s' (v ++ [x]) | (None, _) => v end
  end.

(** fix.rs 161-174, lim.rs 195-208: [extend].  [i.by_ref().nth(rem)] advances the
    iterator that [i.take(rem)] then reads. *)
Definition seq_extend (m : mode) (n : Z) (seq : list A) (iter : S) : res length_error (list A) :=
  if n <? zlen seq then RPanic
  else
    let rem := n - zlen seq in
    match iter_nth (Z.to_nat rem) iter with
    | (Some _, _) => RPanic
    | (None, i) =>
        let seq' := extend_take (Z.to_nat rem) i seq in
        rbind (debug_assert m (zlen seq' <=? n)) (fun _ => ROk seq')
    end.

(** fix.rs 186-195, lim.rs 220-229: [from_iter]. *)
Definition seq_from_iter (m : mode) (n : Z) (iter : S) : res length_error (list A) :=
  match iter_nth (Z.to_nat n) iter with
  | (Some _, _) => RPanic
  | (None, i) =>
      let ret := extend_take (Z.to_nat n) i [] in
      rbind (debug_assert m (zlen ret <=? n)) (fun _ => ROk ret)
  end.
End Iterator.

(** [std::vec::IntoIter::next]: an iterator over a list. *)
Definition list_next {A} (l : list A) : option A * list A :=
  match l with [] => (None, []) | x :: l => (Some x, l) end.

(** ------------------------------------------------------------------ *)
(** * Other constructors *)
(** fix.rs 70-82, 109-114; lim.rs 20-58, 142-153: [new] and [default]. *)
Definition seq_new {A} : list A := [].

(** fix.rs 212-239: [TryFrom<&[T]>] of FixSeq. *)
Definition fix_try_from_slice {A} (n : Z) (slice : list A) : res length_error (list A) :=
  if negb (n =? zlen slice) then RErr (WrongLength n (zlen slice)) else ROk slice.

(** fix.rs 241-254: [TryFrom<Vec<T>>] of FixSeq. *)
Definition fix_try_from_vec {A} (n : Z) (value : list A) : res length_error (list A) :=
  if n <? zlen value then RErr (TooLong n (zlen value)) else ROk value.

(** lim.rs 246-262: [TryFrom<&[T]>] of LimSeq. *)
Definition lim_try_from_slice {A} (n : Z) (slice : list A) : res length_error (list A) :=
  if n <? zlen slice then RErr (TooLong n (zlen slice)) else ROk slice.

(** lim.rs 264-277: [TryFrom<Vec<T>>] of LimSeq. *)
Definition lim_try_from_vec {A} (n : Z) (value : list A) : res length_error (list A) :=
  if n <? zlen value then RErr (TooLong n (zlen value)) else ROk value.

(** lim.rs 112-118: [LimSeq::from_vec]. *)
Definition lim_from_vec {A} (n : Z) (value : list A) : res length_error (list A) :=
  rbind (rassert (zlen value <=? n)) (fun _ => ROk value).

(** ------------------------------------------------------------------ *)
(** * FixedBytes<N>, FixedString<N> (fixed.rs)

    A value is the list of the [N] bytes of its array. *)

(** fixed.rs 112-124: [FixedBytes::try_from_slice]; the slice is read through a
    pointer to [[u8; N]] after its length is compared. *)
Definition fb_try_from_slice (n : Z) (bytes : list byte) : res width_error (list byte) :=
  if zlen bytes =? n then ROk bytes else RErr (WrongWidth n (zlen bytes)).

(** fixed.rs 234-240: [TryFrom<&[u8]>], through [<[u8; N]>::try_from] (core); its
    error has no content. *)
Definition array_try_from (n : Z) (value : list byte) : res unit (list byte) :=
  if zlen value =? n then ROk value else RErr tt.
Definition fb_try_from (n : Z) (value : list byte) : res unit (list byte) := array_try_from n value.

(** fixed.rs 406-415: [FixedString::try_from_bytes]; 422-455: [FromStr],
    [TryFrom<String>], [TryFrom<&str>] and [TryFrom<&[u8]>] call it. *)
Definition fs_try_from_bytes (n : Z) (bytes : list byte) : res width_error (list byte) :=
  match array_try_from n bytes with
  | ROk contents => ROk contents
  | _ => RErr (WrongWidth n (zlen bytes))
  end.

(** fixed.rs 329-334: [FixedString::try_from_array]; the error is [Utf8Error]. *)
Definition fs_try_from_array (arr : list byte) : res unit (list byte) :=
  if utf8_valid arr then ROk arr else RErr tt.

(** fixed.rs 457-469: [From<[u8; N]>] and [From<&[u8; N]>]. *)
Definition fs_from_array (arr : list byte) : list byte := arr.

(** fixed.rs 349-351: [is_valid_utf8]; 386-388: [as_string_lossy]. *)
Definition fs_is_valid_utf8 (v : list byte) : bool := utf8_valid v.
Definition fs_as_string_lossy (v : list byte) : list byte := utf8_lossy v.

(** boundedseq_impl.rs 47-59: a run of calls of [try_push] on one sequence, with what
    each returned (true for [Ok]); when it returns [Err], [self] has not been touched. *)
Fixpoint push_calls {A} (n : Z) (seq : list A) (xs : list A) : list A * list bool :=
  match xs with
  | [] => (seq, [])
  | x :: xs =>
      match try_push n seq x with
      | ROk seq' => let '(s, l) := push_calls n seq' xs in (s, true :: l)
      | _ => let '(s, l) := push_calls n seq xs in (s, false :: l)
      end
  end.
