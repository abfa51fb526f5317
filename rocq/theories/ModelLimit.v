(** Decoding with an allocator that can refuse: the program of [ModelMemory] once
    more, where a reservation need not succeed. *)
From Verif Require Import Base ModelErrors ModelParser ModelInt ModelSchema ModelMemory SpecCodec.

(** A call ends, or the process is aborted. *)
Inductive outcome (A : Type) := Ended (a : A) | Aborted.
Arguments Ended {A} a.
Arguments Aborted {A}.

(** Alloc: [Vec], [String] and [Box] panic ("capacity overflow") if asked for a block
    of more than [isize::MAX] bytes, and abort ([handle_alloc_error]) if the allocator
    refuses.  [grants used n] says whether it lets have [n] bytes while [used] bytes
    are in use. *)
Fixpoint lrun {P A} (grants : Z -> Z -> bool) (h : handler P) (m : mprog A) (s : P) (used : Z) : outcome (pres A * P) :=
  match m with
  | MRet a => Ended (ROk a, s)
  | MRun pg k =>
      match run h pg s with
      | (ROk x, s') => lrun grants h (k x) s' used
      | (RErr e, s') => Ended (RErr e, s')
      | (RPanic, s') => Ended (RPanic, s')
      | (RUB, s') => Ended (RUB, s')
      | (RDiv, s') => Ended (RDiv, s')
      end
  | MTick k => lrun grants h k s used
  | MAsk n k =>
      if isize_max <? n then Ended (RPanic, s)
      else if grants used n then lrun grants h k s (used + n)
      else Aborted
  | MGive n k => lrun grants h k s (used - n)
  end.

Section Sized.
Variable size_of : ty -> Z.
Variable grants : Z -> Z -> bool.

(** [Decode::try_decode] (conv/mod.rs 293-310) with that allocator.  Simplification:
    as in ModelMemory; the buffer with the input is there already. *)
Definition finish {P} (cleanup : P -> cleanup_result) (cf : config) (r : outcome (pres val * P)) : outcome (res decode_error val) :=
  match r with
  | Aborted => Aborted
  | Ended (RErr e, _) => Ended (RErr (DParse e))
  | Ended (RPanic, _) => Ended RPanic
  | Ended (RUB, _) => Ended RUB
  | Ended (RDiv, _) => Ended RDiv
  | Ended (ROk v, p) =>
      Ended (if cf_complete cf then
        match cleanup p with
        | ROk lo => if lo_is_empty lo then ROk v else RErr (DNonEmpty lo)
        | RErr e => RErr (DInvariant e)
        | RPanic => RPanic
        | RUB => RUB
        | RDiv => RDiv
        end
      else ROk v)
  end.
Definition limited_decode (w : which_parser) (cf : config) (D : list def) (f : nat) (t : ty) (input : list byte) : outcome (res decode_error val) :=
  match w with
  | WByte => finish (bp_cleanup (cf_mode cf)) cf (lrun grants (byte_h (cf_mode cf)) (mparse size_of cf D f t) (bp_from_buffer input) 0)
  | WMemo => finish (mp_cleanup (cf_mode cf)) cf (lrun grants (memo_h (cf_mode cf)) (mparse size_of cf D f t) (mp_from_buffer input) 0)
  | WSlice => finish sp_cleanup cf (lrun grants slice_h (mparse size_of cf D f t) (sp_from_buffer input) 0)
  end.
End Sized.
