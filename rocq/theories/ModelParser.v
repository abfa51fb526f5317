(** Model of the parsers: /repo/src/parse/mod.rs, /repo/src/parse/buffer.rs,
    /repo/src/internal/offset.rs, stack.rs and view.rs. *)
From Verif Require Import Base ModelErrors ModelSplitVec.

Definition pres (A : Type) := res parse_error A.

(** ------------------------------------------------------------------ *)
(** * Buffers (parse/buffer.rs) *)

(** buffer.rs 187-189: [VecBuffer::get_slice_unchecked]; a range that is not
    inside the vector is undefined behaviour. *)
Definition vb_get_slice_unchecked {E} (m : mode) (ix len : Z) (buf : list byte)
  : res E (list byte) :=
  rbind (uadd m ix len) (fun e =>
    if (ix <=? e) && (e <=? zlen buf) then ROk (zslice ix e buf) else RUB).

(** buffer.rs 196-199: [VecBuffer::get_slice]. *)
Definition vb_get_slice {E} (m : mode) (ix len : Z) (buf : list byte) : res E (list byte) :=
  rbind (uadd m ix len) (fun e =>
  rbind (rassert (e <=? zlen buf)) (fun _ =>
    vb_get_slice_unchecked m ix len buf)).

(** buffer.rs 209-211: [VecBuffer::get_byte_unchecked]. *)
Definition vb_get_byte_unchecked {E} (ix : Z) (buf : list byte) : res E byte :=
  match nth_error buf (Z.to_nat ix) with
  | Some b => ROk b
  | None => RUB
  end.

(** buffer.rs 218-221: [VecBuffer::get_byte] (the assertion is [ix <= len]). *)
Definition vb_get_byte {E} (ix : Z) (buf : list byte) : res E byte :=
  rbind (rassert (ix <=? zlen buf)) (fun _ => vb_get_byte_unchecked ix buf).

(** buffer.rs 69-75: [SliceBuffer::cut_first]. *)
Definition slb_cut_first (buf : list byte) : option (byte * list byte) :=
  match buf with
  | [] => None
  | b :: tail => Some (b, tail)
  end.

(** buffer.rs 84-86: [SliceBuffer::cut_first_unchecked]. *)
Definition slb_cut_first_unchecked {E} (buf : list byte) : res E (byte * list byte) :=
  match buf with
  | [] => RUB
  | b :: tail => ROk (b, tail)
  end.

(** buffer.rs 110-115: [SliceBuffer::split_unchecked]. *)
Definition slb_split_unchecked {E} (mid : Z) (buf : list byte)
  : res E (list byte * list byte) :=
  if mid <=? zlen buf then ROk (ztake mid buf, zdrop mid buf) else RUB.

(** buffer.rs 94-97: [SliceBuffer::split]. *)
Definition slb_split {E} (mid : Z) (buf : list byte) : res E (list byte * list byte) :=
  rbind (rassert (mid <=? zlen buf)) (fun _ => slb_split_unchecked mid buf).

(** buffer.rs 141-143: [SliceBuffer::take_unchecked]. *)
Definition slb_take_unchecked {E} (n : Z) (buf : list byte)
  : res E (list byte * list byte) :=
  if n <=? zlen buf then ROk (ztake n buf, zdrop n buf) else RUB.

(** buffer.rs 124-127: [SliceBuffer::take]. *)
Definition slb_take {E} (n : Z) (buf : list byte) : res E (list byte * list byte) :=
  rbind (rassert (n <=? zlen buf)) (fun _ => slb_take_unchecked n buf).

(** ------------------------------------------------------------------ *)
(** * Offsets (internal/offset.rs, internal/stack.rs) *)

(** offset.rs 41-48: [Index::increment_checked]; returns the old index, whether
    the step was valid, and the new index. *)
Definition increment_checked {E} (m : mode) (ix n lim : Z) : res E (Z * bool * Z) :=
  rbind (uadd m ix n) (fun s =>
    let is_valid := s <=? lim in
    if is_valid
    then rbind (uadd m ix n) (fun ix' => ROk (ix, is_valid, ix'))
    else ROk (ix, is_valid, ix)).

(** offset.rs 280-284: [struct ContextOffset]; [co_frames] is the [FrameStack]
    (221) with the innermost target first (the Vec keeps it last). *)
Record context_offset := mkCO {
  co_abs : Z;
  co_frames : list Z;
  co_cur : Z
}.

(** offset.rs 377-383: [with_limit]. *)
Definition co_with_limit (abs : Z) : context_offset := mkCO abs [] 0.

(** offset.rs 387-389: [index]. *)
Definition co_index (o : context_offset) : Z := co_cur o.

(** offset.rs 260-262: [FrameStack::peek]. *)
Definition fs_peek (fs : list Z) : option Z := hd_error fs.

(** offset.rs 402-404 with stack.rs 56-58: [limit] = [peek_or(abs)]. *)
Definition co_limit (o : context_offset) : Z :=
  match fs_peek (co_frames o) with Some t => t | None => co_abs o end.

(** offset.rs 152-158: [IndexTracker::rem]. *)
Definition co_rem {E} (m : mode) (o : context_offset) : res E Z :=
  rbind (debug_assert m (co_index o <=? co_limit o)) (fun _ =>
    usub m (co_limit o) (co_index o)).

(** offset.rs 407-409: [advance]. *)
Definition co_advance {E} (m : mode) (n : Z) (o : context_offset)
  : res E (Z * bool * context_offset) :=
  rmap (fun '(ret, ok, cur') => (ret, ok, mkCO (co_abs o) (co_frames o) cur'))
       (increment_checked m (co_cur o) n (co_limit o)).

(** offset.rs 205-212: [detect_error]. *)
Definition detect_error (innermost : option Z) (request : Z) : option window_error :=
  match innermost with
  | Some limit => if limit <? request then Some (OpenWouldExceedWindow limit request) else None
  | None => None
  end.

(** offset.rs 236-238 with stack.rs 93-104: [push_frame] = [push_validated]. *)
Definition fs_push_frame (target : Z) (fs : list Z) : pres (list Z) :=
  match detect_error (fs_peek fs) target with
  | None => ROk (target :: fs)
  | Some err => RErr (EWindow err)
  end.

(** offset.rs 292-305: [ContextOffset::set_fit]. *)
Definition co_set_fit (m : mode) (winsize : Z) (o : context_offset)
  : pres unit * context_offset :=
  match @uadd parse_error m (co_index o) winsize with
  | ROk new_tgt =>
      if co_abs o <? new_tgt then
        (rbind (usub m (co_abs o) winsize) (fun bytes_left =>
           RErr (EWindow (OpenWouldExceedBuffer bytes_left winsize))), o)
      else
        match fs_push_frame new_tgt (co_frames o) with
        | ROk fs => (ROk tt, mkCO (co_abs o) fs (co_cur o))
        | RErr e => (RErr e, o)
        | _ => (RPanic, o)
        end
  | _ => (RPanic, o)
  end.

(** offset.rs 315-329: [ContextOffset::test_target]. *)
Definition co_test_target (o : context_offset) : pres bool :=
  let cur := co_index o in
  match fs_peek (co_frames o) with
  | Some tgt =>
      match tgt ?= cur with
      | Eq => ROk true
      | Gt => ROk false
      | Lt => RErr (EWindow (OffsetOverflow (cur - tgt)))
      end
  | None => ROk false
  end.

(** offset.rs 353-370: [ContextOffset::enforce_target]; the frame is popped
    before it is compared. *)
Definition co_enforce_target (o : context_offset) : pres unit * context_offset :=
  let cur := co_index o in
  match co_frames o with
  | [] => (RErr (EWindow CloseWithoutWindow), o)
  | tgt :: fs =>
      let o' := mkCO (co_abs o) fs (co_cur o) in
      match tgt ?= cur with
      | Eq => (ROk tt, o')
      | Gt => (RErr (EWindow (CloseWithResidue (tgt - cur))), o')
      | Lt => (RErr (EWindow (OffsetOverflow (cur - tgt))), o')
      end
  end.

(** ------------------------------------------------------------------ *)
(** * Operations of the [Parser] / [ParserExt] traits, and programs using them *)

(** parse/mod.rs 82-174 and 396-406: the required methods of [Parser] and
    [ParserExt] as an operation language, indexed by result type.
    [OpRemainder] is [remainder] (110-112), a provided method that
    [SliceParser] overrides. *)
Inductive pop : Set -> Set :=
| OpRemainder : pop Z
| OpConsumeByte : pop byte
| OpConsume (n : Z) : pop (list byte)
| OpSetFit (n : Z) : pop unit
| OpTestTarget : pop bool
| OpEnforceTarget : pop unit
| OpSkip (n : Z) : pop Z
| OpSkipExactly (n : Z) : pop unit.

(** A parser implementation interprets every operation over its own state,
    which is also returned after a failure. *)
Definition handler (P : Type) := forall X : Set, pop X -> P -> pres X * P.

(** Code that is generic over [P: Parser] (for instance every [Decode::parse]):
    a program built from the operations.  [PTry] runs an operation and
    continues with the second program if it returned an error; [POp] is the
    [?]-style use, where an error is returned to the caller. *)
Inductive prog (A : Type) : Type :=
| PRet (a : A)
| PErr (e : parse_error)
| PPanic
| PUB
| PDiv
| POp (X : Set) (o : pop X) (k : X -> prog A)
| PTry (X : Set) (o : pop X) (k : X -> prog A) (h : prog A).
Arguments PRet {A} a.
Arguments PErr {A} e.
Arguments PPanic {A}.
Arguments PUB {A}.
Arguments PDiv {A}.
Arguments POp {A X} o k.
Arguments PTry {A X} o k h.

(** Sequencing ([let x = m?; k(x)]). *)
Fixpoint pbind {A B} (m : prog A) (k : A -> prog B) : prog B :=
  match m with
  | PRet a => k a
  | PErr e => PErr e
  | PPanic => PPanic
  | PUB => PUB
  | PDiv => PDiv
  | POp o c => POp o (fun x => pbind (c x) k)
  | PTry o c h => PTry o (fun x => pbind (c x) k) (pbind h k)
  end.

Declare Scope prog_scope.
Delimit Scope prog_scope with prog.
Notation "x <- m ;; k" := (pbind m (fun x => k))
  (at level 61, m at next level, right associativity) : prog_scope.
Notation "' p <- m ;; k" := (pbind m (fun p => k))
  (at level 61, p pattern, m at next level, right associativity) : prog_scope.
Notation "m ;;; k" := (pbind m (fun _ => k)) (at level 61, right associativity) : prog_scope.
Open Scope prog_scope.

(** Embedding of a parser-independent result. *)
Definition plift {A} (r : pres A) : prog A :=
  match r with
  | ROk a => PRet a
  | RErr e => PErr e
  | RPanic => PPanic
  | RUB => PUB
  | RDiv => PDiv
  end.

Definition do_op {X : Set} (o : pop X) : prog X := POp o (@PRet X).

(** Running a program against a parser. *)
Fixpoint run {P A} (h : handler P) (m : prog A) (s : P) : pres A * P :=
  match m with
  | PRet a => (ROk a, s)
  | PErr e => (RErr e, s)
  | PPanic => (RPanic, s)
  | PUB => (RUB, s)
  | PDiv => (RDiv, s)
  | @POp _ X o k =>
      match h X o s with
      | (ROk x, s') => run h (k x) s'
      | (RErr e, s') => (RErr e, s')
      | (RPanic, s') => (RPanic, s')
      | (RUB, s') => (RUB, s')
      | (RDiv, s') => (RDiv, s')
      end
  | @PTry _ X o k f =>
      match h X o s with
      | (ROk x, s') => run h (k x) s'
      | (RErr _, s') => run h f s'
      | (RPanic, s') => (RPanic, s')
      | (RUB, s') => (RUB, s')
      | (RDiv, s') => (RDiv, s')
      end
  end.

(** ------------------------------------------------------------------ *)
(** * ByteParser (parse/mod.rs 688-847) *)

(** mod.rs 697-700: [struct ByteParser]. *)
Record byte_parser := mkBP { bp_buf : list byte; bp_off : context_offset }.

(** mod.rs 710-713: [from_buffer]. *)
Definition bp_from_buffer (buf : list byte) : byte_parser :=
  mkBP buf (co_with_limit (zlen buf)).

(** mod.rs 718-720: [view_len]. *)
Definition bp_view_len (p : byte_parser) : Z := co_limit (bp_off p).

(** mod.rs 724-726: [offset]. *)
Definition bp_offset (p : byte_parser) : Z := co_index (bp_off p).

(** mod.rs 110-112: [remainder], provided method. *)
Definition bp_remainder (m : mode) (p : byte_parser) : pres Z :=
  usub m (bp_view_len p) (bp_offset p).

(** mod.rs 728-741: [consume_byte]. *)
Definition bp_consume_byte (m : mode) (p : byte_parser) : pres byte * byte_parser :=
  match @co_advance parse_error m 1 (bp_off p) with
  | ROk (ix, adv, off) =>
      let p' := mkBP (bp_buf p) off in
      if adv : bool then (vb_get_byte ix (bp_buf p), p')
      else (RErr (EWindow (ConsumeWouldExceedLimit ix 1 (bp_view_len p'))), p')
  | _ => (RPanic, p)
  end.

(** mod.rs 743-756: [consume]. *)
Definition bp_consume (m : mode) (n : Z) (p : byte_parser) : pres (list byte) * byte_parser :=
  match @co_advance parse_error m n (bp_off p) with
  | ROk (ix, adv, off) =>
      let p' := mkBP (bp_buf p) off in
      if adv : bool then (vb_get_slice_unchecked m ix n (bp_buf p), p')
      else (RErr (EWindow (ConsumeWouldExceedLimit ix n (bp_view_len p'))), p')
  | _ => (RPanic, p)
  end.

(** mod.rs 759-761: [set_fit]. *)
Definition bp_set_fit (m : mode) (n : Z) (p : byte_parser) : pres unit * byte_parser :=
  let '(r, off) := co_set_fit m n (bp_off p) in (r, mkBP (bp_buf p) off).

(** mod.rs 764-766: [test_target]. *)
Definition bp_test_target (p : byte_parser) : pres bool * byte_parser :=
  (co_test_target (bp_off p), p).

(** mod.rs 769-771: [enforce_target]. *)
Definition bp_enforce_target (p : byte_parser) : pres unit * byte_parser :=
  let '(r, off) := co_enforce_target (bp_off p) in (r, mkBP (bp_buf p) off).

(** mod.rs 820-828: [skip]; [unreachable!] is a panic. *)
Definition bp_skip (m : mode) (n : Z) (p : byte_parser) : pres Z * byte_parser :=
  match co_rem m (bp_off p) with
  | ROk rem =>
      let delta := Z.min rem n in
      match @co_advance parse_error m delta (bp_off p) with
      | ROk (_, adv, off) =>
          if adv : bool then (ROk delta, mkBP (bp_buf p) off) else (RPanic, p)
      | _ => (RPanic, p)
      end
  | RErr e => (RErr e, p)
  | _ => (RPanic, p)
  end.

(** mod.rs 830-843: [skip_exactly]. *)
Definition bp_skip_exactly (m : mode) (n : Z) (p : byte_parser) : pres unit * byte_parser :=
  match @co_advance parse_error m n (bp_off p) with
  | ROk (ix, adv, off) =>
      let p' := mkBP (bp_buf p) off in
      if adv : bool then (ROk tt, p')
      else (RErr (EWindow (ConsumeWouldExceedLimit ix n (bp_view_len p'))), p')
  | _ => (RPanic, p)
  end.

(** [impl Parser + ParserExt for ByteParser]. *)
Definition byte_h (m : mode) : handler byte_parser :=
  fun X o p =>
    match o in pop X return pres X * byte_parser with
    | OpRemainder => (bp_remainder m p, p)
    | OpConsumeByte => bp_consume_byte m p
    | OpConsume n => bp_consume m n p
    | OpSetFit n => bp_set_fit m n p
    | OpTestTarget => bp_test_target p
    | OpEnforceTarget => bp_enforce_target p
    | OpSkip n => bp_skip m n p
    | OpSkipExactly n => bp_skip_exactly m n p
    end.

(** ------------------------------------------------------------------ *)
(** * MemoParser (parse/mod.rs 849-1042) *)

(** mod.rs 859-863: [struct MemoParser]; [mp_munches] oldest first. *)
Record memo_parser := mkMP {
  mp_buf : list byte;
  mp_off : context_offset;
  mp_munches : list Z
}.

(** mod.rs 893-901: [from_buffer]. *)
Definition mp_from_buffer (buf : list byte) : memo_parser :=
  mkMP buf (co_with_limit (zlen buf)) [].

(** mod.rs 865-877: [eprint_munches!]: the [SplitVec] that is printed. *)
Fixpoint mp_dump_loop {E} (m : mode) (buf : list byte) (munches : list Z) (ix : Z)
  (splits : split_vec byte) : res E (split_vec byte) :=
  match munches with
  | [] => ROk splits
  | len :: rest =>
      rbind (vb_get_slice m ix len buf) (fun tmp =>
      rbind (uadd m ix len) (fun ix' =>
        mp_dump_loop m buf rest ix' (sv_split (sv_extend_current tmp splits))))
  end.
Definition mp_dump {E} (m : mode) (p : memo_parser) : res E (split_vec byte) :=
  mp_dump_loop m (mp_buf p) (mp_munches p) 0 sv_new.

(** mod.rs 904-906, 909-911. *)
Definition mp_view_len (p : memo_parser) : Z := co_limit (mp_off p).
Definition mp_offset (p : memo_parser) : Z := co_index (mp_off p).
Definition mp_remainder (m : mode) (p : memo_parser) : pres Z :=
  usub m (mp_view_len p) (mp_offset p).

(** mod.rs 913-929: [consume_byte]. *)
Definition mp_consume_byte (m : mode) (p : memo_parser) : pres byte * memo_parser :=
  match @co_advance parse_error m 1 (mp_off p) with
  | ROk (ix, adv, off) =>
      if adv : bool then
        (vb_get_byte ix (mp_buf p), mkMP (mp_buf p) off (mp_munches p ++ [1]))
      else
        let p' := mkMP (mp_buf p) off (mp_munches p) in
        (rbind (mp_dump m p') (fun _ =>
           RErr (EWindow (ConsumeWouldExceedLimit ix 1 (mp_view_len p')))), p')
  | _ => (RPanic, p)
  end.

(** mod.rs 931-947: [consume]. *)
Definition mp_consume (m : mode) (n : Z) (p : memo_parser) : pres (list byte) * memo_parser :=
  match @co_advance parse_error m n (mp_off p) with
  | ROk (ix, adv, off) =>
      if adv : bool then
        (vb_get_slice_unchecked m ix n (mp_buf p), mkMP (mp_buf p) off (mp_munches p ++ [n]))
      else
        let p' := mkMP (mp_buf p) off (mp_munches p) in
        (rbind (mp_dump m p') (fun _ =>
           RErr (EWindow (ConsumeWouldExceedLimit ix n (mp_view_len p')))), p')
  | _ => (RPanic, p)
  end.

(** mod.rs 950-962: [set_fit], [test_target], [enforce_target]. *)
Definition mp_set_fit (m : mode) (n : Z) (p : memo_parser) : pres unit * memo_parser :=
  let '(r, off) := co_set_fit m n (mp_off p) in (r, mkMP (mp_buf p) off (mp_munches p)).
Definition mp_test_target (p : memo_parser) : pres bool * memo_parser :=
  (co_test_target (mp_off p), p).
Definition mp_enforce_target (p : memo_parser) : pres unit * memo_parser :=
  let '(r, off) := co_enforce_target (mp_off p) in (r, mkMP (mp_buf p) off (mp_munches p)).

(** mod.rs 1011-1021: [skip]. *)
Definition mp_skip (m : mode) (n : Z) (p : memo_parser) : pres Z * memo_parser :=
  match co_rem m (mp_off p) with
  | ROk rem =>
      let delta := Z.min rem n in
      match @co_advance parse_error m delta (mp_off p) with
      | ROk (_, adv, off) =>
          if adv : bool then (ROk delta, mkMP (mp_buf p) off (mp_munches p ++ [delta]))
          else (rbind (mp_dump m p) (fun _ => RPanic), p)
      | _ => (RPanic, p)
      end
  | RErr e => (RErr e, p)
  | _ => (RPanic, p)
  end.

(** mod.rs 1023-1038: [skip_exactly]; it does not record a munch. *)
Definition mp_skip_exactly (m : mode) (n : Z) (p : memo_parser) : pres unit * memo_parser :=
  match @co_advance parse_error m n (mp_off p) with
  | ROk (ix, adv, off) =>
      let p' := mkMP (mp_buf p) off (mp_munches p) in
      if adv : bool then (ROk tt, p')
      else (rbind (mp_dump m p') (fun _ =>
              RErr (EWindow (ConsumeWouldExceedLimit ix n (mp_view_len p')))), p')
  | _ => (RPanic, p)
  end.

(** [impl Parser + ParserExt for MemoParser]. *)
Definition memo_h (m : mode) : handler memo_parser :=
  fun X o p =>
    match o in pop X return pres X * memo_parser with
    | OpRemainder => (mp_remainder m p, p)
    | OpConsumeByte => mp_consume_byte m p
    | OpConsume n => mp_consume m n p
    | OpSetFit n => mp_set_fit m n p
    | OpTestTarget => mp_test_target p
    | OpEnforceTarget => mp_enforce_target p
    | OpSkip n => mp_skip m n p
    | OpSkipExactly n => mp_skip_exactly m n p
    end.

(** ------------------------------------------------------------------ *)
(** * SliceParser (parse/mod.rs 1044-1265) *)

(** mod.rs 1053-1055 with view.rs 53: the [ViewStack], innermost view first. *)
Definition slice_parser := list (list byte).

(** mod.rs 1067-1071 with view.rs 63-65: [from_buffer]. *)
Definition sp_from_buffer (buf : list byte) : slice_parser := [buf].

(** mod.rs 1074-1079: [view_len]; 1082-1084: [offset]; 1087-1089: [remainder]. *)
Definition sp_view_len (p : slice_parser) : Z :=
  match p with bs :: _ => zlen bs | [] => 0 end.
Definition sp_offset (p : slice_parser) : Z := 0.
Definition sp_remainder (p : slice_parser) : Z := sp_view_len p.

(** mod.rs 1091-1115: [consume_byte]. *)
Definition sp_consume_byte (p : slice_parser) : pres byte * slice_parser :=
  match p with
  | [] => (RErr (EWindow (ConsumeWouldExceedLimit 0 1 0)), p)
  | frame :: rest =>
      match slb_cut_first frame with
      | Some (ret, temp) => (ROk ret, temp :: rest)
      | None => (RErr (EWindow (ConsumeWouldExceedLimit 0 1 0)), p)
      end
  end.

(** mod.rs 1117-1141: [consume]. *)
Definition sp_consume (n : Z) (p : slice_parser) : pres (list byte) * slice_parser :=
  match p with
  | [] => (RErr (EWindow (ConsumeWouldExceedLimit 0 n 0)), p)
  | frame :: rest =>
      let limit := zlen frame in
      if n <=? limit then
        match slb_take_unchecked n frame with
        | ROk (ret, temp) => (ROk ret, temp :: rest)
        | RErr e => (RErr e, p)
        | _ => (RUB, p)
        end
      else (RErr (EWindow (ConsumeWouldExceedLimit 0 n limit)), p)
  end.

(** mod.rs 1143-1166: [set_fit]. *)
Definition sp_set_fit (n : Z) (p : slice_parser) : pres unit * slice_parser :=
  match p with
  | [] => if n =? 0 then (ROk tt, p)
          else (RErr (EWindow (OpenWouldExceedBuffer 0 n)), p)
  | frame :: rest =>
      if n <=? zlen frame then
        match slb_split_unchecked n frame with
        | ROk (novel, rem) => (ROk tt, novel :: rem :: rest)
        | RErr e => (RErr e, p)
        | _ => (RUB, p)
        end
      else (RErr (EWindow (OpenWouldExceedWindow (zlen frame) n)), p)
  end.

(** mod.rs 1169-1175: [test_target]. *)
Definition sp_test_target (p : slice_parser) : pres bool * slice_parser :=
  (match p with
   | t :: _ => ROk (match t with [] => true | _ => false end)
   | [] => ROk false
   end, p).

(** mod.rs 1177-1187: [enforce_target]. *)
Definition sp_enforce_target (p : slice_parser) : pres unit * slice_parser :=
  match p with
  | [] => (RErr (EWindow CloseWithoutWindow), p)
  | frame :: rest =>
      (if zlen frame =? 0 then ROk tt
       else RErr (EWindow (CloseWithResidue (zlen frame))), rest)
  end.

(** mod.rs 1222-1235: [skip]. *)
Definition sp_skip (n : Z) (p : slice_parser) : pres Z * slice_parser :=
  match p with
  | [] => (ROk 0, p)
  | frame :: rest =>
      let delta := Z.min (zlen frame) n in
      match slb_split_unchecked delta frame with
      | ROk (_, temp) => (ROk delta, temp :: rest)
      | RErr e => (RErr e, p)
      | _ => (RUB, p)
      end
  end.

(** mod.rs 1237-1261: [skip_exactly]. *)
Definition sp_skip_exactly (n : Z) (p : slice_parser) : pres unit * slice_parser :=
  match p with
  | [] => (RErr (EWindow (ConsumeWouldExceedLimit 0 n 0)), p)
  | frame :: rest =>
      let limit := zlen frame in
      if n <=? limit then
        match slb_split_unchecked n frame with
        | ROk (_, temp) => (ROk tt, temp :: rest)
        | RErr e => (RErr e, p)
        | _ => (RUB, p)
        end
      else (RErr (EWindow (ConsumeWouldExceedLimit 0 n limit)), p)
  end.

(** [impl Parser + ParserExt for SliceParser].  No arithmetic that could
    overflow: the build profile does not matter. *)
Definition slice_h : handler slice_parser :=
  fun X o p =>
    match o in pop X return pres X * slice_parser with
    | OpRemainder => (ROk (sp_remainder p), p)
    | OpConsumeByte => sp_consume_byte p
    | OpConsume n => sp_consume n p
    | OpSetFit n => sp_set_fit n p
    | OpTestTarget => sp_test_target p
    | OpEnforceTarget => sp_enforce_target p
    | OpSkip n => sp_skip n p
    | OpSkipExactly n => sp_skip_exactly n p
    end.

(** ------------------------------------------------------------------ *)
(** * Cleanup (parse/mod.rs 460-672, 773-816, 964-1007, 1189-1218) *)

(** mod.rs 480-495: [enum LeftoverState]. *)
Inductive leftover :=
| LEmpty
| LWindowless (buf : list byte)
| LWindowed (sbuf : split_vec byte).

(** mod.rs 518-526: [LeftoverState::append]; returns (self, other). *)
Definition lo_append (s : leftover) (other : list byte) : leftover * list byte :=
  match s with
  | LEmpty => (LWindowless other, other)
  | LWindowless buf => (LWindowless (buf ++ other), [])
  | LWindowed sbuf => let (sb, o) := sv_append_current other sbuf in (LWindowed sb, o)
  end.

(** mod.rs 570-582: [LeftoverState::promote] (the vector it leaves inside). *)
Definition lo_promote (s : leftover) : split_vec byte :=
  match s with
  | LEmpty => sv_new
  | LWindowless buf => sv_from_vec buf
  | LWindowed sbuf => sbuf
  end.

(** mod.rs 585-587: [escape_context]. *)
Definition lo_escape_context (s : leftover) : leftover :=
  LWindowed (sv_split_force (lo_promote s)).

(** mod.rs 595-602: [is_empty]. *)
Definition lo_is_empty (s : leftover) : bool :=
  match s with
  | LEmpty => true
  | LWindowed sbuf => sv_is_empty sbuf
  | LWindowless buf => match buf with [] => true | _ => false end
  end.

(** mod.rs 610-616: [len]. *)
Definition lo_len (s : leftover) : Z :=
  match s with
  | LEmpty => 0
  | LWindowless v => zlen v
  | LWindowed sv => sv_len sv
  end.

(** mod.rs 619-623: [enum InvariantError]. *)
Inductive invariant_error :=
| ErrorCaseUnexpected (e : window_error)
| ErrorKindUnexpected (e : parse_error)
| ErrorUnexpected (e : parse_error).

(** mod.rs 671: [CleanupResult], itself inside a [res] so that panics show. *)
Definition cleanup_result := res invariant_error leftover.

(** mod.rs 773-816 (ByteParser) and 964-1007 (MemoParser): the loop, over any
    parser; [ret] is the [Result] accumulated so far.  The loop pops a window
    per round, so [fuel] = number of open windows + 1 suffices; running out
    gives [RDiv]. *)
Fixpoint cleanup_loop {P} (h : handler P) (fuel : nat) (ret : leftover + invariant_error) (p : P)
  : cleanup_result :=
  match fuel with
  | O => RDiv
  | S fuel =>
      let close (ret : leftover + invariant_error) (p : P) : cleanup_result :=
        match h unit OpEnforceTarget p with
        | (ROk tt, p') =>
            cleanup_loop h fuel
              (match ret with inl o => inl (lo_escape_context o) | inr e => inr e end) p'
        | (RErr (EWindow CloseWithoutWindow), _) =>
            match ret with inl o => ROk o | inr e => RErr e end
        | (RErr (EWindow w), p') => cleanup_loop h fuel (inr (ErrorCaseUnexpected w)) p'
        | (RErr e, p') => cleanup_loop h fuel (inr (ErrorKindUnexpected e)) p'
        | (RPanic, _) => RPanic
        | (RUB, _) => RUB
        | (RDiv, _) => RDiv
        end in
      match h Z OpRemainder p with
      | (ROk rem, p) =>
          if rem =? 0 then close ret p
          else
            match h (list byte) (OpConsume rem) p with
            | (ROk tmp, p') =>
                close (match ret with inl o => inl (fst (lo_append o tmp)) | inr e => inr e end) p'
            | (RErr e, _) => RErr (ErrorUnexpected e)
            | (RPanic, _) => RPanic
            | (RUB, _) => RUB
            | (RDiv, _) => RDiv
            end
      | (RErr e, _) => RErr (ErrorUnexpected e)
      | (RPanic, _) => RPanic
      | (RUB, _) => RUB
      | (RDiv, _) => RDiv
      end
  end.

Definition bp_cleanup (m : mode) (p : byte_parser) : cleanup_result :=
  cleanup_loop (byte_h m) (S (length (co_frames (bp_off p)))) (inl LEmpty) p.
Definition mp_cleanup (m : mode) (p : memo_parser) : cleanup_result :=
  cleanup_loop (memo_h m) (S (length (co_frames (mp_off p)))) (inl LEmpty) p.

(** mod.rs 1189-1218: SliceParser's own loop, which returns at the first
    unexpected error. *)
Fixpoint sp_cleanup_loop (fuel : nat) (ret : leftover) (p : slice_parser) : cleanup_result :=
  match fuel with
  | O => RDiv
  | S fuel =>
      let close (ret : leftover) (p : slice_parser) : cleanup_result :=
        match sp_enforce_target p with
        | (ROk tt, p') => sp_cleanup_loop fuel (lo_escape_context ret) p'
        | (RErr (EWindow CloseWithoutWindow), _) => ROk ret
        | (RErr (EWindow w), _) => RErr (ErrorCaseUnexpected w)
        | (RErr e, _) => RErr (ErrorKindUnexpected e)
        | (RPanic, _) => RPanic
        | (RUB, _) => RUB
        | (RDiv, _) => RDiv
        end in
      let res := sp_remainder p in
      if res =? 0 then close ret p
      else
        match sp_consume res p with
        | (ROk tmp, p') => close (fst (lo_append ret tmp)) p'
        | (RErr e, _) => RErr (ErrorUnexpected e)
        | (RPanic, _) => RPanic
        | (RUB, _) => RUB
        | (RDiv, _) => RDiv
        end
  end.
Definition sp_cleanup (p : slice_parser) : cleanup_result :=
  sp_cleanup_loop (S (length p)) LEmpty p.

(** ------------------------------------------------------------------ *)
(** * Provided methods of [Parser] and [ParserExt] used by every codec *)

(** parse/error.rs 338-343: [coerce_slice]. *)
Definition coerce_slice (n : Z) (bytes : list byte) : pres (list byte) :=
  if zlen bytes =? n then ROk bytes else RErr (EInternal SliceCoerceFailure).

(** mod.rs 110-112: [remainder]; 119, 135, 143, 149, 169: required methods. *)
Definition p_remainder : prog Z := do_op OpRemainder.
Definition p_consume_byte : prog byte := do_op OpConsumeByte.
Definition p_consume (n : Z) : prog (list byte) := do_op (OpConsume n).
Definition p_set_fit (n : Z) : prog unit := do_op (OpSetFit n).
Definition p_enforce_target : prog unit := do_op OpEnforceTarget.
Definition p_skip_exactly (n : Z) : prog unit := do_op (OpSkipExactly n).

(** mod.rs 181-183: [consume_arr::<N>]. *)
Definition p_consume_arr (n : Z) : prog (list byte) :=
  bs <- p_consume n ;; plift (coerce_slice n bs).

(** mod.rs 336-338: [take_dynamic]; 343-345: [take_fixed::<N>]. *)
Definition p_take_dynamic (n : Z) : prog (list byte) := p_consume n.
Definition p_take_fixed (n : Z) : prog (list byte) := p_consume_arr n.

(** mod.rs 358-376: [take_self_terminating].  [fuel] bounds the loop; it
    consumes a byte per round. *)
Fixpoint p_self_terminating_loop (fuel : nat) (is_terminal : byte -> bool) (ret : list byte)
  : prog (list byte) :=
  match fuel with
  | O => PDiv
  | S fuel =>
      PTry OpConsumeByte
        (fun b =>
           let ret' := ret ++ [b] in
           if is_terminal b then PRet ret' else p_self_terminating_loop fuel is_terminal ret')
        (PErr (EToken (NonTerminating ret)))
  end.
(** mod.rs 362: [Vec::with_capacity(self.remainder())] panics ("capacity
    overflow") if asked for more than [isize::MAX] bytes. *)
Definition p_take_self_terminating (is_terminal : byte -> bool) : prog (list byte) :=
  rem <- p_remainder ;;
  if rem <=? isize_max then p_self_terminating_loop (S (Z.to_nat rem)) is_terminal []
  else PPanic.

(** mod.rs 674-684: [Iterator::next] = [consume_byte().ok()]. *)
Definition p_iter_next : prog (option byte) :=
  PTry OpConsumeByte (fun b => PRet (Some b)) (PRet None).
