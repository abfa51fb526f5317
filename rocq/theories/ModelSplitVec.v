(** Model of /repo/src/internal/splitvec.rs: SpanBuffer, SplitVec, Spans.

    Simplification throughout: span counters are unbounded integers, i.e.
    [+=] on them is not given an overflow case.  A balanced vector's counters
    sum to its length, which Rust bounds by [isize::MAX]. *)
From Verif Require Import Base.

(** splitvec.rs 59-64: [struct SpanBuffer]. *)
Record span_buffer := mkSpanBuffer {
  sb_stable : list Z;
  sb_active : option Z;
  sb_cache : Z
}.

(** splitvec.rs 80-86: [SpanBuffer::new]. *)
Definition sb_new : span_buffer := mkSpanBuffer [] None 0.

(** [Option::unwrap_or(0)] / [get_or_insert(0)]. *)
Definition or_zero (o : option Z) : Z := match o with Some x => x | None => 0 end.

(** splitvec.rs 104-106 [active_mut] followed by [add_assign(amount)]
    (534-536, [SplitVec::increment]). *)
Definition sb_increment (amount : Z) (s : span_buffer) : span_buffer :=
  mkSpanBuffer (sb_stable s) (Some (or_zero (sb_active s) + amount)) (sb_cache s).

(** splitvec.rs 104-106 [active_mut] followed by [mem::replace(_, n)] (478). *)
Definition sb_set_active (n : Z) (s : span_buffer) : span_buffer :=
  mkSpanBuffer (sb_stable s) (Some n) (sb_cache s).

(** splitvec.rs 116-121: [flush]. *)
Definition sb_flush (s : span_buffer) : span_buffer :=
  match sb_active s with
  | Some last => mkSpanBuffer (sb_stable s ++ [last]) None (sb_cache s + last)
  | None => s
  end.

(** splitvec.rs 129-133: [flush_force]. *)
Definition sb_flush_force (s : span_buffer) : span_buffer :=
  let frozen := or_zero (sb_active s) in
  mkSpanBuffer (sb_stable s ++ [frozen]) None (sb_cache s + frozen).

(** splitvec.rs 143-145: [sum]. *)
Definition sb_sum (s : span_buffer) : Z := sb_cache s + or_zero (sb_active s).

Definition zsum (l : list Z) : Z := fold_right Z.add 0 l.

(** splitvec.rs 155-159: [check_sum] (recomputes the cache). *)
Definition sb_check_sum (s : span_buffer) : bool * span_buffer :=
  let recache := zsum (sb_stable s) in
  (sb_cache s =? recache, mkSpanBuffer (sb_stable s) (sb_active s) recache).

(** splitvec.rs 173-179: [append]; returns (self, other) afterwards. *)
Definition sb_append (self other : span_buffer) : span_buffer * span_buffer :=
  let self1 := sb_flush self in
  (mkSpanBuffer (sb_stable self1 ++ sb_stable other) (sb_active other)
                (sb_cache self1 + sb_cache other),
   mkSpanBuffer [] (sb_active self1) 0).

(** splitvec.rs 190-192: [iter] — frozen spans, then the active one. *)
Definition sb_iter (s : span_buffer) : list Z :=
  sb_stable s ++ match sb_active s with Some x => [x] | None => [] end.

(** splitvec.rs 219-227: [unfreeze] (feature unfreeze_spanbuffer); the span
    taken back is the last element of [stable]. *)
Definition sb_unfreeze (s : span_buffer) : res unit span_buffer :=
  match sb_active s with
  | Some _ => RPanic
  | None =>
      match rev (sb_stable s) with
      | [] => RPanic
      | last :: r => ROk (mkSpanBuffer (rev r) (Some last) (sb_cache s))
      end
  end.

(** splitvec.rs 242-244: [is_empty]. *)
Definition sb_is_empty (s : span_buffer) : bool :=
  match sb_stable s, sb_active s with [], None => true | _, _ => false end.

(** splitvec.rs 262-264: [count_spans]. *)
Definition sb_count_spans (s : span_buffer) : Z :=
  zlen (sb_stable s) + match sb_active s with Some _ => 1 | None => 0 end.

(** splitvec.rs 285-287: [is_contiguous]. *)
Definition sb_is_contiguous (s : span_buffer) : bool :=
  match sb_stable s, sb_active s with
  | [], _ => true
  | [_], None => true
  | _, _ => false
  end.

(** splitvec.rs 294-302: [into_vec]. *)
Definition sb_into_vec (s : span_buffer) : list Z :=
  match sb_active s with
  | None => sb_stable s
  | Some last => sb_stable s ++ [last]
  end.

(** splitvec.rs 430-433: [struct SplitVec<T>]. *)
Record split_vec (T : Type) := mkSplitVec {
  sv_buffer : list T;
  sv_spans : span_buffer
}.
Arguments mkSplitVec {T} _ _.
Arguments sv_buffer {T} _.
Arguments sv_spans {T} _.

Section SplitVec.
Context {T : Type}.
Implicit Types (v : split_vec T) (l : list T).

(** splitvec.rs 462-467: [new]. *)
Definition sv_new : split_vec T := mkSplitVec [] sb_new.

(** splitvec.rs 476-480: [from_vec]. *)
Definition sv_from_vec (l : list T) : split_vec T :=
  mkSplitVec l (sb_set_active (zlen l) sb_new).

(** splitvec.rs 494-496: [split]. *)
Definition sv_split v : split_vec T := mkSplitVec (sv_buffer v) (sb_flush (sv_spans v)).

(** splitvec.rs 504-506: [split_force]. *)
Definition sv_split_force v : split_vec T :=
  mkSplitVec (sv_buffer v) (sb_flush_force (sv_spans v)).

(** splitvec.rs 514-517: [cleave]. *)
Definition sv_cleave v : split_vec T :=
  mkSplitVec (sv_buffer v) (sb_flush_force (sb_flush (sv_spans v))).

(** splitvec.rs 525-527: [is_balanced]. *)
Definition sv_is_balanced v : bool := zlen (sv_buffer v) =? sb_sum (sv_spans v).

(** splitvec.rs 554-557: [push_current]. *)
Definition sv_push_current (x : T) v : split_vec T :=
  mkSplitVec (sv_buffer v ++ [x]) (sb_increment 1 (sv_spans v)).

(** splitvec.rs 574-579: [extend_current]. *)
Definition sv_extend_current l v : split_vec T :=
  let l_before := zlen (sv_buffer v) in
  let buffer := sv_buffer v ++ l in
  let l_after := zlen buffer in
  mkSplitVec buffer (sb_increment (l_after - l_before) (sv_spans v)).

(** splitvec.rs 601-608: [extend_current_from_slice]. *)
Definition sv_extend_current_from_slice l v : split_vec T :=
  mkSplitVec (sv_buffer v ++ l) (sb_increment (zlen l) (sv_spans v)).

(** splitvec.rs 636-640: [append_current]; returns (self, other). *)
Definition sv_append_current l v : split_vec T * list T :=
  (mkSplitVec (sv_buffer v ++ l) (sb_increment (zlen l) (sv_spans v)), []).

(** splitvec.rs 650-656: [concat]; returns (self, other). *)
Definition sv_concat (m : mode) v (other : split_vec T)
  : res unit (split_vec T * split_vec T) :=
  rbind (debug_assert m (sv_is_balanced v)) (fun _ =>
  rbind (debug_assert m (sv_is_balanced other)) (fun _ =>
    let (s1, s2) := sb_append (sv_spans v) (sv_spans other) in
    ROk (mkSplitVec (sv_buffer v ++ sv_buffer other) s1, mkSplitVec [] s2))).

(** splitvec.rs 663-665: [into_inner]. *)
Definition sv_into_inner v : list T := sv_buffer v.

(** splitvec.rs 690-692: [len]. *)
Definition sv_len v : Z := zlen (sv_buffer v).

(** splitvec.rs 709-711: [is_empty]. *)
Definition sv_is_empty v : bool :=
  match sv_buffer v with [] => sb_is_empty (sv_spans v) | _ => false end.

(** splitvec.rs 737-739: [is_contiguous]. *)
Definition sv_is_contiguous v : bool := sb_is_contiguous (sv_spans v).

(** splitvec.rs 743-745: [into_parts]. *)
Definition sv_into_parts v : list T * list Z := (sv_buffer v, sb_into_vec (sv_spans v)).

(** splitvec.rs 794-805: [Extend::extend], one span per item. *)
Fixpoint sv_extend_loop (spans : list (list T)) v : split_vec T :=
  match spans with
  | [] => v
  | span :: rest => sv_extend_loop rest (sv_extend_current span (sv_split v))
  end.
Definition sv_extend (spans : list (list T)) v : split_vec T :=
  sv_split (sv_extend_loop spans v).

(** splitvec.rs 807-819: [FromIterator::from_iter]. *)
Fixpoint sv_from_iter_loop (spans : list (list T)) v : split_vec T :=
  match spans with
  | [] => v
  | span :: rest => sv_from_iter_loop rest (sv_split (sv_extend_current span v))
  end.
Definition sv_from_iter (spans : list (list T)) : split_vec T :=
  sv_from_iter_loop spans sv_new.

(** splitvec.rs 823-826: [struct Spans]. *)
Record spans_iter := mkSpans { si_buf : list T; si_lens : list Z }.

(** splitvec.rs 672-677: [SplitVec::spans]. *)
Definition sv_spans_iter v : spans_iter := mkSpans (sv_buffer v) (sb_iter (sv_spans v)).

(** splitvec.rs 842-857: [Spans::next]; [split_at] panics past the end. *)
Definition spans_next (m : mode) (it : spans_iter)
  : res unit (option (list T) * spans_iter) :=
  match si_lens it with
  | [] =>
      rbind (debug_assert m (match si_buf it with [] => true | _ => false end))
            (fun _ => ROk (None, it))
  | len :: lens =>
      if len <=? zlen (si_buf it)
      then ROk (Some (ztake len (si_buf it)), mkSpans (zdrop len (si_buf it)) lens)
      else RPanic
  end.

(** splitvec.rs 872-889: [Spans::next_back]. *)
Definition spans_next_back (m : mode) (it : spans_iter)
  : res unit (option (list T) * spans_iter) :=
  match rev (si_lens it) with
  | [] =>
      rbind (debug_assert m (match si_buf it with [] => true | _ => false end))
            (fun _ => ROk (None, it))
  | len :: rlens =>
      if len <=? zlen (si_buf it)
      then let mid := zlen (si_buf it) - len in
           ROk (Some (zdrop mid (si_buf it)), mkSpans (ztake mid (si_buf it)) (rev rlens))
      else RPanic
  end.

End SplitVec.
Arguments spans_iter T : clear implicits.
