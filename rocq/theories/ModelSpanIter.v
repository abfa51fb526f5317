(** Model of the iterators over span lengths (/repo/src/internal/splitvec.rs 324-406)
    and of [Spans] (823-889) on top of them, down to core's [Chain].

    [slice::Iter] and [vec::IntoIter] are the items not yet given out;
    [option::Iter] and [option::IntoIter] are the item, if not yet given out. *)
From Verif Require Import Base ModelSplitVec.

Section Chain.
Context {A : Type}.

(** core [Chain { a: Option<A>, b: Option<B> }]: a side is cleared when the call
    that tries it first finds it empty. *)
Record chain := mkChain { ch_a : option (list A); ch_b : option (option A) }.

(** core: [next] and [next_back] of a slice iterator. *)
Definition items_next (l : list A) : option A * list A :=
  match l with [] => (None, []) | x :: l => (Some x, l) end.
Definition items_next_back (l : list A) : option A * list A :=
  match rev l with [] => (None, []) | x :: r => (Some x, rev r) end.
(** core: either of them of an [Option]'s iterator. *)
Definition item_take (o : option A) : option A * option A := (o, None).

(** core [and_then_or_clear]. *)
Definition and_then_or_clear {I} (f : I -> option A * I) (side : option I) : option A * option I :=
  match side with
  | None => (None, None)
  | Some i =>
      match f i with
      | (None, _) => (None, None)
      | (Some x, i) => (Some x, Some i)
      end
  end.
(** [self.b.as_mut()?.next()] *)
Definition and_then {I} (f : I -> option A * I) (side : option I) : option A * option I :=
  match side with
  | None => (None, None)
  | Some i => let (x, i) := f i in (x, Some i)
  end.

(** core [Chain::next]. *)
Definition chain_next (c : chain) : option A * chain :=
  match and_then_or_clear items_next (ch_a c) with
  | (Some x, a) => (Some x, mkChain a (ch_b c))
  | (None, a) => let (x, b) := and_then item_take (ch_b c) in (x, mkChain a b)
  end.
(** core [Chain::next_back]. *)
Definition chain_next_back (c : chain) : option A * chain :=
  match and_then_or_clear item_take (ch_b c) with
  | (Some x, b) => (Some x, mkChain (ch_a c) b)
  | (None, b) => let (x, a) := and_then items_next_back (ch_a c) in (x, mkChain a b)
  end.
End Chain.
Arguments chain A : clear implicits.

(** splitvec.rs 190-192 [iter], 380-382 [into_iter] of a [SpanBuffer], 400-402 of a
    reference to it. *)
Definition sb_chain (s : span_buffer) : chain Z := mkChain (Some (sb_stable s)) (Some (sb_active s)).

(** splitvec.rs 331-345 [Iter], 352-370 [IntoIter]: forwarded to the chain. *)
Definition span_next (c : chain Z) : option Z * chain Z := chain_next c.
Definition span_next_back (c : chain Z) : option Z * chain Z := chain_next_back c.

Section Spans.
Context {T : Type}.

(** splitvec.rs 823-826: [struct Spans]; 672-677: [spans]. *)
Record spans := mkSpansOf { sp_buf : list T; sp_lens : chain Z }.
Definition sv_spans_of (v : split_vec T) : spans := mkSpansOf (sv_buffer v) (sb_chain (sv_spans v)).

(** splitvec.rs 842-857: [Spans::next]. *)
Definition sp_next (m : mode) (it : spans) : res unit (option (list T) * spans) :=
  match span_next (sp_lens it) with
  | (None, lens) =>
      rbind (debug_assert m (match sp_buf it with [] => true | _ => false end)) (fun _ =>
        ROk (None, mkSpansOf (sp_buf it) lens))
  | (Some len, lens) =>
      if len <=? zlen (sp_buf it)
      then ROk (Some (ztake len (sp_buf it)), mkSpansOf (zdrop len (sp_buf it)) lens)
      else RPanic
  end.

(** splitvec.rs 872-889: [Spans::next_back]. *)
Definition sp_next_back (m : mode) (it : spans) : res unit (option (list T) * spans) :=
  match span_next_back (sp_lens it) with
  | (None, lens) =>
      rbind (debug_assert m (match sp_buf it with [] => true | _ => false end)) (fun _ =>
        ROk (None, mkSpansOf (sp_buf it) lens))
  | (Some len, lens) =>
      if len <=? zlen (sp_buf it)
      then let mid := zlen (sp_buf it) - len in
           ROk (Some (zdrop mid (sp_buf it)), mkSpansOf (ztake mid (sp_buf it)) lens)
      else RPanic
  end.
End Spans.
Arguments spans T : clear implicits.

(** A caller's sequence of calls: [true] asks at the front, [false] at the back. *)
Fixpoint span_asks (asks : list bool) (c : chain Z) : list (option Z) :=
  match asks with
  | [] => []
  | front :: asks =>
      let (x, c) := if front then span_next c else span_next_back c in x :: span_asks asks c
  end.
Fixpoint sp_asks {T} (m : mode) (asks : list bool) (it : spans T) : res unit (list (option (list T))) :=
  match asks with
  | [] => ROk []
  | front :: asks =>
      rbind (if front then sp_next m it else sp_next_back m it) (fun '(x, it) =>
        rbind (sp_asks m asks it) (fun l => ROk (x :: l)))
  end.
