(** Model of /repo/src/builder/: the [Builder] trait (mod.rs 60-109) and the two
    builders, with the calls of [std::io::Write] they also implement. *)
From Verif Require Import Base ModelUtf8 ModelHex ModelSplitVec ModelTarget.

(** builder/mod.rs 60-109: [trait Builder : Target], together with
    [std::io::Write] ([bd_write], [bd_flush]; both impls always return [Ok], so
    [bd_write] gives the number inside it) and [From<Vec<u8>>], [From<&[u8]>],
    [Into<Vec<u8>>].  The provided methods are the functions below. *)
Record builder (U Seg Final : Type) := mkBuilder {
  bd_target : target U;
  bd_write : list byte -> U -> Z * U;
  bd_flush : U -> U;
  bd_from_vec : list byte -> U;
  bd_from_slice : list byte -> U;
  bd_into : U -> list byte;
  bd_promote : Seg -> U;
  bd_word : byte -> U;
  bd_words : list byte -> U;
  bd_finalize : U -> Final;
  bd_final_into : Final -> list byte;
  bd_len : U -> Z
}.
Arguments bd_target {U Seg Final}.
Arguments bd_write {U Seg Final}.
Arguments bd_flush {U Seg Final}.
Arguments bd_from_vec {U Seg Final}.
Arguments bd_from_slice {U Seg Final}.
Arguments bd_into {U Seg Final}.
Arguments bd_promote {U Seg Final}.
Arguments bd_word {U Seg Final}.
Arguments bd_words {U Seg Final}.
Arguments bd_finalize {U Seg Final}.
Arguments bd_final_into {U Seg Final}.
Arguments bd_len {U Seg Final}.

Section Provided.
Context {U Seg Final : Type} (B : builder U Seg Final).

(** mod.rs 83-85: [into_vec]. *)
Definition bd_into_vec (u : U) : list byte := bd_final_into B (bd_finalize B u).
(** mod.rs 88-90: [into_hex]. *)
Definition bd_into_hex (u : U) : list byte := hex_of_bytes (bd_into_vec u).
(** mod.rs 93-95: [empty]. *)
Definition bd_empty : U := bd_words B [].
(** mod.rs 97-99: [into_bin]; the error of [String::from_utf8] gives the bytes
    back and is modelled by them. *)
Definition bd_into_bin (u : U) : res (list byte) (list byte) :=
  if utf8_valid (bd_into_vec u) then ROk (bd_into_vec u) else RErr (bd_into_vec u).
(** mod.rs 105-107: [is_empty]. *)
Definition bd_is_empty (u : U) : bool := bd_len B u =? 0.
End Provided.

(** builder/strict.rs 27-43 (conversions), 45-55 (Write; std: [Vec::write]
    appends all of the buffer, [Vec::flush] does nothing), 89-123 (Builder). *)
Definition bd_strict : builder strict_builder strict_builder (list byte) := {|
  bd_target := tg_strict;
  bd_write := fun buf u => (zlen buf, mkStrict (sb_vec u ++ buf));
  bd_flush := fun u => u;
  bd_from_vec := mkStrict;
  bd_from_slice := mkStrict;
  bd_into := sb_vec;
  bd_promote := fun seg => seg;
  bd_word := fun b => mkStrict [b];
  bd_words := mkStrict;
  bd_finalize := strict_finalize;
  bd_final_into := fun v => v;
  bd_len := fun u => zlen (sb_vec u)
|}.

(** builder/memo.rs 57-75 (conversions), 98-102, 128-150 (Write), 205-248
    (Builder).  A [MemoBuffer] (85-88) is the pair of its fields. *)
Definition bd_memo : builder (split_vec byte) (list byte) (list byte * list Z) := {|
  bd_target := tg_memo;
  bd_write := fun buf u => (zlen buf, sv_extend_current_from_slice buf u);
  bd_flush := sv_split;
  bd_from_vec := sv_from_vec;
  bd_from_slice := sv_from_vec;
  bd_into := sv_into_inner;
  bd_promote := sv_from_vec;
  bd_word := fun b => sv_from_vec [b];
  bd_words := sv_from_vec;
  bd_finalize := memo_finalize;
  bd_final_into := fst;
  bd_len := sv_len
|}.

(** Text: "[|", "|" and "]". *)
Definition show_open : list byte := [91; 124].
Definition show_bar : list byte := [124].
Definition show_close : list byte := [93].

(** core [&buf[i..j]]: panics unless [i <= j <= len]. *)
Definition slice_get {T E} (i j : Z) (buf : list T) : res E (list T) :=
  if (i <=? j) && (j <=? zlen buf) then ROk (zslice i j buf) else RPanic.

(** The loop [for l in lens { .. &buf[ix..ix + l] ..; ix += l; }] of the two
    [Display] impls below; [body] is what is written for one slice. *)
Fixpoint show_loop (m : mode) (body : list byte -> list byte) (buf : list byte) (lens : list Z) (ix : Z)
  : res unit (list byte) :=
  match lens with
  | [] => ROk []
  | l :: lens =>
      rbind (uadd m ix l) (fun hi =>
      rbind (slice_get ix hi buf) (fun part =>
      rbind (uadd m ix l) (fun ix =>
      rbind (show_loop m body buf lens ix) (fun rest => ROk (body part ++ rest)))))
  end.
Definition bracketed (r : res unit (list byte)) : res unit (list byte) :=
  rbind r (fun body => ROk (show_open ++ body ++ show_close)).

(** internal/splitvec.rs 778-792: [Display for SplitVec<u8>]: the bytes of each
    span in hex, a bar after the span.  builder/memo.rs 51-55: [Display for
    MemoBuilder]. *)
Definition sv_show (m : mode) (u : split_vec byte) : res unit (list byte) :=
  bracketed (show_loop m (fun part => hex_of_bytes part ++ show_bar)
               (sv_buffer u) (sb_iter (sv_spans u)) 0).

(** builder/memo.rs 113-126: [Display for MemoBuffer]: a bar after each byte. *)
Fixpoint show_bytes (l : list byte) : list byte :=
  match l with [] => [] | b :: l => fmt_02x b ++ show_bar ++ show_bytes l end.
Definition memo_show (m : mode) (b : list byte * list Z) : res unit (list byte) :=
  bracketed (show_loop m show_bytes (fst b) (snd b) 0).

(** internal/splitvec.rs 765-776: [Debug for SplitVec<T>]; [fmt] is what
    [{:?}] of a slice of [T] writes. *)
Fixpoint debug_loop {T} (fmt : list T -> list byte) (buf : list T) (lens : list Z) : res unit (list byte) :=
  match lens with
  | [] => ROk []
  | l :: lens =>
      rbind (slice_get 0 l buf) (fun part =>
      rbind (slice_get l (zlen buf) buf) (fun buf =>
      rbind (debug_loop fmt buf lens) (fun rest => ROk (fmt part ++ show_bar ++ rest))))
  end.
Definition sv_debug {T} (fmt : list T -> list byte) (u : split_vec T) : res unit (list byte) :=
  bracketed (debug_loop fmt (sv_buffer u) (sb_iter (sv_spans u))).
