(** Model of the texts of SplitVec and its span buffer, of their derived
    equality, and of the [Debug] text of a leftover:
    /repo/src/internal/splitvec.rs and /repo/src/parse/mod.rs.

    Simplification: [Debug for SplitVec<T>] is modelled for bytes only, the one
    element type the crate uses.  Texts as in ModelDisplay.v. *)
From Coq Require Import String.
From Verif Require Import Base ModelHex ModelSplitVec ModelParser ModelDisplay.

(** core: [Debug] of an [Option<usize>]. *)
Definition show_option (o : option Z) : list byte :=
  match o with
  | None => txt "None"
  | Some n => txt "Some(" ++ show_int n ++ txt ")"
  end.

(** splitvec.rs 305-309: [Debug for SpanBuffer]. *)
Definition sb_debug (s : span_buffer) : list byte :=
  txt "SpanBuffer(" ++ show_list (sb_stable s) ++ txt " >| " ++ show_option (sb_active s) ++ txt ")".

(** splitvec.rs 311-320: [Display for SpanBuffer]. *)
Definition sb_display (s : span_buffer) : list byte :=
  show_list (sb_stable s) ++
  match sb_active s with Some n => txt " + ~" ++ show_int n | None => [] end.

(** splitvec.rs 766-776: [Debug for SplitVec]; [&buf[..l]] and [&buf[l..]] panic
    past the end. *)
Fixpoint sv_debug_loop (lens : list Z) (buf : list byte) : res unit (list byte) :=
  match lens with
  | [] => ROk []
  | l :: lens =>
      if l <=? zlen buf
      then rbind (sv_debug_loop lens (zdrop l buf)) (fun r => ROk (show_list (ztake l buf) ++ txt "|" ++ r))
      else RPanic
  end.
Definition sv_debug (v : split_vec byte) : res unit (list byte) :=
  rbind (sv_debug_loop (sb_iter (sv_spans v)) (sv_buffer v)) (fun r => ROk (txt "[|" ++ r ++ txt "]")).

(** splitvec.rs 778-792: [Display for SplitVec<u8>]; [ix + l] is bounded by the
    slice that is taken first, so [ix += l] cannot overflow. *)
Fixpoint sv_display_loop (lens : list Z) (buf : list byte) (ix : Z) : res unit (list byte) :=
  match lens with
  | [] => ROk []
  | l :: lens =>
      if ix + l <=? zlen buf
      then rbind (sv_display_loop lens buf (ix + l)) (fun r =>
             ROk (hex_of_bytes (zslice ix (ix + l) buf) ++ txt "|" ++ r))
      else RPanic
  end.
Definition sv_display (v : split_vec byte) : res unit (list byte) :=
  rbind (sv_display_loop (sb_iter (sv_spans v)) (sv_buffer v) 0) (fun r => ROk (txt "[|" ++ r ++ txt "]")).

(** core: equality of vectors of integers, and of [Option<usize>]. *)
Fixpoint vec_eq (a b : list Z) : bool :=
  match a, b with
  | [], [] => true
  | x :: a, y :: b => (x =? y) && vec_eq a b
  | _, _ => false
  end.
Definition option_eq (a b : option Z) : bool :=
  match a, b with
  | None, None => true
  | Some x, Some y => x =? y
  | _, _ => false
  end.

(** splitvec.rs 59: derived [PartialEq] of [SpanBuffer], the cache included. *)
Definition sb_eq (a b : span_buffer) : bool :=
  vec_eq (sb_stable a) (sb_stable b) && option_eq (sb_active a) (sb_active b) && (sb_cache a =? sb_cache b).

(** splitvec.rs 429: derived [PartialEq] of [SplitVec]. *)
Definition sv_eq (a b : split_vec byte) : bool :=
  vec_eq (sv_buffer a) (sv_buffer b) && sb_eq (sv_spans a) (sv_spans b).

(** parse/mod.rs 479: derived [PartialEq] of [LeftoverState]. *)
Definition lo_eq (a b : leftover) : bool :=
  match a, b with
  | LEmpty, LEmpty => true
  | LWindowless x, LWindowless y => vec_eq x y
  | LWindowed v, LWindowed w => sv_eq v w
  | _, _ => false
  end.

(** parse/mod.rs 479: derived [Debug] of [LeftoverState]. *)
Definition lo_debug (lo : leftover) : res unit (list byte) :=
  match lo with
  | LEmpty => ROk (txt "Empty")
  | LWindowless buf => ROk (txt "Windowless(" ++ show_list buf ++ txt ")")
  | LWindowed v => rbind (sv_debug v) (fun r => ROk (txt "Windowed(" ++ r ++ txt ")"))
  end.
