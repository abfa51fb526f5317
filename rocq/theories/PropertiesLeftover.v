(** Property theorems about leftovers (C71) and about the texts and equality of
    segmented byte lists (C72).  [lo_history lo h] (SpecLeftover.v): [lo] was
    built by some sequence of LeftoverState calls and [h] is what it should hold. *)
From Coq Require Import String.
From Verif Require Import Base ModelHex ModelSplitVec ModelParser ModelDisplay ModelSplitText
  SpecSplitVec SpecParser SpecLeftover ProofLeftover.

(** *** C71: a leftover holds what was put into it *)
Theorem C71_contents : forall lo h, lo_history lo h ->
  lo_bytes lo = held_bytes h /\ lo_len lo = zlen (held_bytes h) /\ lo_segments lo = held_segments h.
Proof. exact leftover_contents. Qed.
Print Assumptions C71_contents.

(** A leftover holding a byte is never reported empty. *)
Theorem C71_bytes_not_empty : forall lo h x,
  lo_history lo h -> In x (held_bytes h) -> lo_is_empty lo = false.
Proof. exact leftover_nonempty. Qed.
Print Assumptions C71_bytes_not_empty.

(** It is reported empty exactly when it has no segment, or was never windowed and
    has no byte; what is missing is "exactly when it has no byte". *)
Theorem C71_empty_partial : forall lo h, lo_history lo h ->
  (lo_is_empty lo = true <-> held_segments h = [] \/ h = Loose []).
Proof. exact leftover_empty. Qed.
Print Assumptions C71_empty_partial.

Theorem C71_empty_refuted : exists lo h,
  lo_history lo h /\ held_bytes h = [] /\ lo_is_empty lo = false.
Proof. exact empty_window_not_empty. Qed.
Print Assumptions C71_empty_refuted.

(** The vector appended is left empty exactly when the leftover was not [Empty]
    (or there was nothing to append). *)
Theorem C71_append_drains_partial : forall lo l,
  snd (lo_append lo l) = [] <-> lo <> LEmpty \/ l = [].
Proof. exact append_empties. Qed.
Print Assumptions C71_append_drains_partial.

Theorem C71_append_drains_refuted : exists lo l,
  lo_history lo Nothing /\ snd (lo_append lo l) <> [] /\ lo_bytes (fst (lo_append lo l)) = l.
Proof. exact append_leaves_bytes. Qed.
Print Assumptions C71_append_drains_refuted.

Example C71_sample : lo_history
  (fst (lo_append (lo_escape_context (lo_escape_context (fst (lo_append LEmpty [1; 2])))) [3]))
  (Windows (mkSegs [[1; 2]; []] (Some [3]))).
Proof. exact (LH_append_windows _ _ [3] (LH_escape _ _ (LH_escape _ _ (LH_append_new [1; 2])))). Qed.

(** *** C72: printing and comparing segmented byte lists *)
Theorem C72_display : forall v s, sv_history v s ->
  sv_display v = ROk (barred hex_of_bytes (sg_all s)).
Proof. exact display_gives. Qed.
Print Assumptions C72_display.

Theorem C72_debug : forall v s, sv_history v s ->
  sv_debug v = ROk (barred show_list (sg_all s)).
Proof. exact debug_gives. Qed.
Print Assumptions C72_debug.

(** Either text tells the segments. *)
Theorem C72_display_tells : forall v s w t, sv_history v s -> sv_history w t ->
  bytes_ok (sg_elems s) -> bytes_ok (sg_elems t) ->
  (sv_display v = sv_display w <-> sg_all s = sg_all t).
Proof. exact display_texts. Qed.
Print Assumptions C72_display_tells.

Theorem C72_debug_tells : forall v s w t, sv_history v s -> sv_history w t ->
  (sv_debug v = sv_debug w <-> sg_all s = sg_all t).
Proof. exact debug_texts. Qed.
Print Assumptions C72_debug_tells.

Theorem C72_span_texts_tell : forall s s',
  (sb_debug s = sb_debug s' <-> sb_stable s = sb_stable s' /\ sb_active s = sb_active s') /\
  (sb_display s = sb_display s' <-> sb_stable s = sb_stable s' /\ sb_active s = sb_active s').
Proof. exact span_texts. Qed.
Print Assumptions C72_span_texts_tell.

Theorem C72_leftover_text : forall lo h, lo_history lo h ->
  lo_debug lo = ROk match h with
                    | Nothing => txt "Empty"
                    | Loose b => txt "Windowless(" ++ show_list b ++ txt ")"
                    | Windows s => txt "Windowed(" ++ barred show_list (sg_all s) ++ txt ")"
                    end.
Proof. exact leftover_text. Qed.
Print Assumptions C72_leftover_text.

Theorem C72_leftover_tells : forall lo h lo' h',
  lo_history lo h -> lo_history lo' h' -> lo_debug lo = lo_debug lo' ->
  held_segments h = held_segments h' /\ held_bytes h = held_bytes h' /\ lo_is_empty lo = lo_is_empty lo'.
Proof. exact leftover_texts. Qed.
Print Assumptions C72_leftover_tells.

(** Equality is equality of the segments, the open one told from the closed ones. *)
Theorem C72_equal : forall v s w t, sv_history v s -> sv_history w t -> (sv_eq v w = true <-> s = t).
Proof. exact split_equal. Qed.
Print Assumptions C72_equal.

Theorem C72_leftover_equal : forall lo h lo' h',
  lo_history lo h -> lo_history lo' h' -> (lo_eq lo lo' = true <-> h = h').
Proof. exact leftover_equal. Qed.
Print Assumptions C72_leftover_equal.

Example C72_sample :
  sv_display (sv_push_current 9 (sv_cleave (sv_extend [[1; 2]; []; [255]] (sv_from_vec [0]))))
    = ROk (txt "[|00|0102||ff||09|]") /\
  sv_debug (sv_push_current 9 (sv_cleave (sv_extend [[1; 2]; []; [255]] (sv_from_vec [0]))))
    = ROk (txt "[|[0]|[1, 2]|[]|[255]|[]|[9]|]") /\
  sb_debug (mkSpanBuffer [2; 0] (Some 13) 2) = txt "SpanBuffer([2, 0] >| Some(13))" /\
  sb_display (mkSpanBuffer [2; 0] (Some 13) 2) = txt "[2, 0] + ~13" /\
  lo_debug (lo_escape_context LEmpty) = ROk (txt "Windowed([|[]|])") /\
  sv_eq (sv_split (sv_from_vec [1])) (sv_from_vec [1]) = false.
Proof. repeat split; vm_compute; reflexivity. Qed.
