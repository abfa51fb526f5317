(** Property theorems about SplitVec.  [sv_history v s] (SpecSplitVec.v): [v]
    was built by some sequence of SplitVec calls and [s] is the list of segments
    those calls should give. *)
From Verif Require Import Base ModelSplitVec ModelSpanIter SpecSplitVec ProofSplitVec ProofSpanIter.

(** *** C38 *)
Theorem C38_lengths_add_up : forall T (v : split_vec T) s,
  sv_history v s ->
  sv_is_balanced v = true /\
  sv_into_inner v = sg_elems s /\
  sv_len v = zlen (sg_elems s) /\
  sv_into_parts v = (sg_elems s, map zlen (sg_all s)) /\
  fold_right Z.add 0 (snd (sv_into_parts v)) = sv_len v /\
  sb_count_spans (sv_spans v) = zlen (sg_all s) /\
  (sv_is_empty v = true <-> sg_all s = []) /\
  (sv_is_contiguous v = true <-> zlen (sg_all s) <= 1) /\
  fst (sb_check_sum (sv_spans v)) = true.
Proof. exact @splitvec_adds_up. Qed.
Print Assumptions C38_lengths_add_up.

(** Concatenating two SplitVecs never panics and empties the second. *)
Theorem C38_concat_total : forall T m (v w : split_vec T) s t,
  sv_history v s -> sv_history w t ->
  exists v' w', sv_concat m v w = ROk (v', w') /\ sv_history v' (sg_concat s t) /\
                sv_is_empty w' = true.
Proof. exact @splitvec_concat_total. Qed.
Print Assumptions C38_concat_total.

Theorem C38_splitting_keeps_elements : forall T (v : split_vec T),
  sv_into_inner (sv_split v) = sv_into_inner v /\
  sv_into_inner (sv_split_force v) = sv_into_inner v /\
  sv_into_inner (sv_cleave v) = sv_into_inner v.
Proof. exact @splitting_keeps_elements. Qed.
Print Assumptions C38_splitting_keeps_elements.

(** *** C39 *)
Theorem C39_any_double_ended_iteration : forall T m (v : split_vec T) s asks,
  sv_history v s -> spans_asks m asks (sv_spans_iter v) = ROk (deque asks (sg_all s)).
Proof. exact @splitvec_iterates. Qed.
Print Assumptions C39_any_double_ended_iteration.

Theorem C39_forwards_backwards : forall T m (v : split_vec T) s,
  sv_history v s ->
  spans_asks m (repeat true (S (length (sg_all s)))) (sv_spans_iter v)
    = ROk (map Some (sg_all s) ++ [None]) /\
  spans_asks m (repeat false (S (length (sg_all s)))) (sv_spans_iter v)
    = ROk (map Some (rev (sg_all s)) ++ [None]) /\
  concat (sg_all s) = sv_into_inner v.
Proof. exact @splitvec_forwards_backwards. Qed.
Print Assumptions C39_forwards_backwards.

Theorem C39_collect_then_iterate : forall T m (ls : list (list T)),
  spans_asks m (repeat true (S (length ls))) (sv_spans_iter (sv_from_iter ls))
    = ROk (map Some ls ++ [None]).
Proof. exact @collect_then_iterate. Qed.
Print Assumptions C39_collect_then_iterate.

(** The same down to the iterators this is made of: the span lengths come from core's
    [Chain] over the frozen spans and the active one. *)
Theorem C39_lengths_from_both_ends : forall s asks,
  span_asks asks (sb_chain s) =
  deque asks (sb_stable s ++ match sb_active s with Some n => [n] | None => [] end).
Proof. exact span_lengths_double_ended. Qed.
Print Assumptions C39_lengths_from_both_ends.

Theorem C39_segments_from_both_ends : forall T m (v : split_vec T) s asks,
  sv_history v s -> sp_asks m asks (sv_spans_of v) = ROk (deque asks (sg_all s)).
Proof. exact @spans_double_ended. Qed.
Print Assumptions C39_segments_from_both_ends.

Example C39_both_ends_ex :
  span_asks [false; true; false; false; true; false] (sb_chain (mkSpanBuffer [2; 0; 3] (Some 1) 5)) =
    [Some 1; Some 2; Some 3; Some 0; None; None] /\
  sp_asks Debug [false; true; false; false; true]
    (sv_spans_of (sv_push_current 9 (sv_cleave (sv_extend [[1; 2]; []] (sv_from_vec [0]))))) =
    ROk [Some [9]; Some [0]; Some []; Some []; Some [1; 2]].
Proof. split; reflexivity. Qed.

Example sample_history :
  sv_history (sv_push_current 9 (sv_cleave (sv_extend [[1; 2]; []; [3]] (sv_from_vec [0]))))
             (mkSegs [[0]; [1; 2]; []; [3]; []] (Some [9])).
Proof. exact (H_push 9 _ _ (H_cleave _ _ (H_extend_spans [[1; 2]; []; [3]] _ _ (H_from_vec [0])))). Qed.

(** Not part of SplitVec's own API: [SpanBuffer::unfreeze] breaks the balance. *)
Theorem F18_unfreeze_breaks_sum :
  exists v : split_vec Z, exists s, sv_history v s /\
    exists sp, sb_unfreeze (sv_spans v) = ROk sp /\
      sv_is_balanced v = true /\ sv_is_balanced (mkSplitVec (sv_buffer v) sp) = false.
Proof. exact unfreeze_breaks_sum. Qed.
Print Assumptions F18_unfreeze_breaks_sum.

(** [unfreeze] undoes [freeze] on the list of spans, and panics exactly when a span
    is active or there is none to take back. *)
Theorem C39_unfreeze : forall s,
  (forall rest last, sb_active s = None -> sb_stable s = rest ++ [last] ->
     sb_unfreeze s = ROk (mkSpanBuffer rest (Some last) (sb_cache s))) /\
  (sb_active s <> None \/ sb_stable s = [] -> sb_unfreeze s = RPanic).
Proof. exact unfreeze_outcome. Qed.
Print Assumptions C39_unfreeze.

Example C39_unfreeze_ex :
  sb_unfreeze (mkSpanBuffer [2; 3] None 5) = ROk (mkSpanBuffer [2] (Some 3) 5) /\
  sb_unfreeze (mkSpanBuffer [2; 3] (Some 1) 5) = RPanic.
Proof. split; reflexivity. Qed.
