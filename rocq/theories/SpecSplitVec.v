(** Reference meaning of a SplitVec: a list of closed segments and possibly one
    open segment. *)
From Verif Require Import Base ModelSplitVec.

Section Spec.
Context {T : Type}.

Record segs := mkSegs { sg_closed : list (list T); sg_open : option (list T) }.

(** All segments, in order. *)
Definition sg_all (s : segs) : list (list T) :=
  sg_closed s ++ match sg_open s with Some o => [o] | None => [] end.

(** All elements, in order. *)
Definition sg_elems (s : segs) : list T := concat (sg_all s).

(** Append elements to the open segment, opening one if there is none. *)
Definition sg_append (l : list T) (s : segs) : segs :=
  mkSegs (sg_closed s) (Some (match sg_open s with Some o => o | None => [] end ++ l)).

(** Close the open segment, if any. *)
Definition sg_close (s : segs) : segs := mkSegs (sg_all s) None.

(** Close the open segment, or add an empty closed one if there is none. *)
Definition sg_close_force (s : segs) : segs :=
  mkSegs (sg_closed s ++ [match sg_open s with Some o => o | None => [] end]) None.

(** The segments of [a] closed, followed by those of [b]. *)
Definition sg_concat (a b : segs) : segs := mkSegs (sg_all a ++ sg_closed b) (sg_open b).

(** [sv_history v s]: [v] was built by some sequence of SplitVec calls, and [s]
    is what the same calls give on the reference. *)
Inductive sv_history : split_vec T -> segs -> Prop :=
| H_new : sv_history sv_new (mkSegs [] None)
| H_from_vec l : sv_history (sv_from_vec l) (mkSegs [] (Some l))
| H_from_iter ls : sv_history (sv_from_iter ls) (mkSegs ls None)
| H_push x v s : sv_history v s -> sv_history (sv_push_current x v) (sg_append [x] s)
| H_extend l v s : sv_history v s -> sv_history (sv_extend_current l v) (sg_append l s)
| H_extend_slice l v s :
    sv_history v s -> sv_history (sv_extend_current_from_slice l v) (sg_append l s)
| H_append_current l v s :
    sv_history v s -> sv_history (fst (sv_append_current l v)) (sg_append l s)
| H_split v s : sv_history v s -> sv_history (sv_split v) (sg_close s)
| H_split_force v s : sv_history v s -> sv_history (sv_split_force v) (sg_close_force s)
| H_cleave v s :
    sv_history v s -> sv_history (sv_cleave v) (sg_close_force (sg_close s))
| H_extend_spans ls v s :
    sv_history v s -> sv_history (sv_extend ls v) (mkSegs (sg_all s ++ ls) None)
| H_concat_left m v w v' w' s t :
    sv_history v s -> sv_history w t -> sv_concat m v w = ROk (v', w') ->
    sv_history v' (sg_concat s t)
| H_concat_right m v w v' w' s t :
    sv_history v s -> sv_history w t -> sv_concat m v w = ROk (v', w') ->
    sv_history w' (mkSegs [] None).

(** A double-ended iterator over a list: [true] asks at the front, [false] at
    the back. *)
Fixpoint deque {A} (asks : list bool) (l : list A) : list (option A) :=
  match asks with
  | [] => []
  | true :: asks =>
      match l with [] => None :: deque asks [] | x :: l => Some x :: deque asks l end
  | false :: asks =>
      match rev l with
      | [] => None :: deque asks []
      | x :: r => Some x :: deque asks (rev r)
      end
  end.

(** The answers of [Spans::next] / [Spans::next_back] to the same asks. *)
Fixpoint spans_asks (m : mode) (asks : list bool) (it : spans_iter T)
  : res unit (list (option (list T))) :=
  match asks with
  | [] => ROk []
  | front :: asks =>
      rbind (if front then spans_next m it else spans_next_back m it) (fun r =>
        rbind (spans_asks m asks (snd r)) (fun l => ROk (fst r :: l)))
  end.
End Spec.
Arguments segs T : clear implicits.
