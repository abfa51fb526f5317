(** Reference meaning of a leftover, and of the texts of segments. *)
From Coq Require Import String.
From Verif Require Import Base ModelSplitVec ModelParser ModelDisplay SpecSplitVec.

(** What a leftover holds: nothing, bytes outside any window, or segments. *)
Inductive held :=
| Nothing
| Loose (bytes : list byte)
| Windows (s : segs byte).

Definition held_bytes (h : held) : list byte :=
  match h with Nothing => [] | Loose b => b | Windows s => sg_elems s end.
Definition held_segments (h : held) : list (list byte) :=
  match h with Nothing => [] | Loose b => [b] | Windows s => sg_all s end.
(** The same as segments of which none has been closed, if there are no windows. *)
Definition held_segs (h : held) : segs byte :=
  match h with Nothing => mkSegs [] None | Loose b => mkSegs [] (Some b) | Windows s => s end.

(** [lo_history lo h]: [lo] was built by some sequence of LeftoverState calls
    (and constructors), and [h] is what it should hold. *)
Inductive lo_history : leftover -> held -> Prop :=
| LH_new : lo_history LEmpty Nothing
| LH_windowless b : lo_history (LWindowless b) (Loose b)
| LH_windowed v s : sv_history v s -> lo_history (LWindowed v) (Windows s)
| LH_append_new l : lo_history (fst (lo_append LEmpty l)) (Loose l)
| LH_append_loose lo b l :
    lo_history lo (Loose b) -> lo_history (fst (lo_append lo l)) (Loose (b ++ l))
| LH_append_windows lo s l :
    lo_history lo (Windows s) -> lo_history (fst (lo_append lo l)) (Windows (sg_append l s))
| LH_escape lo h :
    lo_history lo h -> lo_history (lo_escape_context lo) (Windows (sg_close_force (held_segs h))).

(** Segments between bars, each written by [show]. *)
Definition barred (show : list byte -> list byte) (segments : list (list byte)) : list byte :=
  txt "[|" ++ concat (map (fun s => show s ++ txt "|") segments) ++ txt "]".
