(** What a target is told to expect, and what it gets (conv/target.rs 12-25, the
    documentation of [anticipate]). *)
From Verif Require Import Base ModelTarget SpecTarget.

(** Every announcement of [n] bytes is followed by at least [n] bytes. *)
Definition no_idle_announcement (calls : list target_call) : Prop :=
  forall before n after, calls = before ++ CAnticipate n :: after -> n <= zlen (pushed_by after).
(** Every announcement is of exactly the bytes that some of the calls after it push
    (those up to the end of the value that was announced). *)
Definition exact_announcements (calls : list target_call) : Prop :=
  forall before n after, calls = before ++ CAnticipate n :: after ->
    exists announced rest, after = announced ++ rest /\ zlen (pushed_by announced) = n.
