(** What a decoder leaves behind in the parser it was given, in terms of the stack
    of windows of SpecParser. *)
From Verif Require Import Base ModelErrors ModelParser ModelSchema SpecParser.

(** From [w] only bytes of the innermost window have been used, from its beginning;
    what is left of it may have been cut up by further windows.  The windows around
    it are as they were. *)
Definition inside (w' w : wstack) : Prop :=
  exists opened used,
    w_outer w' = opened ++ w_outer w /\
    w_cur w = used ++ w_cur w' ++ concat opened.

(** A decoder given the parser [p], which stands before [w], has returned [r] and
    left the parser in the state [p']: some calls [ops] of the parser's methods,
    all of them with legal arguments, lead there, both for the parser and for the
    reference machine. *)
Definition leaves {P A : Type} (m : mode) (h : handler P) (pol : residue_policy) (p : P) (w : wstack)
  (r : pres A) (p' : P) : Prop :=
  match r with
  | ROk _ => exists ops w', Forall (arg_fits m) ops /\ bracketed pol ops w /\
      after h ops p = Some p' /\ after (spec_h pol) ops w = Some w' /\
      inside w' w /\ w_outer w' = w_outer w
  | RErr _ => exists ops w', Forall (arg_fits m) ops /\ bracketed pol ops w /\
      after h ops p = Some p' /\ after (spec_h pol) ops w = Some w' /\ inside w' w
  | RPanic => m = Debug
  | RUB => False
  | RDiv => True
  end.
