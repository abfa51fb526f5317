(** A caller that catches panics and goes on with the same parser. *)
From Verif Require Import Base ModelErrors ModelParser SpecParser SpecAfter.

(** What is observed of a history in which every panic is caught: unlike [history],
    it goes on, with the parser as the panic has left it. *)
Fixpoint carry_on {P} (h : handler P) (ops : list any_op) (p : P) : list obs :=
  match ops with
  | [] => []
  | AnyOp o :: rest =>
      match h _ o p with
      | (ROk x, p') => obs_ok o x :: carry_on h rest p'
      | (RErr _, p') => ObsFail :: carry_on h rest p'
      | (RPanic, p') => ObsPanic :: carry_on h rest p'
      | (_, _) => [ObsUB]
      end
  end.

(** What is [real]ly observed is what is expected, except that a debug build may
    panic in a call that is expected to fail. *)
Definition expected (m : mode) (real ideal : obs) : Prop :=
  real = ideal \/ (m = Debug /\ real = ObsPanic /\ ideal = ObsFail).

(** A decoder given the parser [p], which stood before [w], was left by a panic and
    the parser is now in the state [p']: some calls of the parser's methods that
    return, all of them with legal arguments, lead there, and only bytes of the
    innermost window have been used. *)
Definition interrupted {P : Type} (m : mode) (h : handler P) (pol : residue_policy) (p : P) (w : wstack) (p' : P) : Prop :=
  exists ops w', Forall (arg_fits m) ops /\ bracketed pol ops w /\
    after h ops p = Some p' /\ after (spec_h pol) ops w = Some w' /\ inside w' w.
