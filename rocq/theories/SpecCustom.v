(** Hand-written parsers: what a type has to do to be a [Parser] (parse/mod.rs
    43-174, the documentation of the trait), in terms of the stack of windows of
    SpecParser. *)
From Verif Require Import Base ModelErrors ModelParser ModelSchema SpecParser SpecCodec.

(** [sees p w]: the parser [p] stands before the bytes [w].  Whenever a method is
    called within its contract it does what SpecParser says, or returns an error
    where SpecParser fails; after a failed [consume_byte], which the library may
    recover from, nothing has changed. *)
Definition honours {P : Type} (h : handler P) (sees : P -> wstack -> Prop) : Prop :=
  forall (X : Set) (o : pop X) p w, sees p w -> in_contract o w = true ->
  match spec_op Keep o w with
  | (Some x, w') => exists p', h X o p = (ROk x, p') /\ sees p' w'
  | (None, w') => exists e p', h X o p = (RErr e, p') /\ (is_byte_op o = true -> sees p' w')
  end.

(** Reading a [t] with the parser [p], and then all that is left, ends with [out]
    (compare [reads], which is for the parsers of the library). *)
Definition reads_through {P : Type} (h : handler P) (p : P) (cf : config) (D : list def) (t : ty)
  (out : pres (val * list byte)) : Prop :=
  settles (fun f => fst (run h (then_rest (parse cf D f t)) p)) out.

(** A parser nobody wrote: it keeps the stack of windows as a list of lists,
    innermost first, and reports the error [e] whatever goes wrong. *)
Definition stack_parser : Type := (list byte * list (list byte))%type.
Definition stack_h (e : parse_error) : handler stack_parser := fun X o p =>
  let '(cur, outer) := p in
  match spec_op Keep o (mkW cur outer) with
  | (Some x, w') => (ROk x, (w_cur w', w_outer w'))
  | (None, w') => (RErr e, (w_cur w', w_outer w'))
  end.
