(** The "Parser Invariants" of README.md 199-232 (also parse/mod.rs 75-81 and
    the documentation of the methods, 92-168), as conditions on the state [p]
    of any parser: [h] runs its methods, [view_len] and [offset] are the
    methods of those names, [windows] counts the open context windows, and
    [allowed] are the sizes it may be asked for.  [remaining] of the README is
    [remainder] in the code. *)
From Verif Require Import Base ModelErrors ModelParser.

Section Laws.
Context {P : Type}.
Variables (h : handler P) (view_len offset : P -> Z) (windows : P -> nat) (allowed : Z -> Prop).

(** 2a: what [remaining] has to be. *)
Definition remaining (p : P) : Z := view_len p - offset p.

(** 1: a fresh parser over [buf]. *)
Definition fresh_law (p : P) (buf : list byte) : Prop :=
  offset p = 0 /\ view_len p = zlen buf /\ h Z OpRemainder p = (ROk (zlen buf), p) /\ windows p = O.

(** 2a, and that the position is inside the view. *)
Definition remainder_law (p : P) : Prop :=
  h Z OpRemainder p = (ROk (remaining p), p) /\ 0 <= offset p <= view_len p.

(** A call fails, by an [Err] that leaves the parser as it was or by a panic. *)
Definition refused {X : Set} (o : pop X) (p : P) : Prop :=
  (exists e, h X o p = (RErr e, p)) \/ fst (h X o p) = RPanic.

(** 2b and 3; mod.rs 100-103: the offset never changes, or counts the bytes. *)
Definition consume_law (p : P) : Prop := forall n, allowed n ->
  if n <=? remaining p
  then exists bs p', h _ (OpConsume n) p = (ROk bs, p') /\ zlen bs = n /\
         remaining p' = remaining p - n /\ windows p' = windows p /\
         (offset p' = offset p \/ offset p' = offset p + n)
  else refused (OpConsume n) p.

(** 4: a byte is consumed as a slice of one is. *)
Definition consume_byte_law (p : P) : Prop :=
  match h _ OpConsumeByte p with
  | (ROk b, p') => h _ (OpConsume 1) p = (ROk [b], p') /\ 1 <= remaining p
  | (RErr e, p') => h _ (OpConsume 1) p = (RErr e, p') /\ remaining p = 0
  | _ => False
  end.

(** 5, and 2c as mod.rs 79 has it: what remains is the window. *)
Definition set_fit_law (p : P) : Prop := forall n, allowed n ->
  if n <=? remaining p
  then exists p', h _ (OpSetFit n) p = (ROk tt, p') /\
         remaining p' = n /\ windows p' = S (windows p) /\ offset p' = offset p
  else refused (OpSetFit n) p.

(** 6, with the errors mod.rs 154-166 demands. *)
Definition enforce_target_law (p : P) : Prop :=
  match windows p with
  | O => h _ OpEnforceTarget p = (RErr (EWindow CloseWithoutWindow), p)
  | S outer =>
      if remaining p =? 0
      then exists p', h _ OpEnforceTarget p = (ROk tt, p') /\ windows p' = outer /\ offset p' = offset p
      else fst (h _ OpEnforceTarget p) = RErr (EWindow (CloseWithResidue (remaining p)))
  end.

(** 7, and mod.rs 80: true exactly if a window is open and used up, and then
    [enforce_target] would succeed. *)
Definition test_target_law (p : P) : Prop :=
  exists b, h _ OpTestTarget p = (ROk b, p) /\
    (b = true <-> windows p <> O /\ remaining p = 0) /\
    (b = true <-> fst (h _ OpEnforceTarget p) = ROk tt).

Definition reading_laws (p : P) : Prop :=
  remainder_law p /\ consume_law p /\ consume_byte_law p /\ set_fit_law p.
Definition window_laws (p : P) : Prop := enforce_target_law p /\ test_target_law p.
End Laws.
