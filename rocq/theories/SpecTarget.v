(** Hand-written targets: what a type has to do to be a [Target] (conv/target.rs
    1-97, the documentation of the trait). *)
From Verif Require Import Base ModelTarget.

(** [holds u bs]: the target [u] holds the bytes [bs].  A new target holds
    nothing, the push methods add their argument at the end and return its
    length, [anticipate], [resolve] and [resolve_zero] leave the contents alone, and
    the last returns 0. *)
Definition collects {U : Type} (T : target U) (holds : U -> list byte -> Prop) : Prop :=
  holds (tg_create T) [] /\
  forall u bs, holds u bs ->
    (forall n, holds (tg_anticipate T n u) bs) /\
    (forall b, exists u', tg_push_one T b u = (1, u') /\ holds u' (bs ++ [b])) /\
    (forall more, exists u', tg_push_many T more u = (zlen more, u') /\ holds u' (bs ++ more)) /\
    (forall more, exists u', tg_push_all T more u = (zlen more, u') /\ holds u' (bs ++ more)) /\
    holds (tg_resolve T u) bs /\
    (exists u', tg_resolve_zero T u = (0, u') /\ holds u' bs).

(** Of the same documentation, only that the push methods return how much they
    were given and [resolve_zero] 0; what becomes of it is left open. *)
Definition counts {U : Type} (T : target U) : Prop :=
  forall u, (forall b, fst (tg_push_one T b u) = 1) /\
            (forall more, fst (tg_push_many T more u) = zlen more) /\
            (forall more, fst (tg_push_all T more u) = zlen more) /\
            fst (tg_resolve_zero T u) = 0.

(** The calls a target receives, and what they do to it one after the other. *)
Inductive target_call := CAnticipate (n : Z) | CPushOne (b : byte) | CPushMany (bs : list byte) | CPushAll (bs : list byte)
  | CResolve | CResolveZero.
Definition receive {U} (T : target U) (c : target_call) (u : U) : U :=
  match c with
  | CAnticipate n => tg_anticipate T n u
  | CPushOne b => snd (tg_push_one T b u)
  | CPushMany bs => snd (tg_push_many T bs u)
  | CPushAll bs => snd (tg_push_all T bs u)
  | CResolve => tg_resolve T u
  | CResolveZero => snd (tg_resolve_zero T u)
  end.
Fixpoint receive_all {U} (T : target U) (cs : list target_call) (u : U) : U :=
  match cs with [] => u | c :: cs => receive_all T cs (receive T c u) end.
(** The bytes among the calls. *)
Fixpoint pushed_by (cs : list target_call) : list byte :=
  match cs with
  | [] => []
  | CPushOne b :: cs => b :: pushed_by cs
  | CPushMany bs :: cs | CPushAll bs :: cs => bs ++ pushed_by cs
  | _ :: cs => pushed_by cs
  end.

(** Targets nobody wrote.  One that counts the ends of values and the sum of the
    bytes, one that keeps the bytes in reverse with the ends of values, and
    has a [resolve_zero] of its own. *)
Definition tg_checksum : target (Z * Z) := {|
  tg_create := (0, 0);
  tg_anticipate := fun _ u => u;
  tg_push_one := fun b u => (1, (fst u, snd u + b));
  tg_push_many := fun bs u => (zlen bs, (fst u, fold_left Z.add bs (snd u)));
  tg_push_all := fun bs u => (zlen bs, (fst u, fold_left Z.add bs (snd u)));
  tg_resolve := fun u => (fst u + 1, snd u);
  tg_resolve_zero := default_resolve_zero (fun u => (fst u + 1, snd u))
|}.
Definition tg_reversed : target (list (option byte)) := {|
  tg_create := [];
  tg_anticipate := fun _ u => u;
  tg_push_one := fun b u => (1, Some b :: u);
  tg_push_many := fun bs u => (zlen bs, rev_append (map Some bs) u);
  tg_push_all := fun bs u => (zlen bs, rev_append (map Some bs) u);
  tg_resolve := fun u => None :: u;
  tg_resolve_zero := fun u => (0, None :: None :: u)
|}.
Definition reversed_holds (u : list (option byte)) (bs : list byte) : Prop :=
  rev bs = flat_map (fun o => match o with Some b => [b] | None => [] end) u.
