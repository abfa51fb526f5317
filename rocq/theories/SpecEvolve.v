(** Schemas that grow: what a later version of a schema may change without
    touching the messages that are already written. *)
From Verif Require Import Base ModelInt ModelFloat ModelSchema.

(** Types without components (named types change through their definition). *)
Definition basic (t : ty) : bool :=
  match t with
  | TOption _ | TNullable _ | TSeq _ | TLim _ _ | TFix _ _ | TDyn _ _ | TVPad _ _ | TPad _ _ | TBox _ => false
  | _ => true
  end.

(** [widens t t']: [t'] is [t] with wider ranges, higher limits, or a limit
    dropped, anywhere in it.  A positive MIN must stay, because numbers are then
    written as their distance from it. *)
Inductive widens : ty -> ty -> Prop :=
| wd_basic : forall t, basic t = true -> widens t t
| wd_ranged : forall k lo hi lo' hi', lo' = lo \/ lo' <= lo <= 0 -> hi <= hi' ->
    widens (TRanged k lo hi) (TRanged k lo' hi')
| wd_float : forall lo hi lo' hi', f64_le lo' lo = true -> f64_le hi hi' = true ->
    widens (TRangedF lo hi) (TRangedF lo' hi')
| wd_lim : forall n n' t t', n <= n' -> widens t t' -> widens (TLim n t) (TLim n' t')
| wd_unlim : forall n t t', widens t t' -> widens (TLim n t) (TSeq t')
| wd_option : forall t t', widens t t' -> widens (TOption t) (TOption t')
| wd_nullable : forall t t', widens t t' -> widens (TNullable t) (TNullable t')
| wd_seq : forall t t', widens t t' -> widens (TSeq t) (TSeq t')
| wd_fix : forall n t t', widens t t' -> widens (TFix n t) (TFix n t')
| wd_dyn : forall s t t', widens t t' -> widens (TDyn s t) (TDyn s t')
| wd_vpad : forall n t t', widens t t' -> widens (TVPad n t) (TVPad n t')
| wd_pad : forall n t t', widens t t' -> widens (TPad n t) (TPad n t')
| wd_box : forall t t', widens t t' -> widens (TBox t) (TBox t').

(** Definitions: fields widen, and enums moreover get new variants after the ones
    they have. *)
Inductive widens_def : def -> def -> Prop :=
| wd_struct : forall ts ts', Forall2 widens ts ts' -> widens_def (DStruct ts) (DStruct ts')
| wd_cstyle : forall k tags more, widens_def (DCStyle k tags) (DCStyle k (tags ++ more))
| wd_data : forall k alts alts' more,
    Forall2 (fun a a' => fst a = fst a' /\ Forall2 widens (snd a) (snd a')) alts alts' ->
    widens_def (DData k alts) (DData k (alts' ++ more)).

(** Schemas moreover get new definitions. *)
Definition evolves (D D' : list def) : Prop :=
  exists old new, D' = old ++ new /\ Forall2 widens_def D old.
