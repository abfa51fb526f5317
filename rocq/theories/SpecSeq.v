(** Specification of collecting into bounded sequences. *)
From Verif Require Import Base ModelErrors ModelSchema ModelSeq.

(** [yields next s xs]: the iterator in state [s] gives the items [xs], then [None]. *)
Inductive yields {A S} (next : S -> option A * S) : S -> list A -> Prop :=
| yields_nil s s' : next s = (None, s') -> yields next s []
| yields_cons s x s' xs : next s = (Some x, s') -> yields next s' xs -> yields next s (x :: xs).

(** After a [None], only [None]. *)
Definition fused {A S} (next : S -> option A * S) : Prop :=
  forall s s', next s = (None, s') -> exists s'', next s' = (None, s'').

(** The sequences of bound [n] that can be made with the safe API: [new] and
    [default], [try_push], [extend] and [from_iter] with any iterator, [TryFrom],
    [from_vec] (LimSeq), and whatever can be done to the slice [deref_mut] gives (fix.rs
    206-210, lim.rs 240-244), which may change the elements but not their number. *)
Inductive built {A} (n : Z) : list A -> Prop :=
| built_new : built n seq_new
| built_push seq x seq' : built n seq -> try_push n seq x = ROk seq' -> built n seq'
| built_extend S (next : S -> option A * S) m seq it seq' :
    built n seq -> seq_extend next m n seq it = ROk seq' -> built n seq'
| built_collect S (next : S -> option A * S) m it seq : seq_from_iter next m n it = ROk seq -> built n seq
| built_fix_slice l seq : fix_try_from_slice n l = ROk seq -> built n seq
| built_fix_vec l seq : fix_try_from_vec n l = ROk seq -> built n seq
| built_lim_slice l seq : lim_try_from_slice n l = ROk seq -> built n seq
| built_lim_vec l seq : lim_try_from_vec n l = ROk seq -> built n seq
| built_from_vec l seq : lim_from_vec n l = ROk seq -> built n seq
| built_deref_mut seq seq' : built n seq -> zlen seq' = zlen seq -> built n seq'.
