(** What is said about the nesting of calls (C82). *)
From Verif Require Import Base ModelErrors ModelParser ModelSchema ModelStack SpecCodec.

(** Decoding ends with [out], never having more than [frames] calls of [parse]
    open at a time. *)
Definition decodes_in (frames : nat) (w : which_parser) (cf : config) (D : list def) (t : ty)
  (input : list byte) (out : res decode_error val) : Prop :=
  settles (fun rounds => decode_in w cf D frames rounds t input) out.

(** Enough for an input of [n] bytes, of a type that never re-enters itself
    without having read a byte ([terminating]). *)
Definition frame_bound (D : list def) (R : list nat) (t : ty) (n : Z) : Z :=
  ((n + 1) * (max_rank R + 2)) * (max_depth D + 1) + depth t.

(** The named types a type mentions. *)
Fixpoint mentions (t : ty) : list nat :=
  match t with
  | TOption t | TNullable t | TSeq t | TBox t | TLim _ t | TFix _ t | TDyn _ t | TVPad _ t | TPad _ t => mentions t
  | TNamed i => [i]
  | _ => []
  end.
(** No named type is defined in terms of itself: each mentions only types of
    smaller rank. *)
Definition not_recursive (D : list def) (R : list nat) : bool :=
  forallb_from (fun i d =>
    forallb (forallb (fun t => forallb (fun j => (rank R j <? rank R i)%nat) (mentions t))) (field_types d)) O D.
(** Enough for any input, then. *)
Definition flat_bound (D : list def) (R : list nat) (t : ty) : Z :=
  (max_rank R + 1) * max_depth D + depth t.

(** How deeply a value is nested. *)
Fixpoint nesting (v : val) : Z :=
  match v with
  | VSome v | VWrap v => 1 + nesting v
  | VSeq vs | VStruct vs | VEnum _ vs => 1 + zmax_list (map nesting vs)
  | _ => 1
  end.
