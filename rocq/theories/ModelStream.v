(** Model of sending and receiving several values through one target and one
    parser: the macro [write_all_to!] of /repo/src/conv/mod.rs, and calls of
    [parse] one after the other. *)
From Verif Require Import Base ModelErrors ModelParser ModelTarget ModelSchema.

(** conv/mod.rs 41-46: [write_all_to!(x1, x2, ... => tgt)] is
    [x1.write_to(tgt) + x2.write_to(tgt) + ... + Target::resolve_zero(tgt)]. *)
Definition write_all (cf : config) (D : list def) (kf : nat) (xs : list (ty * val)) {U} (T : target U) : writer U :=
  let one := fun x => write_to cf D kf (snd x) U T (fst x) in
  let resolve := w_call (tg_resolve_zero T) in
  match xs with
  | [] => resolve
  | x :: xs => w_add cf (fold_left (fun sum y => w_add cf sum (one y)) xs (one x)) resolve
  end.

(** [T1::parse(p)?], [T2::parse(p)?], ... on one parser (conv/mod.rs 270, as in
    the example of conv/mod.rs 231-245). *)
Definition parse_each (cf : config) (D : list def) (f : nat) (ts : list ty) : prog (list val) :=
  p_fields (parse cf D f) ts.
