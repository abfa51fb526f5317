(** A [Vec<u8>] with its capacity, as a target, and the two functions that encode
    into a new one.  [tg_vec] (ModelTarget) is the same target with the contents
    only. *)
From Verif Require Import Base ModelTarget ModelInt ModelSchema.

(** The bytes, how many there is room for, and how often memory has been asked for. *)
Record vec := mkVec { vec_bytes : list byte; vec_capacity : Z; vec_allocations : Z }.

(** Alloc: [Vec::new], [Vec::with_capacity] (of no bytes: without an allocation). *)
Definition vec_new : vec := mkVec [] 0 0.
Definition vec_with_capacity (n : Z) : vec := mkVec [] n (if n =? 0 then 0 else 1).
(** Alloc: [Vec::reserve]: nothing if there is room; otherwise the capacity is
    doubled, or more if that is not enough, and at least 8.  Simplification: the
    panic ("capacity overflow") beyond [isize::MAX] is left out. *)
Definition vec_reserve (n : Z) (u : vec) : vec :=
  if vec_capacity u - zlen (vec_bytes u) <? n
  then mkVec (vec_bytes u) (Z.max 8 (Z.max (2 * vec_capacity u) (zlen (vec_bytes u) + n))) (vec_allocations u + 1)
  else u.
(** Alloc: [Vec::push], [Vec::extend] of an array and [Vec::extend_from_slice]
    reserve room for what they add. *)
Definition vec_append (bs : list byte) (u : vec) : vec :=
  let u := vec_reserve (zlen bs) u in
  mkVec (vec_bytes u ++ bs) (vec_capacity u) (vec_allocations u).

(** conv/target.rs 138-167: the target. *)
Definition tg_capacity : target vec := {|
  tg_create := vec_new;
  tg_anticipate := vec_reserve;
  tg_push_one := fun b u => (1, vec_append [b] u);
  tg_push_many := fun bs u => (zlen bs, vec_append bs u);
  tg_push_all := fun bs u => (zlen bs, vec_append bs u);
  tg_resolve := fun u => u;
  tg_resolve_zero := default_resolve_zero (fun u => u)
|}.

Section Encode.
Variables (cf : config) (D : list def) (kf : nat).
(** conv/mod.rs 88-90: [write_to_vec] of the trait, and of the types that replace it
    (prim.rs 11, conv/mod.rs 375-377, fixed.rs 252-254, schema.rs 546-548). *)
Definition append_to_vec (v : val) (t : ty) (u : vec) : wres vec :=
  match t, v with
  | TUnit, VUnit => ROk u
  | TBytes, VBytes bs | TFixedBytes _, VBytes bs => ROk (vec_append bs u)
  | _, _ => rmap snd (write_to cf D kf v vec tg_capacity t u)
  end.
(** conv/mod.rs 121-125: [to_bytes]; prim.rs 17-20, conv/mod.rs 386-388, fixed.rs
    262-265, schema.rs 556-558: the types that replace it ([clone] and [to_vec] of
    Alloc make a vector of just the length). *)
Definition vec_to_bytes (v : val) (t : ty) : wres vec :=
  match t, v with
  | TUnit, VUnit => ROk vec_new
  | TBytes, VBytes bs | TFixedBytes _, VBytes bs => ROk (vec_append bs (vec_with_capacity (zlen bs)))
  | _, _ => append_to_vec v t vec_new
  end.
(** conv/mod.rs 171-175: [to_bytes_full]. *)
Definition vec_to_bytes_full (v : val) (t : ty) : wres vec :=
  rbind (enc_len cf D kf v t) (fun n =>
    if n <=? isize_max then append_to_vec v t (vec_with_capacity n) else RPanic).
End Encode.
