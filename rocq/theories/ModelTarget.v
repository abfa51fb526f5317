(** Model of the [Target] trait (/repo/src/conv/target.rs 12-97) and its
    implementations. *)
From Verif Require Import Base ModelSplitVec.

(** [trait Target].  [push_many::<N>(arr)] takes an array, here the list of its
    elements.  Simplification: running out of memory is not modelled, so
    [anticipate] (a capacity reservation everywhere) cannot fail. *)
Record target (U : Type) := mkTarget {
  tg_create : U;
  tg_anticipate : Z -> U -> U;
  tg_push_one : byte -> U -> Z * U;
  tg_push_many : list byte -> U -> Z * U;
  tg_push_all : list byte -> U -> Z * U;
  tg_resolve : U -> U;
  tg_resolve_zero : U -> Z * U
}.
Arguments tg_create {U} _.
Arguments tg_anticipate {U} _.
Arguments tg_push_one {U} _.
Arguments tg_push_many {U} _.
Arguments tg_push_all {U} _.
Arguments tg_resolve {U} _.
Arguments tg_resolve_zero {U} _.

(** target.rs 92-96: the method [resolve_zero] of a type that does not replace it,
    which none of the implementations below does. *)
Definition default_resolve_zero {U} (resolve : U -> U) (u : U) : Z * U := (0, resolve u).
(** target.rs 99-105: the macro [resolve_zero!], which does not use that method. *)
Definition tg_resolve_macro {U} (T : target U) (u : U) : Z * U := (0, tg_resolve T u).

(** target.rs 112-135: [ByteCounter] = [std::io::Sink]. *)
Definition tg_counter : target unit := {|
  tg_create := tt;
  tg_anticipate := fun _ u => u;
  tg_push_one := fun _ u => (1, u);
  tg_push_many := fun arr u => (zlen arr, u);
  tg_push_all := fun bs u => (zlen bs, u);
  tg_resolve := fun u => u;
  tg_resolve_zero := default_resolve_zero (fun u => u)
|}.

(** target.rs 137-166: [Vec<u8>]. *)
Definition tg_vec : target (list byte) := {|
  tg_create := [];
  tg_anticipate := fun _ u => u;
  tg_push_one := fun b u => (1, u ++ [b]);
  tg_push_many := fun arr u => (zlen arr, u ++ arr);
  tg_push_all := fun bs u => (zlen bs, u ++ bs);
  tg_resolve := fun u => u;
  tg_resolve_zero := default_resolve_zero (fun u => u)
|}.

(** hexstring.rs 188-190: [struct HexString]; 472-500: delegates to its Vec. *)
Record hex_string := mkHex { hx_bytes : list byte }.
Definition tg_hex : target hex_string := {|
  tg_create := mkHex [];
  tg_anticipate := fun n u => mkHex (tg_anticipate tg_vec n (hx_bytes u));
  tg_push_one := fun b u => let (n, v) := tg_push_one tg_vec b (hx_bytes u) in (n, mkHex v);
  tg_push_many := fun a u => let (n, v) := tg_push_many tg_vec a (hx_bytes u) in (n, mkHex v);
  tg_push_all := fun a u => let (n, v) := tg_push_all tg_vec a (hx_bytes u) in (n, mkHex v);
  tg_resolve := fun u => u;
  tg_resolve_zero := default_resolve_zero (fun u => u)
|}.

(** builder/strict.rs 19, 57-87: [StrictBuilder], delegates to its Vec. *)
Record strict_builder := mkStrict { sb_vec : list byte }.
Definition tg_strict : target strict_builder := {|
  tg_create := mkStrict (tg_create tg_vec);
  tg_anticipate := fun n u => mkStrict (tg_anticipate tg_vec n (sb_vec u));
  tg_push_one := fun b u => let (n, v) := tg_push_one tg_vec b (sb_vec u) in (n, mkStrict v);
  tg_push_many := fun a u => let (n, v) := tg_push_many tg_vec a (sb_vec u) in (n, mkStrict v);
  tg_push_all := fun a u => let (n, v) := tg_push_all tg_vec a (sb_vec u) in (n, mkStrict v);
  tg_resolve := fun u => mkStrict (tg_resolve tg_vec (sb_vec u));
  tg_resolve_zero := default_resolve_zero (fun u => mkStrict (tg_resolve tg_vec (sb_vec u)))
|}.

(** builder/memo.rs 28-30, 152-203: [MemoBuilder] over a [SplitVec<u8>]. *)
Definition tg_memo : target (split_vec byte) := {|
  tg_create := sv_new;
  tg_anticipate := fun _ u => u;
  tg_push_one := fun b u => (1, sv_push_current b u);
  tg_push_many := fun a u => (zlen a, sv_extend_current_from_slice a u);
  tg_push_all := fun a u => (zlen a, sv_extend_current_from_slice a u);
  tg_resolve := sv_split;
  tg_resolve_zero := default_resolve_zero (sv_split)
|}.

(** builder/memo.rs 85-96, 238-240: [finalize] of a [MemoBuilder] is a
    [MemoBuffer] with the parts of the [SplitVec]; 98-102: [Into<Vec<u8>>]. *)
Definition memo_finalize (u : split_vec byte) : list byte * list Z := sv_into_parts u.
Definition memo_into_vec (u : split_vec byte) : list byte := fst (memo_finalize u).

(** builder/strict.rs 115-117: [finalize]. *)
Definition strict_finalize (u : strict_builder) : list byte := sb_vec u.
