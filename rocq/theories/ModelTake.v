(** Model of the numeric methods of [Parser] (/repo/src/parse/mod.rs 185-267). *)
From Verif Require Import Base ModelErrors ModelParser ModelInt.

(** mod.rs 187-189: [take_u8]. *)
Definition p_take_u8 : prog Z := p_consume_byte.
(** mod.rs 195-197: [take_i8]: [consume_byte()? as i8]. *)
Definition p_take_i8 : prog Z := b <- p_consume_byte ;; PRet (ik_wrap I8 b).
(** mod.rs 205-207. *)
Definition p_take_u16 : prog Z := bs <- p_consume_arr 2 ;; PRet (from_be_bytes U16 bs).
(** mod.rs 215-217. *)
Definition p_take_i16 : prog Z := bs <- p_consume_arr 2 ;; PRet (from_be_bytes I16 bs).
(** mod.rs 224-226. *)
Definition p_take_u32 : prog Z := bs <- p_consume_arr 4 ;; PRet (from_be_bytes U32 bs).
(** mod.rs 233-235. *)
Definition p_take_i32 : prog Z := bs <- p_consume_arr 4 ;; PRet (from_be_bytes I32 bs).
(** mod.rs 242-244. *)
Definition p_take_u64 : prog Z := bs <- p_consume_arr 8 ;; PRet (from_be_bytes U64 bs).
(** mod.rs 260-262. *)
Definition p_take_i64 : prog Z := bs <- p_consume_arr 8 ;; PRet (from_be_bytes I64 bs).
(** mod.rs 251-253: [take_f64]; an f64 is its bit pattern. *)
Definition p_take_f64 : prog Z := bs <- p_consume_arr 8 ;; PRet (from_be_bytes U64 bs).

(** The method for a given integer type. *)
Definition p_take (k : int_kind) : prog Z :=
  match k with
  | U8 => p_take_u8 | I8 => p_take_i8 | U16 => p_take_u16 | I16 => p_take_i16
  | U32 => p_take_u32 | I32 => p_take_i32 | U64 => p_take_u64 | I64 => p_take_i64
  end.
