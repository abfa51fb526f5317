(** Scanning without decoding: the provided methods of [ParserExt]
    (parse/mod.rs 396-456) and the length prefixes they read (dynamic.rs 263-313). *)
From Verif Require Import Base ModelErrors ModelParser ModelInt ModelSchema.

(** dynamic.rs 285-313: [marshall_usize] of u8, u16 and u30.  A slice of another
    length is undefined behaviour ([unwrap_unchecked]).  For u30 the bytes are read
    as an [i32], which is checked with [try_from_i32(..).expect(..)] and cast. *)
Definition marshall_usize (cf : config) (s : len_pref) (bytes : list byte) : pres Z :=
  if negb (zlen bytes =? pref_len s) then RUB
  else
    match s with
    | PrefU8 => ROk (from_be_bytes U8 bytes)
    | PrefU16 => ROk (from_be_bytes U16 bytes)
    | PrefU30 =>
        let raw := from_be_bytes I32 bytes in
        match ri_try_from_i32 (cf_range_check cf) (cf_mode cf) U32 0 u30_max raw with
        | ROk _ => ROk (ik_wrap U64 raw)
        | _ => RPanic
        end
    end.

(** dynamic.rs 268-271: [LenPref::parse_as_usize]. *)
Definition p_parse_as_usize (cf : config) (s : len_pref) : prog Z :=
  raw_bytes <- p_consume (pref_len s) ;; plift (marshall_usize cf s raw_bytes).

(** parse/mod.rs 421-425: [process_prefix]. *)
Definition p_process_prefix (cf : config) (s : len_pref) : prog Z :=
  len <- p_parse_as_usize cf s ;; p_set_fit len ;;; PRet len.

(** parse/mod.rs 410-415: [skip_dynamic]. *)
Definition p_skip_dynamic (cf : config) (s : len_pref) : prog Z :=
  lp <- p_process_prefix cf s ;;
  p_skip_exactly lp ;;; p_enforce_target ;;; PRet lp.

(** Array equality, [*k == _k] in parse/mod.rs 446. *)
Fixpoint bytes_eqb (a b : list byte) : bool :=
  match a, b with
  | [], [] => true
  | x :: a, y :: b => (x =? y) && bytes_eqb a b
  | _, _ => false
  end.

(** parse/mod.rs 436-455: [fast_kv_search::<K, V, F, M, N>(k, f)], [M] being the
    length of the array [k].  [fuel] bounds the number of rounds. *)
Fixpoint p_kv_search {V} (fuel : nat) (k : list byte) (n : Z) (f : list byte -> V)
  : prog (option V) :=
  match fuel with
  | O => PDiv
  | S fuel =>
      rem <- p_remainder ;;
      if 0 <? rem then
        k' <- p_consume_arr (zlen k) ;;
        if bytes_eqb k k' then
          v <- p_consume_arr n ;; PRet (Some (f v))
        else
          p_skip_exactly n ;;; p_kv_search fuel k n f
      else PRet None
  end.
