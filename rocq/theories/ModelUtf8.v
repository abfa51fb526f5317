(** Model of the parts of core::str used by /repo: UTF-8 validation
    ([str::from_utf8], used in fixed.rs 329-351) and [String::from_utf8_lossy]
    (used in conv/mod.rs 403-409 and fixed.rs 386-388).

    Both are tables over the first bytes of a sequence (core/src/str/
    validations.rs and core/src/str/lossy.rs); [utf8_next] is one round. *)
From Verif Require Import Base.

Definition in_range (lo hi b : Z) : bool := (lo <=? b) && (b <=? hi).
Definition is_cont (b : Z) : bool := in_range 0x80 0xbf b.

(** Second-byte conditions for three- and four-byte sequences. *)
Definition second3 (b0 b1 : Z) : bool :=
  (in_range 0xe0 0xe0 b0 && in_range 0xa0 0xbf b1) ||
  (in_range 0xe1 0xec b0 && in_range 0x80 0xbf b1) ||
  (in_range 0xed 0xed b0 && in_range 0x80 0x9f b1) ||
  (in_range 0xee 0xef b0 && in_range 0x80 0xbf b1).
Definition second4 (b0 b1 : Z) : bool :=
  (in_range 0xf0 0xf0 b0 && in_range 0x90 0xbf b1) ||
  (in_range 0xf1 0xf3 b0 && in_range 0x80 0xbf b1) ||
  (in_range 0xf4 0xf4 b0 && in_range 0x80 0x8f b1).

(** The byte at position [i], 0 past the end (lossy.rs [safe_get]). *)
Definition safe_get (i : nat) (l : list byte) : byte := nth i l 0.

(** One round on a non-empty list: the number of bytes taken and whether they
    form a character. *)
Definition utf8_next (b0 : byte) (rest : list byte) : nat * bool :=
  if b0 <? 0x80 then (1%nat, true)
  else if in_range 0xc2 0xdf b0 then
    if is_cont (safe_get 0 rest) then (2%nat, true) else (1%nat, false)
  else if in_range 0xe0 0xef b0 then
    if second3 b0 (safe_get 0 rest) then
      if is_cont (safe_get 1 rest) then (3%nat, true) else (2%nat, false)
    else (1%nat, false)
  else if in_range 0xf0 0xf4 b0 then
    if second4 b0 (safe_get 0 rest) then
      if is_cont (safe_get 1 rest) then
        if is_cont (safe_get 2 rest) then (4%nat, true) else (3%nat, false)
      else (2%nat, false)
    else (1%nat, false)
  else (1%nat, false).

(** [str::from_utf8(l).is_ok()]; fuel = number of bytes. *)
Fixpoint utf8_valid_loop (fuel : nat) (l : list byte) : bool :=
  match fuel, l with
  | _, [] => true
  | O, _ => false
  | S fuel, b0 :: rest =>
      let (n, ok) := utf8_next b0 rest in
      ok && utf8_valid_loop fuel (skipn n l)
  end.
Definition utf8_valid (l : list byte) : bool := utf8_valid_loop (length l) l.

(** U+FFFD. *)
Definition replacement : list byte := [0xef; 0xbf; 0xbd].

(** [String::from_utf8_lossy(l)]. *)
Fixpoint utf8_lossy_loop (fuel : nat) (l : list byte) : list byte :=
  match fuel, l with
  | _, [] => []
  | O, _ => []
  | S fuel, b0 :: rest =>
      let (n, ok) := utf8_next b0 rest in
      (if ok then firstn n l else replacement) ++ utf8_lossy_loop fuel (skipn n l)
  end.
Definition utf8_lossy (l : list byte) : list byte := utf8_lossy_loop (length l) l.
