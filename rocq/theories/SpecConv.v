(** The numbers that single-precision patterns stand for. *)
From Verif Require Import Base.

(** The exact value of a finite binary32 pattern, in units of 2^-149. *)
Definition f32_finite (b : Z) : bool := negb (b / 2 ^ 23 mod 256 =? 255).
Definition f32_value (b : Z) : Z :=
  let e := b / 2 ^ 23 mod 256 in
  let frac := b mod 2 ^ 23 in
  (if b <? 2 ^ 31 then 1 else -1) * (if e =? 0 then frac else (2 ^ 23 + frac) * 2 ^ (e - 1)).
Definition f32_is_nan (b : Z) : bool := (b / 2 ^ 23 mod 256 =? 255) && negb (b mod 2 ^ 23 =? 0).
