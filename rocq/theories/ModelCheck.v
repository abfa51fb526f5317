(** Model of the self-check in /repo/src/main.rs. *)
From Verif Require Import Base ModelErrors ModelInt ModelTarget ModelBuilder ModelSchema ModelHex ModelInput ModelCompare.

Section Check.
Variables (implicit : bool) (cf : config) (D : list def) (f kf : nat).

(** [encode::<StrictBuilder>]; encoding returns no errors (conv/mod.rs 100). *)
Definition strict_encode (v : val) (t : ty) : res input_error strict_builder :=
  match encode cf D kf tg_strict v t with
  | ROk u => ROk u
  | RErr _ => RPanic
  | RPanic => RPanic
  | RUB => RUB
  | RDiv => RDiv
  end.

(** main.rs 5-22: [check]; [assert_eq!] panics on a difference. *)
Definition check (t : ty) (s : list byte) (v : val) : res input_error unit :=
  rbind (decode_from implicit cf D f t (SrcStr s)) (fun v1 =>
  rbind (rassert (val_eq D v1 v t)) (fun _ =>
  rbind (strict_encode v t) (fun u =>
  rbind (rassert (eq_seq Z.eqb (bd_into_hex bd_strict u) s)) (fun _ =>
  rbind (strict_encode v t) (fun u =>
  rbind (decode_from implicit cf D f t (SrcVec (bd_into_vec bd_strict u))) (fun v2 =>
  rbind (rassert (val_eq D v2 v t)) (fun _ =>
  rbind (decode_from implicit cf D f t (SrcStr s)) (fun v3 =>
  rbind (strict_encode v3 t) (fun u =>
  rassert (eq_seq Z.eqb (bd_into_hex bd_strict u) s)))))))))).

(** main.rs 24-27: [main]; "ff" is 102 102, "42" is 52 50. *)
Definition main : res input_error unit :=
  rbind (check (TInt U8) [102; 102] (VInt 255)) (fun _ => check (TInt U8) [52; 50] (VInt 66)).
End Check.
