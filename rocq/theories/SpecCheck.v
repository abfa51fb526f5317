(** What [check] and [main] end with. *)
From Verif Require Import Base ModelErrors ModelSchema ModelInput ModelCheck SpecCodec.
Definition check_gives (implicit : bool) (cf : config) (D : list def) (kf : nat) (t : ty) (s : list byte) (v : val)
  (out : res input_error unit) : Prop := settles (fun f => check implicit cf D f kf t s v) out.
Definition main_gives (implicit : bool) (cf : config) (out : res input_error unit) : Prop :=
  settles (fun f => main implicit cf [] f 0) out.
