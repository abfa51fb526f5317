(** Property theorems: targets written outside the library (C84).

    [collects T holds] (SpecTarget.v): the methods of [T] keep the contract of the
    [Target] trait. *)
From Verif Require Import Base ModelTarget ModelSchema SpecTarget SpecCodec ProofTarget PropertiesCodec.

(** Writing to such a target, whatever it holds already, adds the bytes of the
    encoding and returns their number, and fails exactly when encoding to a vector
    fails. *)
Theorem C84_same_bytes : forall U (T : target U) holds, collects T holds ->
  forall cf D kf v t u pre, holds u pre ->
  match to_bytes cf D kf v t with
  | ROk bs => exists n u', write_to cf D kf v U T t u = ROk (n, u') /\ holds u' (pre ++ bs) /\
                           (zlen bs < usize_mod -> n = zlen bs)
  | RErr e => write_to cf D kf v U T t u = RErr e
  | RPanic => write_to cf D kf v U T t u = RPanic
  | RUB => write_to cf D kf v U T t u = RUB
  | RDiv => write_to cf D kf v U T t u = RDiv
  end.
Proof. exact @custom_same. Qed.
Print Assumptions C84_same_bytes.

Theorem C84_encode : forall U (T : target U) holds, collects T holds -> forall cf D kf v t,
  match to_bytes cf D kf v t with
  | ROk bs => exists u, encode cf D kf T v t = ROk u /\ holds u bs
  | RErr e => encode cf D kf T v t = RErr e
  | RPanic => encode cf D kf T v t = RPanic
  | RUB => encode cf D kf T v t = RUB
  | RDiv => encode cf D kf T v t = RDiv
  end.
Proof. exact @custom_encode. Qed.
Print Assumptions C84_encode.

(** A target need not keep the bytes: whatever its methods do, as long as they
    return the documented counts, it receives a list of calls that depends on the
    value alone and whose bytes are the encoding. *)
Theorem C84_same_calls : forall cf D kf v t,
  match to_bytes cf D kf v t with
  | ROk bs => exists n calls, pushed_by calls = bs /\ (zlen bs < usize_mod -> n = zlen bs) /\
      forall U (T : target U), counts T -> forall u, write_to cf D kf v U T t u = ROk (n, receive_all T calls u)
  | RErr e => forall U (T : target U), counts T -> forall u, write_to cf D kf v U T t u = RErr e
  | RPanic => forall U (T : target U), counts T -> forall u, write_to cf D kf v U T t u = RPanic
  | RUB => forall U (T : target U), counts T -> forall u, write_to cf D kf v U T t u = RUB
  | RDiv => forall U (T : target U), counts T -> forall u, write_to cf D kf v U T t u = RDiv
  end.
Proof. exact same_calls. Qed.
Print Assumptions C84_same_calls.

(** The contract is kept by the targets of the library. *)
Theorem C84_library : forall w, collects (tg_of w) (fun u bs => tg_bytes w u = bs).
Proof. exact library_collects. Qed.
Print Assumptions C84_library.

(** By a target that keeps its bytes in reverse with the ends of values between
    them; what it has after the sample of PropertiesCodec.v is the sample. *)
Example C84_case : collects tg_reversed reversed_holds /\
  exists u, encode release sample_defs 9 tg_reversed sample_val sample_ty = ROk u /\ reversed_holds u sample_bytes /\
            In None u.
Proof.
  split; [exact reversed_collects|].
  eexists. split; [vm_compute; reflexivity|]. split; [vm_compute; reflexivity|]. cbn. tauto.
Qed.
(** Checksums keep the counts but no bytes. *)
Example C84_checksum : counts tg_checksum /\
  exists ends, encode release sample_defs 9 tg_checksum sample_val sample_ty
               = ROk (ends, fold_left Z.add sample_bytes 0).
Proof. split; [exact checksum_counts|]. eexists. vm_compute. reflexivity. Qed.
