(** Model of the provided methods of [Encode] where a type replaces them
    (/repo/src/prim.rs 10-20, conv/mod.rs 375-388, fixed.rs 251-265, schema.rs
    546-558).  Every other type has the methods of the trait: conv/mod.rs 88-125. *)
From Verif Require Import Base ModelErrors ModelInt ModelTarget ModelSchema.

(** Which of the two types described by [TBytes] is meant; of no other
    significance. *)
Inductive bytes_ty := IsVec | IsBytes.

Section Override.
Variables (cf : config) (D : list def) (kf : nat).

(** conv/mod.rs 88-90: [write_to_vec] of the trait. *)
Definition write_to_vec_default (v : val) (t : ty) (buf : list byte) : wres (list byte) :=
  rmap snd (write_to cf D kf v (list byte) tg_vec t buf).

(** prim.rs 11, conv/mod.rs 375-377, fixed.rs 252-254, schema.rs 546-548:
    [write_to_vec]. *)
Definition call_write_to_vec (v : val) (t : ty) (buf : list byte) : wres (list byte) :=
  match t, v with
  | TUnit, VUnit => ROk buf
  | TBytes, VBytes bs => ROk (buf ++ bs)
  | TFixedBytes _, VBytes bs => ROk (buf ++ bs)
  | _, _ => write_to_vec_default v t buf
  end.

(** prim.rs 13-15, conv/mod.rs 379-384 (with a debug assertion that [Vec<u8>]
    makes and [Bytes] does not), fixed.rs 256-260, schema.rs 550-554: [encode]. *)
Definition call_encode (b : bytes_ty) {U} (T : target U) (v : val) (t : ty) : wres U :=
  match t, v with
  | TUnit, VUnit => ROk (tg_create T)
  | TBytes, VBytes bs =>
      rbind (write_to cf D kf v U T t (tg_create T)) (fun r =>
        match b, cf_mode cf with
        | IsVec, Debug => if fst r =? zlen bs then ROk (snd r) else RPanic
        | _, _ => ROk (snd r)
        end)
  | TFixedBytes _, VBytes bs => rbind (write_to cf D kf v U T t (tg_create T)) (fun r => ROk (snd r))
  | _, _ => encode cf D kf T v t
  end.

(** prim.rs 17-20, conv/mod.rs 386-388, fixed.rs 262-265, schema.rs 556-558:
    [to_bytes]; conv/mod.rs 121-125 calls [write_to_vec] on a new vector. *)
Definition call_to_bytes (v : val) (t : ty) : wres (list byte) :=
  match t, v with
  | TUnit, VUnit => ROk []
  | TBytes, VBytes bs => ROk bs
  | TFixedBytes _, VBytes bs => ROk bs
  | _, _ => call_write_to_vec v t []
  end.

(** conv/mod.rs 171-175: [to_bytes_full]: [write_to_vec] on a vector with the
    capacity [enc_len]. *)
Definition call_to_bytes_full (v : val) (t : ty) : wres (list byte) :=
  rbind (enc_len cf D kf v t) (fun n => if n <=? isize_max then call_write_to_vec v t [] else RPanic).
End Override.
