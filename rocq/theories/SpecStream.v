(** What streams of messages are stated with. *)
From Verif Require Import Base ModelErrors ModelParser ModelSchema ModelStream SpecCodec.

(** Each message can be encoded, [bss] being the encodings. *)
Definition encodings (cf : config) (D : list def) (kf : nat) (xs : list (ty * val)) (bss : list (list byte)) : Prop :=
  Forall2 (fun x bs => to_bytes cf D kf (snd x) (fst x) = ROk bs) xs bss.

(** The messages of a stream: values of their types, each of which ends by
    itself. *)
Definition message (cf : config) (D : list def) (I : list tinfo) (x : ty * val) : Prop :=
  wf_ty D (fst x) = true /\ self_delimiting I (fst x) = true /\ well_typed D (snd x) (fst x) = true /\
  (cf_est_override cf = true -> zeros D (snd x) (fst x) = 0).

(** Receiving values of the types [ts] from one parser over [input], and then
    everything that is left, ends with [out]. *)
Definition receives (w : which_parser) (cf : config) (D : list def) (ts : list ty) (input : list byte)
  (out : pres (list val * list byte)) : Prop :=
  settles (fun f => run_with w (cf_mode cf) (then_rest (parse_each cf D f ts)) input) out.
