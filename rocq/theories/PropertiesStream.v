(** Property theorems: several values through one target and one parser (C97). *)
From Verif Require Import Base ModelErrors ModelParser ModelInt ModelTarget ModelSchema ModelStream SpecCodec SpecTarget SpecStream
  ProofStream PropertiesCodec.

(** ------------------------------------------------------------------ *)
(** * C97 *)
(** Values written one after the other with [write_all_to!] stand in the target
    one after the other, after what was there; the count is theirs together. *)
Theorem C97_written : forall cf D kf U (T : target U) holds xs bss,
  collects T holds -> encodings cf D kf xs bss -> zlen (concat bss) < usize_mod ->
  forall u pre, holds u pre ->
  exists u', write_all cf D kf xs T u = ROk (zlen (concat bss), u') /\ holds u' (pre ++ concat bss).
Proof. exact written. Qed.
Print Assumptions C97_written.

(** One parser gives them back in order, and leaves what follows. *)
Theorem C97_in_order : forall cf D I kf w xs bss extra,
  wf_defs D = true -> disciplined D I = true -> Forall (message cf D I) xs ->
  encodings cf D kf xs bss -> zlen (concat bss ++ extra) <= isize_max ->
  receives w cf D (map fst xs) (concat bss ++ extra) (ROk (map snd xs, extra)).
Proof. intros cf D I kf w xs bss extra HD HI. exact (in_order cf D I kf HD HI w xs bss extra). Qed.
Print Assumptions C97_in_order.

(** The last of them need not end by itself. *)
Theorem C97_open_end : forall cf D I kf w xs bss t v bs,
  wf_defs D = true -> disciplined D I = true -> Forall (message cf D I) xs -> encodings cf D kf xs bss ->
  wf_ty D t = true -> decodable I t = true -> well_typed D v t = true ->
  (cf_est_override cf = true -> zeros D v t = 0) ->
  to_bytes cf D kf v t = ROk bs -> zlen (concat bss ++ bs) <= isize_max ->
  receives w cf D (map fst xs ++ [t]) (concat bss ++ bs) (ROk (map snd xs ++ [v], [])).
Proof. intros cf D I kf w xs bss t v bs HD HI. exact (greedy_last cf D I kf HD HI w xs bss t v bs). Qed.
Print Assumptions C97_open_end.

(** A stream that breaks off inside a message ([p] of it arrived, [q] did not):
    the messages before it are received, and it is not received as something
    else.  The panic is F2. *)
Theorem C97_broken_off : forall cf D I kf w xs bss t v p q,
  wf_defs D = true -> disciplined D I = true -> Forall (message cf D I) xs -> encodings cf D kf xs bss ->
  message cf D I (t, v) -> to_bytes cf D kf v t = ROk (p ++ q) -> q <> [] -> zlen (concat bss ++ p ++ q) <= isize_max ->
  receives w cf D (map fst xs) (concat bss ++ p) (ROk (map snd xs, p)) /\
  exists out, receives w cf D (map fst xs ++ [t]) (concat bss ++ p) out /\
    ((exists e, out = RErr e) \/ (out = RPanic /\ cf_mode cf = Debug /\ w <> WSlice)).
Proof. intros cf D I kf w xs bss t v p q HD HI. exact (cut_short cf D I kf HD HI w xs bss t v p q). Qed.
Print Assumptions C97_broken_off.

(** No bytes stand for two streams, wherever these end. *)
Theorem C97_unambiguous : forall cf D I kf xs ys bss css extra extra',
  wf_defs D = true -> disciplined D I = true -> Forall (message cf D I) xs -> Forall (message cf D I) ys ->
  encodings cf D kf xs bss -> encodings cf D kf ys css -> map fst xs = map fst ys ->
  zlen (concat bss ++ extra) <= isize_max -> concat bss ++ extra = concat css ++ extra' ->
  xs = ys /\ extra = extra'.
Proof. intros cf D I kf xs ys bss css extra extra' HD HI. exact (same_stream cf D I kf HD HI xs ys bss css extra extra'). Qed.
Print Assumptions C97_unambiguous.

(** Going on with the same parser is starting a new one over the rest; for all
    types and all input. *)
Theorem C97_restart : forall cf D w t ts input vs rest,
  wf_defs D = true -> forallb (fun t => wf_ty D t && pads_ok cf D t) (t :: ts) = true ->
  bytes_ok input -> zlen input <= isize_max ->
  receives w cf D (t :: ts) input (ROk (vs, rest)) <->
  exists v vs' mid, vs = v :: vs' /\ reads w cf D t input (ROk (v, mid)) /\ receives w cf D ts mid (ROk (vs', rest)).
Proof. intros cf D w t ts input vs rest HD. exact (restart w cf D HD t ts input vs rest). Qed.
Print Assumptions C97_restart.

(** A message in a [Dynamic] can be passed on by someone who does not know its
    type: read as [Dynamic<_, Bytes>] it is its encoding, from which it can be
    decoded later. *)
Theorem C97_envelope : forall cf D I kf s t v bs w extra,
  wf_defs D = true -> disciplined D I = true -> wf_ty D t = true -> well_typed D v t = true ->
  (cf_est_override cf = true -> zeros D v t = 0) ->
  to_bytes cf D kf (VWrap v) (TDyn s t) = ROk bs -> zlen (bs ++ extra) <= isize_max ->
  reads w cf D (TDyn s TBytes) (bs ++ extra) (ROk (VWrap (VBytes (format D v t)), extra)) /\
  (cf_est_override cf = false -> to_bytes cf D kf v t = ROk (format D v t)) /\
  (decodable I t = true -> (w = WSlice -> cf_complete cf = false) -> decodes w cf D t (format D v t) (ROk v)).
Proof. exact envelope. Qed.
Print Assumptions C97_envelope.

(** Three messages of different types: an integer of any size, an optional
    prefixed sequence, a natural number. *)
Definition three : list (ty * val) :=
  [(TZ, VInt (-300)); (TOption (TDyn PrefU8 (TSeq (TInt U16))), VSome (VWrap (VSeq [VInt 1; VInt 515]))); (TN, VInt 1000)].
Definition three_bytes : list (list byte) := [[236; 4]; [255; 4; 0; 1; 2; 3]; [232; 7]].
Example C97_meets :
  wf_defs [] = true /\ disciplined [] [] = true /\ Forall (message debug [] []) three /\
  encodings debug [] 9 three three_bytes /\
  collects (tg_of ToMemo) (fun u bs => tg_bytes ToMemo u = bs) /\
  rmap fst (write_all debug [] 9 three (tg_of ToMemo) (tg_create (tg_of ToMemo))) = ROk 10 /\
  decodable [] TString = true /\
  forallb (fun t => wf_ty [] t && pads_ok debug [] t) (map fst three) = true /\
  to_bytes debug [] 9 (VWrap (VInt 1000)) (TDyn PrefU16 TN) = ROk [0; 2; 232; 7].
Proof.
  split; [reflexivity|]. split; [reflexivity|]. split.
  { repeat constructor; cbn; discriminate. }
  split. { repeat constructor; vm_compute; reflexivity. }
  split; [apply ProofTarget.library_collects|]. repeat apply conj; vm_compute; reflexivity.
Qed.
