(** Property theorems about the derive macros (C62, C63).  [declared fs] lists the
    members of a struct declaration in order; [holds fs self vs]: the members of
    the struct [self] hold [vs] (SpecDerive).  The declaration is the [i]-th of
    [D], so that it may refer to itself. *)
From Coq Require Import String.
From Verif Require Import Base ModelErrors ModelParser ModelInt ModelTarget ModelSchema ModelDerive
  SpecParser SpecCodec SpecDerive ProofDerive PropertiesNum.
Local Open Scope list_scope.

(** ------------------------------------------------------------------ *)
(** * C62 *)
(** Derived decoding reads the members in the order of declaration and assigns
    each its value, through any parser and from any state. *)
Theorem C62_decode : forall cf D f i fs e,
  nth_error D i = Some (DStruct (member_types fs)) -> derive_decode (DataStruct fs) = ROk e ->
  forall P (h : handler P) s,
    run h (eval_self cf D f e) s =
    (rmap (as_struct fs) (fst (run h (parse cf D (S f) (TNamed i)) s)), snd (run h (parse cf D (S f) (TNamed i)) s)).
Proof. exact derived_decode. Qed.
Print Assumptions C62_decode.

Theorem C62_reads : forall w cf D i fs e input,
  nth_error D i = Some (DStruct (member_types fs)) -> derive_decode (DataStruct fs) = ROk e ->
  (forall self rest, derived_reads w cf D e input (ROk (self, rest)) <->
     exists vs, self = struct_of fs vs /\ reads w cf D (TNamed i) input (ROk (VStruct vs, rest))) /\
  (forall x, derived_reads w cf D e input (RErr x) <-> reads w cf D (TNamed i) input (RErr x)) /\
  (derived_reads w cf D e input RPanic <-> reads w cf D (TNamed i) input RPanic).
Proof. exact derived_reads_same. Qed.
Print Assumptions C62_reads.

(** Derived encoding writes the members in the order of declaration, wherever
    they lie in memory, to any target. *)
Theorem C62_encode : forall cf D kf i fs e self vs,
  nth_error D i = Some (DStruct (member_types fs)) -> distinct fs ->
  derive_encode (DataStruct fs) = ROk e -> holds fs self vs ->
  forall U (T : target U) u, eval_write cf D kf T fs e self u = write_to cf D kf (VStruct vs) U T (TNamed i) u.
Proof. exact derived_write. Qed.
Print Assumptions C62_encode.

Theorem C62_bytes : forall cf D kf i fs ee self vs,
  nth_error D i = Some (DStruct (member_types fs)) -> distinct fs -> wf_defs D = true ->
  derive_encode (DataStruct fs) = ROk ee -> holds fs self vs -> valid D (VStruct vs) (TNamed i) = true ->
  cf_est_override cf = false -> zlen (concat2 (format D) vs (member_types fs)) <= isize_max ->
  rmap snd (eval_write cf D kf tg_vec fs ee self []) = ROk (concat2 (format D) vs (member_types fs)).
Proof. exact derived_format. Qed.
Print Assumptions C62_bytes.

(** Together they give the struct back. *)
Theorem C62_round_trip : forall cf D I kf i fs ee de self vs n bs w extra,
  nth_error D i = Some (DStruct (member_types fs)) -> distinct fs ->
  wf_defs D = true -> disciplined D I = true -> self_delimiting I (TNamed i) = true ->
  derive_encode (DataStruct fs) = ROk ee -> derive_decode (DataStruct fs) = ROk de ->
  holds fs self vs -> well_typed D (VStruct vs) (TNamed i) = true ->
  eval_write cf D kf tg_vec fs ee self [] = ROk (n, bs) -> zlen (bs ++ extra) <= isize_max ->
  (cf_est_override cf = true -> zeros D (VStruct vs) (TNamed i) = 0) ->
  n = zlen bs /\ derived_reads w cf D de (bs ++ extra) (ROk (struct_of fs vs, extra)).
Proof. exact derived_round_trip. Qed.
Print Assumptions C62_round_trip.

(** The derived length estimates are the sums over the members. *)
Theorem C62_known : forall cf D kf i fs e,
  nth_error D i = Some (DStruct (member_types fs)) -> distinct fs ->
  derive_estimable (DataStruct fs) = ROk e -> eval_known cf D kf e = known cf D (S kf) (TNamed i).
Proof. exact derived_known. Qed.
Print Assumptions C62_known.

Theorem C62_unknown : forall cf D kf i fs e self vs,
  nth_error D i = Some (DStruct (member_types fs)) -> distinct fs ->
  derive_estimable (DataStruct fs) = ROk e -> holds fs self vs ->
  (forall n, eval_unknown cf D kf fs e self = ROk n -> n < usize_mod) ->
  unknown cf D kf (VStruct vs) (TNamed i) = eval_unknown cf D kf fs e self.
Proof. exact derived_unknown. Qed.
Print Assumptions C62_unknown.

(** The macros apply to structs of every shape and refuse enums and unions. *)
Theorem C62_applies :
  (forall fs, (exists e, derive_decode (DataStruct fs) = ROk e) /\ (exists e, derive_encode (DataStruct fs) = ROk e) /\
     (exists e, derive_estimable (DataStruct fs) = ROk e)) /\
  (forall d, d = DataEnum \/ d = DataUnion -> derive_decode d = RPanic /\ derive_encode d = RPanic /\
     derive_estimable d = RPanic /\ derive_fixed_length d = RPanic).
Proof. exact derive_applies. Qed.
Print Assumptions C62_applies.

(** ------------------------------------------------------------------ *)
(** * C63 *)
(** [derive(FixedLength)] gives the sum of the lengths, but not on a tuple struct
    with fields. *)
Theorem C63_fixed_length_partial : forall cf D kf i fs e,
  nth_error D i = Some (DStruct (member_types fs)) ->
  derive_fixed_length (DataStruct fs) = ROk e -> (forall tys, fs = FUnnamed tys -> tys = []) ->
  forall n, eval_len cf D kf e = Some n <-> known cf D (S kf) (TNamed i) = Some (Some n).
Proof. exact derived_len. Qed.
Print Assumptions C63_fixed_length_partial.

Theorem C63_fixed_length_refuted : exists fs e,
  derive_fixed_length (DataStruct fs) = ROk e /\
  forall cf D kf, nth_error D 0 = Some (DStruct (member_types fs)) ->
    known cf D (S (S kf)) (TNamed 0) = Some (Some 3) /\ eval_len cf D (S kf) e = None.
Proof.
  exists (FUnnamed [TInt U8; TInt U16]). eexists. split; [reflexivity|]. intros cf D kf H. split; [|reflexivity].
  cbn [known]. rewrite H. reflexivity.
Qed.
Print Assumptions C63_fixed_length_refuted.

(** struct Point { x: u8, y: u16 }, stored with y first. *)
Definition point : fields := FNamed [("x"%string, TInt U8); ("y"%string, TInt U16)].
Definition D_point : list def := [DStruct [TInt U8; TInt U16]].
Definition point_value : struct := [(MName "y", VInt 300); (MName "x", VInt 7)].
Example C62_sample :
  distinct point /\ holds point point_value [VInt 7; VInt 300] /\
  wf_defs D_point = true /\ well_typed D_point (VStruct [VInt 7; VInt 300]) (TNamed 0) = true /\
  valid D_point (VStruct [VInt 7; VInt 300]) (TNamed 0) = true /\
  nth_error D_point 0 = Some (DStruct (member_types point)) /\
  (exists I, disciplined D_point I = true /\ self_delimiting I (TNamed 0) = true) /\
  (exists e, derive_encode (DataStruct point) = ROk e /\
     eval_write dbg_cf D_point 3 tg_vec point e point_value [] = ROk (3, [7; 1; 44])) /\
  (exists e, derive_estimable (DataStruct point) = ROk e /\
     eval_known dbg_cf D_point 3 e = Some (Some 3) /\ eval_unknown dbg_cf D_point 3 point e point_value = ROk 3) /\
  (exists e, derive_fixed_length (DataStruct point) = ROk e /\ eval_len dbg_cf D_point 3 e = Some 3).
Proof.
  split; [repeat constructor; cbn; intuition discriminate|]. split; [repeat constructor|].
  do 4 (split; [reflexivity|]). split; [exists [mkInfo Delim true (Some 3)]; split; reflexivity|].
  split; [eexists; split; reflexivity|]. split; [eexists; split; [|split]; reflexivity|eexists; split; reflexivity].
Qed.
