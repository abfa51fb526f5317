(** C85: the wrappers of the library around types written elsewhere. *)
From Verif Require Import Base ModelErrors ModelParser ModelInt ModelTarget ModelSchema ModelOpen
  SpecParser SpecTarget SpecCodec SpecOpen ProofOpen.

(** Whatever implements its format can be encoded and decoded again, with each of
    the parsers. *)
Theorem C85_round_trip : forall cf A (c : codec A) ok fmt after v,
  implements cf c ok fmt after -> after [] -> ok v -> zlen (fmt v) <= isize_max ->
  c_to_bytes c v = ROk (fmt v) /\
  c_enc_len c v = ROk (zlen (fmt v)) /\
  forall w, (w = WSlice -> cf_complete cf = false) ->
  exists f0, forall f, (f0 <= f)%nat -> c_decode_with w cf c f (fmt v) = ROk v.
Proof. exact (fun cf A c ok fmt after v => open_round_trip cf c ok fmt after v). Qed.
Print Assumptions C85_round_trip.

(** Where more may follow, more does no harm. *)
Theorem C85_prefix : forall cf A (c : codec A) ok fmt (after : list byte -> Prop) v x,
  implements cf c ok fmt after -> after x -> ok v -> zlen (fmt v ++ x) <= isize_max -> cf_complete cf = false ->
  forall w, exists f0, forall f, (f0 <= f)%nat -> c_decode_with w cf c f (fmt v ++ x) = ROk v.
Proof. exact (fun cf A c ok fmt after v x => open_prefix cf c ok fmt after v x). Qed.
Print Assumptions C85_prefix.

(** Every wrapper takes implementations to implementations. *)
Theorem C85_option : forall cf A (c : codec A) ok fmt after,
  implements cf c ok fmt after ->
  implements cf (c_option cf c)
    (fun v => match v with Some v => ok v | None => True end)
    (fun v => match v with Some v => 255 :: fmt v | None => [0] end)
    after.
Proof. exact (fun cf A c ok fmt after => wrap_option cf c ok fmt after). Qed.
Print Assumptions C85_option.

Theorem C85_nullable : forall cf A (c : codec A) ok fmt (after : list byte -> Prop),
  implements cf c ok fmt after -> after [] -> (forall v, ok v -> fmt v <> []) ->
  implements cf (c_nullable cf c)
    (fun v => match v with Some v => ok v | None => True end)
    (fun v => match v with Some v => fmt v | None => [] end)
    nothing.
Proof. exact (fun cf A c ok fmt after => wrap_nullable cf c ok fmt after). Qed.
Print Assumptions C85_nullable.

Theorem C85_sequence : forall cf A (c : codec A) ok fmt,
  implements cf c ok fmt anything -> (forall v, ok v -> fmt v <> []) ->
  implements cf (c_seq cf c) (Forall ok) (fun vs => concat (map fmt vs)) nothing.
Proof. exact (fun cf A c ok fmt => wrap_seq cf c ok fmt). Qed.
Print Assumptions C85_sequence.

Theorem C85_lim : forall cf A (c : codec A) ok fmt n,
  implements cf c ok fmt anything -> (forall v, ok v -> fmt v <> []) ->
  implements cf (c_lim cf n c) (fun vs => Forall ok vs /\ zlen vs <= n) (fun vs => concat (map fmt vs)) nothing.
Proof. exact (fun cf A c ok fmt n H Hne => wrap_lim cf c ok fmt H Hne n). Qed.
Print Assumptions C85_lim.

Theorem C85_fix : forall cf A (c : codec A) ok fmt n,
  implements cf c ok fmt anything -> (forall v, ok v -> fmt v <> []) ->
  implements cf (c_fix cf n c) (fun vs => Forall ok vs /\ zlen vs = n) (fun vs => concat (map fmt vs)) anything.
Proof. exact (fun cf A c ok fmt n H Hne => wrap_fix cf c ok fmt H Hne n). Qed.
Print Assumptions C85_fix.

Theorem C85_dynamic : forall cf A (c : codec A) ok fmt (after : list byte -> Prop) s,
  implements cf c ok fmt after -> after [] ->
  implements cf (c_dyn cf s c)
    (fun v => ok v /\ zlen (fmt v) <= match s with PrefU8 => 255 | PrefU16 => 65535 | PrefU30 => 1073741823 end)
    (fun v => pref_format s (zlen (fmt v)) ++ fmt v)
    anything.
Proof. exact (fun cf A c ok fmt after s H => wrap_dyn cf c ok fmt after H s). Qed.
Print Assumptions C85_dynamic.

Theorem C85_vpadded : forall cf A (c : codec A) ok fmt (after : list byte -> Prop) n,
  implements cf c ok fmt after -> 0 <= n -> after [] ->
  implements cf (c_vpad cf n c) ok fmt (fun x => zlen x = n).
Proof. exact (fun cf A c ok fmt after n H => wrap_vpad cf c ok fmt after H n). Qed.
Print Assumptions C85_vpadded.

Theorem C85_padded : forall cf A (c : codec A) ok fmt (after : list byte -> Prop) n,
  implements cf c ok fmt after -> 0 <= n ->
  (cf_est_override cf = true -> cf_relaxed_padding cf = true \/ c_known c <> Some None) ->
  implements cf (c_pad cf n c) ok (fun v => fmt v ++ repeat 0 (Z.to_nat n))
    (fun x => after (repeat 0 (Z.to_nat n) ++ x)).
Proof. exact (fun cf A c ok fmt after n H => wrap_pad cf c ok fmt after H n). Qed.
Print Assumptions C85_padded.

Theorem C85_box : forall cf A (c : codec A) ok fmt after,
  implements cf c ok fmt after -> implements cf (c_box cf c) ok fmt after.
Proof. exact (fun cf A c ok fmt after => wrap_box cf c ok fmt after). Qed.
Print Assumptions C85_box.

(** So do the derived implementations, for structs and for enums. *)
Theorem C85_struct : forall cf after B S (fs : fields B) ok fmt (build : B -> S) (split : S -> B),
  fields_implement cf after B fs ok fmt -> (forall s, build (split s) = s) ->
  implements cf (c_struct cf fs build split) (fun s => ok (split s)) (fun s => fmt (split s)) after.
Proof. exact wrap_struct. Qed.
Print Assumptions C85_struct.

Theorem C85_enum : forall cf after S k (vs : list (variant S)) (ok : S -> Prop) fmt,
  (* each variant has fields that implement a format, and the format of the value is
     the discriminant and then that *)
  Forall (fun va => exists ok' fmt', fields_implement cf after _ (va_fields va) ok' fmt' /\
    forall s x, ok s -> va_split va s = Some x ->
      ok' x /\ fmt s = int_format k (va_tag va) ++ fmt' x /\ va_build va x = s) vs ->
  (* each value belongs to a variant *)
  (forall s, ok s -> exists va x, In va vs /\ va_split va s = Some x) ->
  (* the discriminants are different, and in range *)
  NoDup (map va_tag vs) -> Forall (fun va => ik_in k (va_tag va) = true) vs ->
  implements cf (c_data cf k vs) ok fmt after.
Proof. exact (fun cf after S => @wrap_data cf after S). Qed.
Print Assumptions C85_enum.

(** The types of the library are such implementations. *)
Theorem C85_library : forall cf D I kf t k,
  wf_defs D = true -> disciplined D I = true -> wf_ty D t = true -> kind_of I t = Some k ->
  (cf_est_override cf = true -> known cf D kf t <> None) ->
  implements cf (c_schema cf D kf t)
    (fun v => valid D v t = true /\
       (cf_est_override cf = true -> zeros D v t = 0 /\ to_bytes cf D kf v t <> RDiv /\ unknown cf D kf v t <> RDiv))
    (fun v => format D v t)
    (after_kind k).
Proof. exact schema_implements. Qed.
Print Assumptions C85_library.

(** The wrappers here and those of ModelSchema are the same programs. *)
Theorem C85_same_wrappers : forall cf D kf t t' A (c : codec A) inj,
  wraps cf D kf t t' A c inj ->
  (forall v U (T : target U) u, write_to cf D kf (inj v) U T t' u = c_write c v U T u) /\
  (forall v, unknown cf D kf (inj v) t' = c_unknown c v) /\
  known cf D (S kf) t' = c_known c /\
  (forall f P (h : handler P) p,
     run h (parse cf D (S f) t') p = (rmap inj (fst (run h (c_parse c f) p)), snd (run h (c_parse c f) p))).
Proof. exact wrappers_agree. Qed.
Print Assumptions C85_same_wrappers.

(** A type nobody put in the library. *)
Theorem C85_string : forall cf, implements cf (c_string cf) string_ok string_format anything.
Proof. exact string_implements. Qed.
Print Assumptions C85_string.

(** Sequences of them in a length prefix. *)
Definition ex_cf : config := mkConfig Debug true false false true true.
Definition ex_strings : codec (list (list byte)) := c_dyn ex_cf PrefU8 (c_seq ex_cf (c_string ex_cf)).
Example C85_case_implements : implements ex_cf ex_strings
  (fun vs => Forall string_ok vs /\ zlen (concat (map string_format vs)) <= 255)
  (fun vs => pref_format PrefU8 (zlen (concat (map string_format vs))) ++ concat (map string_format vs))
  anything.
Proof.
  apply (C85_dynamic ex_cf _ (c_seq ex_cf (c_string ex_cf)) (Forall string_ok) (fun vs => concat (map string_format vs)) nothing PrefU8).
  - apply C85_sequence; [apply C85_string|]. intros bs _. unfold string_format. destruct bs; discriminate.
  - reflexivity.
Qed.
Example C85_case_bytes : c_to_bytes ex_strings [[104; 105]; []; [33]] = ROk [6; 104; 105; 0; 0; 33; 0].
Proof. reflexivity. Qed.
Example C85_case_decode : c_decode_with WByte ex_cf ex_strings 9 [6; 104; 105; 0; 0; 33; 0] = ROk [[104; 105]; []; [33]].
Proof. vm_compute. reflexivity. Qed.

(** An enum and a struct with fields from both worlds. *)
Inductive shape := Dot | Label (text : list byte) (z : val).
Definition ex_variants : list (variant shape) :=
  [ mkVariant shape 0 unit FNil (fun _ => Dot) (fun s => match s with Dot => Some tt | _ => None end);
    mkVariant shape 7 (list byte * (val * unit)) (FCons (c_string ex_cf) (FCons (c_schema ex_cf [] 5 (TInt I16)) FNil))
      (fun x => Label (fst x) (fst (snd x))) (fun s => match s with Label a b => Some (a, (b, tt)) | _ => None end) ].
Definition ex_shape_ok (s : shape) : Prop :=
  match s with Dot => True | Label a b => string_ok a /\ valid [] b (TInt I16) = true end.
Definition ex_shape_format (s : shape) : list byte :=
  match s with Dot => [0] | Label a b => 7 :: string_format a ++ format [] b (TInt I16) end.
Example C85_case_enum : implements ex_cf (c_data ex_cf U8 ex_variants) ex_shape_ok ex_shape_format anything.
Proof.
  apply C85_enum.
  - constructor; [|constructor; [|constructor]].
    + exists (fun _ => True), (fun _ => []). split; [constructor|]. intros [|a b] x _ E; [|discriminate E]. repeat split.
    + eexists _, _. split.
      * apply FI_cons with (here := anything); [apply C85_string| |intros; exact Logic.I].
        eapply FI_cons with (here := anything); [|constructor|intros; exact Logic.I].
        apply (C85_library ex_cf [] [] 5%nat (TInt I16) Delim); try reflexivity. discriminate.
      * intros [|a b] x Hs E; [discriminate E|]. destruct Hs as [H1 H2]. injection E as <-. cbn [fst snd]. split; [|split; [|reflexivity]].
        -- split; [exact H1|]. split; [|exact Logic.I]. split; [exact H2|discriminate].
        -- cbn [ex_shape_format]. rewrite app_nil_r. reflexivity.
  - intros [|a b] _; eexists _, _; (split; [|]); [left; reflexivity|reflexivity|right; left; reflexivity|reflexivity].
  - repeat constructor; cbn; intuition discriminate.
  - repeat constructor.
Qed.
Example C85_case_enum_bytes : c_to_bytes (c_data ex_cf U8 ex_variants) (Label [104; 105] (VInt (-2))) = ROk [7; 104; 105; 0; 255; 254].
Proof. reflexivity. Qed.
