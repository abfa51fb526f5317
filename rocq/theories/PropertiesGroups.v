(** Property theorems: how a MemoBuilder groups what is encoded into it, and a
    MemoParser what is decoded from it (C93).

    [groups_written] and [groups_taken] of SpecGroups.v: the fields of the value in
    order, every number, string, tag, length prefix and padding a group. *)
From Verif Require Import Base ModelErrors ModelSplitVec ModelParser ModelInt ModelTarget ModelBuilder ModelSchema
  SpecCodec SpecBuilder SpecGroups ProofGroupsThms.

(** ------------------------------------------------------------------ *)
(** * C93 *)
(** Encoding: the final buffer is cut into the groups, and the text of the builder
    shows them. *)
Theorem C93_written : forall cf D kf v t m u,
  wf_defs D = true -> wf_ty D t = true -> valid D v t = true ->
  zlen (format D v t) <= isize_max -> (cf_est_override cf = true -> zeros D v t = 0) ->
  encode cf D kf tg_memo v t = ROk u ->
  sv_into_parts u = (format D v t, map zlen (groups_written D v t)) /\
  exists s, sv_show m u = ROk s /\ shows (groups_written D v t) s.
Proof. exact groups_as_written. Qed.
Print Assumptions C93_written.

(** Decoding: the log of the parser is cut into the groups. *)
Theorem C93_taken : forall cf D I t v,
  wf_defs D = true -> disciplined D I = true -> wf_ty D t = true -> valid D v t = true ->
  decodable I t = true -> zlen (format D v t) <= isize_max ->
  exists f0, forall f, (f0 <= f)%nat -> exists p sv,
    run (memo_h (cf_mode cf)) (parse cf D f t) (mp_from_buffer (format D v t)) = (ROk v, p) /\
    @mp_dump unit (cf_mode cf) p = ROk sv /\ sv_into_parts sv = (format D v t, map zlen (groups_taken D v t)).
Proof. exact groups_as_taken. Qed.
Print Assumptions C93_taken.

(** Also when more bytes follow. *)
Theorem C93_taken_extra : forall cf D I t v extra,
  wf_defs D = true -> disciplined D I = true -> wf_ty D t = true -> valid D v t = true ->
  self_delimiting I t = true -> zlen (format D v t ++ extra) <= isize_max ->
  exists f0, forall f, (f0 <= f)%nat -> exists p sv,
    run (memo_h (cf_mode cf)) (parse cf D f t) (mp_from_buffer (format D v t ++ extra)) = (ROk v, p) /\
    @mp_dump unit (cf_mode cf) p = ROk sv /\ sv_into_parts sv = (format D v t, map zlen (groups_taken D v t)).
Proof. exact groups_as_taken_extra. Qed.
Print Assumptions C93_taken_extra.

(** Nothing is lost or added by grouping. *)
Theorem C93_written_bytes : forall D v t, well_typed D v t = true -> concat (groups_written D v t) = format D v t.
Proof. exact written_concat. Qed.
Print Assumptions C93_written_bytes.
Theorem C93_taken_bytes : forall D v t, well_typed D v t = true -> concat (groups_taken D v t) = format D v t.
Proof. exact taken_concat. Qed.
Print Assumptions C93_taken_bytes.

(** The two sides: the groups as written are joined groups as read. *)
Theorem C93_merges : forall D v t, well_typed D v t = true -> merges (groups_taken D v t) (groups_written D v t).
Proof. exact groups_merge. Qed.
Print Assumptions C93_merges.

(** They are the same where there is no Some and no N or Z. *)
Theorem C93_alike : forall D v t, no_option_number D v t = true -> groups_written D v t = groups_taken D v t.
Proof. exact groups_alike. Qed.
Print Assumptions C93_alike.

(** A struct of an integer, an option, an N and a Dynamic sequence of pairs. *)
Definition c93_defs : list def :=
  [DStruct [TInt U8; TOption (TInt U16); TN; TDyn PrefU8 (TSeq (TNamed 1)); TPad 2 TBool]; DStruct [TInt U8; TOption (TDyn PrefU8 TBytes)]].
Definition c93_info : list tinfo := [mkInfo Delim true None; mkInfo Delim true None].
Definition c93_val : val :=
  VStruct [VInt 7; VSome (VInt 258); VInt 300;
    VWrap (VSeq [VStruct [VInt 1; VNone]; VStruct [VInt 2; VSome (VWrap (VBytes [9; 9]))]]); VWrap (VBool true)].
Definition c93_cfg : config := mkConfig Debug false false false false false.
Example C93_meets :
  wf_defs c93_defs = true /\ disciplined c93_defs c93_info = true /\ wf_ty c93_defs (TNamed 0) = true /\
  valid c93_defs c93_val (TNamed 0) = true /\ well_typed c93_defs c93_val (TNamed 0) = true /\
  decodable c93_info (TNamed 0) = true /\ self_delimiting c93_info (TNamed 0) = true.
Proof. vm_compute. repeat split. Qed.
Example C93_sample :
  groups_written c93_defs c93_val (TNamed 0) = [[7]; [255; 1; 2]; [172; 2]; [7]; [1]; [0]; [2]; [255; 2]; [9; 9]; [255]; [0; 0]] /\
  groups_taken c93_defs c93_val (TNamed 0) = [[7]; [255]; [1; 2]; [172]; [2]; [7]; [1]; [0]; [2]; [255]; [2]; [9; 9]; [255]; [0; 0]] /\
  format c93_defs c93_val (TNamed 0) = [7; 255; 1; 2; 172; 2; 7; 1; 0; 2; 255; 2; 9; 9; 255; 0; 0].
Proof. vm_compute. repeat split. Qed.
Example C93_sample_encode :
  rmap sv_into_parts (encode c93_cfg c93_defs 9 tg_memo c93_val (TNamed 0)) =
    ROk ([7; 255; 1; 2; 172; 2; 7; 1; 0; 2; 255; 2; 9; 9; 255; 0; 0], [1; 3; 2; 1; 1; 1; 1; 2; 2; 1; 2]).
Proof. vm_compute. reflexivity. Qed.
Example C93_sample_decode :
  match run (memo_h Debug) (parse c93_cfg c93_defs 9 (TNamed 0)) (mp_from_buffer [7; 255; 1; 2; 172; 2; 7; 1; 0; 2; 255; 2; 9; 9; 255; 0; 0]) with
  | (ROk v, p) => v = c93_val /\ rmap sv_into_parts (@mp_dump unit Debug p) =
      ROk ([7; 255; 1; 2; 172; 2; 7; 1; 0; 2; 255; 2; 9; 9; 255; 0; 0], [1; 1; 2; 1; 1; 1; 1; 1; 1; 1; 1; 2; 1; 2])
  | _ => False
  end.
Proof. vm_compute. split; reflexivity. Qed.
Example C93_alike_meets : no_option_number c93_defs (VStruct [VInt 1; VNone]) (TNamed 1) = true.
Proof. reflexivity. Qed.
