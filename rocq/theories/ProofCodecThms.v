(** Wording of the codec properties and their counter-examples. *)
From Verif Require Import Base BaseLemmas ModelErrors ModelSplitVec ModelParser ModelInt ModelFloat ModelZarith
  ModelUtf8 ModelTarget ModelSchema SpecParser SpecCodec ProofParserSim ProofDec ProofCodec ProofMeta
  ProofEnc ProofEstimate ProofEncValid ProofEncBytes ProofTransfer ProofSettle ProofView ProofCodecProps.
From Coq Require Import ZifyBool.

Lemma bytes_ok_check l : forallb byteb l = true -> bytes_ok l.
Proof.
  rewrite forallb_forall. intros H. apply Forall_forall. intros x Hx. specialize (H x Hx). unfold byteb in H. unfold is_byte. lia.
Qed.

Lemma round_trip_thm cf D I kf t v bs w :
  wf_defs D = true -> disciplined D I = true -> wf_ty D t = true -> decodable I t = true ->
  well_typed D v t = true ->
  to_bytes cf D kf v t = ROk bs -> zlen bs <= isize_max ->
  (cf_est_override cf = true -> zeros D v t = 0) ->
  (w = WSlice -> cf_complete cf = false) ->
  decodes w cf D t bs (ROk v).
Proof. intros. eapply round_trip; eassumption. Qed.

Lemma encode_is_format cf D kf t v :
  wf_defs D = true -> wf_ty D t = true -> well_typed D v t = true ->
  cf_est_override cf = false -> zlen (format D v t) <= isize_max ->
  to_bytes cf D kf v t = (if valid D v t then ROk (format D v t) else RPanic).
Proof.
  intros HD HW HV EO HL. rewrite to_bytes_wr.
  pose proof (fate_wr cf D kf HD v t HW HV HL ltac:(congruence)) as F. destruct (valid D v t).
  - destruct F as [->|[E _]]; [reflexivity|congruence].
  - destruct F as [->|[E _]]; [reflexivity|congruence].
Qed.

Lemma exact_thm cf D I kf t v bs w extra :
  wf_defs D = true -> disciplined D I = true -> wf_ty D t = true -> self_delimiting I t = true ->
  well_typed D v t = true ->
  to_bytes cf D kf v t = ROk bs -> zlen (bs ++ extra) <= isize_max ->
  (cf_est_override cf = true -> zeros D v t = 0) ->
  reads w cf D t (bs ++ extra) (ROk (v, extra)).
Proof. intros. eapply reads_own; eassumption. Qed.

Lemma parser_mode_debug w cf : parser_mode w cf = Debug <-> cf_mode cf = Debug /\ w <> WSlice.
Proof. destruct w; cbn [parser_mode]; split; intuition congruence. Qed.

Lemma truncated_thm cf D I kf t v bs w p q :
  wf_defs D = true -> disciplined D I = true -> wf_ty D t = true -> self_delimiting I t = true ->
  well_typed D v t = true ->
  to_bytes cf D kf v t = ROk bs -> zlen bs <= isize_max ->
  (cf_est_override cf = true -> zeros D v t = 0) ->
  bs = p ++ q -> q <> [] ->
  exists out, decodes w cf D t p out /\
    ((exists e, out = RErr (DParse e)) \/
     (out = RPanic /\ cf_mode cf = Debug /\ w <> WSlice /\ window_free t && window_free_defs D = false)).
Proof.
  intros HD HI HW HS HV HE HL HZ Eb Hq.
  destruct (truncated cf D I kf t v bs HD HI HW HV HE HZ w p q HS HL Eb Hq) as (out & Ho & [H|(H & Hm & Hw)]);
    exists out; split; auto. right. apply parser_mode_debug in Hm. tauto.
Qed.

Lemma valid_only cf D t input w v :
  wf_defs D = true -> wf_ty D t = true ->
  bytes_ok input -> zlen input <= isize_max ->
  decodes w cf D t input (ROk v) -> well_typed D v t = true.
Proof. intros; eapply decoded_typed; eassumption. Qed.
Lemma parse_valid_only cf D t input w v rest :
  wf_defs D = true -> wf_ty D t = true ->
  bytes_ok input -> zlen input <= isize_max ->
  reads w cf D t input (ROk (v, rest)) ->
  well_typed D v t = true /\ exists used, input = used ++ rest.
Proof. intros; eapply read_typed; eassumption. Qed.

Lemma write_same cf D kf v t w u :
  match to_bytes cf D kf v t with
  | ROk bs => exists n u', write_to cf D kf v (tg_state w) (tg_of w) t u = ROk (n, u') /\
                           tg_bytes w u' = tg_bytes w u ++ bs
  | RErr e => write_to cf D kf v (tg_state w) (tg_of w) t u = RErr e
  | RPanic => write_to cf D kf v (tg_state w) (tg_of w) t u = RPanic
  | RUB => write_to cf D kf v (tg_state w) (tg_of w) t u = RUB
  | RDiv => write_to cf D kf v (tg_state w) (tg_of w) t u = RDiv
  end.
Proof.
  rewrite to_bytes_wr. pose proof (sim_all_vals cf D kf v _ _ _ (tg_lawful w) t u _ eq_refl) as S.
  destruct (wr cf D kf v t) as [[n bs]| | | |]; unfold rmap; cbn [rbind snd]; [|exact S..].
  destruct S as (u' & H & R). exists n, u'. auto.
Qed.

Lemma estimate_exact_thm cf D kf v t bs n :
  wf_defs D = true -> wf_ty D t = true -> well_typed D v t = true -> zeros D v t = 0 ->
  to_bytes cf D kf v t = ROk bs -> zlen bs <= isize_max -> estimate cf D kf v t = ROk n ->
  n = zlen bs.
Proof. intros HD HW HV HZ HE HL HN. rewrite (estimate_exact cf D kf v t bs n) by assumption. lia. Qed.

Lemma no_panic_thm w cf D t input f :
  wf_defs D = true -> wf_ty D t = true -> vpad_free t = true -> vpad_free_defs D = true ->
  (cf_mode cf = Debug -> w <> WSlice -> window_free t = true /\ window_free_defs D = true) ->
  bytes_ok input -> zlen input <= isize_max ->
  decode_with w cf D f t input <> RPanic /\ decode_with w cf D f t input <> RUB.
Proof. intros. apply no_panic_with; auto. rewrite parser_mode_debug. tauto. Qed.

Lemma decoders_same cf D t input :
  wf_defs D = true -> wf_ty D t = true -> bytes_ok input -> zlen input <= isize_max ->
  forall w w' v, (cf_complete cf = true -> w <> WSlice /\ w' <> WSlice) ->
  decodes w cf D t input (ROk v) <-> decodes w' cf D t input (ROk v).
Proof.
  intros HD HW HB HL w w' v H. destruct (cf_complete cf) eqn:Ec; [|apply decoders_agree; assumption].
  destruct (H eq_refl). pose proof (decoders_agree_complete cf D t input HD HW HB HL v). destruct w, w'; try congruence; tauto.
Qed.

Lemma decoded_bounds cf D t input :
  wf_defs D = true -> bytes_ok input -> zlen input <= isize_max ->
  forall w n t' v, wf_ty D t = true -> decodes w cf D t input (ROk v) ->
  (t = TLim n t' -> exists vs, v = VSeq vs /\ zlen vs <= n) /\
  (t = TFix n t' -> exists vs, v = VSeq vs /\ zlen vs = n).
Proof. intros. split; intros; [eapply lim_bounded|eapply fix_exact]; eassumption. Qed.

(** ** Counter-examples *)
Definition dbg := mkConfig Debug false false false false false.
Definition rel := mkConfig Release false false false false false.
Definition dbg_complete := mkConfig Debug false false false false true.

Lemma zero_seq_div f g cur seq : cur <> [] -> d_seq f (dec rel [] g TUnit) seq cur = RDiv.
Proof.
  intros Hc. revert seq. induction f as [|f IH]; intros seq; [reflexivity|]. cbn [d_seq]. unfold d_bind at 1, d_rem.
  destruct (Z.eqb_spec (zlen cur) 0) as [E|_]; [apply zlen_0_nil in E; congruence|].
  destruct g as [|g]; [reflexivity|]. unfold d_bind. cbn [dec]. unfold d_ret at 1. apply IH.
Qed.
Lemma zero_width_diverges : exists cf D t input,
  wf_defs D = true /\ wf_ty D t = true /\ bytes_ok input /\
  forall w f, decode_with w cf D f t input = RDiv.
Proof.
  exists rel, [], (TSeq TUnit), [1]. split; [reflexivity|]. split; [reflexivity|]. split; [apply bytes_ok_check; reflexivity|].
  intros w f. pose proof (decode_seen w rel [] f (TSeq TUnit) [1] ltac:(vm_compute; discriminate) (fun _ => eq_refl)) as S.
  assert (E : dec rel [] f (TSeq TUnit) [1] = RDiv).
  { destruct f as [|f]; [reflexivity|]. cbn [dec]. unfold d_bind. rewrite zero_seq_div by discriminate. reflexivity. }
  rewrite E in S. exact S.
Qed.

Lemma dynamic_panics : exists cf D t input,
  wf_defs D = true /\ wf_ty D t = true /\ vpad_free t = true /\ bytes_ok input /\
  decodes WByte cf D t input RPanic.
Proof.
  exists dbg, [], (TDyn PrefU8 TBytes), [5]. repeat (split; [reflexivity|]).
  split; [apply bytes_ok_check; reflexivity|].
  eapply (decodes_at WByte) with (f := 9%nat); [vm_compute; reflexivity|discriminate].
Qed.
Lemma vpadded_panics : exists D t input,
  wf_defs D = true /\ wf_ty D t = true /\ bytes_ok input /\
  decodes WByte dbg D t input RPanic /\ decodes WByte rel D t input RUB.
Proof.
  exists [DStruct [TInt U32; TVPad 4 TBytes; TInt U32]], (TNamed 0), [1; 2; 3; 4; 5; 6].
  repeat (split; [reflexivity|]).
  split; [apply bytes_ok_check; reflexivity|].
  split; [eapply (decodes_at WByte) with (f := 9%nat); [vm_compute; reflexivity|discriminate]|].
  eapply (decodes_at WByte) with (f := 9%nat); [vm_compute; reflexivity|discriminate].
Qed.
Lemma slice_differs : exists cf D t input v,
  wf_defs D = true /\ wf_ty D t = true /\
  decodes WByte cf D t input (ROk v) /\ forall v', ~ decodes WSlice cf D t input (ROk v').
Proof.
  exists dbg_complete, [], (TInt U16), [1; 2], (VInt 258). repeat (split; [reflexivity|]).
  split; [eapply (decodes_at WByte) with (f := 9%nat); [vm_compute; reflexivity|discriminate]|].
  intros v'. apply complete_slice; [reflexivity|reflexivity|apply bytes_ok_check; reflexivity|vm_compute; discriminate|reflexivity].
Qed.
Lemma slice_rejects : exists cf D t input v,
  cf_complete cf = true /\ reads WSlice cf D t input (ROk (v, [])) /\
  forall v', ~ decodes WSlice cf D t input (ROk v').
Proof.
  exists dbg_complete, [], (TInt U16), [1; 2], (VInt 258). repeat (split; [reflexivity|]).
  split; [eapply (reads_at WSlice) with (f := 9%nat); [vm_compute; reflexivity|discriminate]|].
  intros v'. apply complete_slice; [reflexivity|reflexivity|apply bytes_ok_check; reflexivity|vm_compute; discriminate|reflexivity].
Qed.
Lemma underfull_encodes : exists cf D kf vs n t bs,
  zlen vs < n /\ to_bytes cf D kf (VSeq vs) (TFix n t) = ROk bs /\
  forall w, exists e, decodes w cf D (TFix n t) bs (RErr e).
Proof.
  exists rel, [], 9%nat, [VInt 5], 3, (TInt U8), [5]. repeat (split; [reflexivity|]).
  intros w. destruct w; eexists; (eapply (decodes_at _) with (f := 9%nat); [vm_compute; reflexivity|discriminate]).
Qed.
