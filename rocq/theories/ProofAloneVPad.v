(** Decoding what stands before reserved bytes and decoding it on its own. *)
From Coq Require Import Lia.
From Verif Require Import Base BaseLemmas ModelErrors ModelSplitVec ModelParser ModelInt ModelFloat ModelUtf8 ModelTarget ModelSchema
  SpecParser SpecCodec SpecAlone ProofParser ProofParserSim ProofParserProps ProofDec ProofCodec ProofSettle
  ProofAlone ProofAloneTop ProofAloneSlice ProofMemoSame ProofAlonePay.
From Coq Require Import ZifyBool.

Section Reserved.
Variables (cf : config) (D : list def) (t : ty) (body pad : list byte).
Hypothesis HD : wf_defs D = true.
Hypothesis HW : wf_ty D t = true.
Hypothesis HP : pads_ok cf D t = true.
Let m := cf_mode cf.
Let input := body ++ pad.
Let n := zlen pad.
Hypothesis Hb : zlen input <= isize_max.

Lemma byte_reserved f e q : run (byte_h m) (parse cf D f t) (bp_from_buffer body) = (RErr e, q) ->
  as_alone m 0 (zlen body) (RErr e) (fst (run (byte_h m) (parse cf D (S f) (TVPad n t)) (bp_from_buffer input))).
Proof.
  intros Er. destruct (pads_cases _ _ _ HP) as [HP1 HP2]. pose proof (zlen_nonneg body) as H0. pose proof (zlen_nonneg pad).
  assert (Hlen : zlen input = zlen body + n) by (unfold input, n; rewrite zlen_app; lia).
  cbn [parse]. rewrite run_pbind. unfold p_remainder. rewrite run_do_op. cbn [byte_h]. unfold bp_remainder, usub.
  change (bp_view_len (bp_from_buffer input)) with (zlen input). change (bp_offset (bp_from_buffer input)) with 0.
  replace (0 <=? zlen input) with true by lia. rewrite Z.sub_0_r. rewrite run_pbind.
  replace (n <=? zlen input) with true by lia.
  replace (@debug_assert parse_error (cf_mode cf) true) with (@ROk parse_error unit tt) by (destruct (cf_mode cf); reflexivity).
  cbn [plift run]. rewrite run_pbind. replace (zlen input - n) with (zlen body) by lia. cbn [run].
  rewrite run_pbind. unfold p_set_fit. rewrite run_do_op. cbn [byte_h].
  rewrite bp_set_fit_ok; [|apply bp_init_inv, Hb|change (0 <= zlen body <= zlen input - 0); lia].
  change (bp_offset (bp_from_buffer input)) with 0. cbn [bp_from_buffer co_with_limit bp_buf bp_off co_cur co_abs co_frames]. rewrite run_pbind.
  assert (Hbody : zslice 0 (0 + zlen body) input = body).
  { unfold zslice, input, zdrop. cbn [Z.to_nat skipn]. rewrite Z.sub_0_r. apply ztake_app. }
  destruct (ProofAlone.parse_alone m input 0 (zlen body) [] ltac:(lia) H0 ltac:(lia) Hb cf D eq_refl HD HP1 f t HW HP2 []
     (bp_from_buffer body) (mkBP input (mkCO (zlen input) [0 + zlen body] 0))) as [H1 _].
  { exists 0. split; [|split; [|split]].
    - unfold bp_from_buffer, alone, ProofAlone.body, co_with_limit. rewrite Hbody. reflexivity.
    - reflexivity.
    - lia.
    - cbn. lia. }
  rewrite Er in H1. cbn [fst] in H1.
  destruct (run (byte_h m) (parse cf D f t) (mkBP input (mkCO (zlen input) [0 + zlen body] 0))) as [r' q']. cbn [fst] in H1.
  cbn [as_alone] in H1. destruct e as [w|?|?|?]; try (subst r'; reflexivity). destruct w; try (subst r'; reflexivity).
  destruct H1 as [[l ->]|(l & tg & -> & H1)]; cbn [as_alone fst]; eauto 6.
Qed.
Lemma reserved_byte f e : byte_decode cf D f t body = RErr (DParse e) ->
  exists e', byte_decode cf D (S f) (TVPad n t) input = RErr (DParse e') /\ @as_alone val m 0 (zlen body) (RErr e) (RErr e').
Proof.
  unfold byte_decode, try_decode. fold m. destruct (run (byte_h m) (parse cf D f t) (bp_from_buffer body)) as [r q] eqn:Er.
  intros E. destruct r as [v|e0| | |]; try discriminate E.
  - destruct (cf_complete cf); [|discriminate E]. destruct (bp_cleanup m q) as [lo|? | | |]; try discriminate E. destruct (lo_is_empty lo); discriminate E.
  - injection E as ->. pose proof (byte_reserved f e q Er) as H.
    destruct (run (byte_h m) (parse cf D (S f) (TVPad n t)) (bp_from_buffer input)) as [r' q']. cbn [fst] in H.
    assert (Hr : exists e', r' = RErr e').
    { cbn [as_alone] in H. destruct e as [w|?|?|?]; eauto. destruct w; eauto. destruct H as [[l ->]|(l & tg & -> & _)]; eauto. }
    destruct Hr as [e' ->]. exists e'. split; [reflexivity|exact H].
Qed.
End Reserved.

Lemma reserved_error w cf D t body pad e :
  wf_defs D = true -> wf_ty D t = true -> pads_ok cf D t = true ->
  w = WByte \/ (w = WMemo /\ pads_ok cf D (TVPad (zlen pad) t) = true) -> zlen (body ++ pad) <= isize_max ->
  decodes w cf D t body (RErr (DParse e)) ->
  exists e', decodes w cf D (TVPad (zlen pad) t) (body ++ pad) (RErr (DParse e')) /\
    @as_alone val (cf_mode cf) 0 (zlen body) (RErr e) (RErr e').
Proof.
  intros HD HW HP Hw Hb H. assert (Hne : w <> WSlice) by (destruct Hw as [->|[-> _]]; discriminate).
  pose proof (zlen_nonneg pad). assert (Hbs : zlen body <= isize_max) by (rewrite zlen_app in Hb; lia).
  apply same_decodes in H; try assumption. apply settles_at in H. destruct H as [f H].
  destruct (reserved_byte cf D t body pad HD HW HP Hb f e H) as (e' & E & Ha). exists e'. split; [|exact Ha].
  assert (HR : decodes WByte cf D (TVPad (zlen pad) t) (body ++ pad) (RErr (DParse e'))) by (apply (decodes_at WByte _ _ _ _ (S f)); [exact E|discriminate]).
  destruct Hw as [->|[-> HP']]; [exact HR|]. apply same_decodes; try assumption.
  cbn [wf_ty]. unfold sizeb. rewrite zlen_app in Hb. pose proof (zlen_nonneg body). lia.
Qed.

Lemma reserved_slice cf D t body pad e :
  decodes WSlice cf D t body (RErr (DParse e)) ->
  decodes WSlice cf D (TVPad (zlen pad) t) (body ++ pad) (RErr (DParse e)).
Proof.
  intros H. apply settles_at in H. destruct H as [f H]. apply (decodes_at WSlice _ _ _ _ (S f)); [|discriminate].
  cbn [decode_with] in *. unfold slice_decode, try_decode in *. pose proof (zlen_nonneg body). pose proof (zlen_nonneg pad).
  change (sp_from_buffer (body ++ pad)) with [body ++ pad].
  cbn [parse]. rewrite run_pbind. unfold p_remainder. rewrite run_do_op. cbn [slice_h sp_remainder sp_view_len]. unfold sp_remainder, sp_view_len.
  rewrite run_pbind, !zlen_app.
  replace (zlen pad <=? zlen body + zlen pad) with true by lia.
  replace (@debug_assert parse_error (cf_mode cf) true) with (@ROk parse_error unit tt) by (destruct (cf_mode cf); reflexivity).
  cbn [plift run]. rewrite run_pbind. unfold usub. replace (zlen pad <=? zlen body + zlen pad) with true by lia.
  replace (zlen body + zlen pad - zlen pad) with (zlen body) by lia. cbn [plift run].
  rewrite run_pbind. unfold p_set_fit. rewrite run_do_op.
  cbn [slice_h sp_set_fit]. unfold slb_split_unchecked. rewrite zlen_app. replace (zlen body <=? zlen body + zlen pad) with true by lia.
  rewrite ztake_app, zdrop_app, run_pbind.
  destruct (run slice_h (parse cf D f t) (sp_from_buffer body)) as [r st] eqn:Er.
  destruct (ProofAloneSlice.parse_alone [pad] cf D f t 0%nat [body] eq_refl) as (r0 & s0 & E0 & E1 & _).
  unfold sp_from_buffer in Er. rewrite Er in E0. injection E0 as <- <-. cbn [app] in E1. rewrite E1.
  destruct r as [v|e0| | |]; try discriminate H; [|exact H].
  destruct (cf_complete cf); [|discriminate H]. destruct (sp_cleanup st) as [lo|? | | |]; try discriminate H. destruct (lo_is_empty lo); discriminate H.
Qed.
