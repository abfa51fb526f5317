(** Decoding what follows a length prefix and decoding it on its own. *)
From Coq Require Import Lia.
From Verif Require Import Base BaseLemmas ModelErrors ModelSplitVec ModelParser ModelInt ModelFloat ModelUtf8 ModelTarget ModelSchema
  SpecParser SpecCodec SpecAlone ProofParser ProofParserSim ProofParserProps ProofParserClean ProofDec ProofCodec ProofEstimate ProofTransfer ProofSettle
  ProofAlone ProofAloneTop ProofAloneSlice ProofMemoSame.
From Coq Require Import ZifyBool.



Lemma body_small s body rest : zlen (pref_format s (zlen body) ++ body ++ rest) <= isize_max -> zlen body <= isize_max.
Proof. intros Hb. rewrite !zlen_app in Hb. pose proof (zlen_nonneg rest). pose proof (zlen_nonneg (pref_format s (zlen body))). lia. Qed.

Section Pay.
Variables (cf : config) (D : list def) (s : len_pref) (t : ty) (body rest : list byte).
Hypothesis HD : wf_defs D = true.
Hypothesis HW : wf_ty D t = true.
Hypothesis HP : pads_ok cf D t = true.
Hypothesis Hs : zlen body <= pref_max s.
Let m := cf_mode cf.
Let input := pref_format s (zlen body) ++ body ++ rest.
Hypothesis Hb : zlen input <= isize_max.

Lemma byte_payload f r q : run (byte_h m) (parse cf D f t) (bp_from_buffer body) = (r, q) ->
  match r with
  | ROk v => exists c, q = mkBP body (mkCO (zlen body) [] c) /\ 0 <= c <= zlen body /\
      run (byte_h m) (parse cf D (S f) (TDyn s t)) (bp_from_buffer input) =
        (if c =? zlen body then ROk (VWrap v) else RErr (EWindow (CloseWithResidue (zlen body - c))),
         mkBP input (mkCO (zlen input) [] (pref_len s + c)))
  | _ => as_alone m (pref_len s) (zlen body) r (fst (run (byte_h m) (parse cf D (S f) (TDyn s t)) (bp_from_buffer input)))
  end.
Proof.
  intros Er. destruct (pads_cases _ _ _ HP) as [HP1 HP2]. pose proof (zlen_nonneg body) as H0. pose proof (zlen_nonneg rest).
  pose proof (pref_format_len s (zlen body)) as Hpl.
  assert (Hk : 0 <= pref_len s) by (destruct s; cbn; lia).
  assert (Hlen : zlen input = pref_len s + (zlen body + zlen rest)) by (unfold input; rewrite !zlen_app; lia).
  pose proof (pref_by (byte_h m) cf s (zlen body) _ _ ltac:(lia) (byte_pref_consume m _ _ (body ++ rest) Hpl Hb)) as Epre.
  fold input in Epre. cbn [parse]. rewrite !run_pbind, Epre. cbv iota beta. rewrite !run_pbind. unfold p_set_fit. rewrite !run_do_op. cbn [byte_h].
  set (p0 := mkBP input (mkCO (zlen input) [] (pref_len s))).
  assert (Hi0 : bp_inv p0).
  { unfold bp_inv, co_inv, p0. cbn [bp_buf bp_off co_abs co_cur co_frames app asc]. repeat split; cbn [co_abs]; lia. }
  rewrite bp_set_fit_ok; [|exact Hi0|change (0 <= zlen body <= zlen input - pref_len s); lia].
  unfold p0, bp_offset, co_index. cbn [bp_buf bp_off co_cur co_abs co_frames]. rewrite !run_pbind.
  assert (Hbody : zslice (pref_len s) (pref_len s + zlen body) input = body).
  { unfold zslice, input. rewrite <- Hpl, zdrop_app. replace (zlen (pref_format s (zlen body)) + zlen body - zlen (pref_format s (zlen body))) with (zlen body) by lia. apply ztake_app. }
  destruct (ProofAlone.parse_alone m input (pref_len s) (zlen body) [] Hk H0 ltac:(lia) Hb cf D eq_refl HD HP1 f t HW HP2 []
     (bp_from_buffer body) (mkBP input (mkCO (zlen input) [pref_len s + zlen body] (pref_len s)))) as [H1 H2].
  { exists 0. split; [|split; [|split]].
    - unfold bp_from_buffer, alone, ProofAlone.body, co_with_limit. rewrite Hbody. reflexivity.
    - unfold inside. cbn [map app]. rewrite Z.add_0_r. reflexivity.
    - lia.
    - cbn. lia. }
  rewrite Er in H1, H2. cbn [fst snd] in *.
  destruct (run (byte_h m) (parse cf D f t) (mkBP input (mkCO (zlen input) [pref_len s + zlen body] (pref_len s)))) as [r' q'].
  cbn [fst snd] in *. destruct r as [v|e| | |].
  - destruct (H2 v eq_refl) as [(c & Eq1 & Eq2 & Hc & Ha) _]. cbn [as_alone] in H1. subst r' q q'. cbn in Ha.
    exists c. split; [unfold alone, ProofAlone.body; rewrite Hbody; reflexivity|]. split; [lia|].
    rewrite !run_pbind. unfold p_enforce_target. rewrite !run_do_op. cbn [byte_h]. unfold bp_enforce_target, co_enforce_target, inside, co_index.
    cbn [bp_buf bp_off co_cur co_abs co_frames map app].
    destruct (Z.compare_spec (pref_len s + zlen body) (pref_len s + c)) as [E|E|E]; [| lia |].
    + replace (c =? zlen body) with true by lia. reflexivity.
    + replace (c =? zlen body) with false by lia. replace (pref_len s + zlen body - (pref_len s + c)) with (zlen body - c) by lia. reflexivity.
  - cbn [as_alone] in H1. destruct e as [w|?|?|?]; try (subst r'; cbn [as_alone fst]; reflexivity).
    destruct w; try (subst r'; cbn [as_alone fst]; reflexivity).
    destruct H1 as [[l ->]|(l & tg & -> & H1)]; cbn [as_alone fst]; eauto 6.
  - cbn [as_alone] in *. destruct H1 as [->|(Em & e & -> & Hn)]; cbn [fst]; eauto.
  - cbn [as_alone] in *. subst r'. reflexivity.
  - cbn [as_alone] in *. subst r'. reflexivity.
Qed.

(** Errors of [try_decode]. *)
Lemma pay_error f e : byte_decode cf D f t body = RErr (DParse e) ->
  exists e', byte_decode cf D (S f) (TDyn s t) input = RErr (DParse e') /\ @as_alone val m (pref_len s) (zlen body) (RErr e) (RErr e').
Proof.
  unfold byte_decode, try_decode. fold m. destruct (run (byte_h m) (parse cf D f t) (bp_from_buffer body)) as [r q] eqn:Er.
  pose proof (byte_payload f r q Er) as H. intros E. destruct r as [v|e0| | |]; try discriminate E.
  - destruct (cf_complete cf); [|discriminate E]. destruct (bp_cleanup m q) as [lo|? | | |]; try discriminate E. destruct (lo_is_empty lo); discriminate E.
  - injection E as ->. destruct (run (byte_h m) (parse cf D (S f) (TDyn s t)) (bp_from_buffer input)) as [r' q']. cbn [fst] in H.
    assert (Hr : exists e', r' = RErr e').
    { cbn [as_alone] in H. destruct e as [w|?|?|?]; eauto. destruct w; eauto. destruct H as [[l ->]|(l & tg & -> & _)]; eauto. }
    destruct Hr as [e' ->]. exists e'. split; [reflexivity|exact H].
Qed.
Lemma clean_alone c (buf : list byte) : zlen buf <= isize_max -> 0 <= c <= zlen buf ->
  bp_cleanup m (mkBP buf (mkCO (zlen buf) [] c)) = ROk (lo_add LEmpty (zslice c (zlen buf) buf)).
Proof.
  intros H1 H2. apply bp_cleanup_at; [|reflexivity].
  unfold bp_inv, co_inv. cbn [bp_buf bp_off co_abs co_cur co_frames app asc]. repeat split; cbn [co_abs]; lia.
Qed.
Lemma pay_value f v : cf_complete cf = true -> rest = [] -> byte_decode cf D f t body = ROk v -> byte_decode cf D (S f) (TDyn s t) input = ROk (VWrap v).
Proof.
  intros Hc Hr. pose proof (body_small s body rest Hb) as Hbs. unfold byte_decode, try_decode. fold m. rewrite Hc.
  destruct (run (byte_h m) (parse cf D f t) (bp_from_buffer body)) as [r q] eqn:Er.
  pose proof (byte_payload f r q Er) as H. intros E. destruct r as [v0|e0| | |]; try discriminate E.
  destruct H as (c & -> & Hcc & ->). rewrite clean_alone in E by lia. destruct (lo_add_empty (zslice c (zlen body) body)) as [Hl _].
  rewrite Hl, zlen_zslice in E by lia. destruct (Z.eqb_spec (zlen body - c) 0) as [Ez|Ez]; [|discriminate E]. injection E as ->.
  replace (c =? zlen body) with true by lia. assert (c = zlen body) by lia. subst c.
  assert (Hil : zlen input = pref_len s + zlen body).
  { unfold input. rewrite Hr, app_nil_r, zlen_app, pref_format_len. lia. }
  assert (Hk : 0 <= pref_len s) by (destruct s; cbn; lia). pose proof (zlen_nonneg body).
  rewrite clean_alone by lia. destruct (lo_add_empty (zslice (pref_len s + zlen body) (zlen input) input)) as [Hl2 _].
  rewrite Hl2, zlen_zslice by lia. replace (zlen input - (pref_len s + zlen body) =? 0) with true by lia. reflexivity.
Qed.
Lemma pay_trailing f lo : byte_decode cf D f t body = RErr (DNonEmpty lo) ->
  byte_decode cf D (S f) (TDyn s t) input = RErr (DParse (EWindow (CloseWithResidue (zlen (lo_bytes lo))))) /\ 0 < zlen (lo_bytes lo).
Proof.
  pose proof (body_small s body rest Hb) as Hbs. unfold byte_decode, try_decode. fold m.
  destruct (run (byte_h m) (parse cf D f t) (bp_from_buffer body)) as [r q] eqn:Er.
  pose proof (byte_payload f r q Er) as H. intros E. destruct r as [v0|e0| | |]; try discriminate E.
  destruct (cf_complete cf); [|discriminate E].
  destruct H as (c & -> & Hcc & ->). rewrite clean_alone in E by lia. destruct (lo_add_empty (zslice c (zlen body) body)) as [Hl Hl2].
  rewrite Hl in E. destruct (Z.eqb_spec (zlen (zslice c (zlen body) body)) 0) as [Ez|Ez]; [discriminate E|]. injection E as <-.
  rewrite Hl2. rewrite zlen_zslice in * by lia. replace (c =? zlen body) with false by lia. split; [reflexivity|lia].
Qed.
End Pay.

(** ** Both copying parsers, in terms of [decodes] *)
Lemma same_decodes w cf D t input out : wf_defs D = true -> wf_ty D t = true -> pads_ok cf D t = true -> zlen input <= isize_max ->
  w <> WSlice -> decodes w cf D t input out <-> decodes WByte cf D t input out.
Proof.
  intros HD HW HP Hb Hw. destruct w; [reflexivity| |congruence]. unfold decodes, settles. split; intros (H1 & f0 & H2); (split; [exact H1|]); exists f0; intros f Hf;
    specialize (H2 f Hf); cbn [decode_with] in *; rewrite memo_decode_same in * by assumption; exact H2.
Qed.
Lemma wf_dyn D s t : wf_ty D t = true -> wf_ty D (TDyn s t) = true.
Proof. intros H. exact H. Qed.
Lemma pads_dyn cf D s t : pads_ok cf D t = true -> pads_ok cf D (TDyn s t) = true.
Proof. intros H. exact H. Qed.

Lemma payload_error w cf D s t body rest e :
  wf_defs D = true -> wf_ty D t = true -> pads_ok cf D t = true -> w <> WSlice -> zlen body <= pref_max s ->
  zlen (pref_format s (zlen body) ++ body ++ rest) <= isize_max ->
  decodes w cf D t body (RErr (DParse e)) ->
  exists e', decodes w cf D (TDyn s t) (pref_format s (zlen body) ++ body ++ rest) (RErr (DParse e')) /\
    @as_alone val (cf_mode cf) (pref_len s) (zlen body) (RErr e) (RErr e').
Proof.
  intros HD HW HP Hw Hs Hb H. pose proof (body_small s body rest Hb) as Hbs.
  apply same_decodes in H; try assumption. apply settles_at in H. destruct H as [f H].
  destruct (pay_error cf D s t body rest HD HW HP Hs Hb f e H) as (e' & E & Ha). exists e'. split; [|exact Ha].
  apply same_decodes; try assumption. apply (decodes_at WByte _ _ _ _ (S f)); [exact E|discriminate].
Qed.
Lemma payload_value w cf D s t body v :
  wf_defs D = true -> wf_ty D t = true -> pads_ok cf D t = true -> w <> WSlice -> zlen body <= pref_max s ->
  zlen (pref_format s (zlen body) ++ body) <= isize_max -> cf_complete cf = true ->
  decodes w cf D t body (ROk v) -> decodes w cf D (TDyn s t) (pref_format s (zlen body) ++ body) (ROk (VWrap v)).
Proof.
  intros HD HW HP Hw Hs Hb Hc H. rewrite <- (app_nil_r body) in Hb at 2. pose proof (body_small s body [] Hb) as Hbs.
  apply same_decodes in H; try assumption. apply settles_at in H. destruct H as [f H].
  pose proof (pay_value cf D s t body [] HD HW HP Hs Hb f v Hc eq_refl H) as E. rewrite app_nil_r in E, Hb.
  apply same_decodes; try assumption. apply (decodes_at WByte _ _ _ _ (S f)); [exact E|discriminate].
Qed.
Lemma payload_trailing w cf D s t body rest lo :
  wf_defs D = true -> wf_ty D t = true -> pads_ok cf D t = true -> w <> WSlice -> zlen body <= pref_max s ->
  zlen (pref_format s (zlen body) ++ body ++ rest) <= isize_max ->
  decodes w cf D t body (RErr (DNonEmpty lo)) ->
  decodes w cf D (TDyn s t) (pref_format s (zlen body) ++ body ++ rest) (RErr (DParse (EWindow (CloseWithResidue (zlen (lo_bytes lo)))))) /\
  0 < zlen (lo_bytes lo).
Proof.
  intros HD HW HP Hw Hs Hb H. pose proof (body_small s body rest Hb) as Hbs.
  apply same_decodes in H; try assumption. apply settles_at in H. destruct H as [f H].
  destruct (pay_trailing cf D s t body rest HD HW HP Hs Hb f lo H) as [E Hl]. split; [|exact Hl].
  apply same_decodes; try assumption. apply (decodes_at WByte _ _ _ _ (S f)); [exact E|discriminate].
Qed.

(** ** SliceParser *)
Lemma payload_slice cf D s t body rest e :
  zlen body <= pref_max s -> decodes WSlice cf D t body (RErr (DParse e)) ->
  decodes WSlice cf D (TDyn s t) (pref_format s (zlen body) ++ body ++ rest) (RErr (DParse e)).
Proof.
  intros Hs H. apply settles_at in H. destruct H as [f H]. apply (decodes_at WSlice _ _ _ _ (S f)); [|discriminate].
  cbn [decode_with] in *. unfold slice_decode, try_decode in *. pose proof (zlen_nonneg body). pose proof (zlen_nonneg rest).
  pose proof (pref_by slice_h cf s (zlen body) _ _ ltac:(lia) (slice_pref_consume _ _ (body ++ rest) [] (pref_format_len s (zlen body)))) as Epre.
  cbn [parse]. rewrite !run_pbind. unfold sp_from_buffer at 1. rewrite Epre. cbv iota beta. rewrite !run_pbind. unfold p_set_fit. rewrite !run_do_op.
  cbn [slice_h sp_set_fit]. unfold slb_split_unchecked. rewrite zlen_app. replace (zlen body <=? zlen body + zlen rest) with true by lia.
  rewrite ztake_app, zdrop_app, !run_pbind.
  destruct (run slice_h (parse cf D f t) (sp_from_buffer body)) as [r st] eqn:Er.
  destruct (ProofAloneSlice.parse_alone [rest] cf D f t 0%nat [body] eq_refl) as (r0 & s0 & E0 & E1 & _).
  unfold sp_from_buffer in Er. rewrite Er in E0. injection E0 as <- <-. cbn [app] in E1. rewrite E1.
  destruct r as [v|e0| | |]; try discriminate H; [|exact H].
  destruct (cf_complete cf); [|discriminate H]. destruct (sp_cleanup st) as [lo|? | | |]; try discriminate H. destruct (lo_is_empty lo); discriminate H.
Qed.
