(** What is accepted behind a length prefix is accepted on its own. *)
From Coq Require Import Lia.
From Verif Require Import Base BaseLemmas ModelErrors ModelSplitVec ModelParser ModelInt ModelFloat ModelUtf8 ModelTarget ModelSchema
  SpecParser SpecCodec SpecAlone ProofParser ProofParserSim ProofParserProps ProofDec ProofCodec ProofEstimate ProofSettle
  ProofAlone ProofAloneTop ProofAloneSlice ProofMemoSame ProofAlonePay ProofAloneReads.
From Coq Require Import ZifyBool.

Lemma alone_fails {A} m k len (r : pres A) v : as_alone m k len r (ROk v) -> r = ROk v.
Proof.
  destruct r as [a|e| | |]; cbn [as_alone]; intros H; try discriminate H; [congruence| |].
  - destruct e as [w|?|?|?]; try discriminate H. destruct w; try discriminate H.
    destruct H as [[l H]|(l & tg & H & _)]; discriminate H.
  - destruct H as [H|(_ & e & H & _)]; discriminate H.
Qed.

Lemma only_byte cf D s t body rest v' x :
  wf_defs D = true -> wf_ty D t = true -> pads_ok cf D t = true -> zlen body <= pref_max s ->
  zlen (pref_format s (zlen body) ++ body ++ rest) <= isize_max ->
  reads WByte cf D (TDyn s t) (pref_format s (zlen body) ++ body ++ rest) (ROk (v', x)) ->
  x = rest /\ exists v, v' = VWrap v /\ reads WByte cf D t body (ROk (v, [])).
Proof.
  intros HD HW HP Hs Hb H. pose proof (body_small s body rest Hb) as Hbs. pose proof H as H0. apply settles_at in H. destruct H as [[|f] H]; [discriminate H|].
  cbn [run_with] in H. rewrite then_fetch, run_pbind in H.
  destruct (run (byte_h (cf_mode cf)) (parse cf D f t) (bp_from_buffer body)) as [r q] eqn:Er.
  pose proof (byte_payload cf D s t body rest HD HW HP Hs Hb f r q Er) as HB. destruct r as [v|e| | |].
  1:{ destruct HB as (c & -> & Hc & E). rewrite E in H. destruct (Z.eqb_spec c (zlen body)) as [Ec|Ec]; [|discriminate H].
    assert (HR : reads WByte cf D t body (ROk (v, []))).
    { apply (reads_at WByte _ _ _ _ f); [|discriminate]. cbn [run_with]. rewrite then_fetch, run_pbind, Er, fetch_byte by assumption.
      do 2 f_equal. apply zlen_0_nil. rewrite zlen_zslice by lia. lia. }
    pose proof (payload_reads_byte cf D s t body rest v [] HD HW HP Hs Hb HR) as H1. cbn [behind] in H1.
    pose proof (settles_unique _ _ _ H0 H1) as E1. injection E1 as -> ->. split; [reflexivity|]. exists v. split; [reflexivity|exact HR]. }
  all: destruct (run (byte_h (cf_mode cf)) (parse cf D (S f) (TDyn s t)) (bp_from_buffer (pref_format s (zlen body) ++ body ++ rest))) as [[v1|e1| | |] q1];
    try discriminate H; apply alone_fails in HB; discriminate HB.
Qed.
Lemma only_slice cf D s t body rest v' x :
  zlen body <= pref_max s ->
  reads WSlice cf D (TDyn s t) (pref_format s (zlen body) ++ body ++ rest) (ROk (v', x)) ->
  x = rest /\ exists v, v' = VWrap v /\ reads WSlice cf D t body (ROk (v, [])).
Proof.
  intros Hs H. pose proof H as H0. apply settles_at in H. destruct H as [[|f] H]; [discriminate H|].
  cbn [run_with] in H. rewrite then_fetch, run_pbind in H. pose proof (zlen_nonneg body). pose proof (zlen_nonneg rest).
  pose proof (pref_by slice_h cf s (zlen body) _ _ ltac:(lia) (slice_pref_consume _ _ (body ++ rest) [] (pref_format_len s (zlen body)))) as Epre.
  cbn [parse] in H. rewrite !run_pbind in H. unfold sp_from_buffer at 1 in H. rewrite Epre in H. cbv iota beta in H. rewrite !run_pbind in H. unfold p_set_fit in H. rewrite !run_do_op in H.
  cbn [slice_h sp_set_fit] in H. unfold slb_split_unchecked in H. rewrite zlen_app in H. replace (zlen body <=? zlen body + zlen rest) with true in H by lia.
  rewrite ztake_app, zdrop_app, !run_pbind in H.
  destruct (run slice_h (parse cf D f t) (sp_from_buffer body)) as [r st] eqn:Er.
  destruct (ProofAloneSlice.parse_alone [rest] cf D f t 0%nat [body] eq_refl) as (r0 & s0 & E0 & E1 & Hl).
  pose proof Er as Er2. unfold sp_from_buffer in Er. rewrite Er in E0. injection E0 as <- <-. cbn [app] in E1. rewrite E1 in H.
  destruct r as [v|e0| | |]; try discriminate H. specialize (Hl v eq_refl). destruct st as [|w [|? ?]]; try discriminate Hl.
  cbn [app] in H. rewrite !run_pbind in H. unfold p_enforce_target in H. rewrite !run_do_op in H. cbn [slice_h sp_enforce_target] in H.
  destruct (Z.eqb_spec (zlen w) 0) as [Ez|Ez]; [|discriminate H]. apply zlen_0_nil in Ez. subst w.
  assert (HR : reads WSlice cf D t body (ROk (v, []))).
  { apply (reads_at WSlice _ _ _ _ f); [|discriminate]. cbn [run_with]. rewrite then_fetch, run_pbind, Er2, fetch_slice. reflexivity. }
  pose proof (payload_reads_slice cf D s t body rest v [] Hs HR) as HS1. cbn [behind] in HS1.
  pose proof (settles_unique _ _ _ H0 HS1) as E2. injection E2 as -> ->. split; [reflexivity|]. exists v. split; [reflexivity|exact HR].
Qed.
Lemma payload_only w cf D s t body rest v' x :
  wf_defs D = true -> wf_ty D t = true -> w = WSlice \/ pads_ok cf D t = true -> zlen body <= pref_max s ->
  zlen (pref_format s (zlen body) ++ body ++ rest) <= isize_max ->
  reads w cf D (TDyn s t) (pref_format s (zlen body) ++ body ++ rest) (ROk (v', x)) ->
  x = rest /\ exists v, v' = VWrap v /\ reads w cf D t body (ROk (v, [])).
Proof.
  intros HD HW HP Hs Hb H. assert (Hw : w = WSlice \/ w <> WSlice) by (destruct w; auto; right; discriminate).
  destruct Hw as [->|Hw]; [apply only_slice in H; assumption|]. destruct HP as [->|HP]; [congruence|].
  pose proof (body_small s body rest Hb) as Hbs. apply same_reads in H; try assumption.
  destruct (only_byte cf D s t body rest v' x HD HW HP Hs Hb H) as [-> (v & -> & HR)]. split; [reflexivity|]. exists v. split; [reflexivity|].
  apply same_reads; assumption.
Qed.
