(** Reading what follows a length prefix, and what is left behind it. *)
From Coq Require Import Lia.
From Verif Require Import Base BaseLemmas ModelErrors ModelSplitVec ModelParser ModelInt ModelFloat ModelUtf8 ModelTarget ModelSchema
  SpecParser SpecCodec SpecAlone ProofParser ProofParserSim ProofParserProps ProofDec ProofCodec ProofEstimate ProofSettle
  ProofAlone ProofAloneTop ProofAloneSlice ProofMemoSame ProofAlonePay.
From Coq Require Import ZifyBool.

Definition fetch {A} (v : A) : prog (A * list byte) := (n <- p_remainder ;; rest <- p_consume n ;; PRet (v, rest))%prog.
Lemma fetch_byte {A} (v : A) m buf c : zlen buf <= isize_max -> 0 <= c <= zlen buf ->
  fst (run (byte_h m) (fetch v) (mkBP buf (mkCO (zlen buf) [] c))) = ROk (v, zslice c (zlen buf) buf).
Proof.
  intros Hb Hc. unfold fetch, p_remainder, p_consume. rewrite run_pbind, run_do_op. cbn [byte_h]. unfold bp_remainder, usub.
  change (bp_view_len (mkBP buf (mkCO (zlen buf) [] c))) with (zlen buf). change (bp_offset (mkBP buf (mkCO (zlen buf) [] c))) with c.
  replace (c <=? zlen buf) with true by lia. rewrite run_pbind, run_do_op. cbn [byte_h].
  rewrite bp_consume_ok.
  - change (bp_offset (mkBP buf (mkCO (zlen buf) [] c))) with c. cbn [bp_buf run fst]. replace (c + (zlen buf - c)) with (zlen buf) by lia. reflexivity.
  - unfold bp_inv, co_inv. cbn [bp_buf bp_off co_abs co_cur co_frames app asc]. repeat split; cbn [co_abs]; lia.
  - unfold size_fits, is_usize. pose proof isize_max_lt. destruct m; lia.
  - change (zlen buf - c <= zlen buf - c). lia.
Qed.
Lemma fetch_slice {A} (v : A) w ws : run slice_h (fetch v) (w :: ws) = (ROk (v, w), [] :: ws).
Proof.
  unfold fetch, p_remainder, p_consume. rewrite run_pbind, run_do_op. cbn [slice_h]. unfold sp_remainder, sp_view_len. rewrite run_pbind, run_do_op.
  cbn [slice_h sp_consume]. unfold slb_take_unchecked. rewrite Z.leb_refl. cbn [run].
  pose proof (ztake_app w (@nil byte)) as H1. pose proof (zdrop_app w (@nil byte)) as H2. rewrite app_nil_r in H1, H2. rewrite H1, H2. reflexivity.
Qed.
Lemma then_fetch {A} (pg : prog A) : then_rest pg = pbind pg fetch.
Proof. reflexivity. Qed.

Lemma memo_reads_same cf D t f input : wf_defs D = true -> wf_ty D t = true -> pads_ok cf D t = true -> zlen input <= isize_max ->
  run_with WMemo (cf_mode cf) (then_rest (parse cf D f t)) input = run_with WByte (cf_mode cf) (then_rest (parse cf D f t)) input.
Proof.
  intros HD HW HP Hb. destruct (pads_cases _ _ _ HP) as [HP1 HP2]. cbn [run_with].
  destruct (run (memo_h (cf_mode cf)) (then_rest (parse cf D f t)) (mp_from_buffer input)) as [r s] eqn:E.
  assert (M : msim (cf_mode cf) ProofMemoSame.any (then_rest (parse cf D f t))).
  { eapply msim_bind; [apply parse_memo; auto|]. intros. eapply msim_bind; [apply msim_remainder|]. intros.
    eapply msim_bind; [apply msim_consume; assumption|]. intros. apply msim_ret. }
  destruct (M _ _ _ (mp_init_inv _ Hb) E) as [E1 _].
  change (mp_bp (mp_from_buffer input)) with (bp_from_buffer input) in E1. rewrite E1. reflexivity.
Qed.
Lemma same_reads w cf D t input out : wf_defs D = true -> wf_ty D t = true -> pads_ok cf D t = true -> zlen input <= isize_max ->
  w <> WSlice -> reads w cf D t input out <-> reads WByte cf D t input out.
Proof.
  intros HD HW HP Hb Hw. destruct w; [reflexivity| |congruence]. unfold reads, settles. split; intros (H1 & f0 & H2); (split; [exact H1|]); exists f0; intros f Hf;
    specialize (H2 f Hf); rewrite memo_reads_same in * by assumption; exact H2.
Qed.

(** What follows the prefix, read from a whole input. *)
Definition behind (v : val) (x rest : list byte) : pres (val * list byte) :=
  match x with [] => ROk (VWrap v, rest) | _ => RErr (EWindow (CloseWithResidue (zlen x))) end.

Lemma behind_residue v x rest : x <> [] -> behind v x rest = RErr (EWindow (CloseWithResidue (zlen x))).
Proof. destruct x; [congruence|reflexivity]. Qed.

Lemma payload_reads_byte cf D s t body rest v x :
  wf_defs D = true -> wf_ty D t = true -> pads_ok cf D t = true -> zlen body <= pref_max s ->
  zlen (pref_format s (zlen body) ++ body ++ rest) <= isize_max ->
  reads WByte cf D t body (ROk (v, x)) -> reads WByte cf D (TDyn s t) (pref_format s (zlen body) ++ body ++ rest) (behind v x rest).
Proof.
  intros HD HW HP Hs Hb H. pose proof (body_small s body rest Hb) as Hbs. apply settles_at in H. destruct H as [f H].
  apply (reads_at WByte _ _ _ _ (S f)); [|unfold behind; destruct x; discriminate].
  cbn [run_with] in *. rewrite then_fetch in *. rewrite run_pbind in H. rewrite run_pbind.
  destruct (run (byte_h (cf_mode cf)) (parse cf D f t) (bp_from_buffer body)) as [r q] eqn:Er.
  pose proof (byte_payload cf D s t body rest HD HW HP Hs Hb f r q Er) as HB.
  destruct r as [v0|e| | |]; try discriminate H. destruct HB as (c & -> & Hc & ->).
  rewrite fetch_byte in H by assumption. injection H as -> Hx.
  pose proof (zlen_zslice c (zlen body) body ltac:(lia) ltac:(lia)) as Hl. rewrite Hx in Hl.
  destruct (Z.eqb_spec c (zlen body)) as [E|E].
  - assert (Hx0 : x = []) by (apply zlen_0_nil; lia). rewrite Hx0. subst c. cbn [behind].
    pose proof (zlen_nonneg body). pose proof (zlen_nonneg rest). pose proof (pref_format_len s (zlen body)) as Hpl.
    assert (Hk : 0 <= pref_len s) by (destruct s; cbn; lia).
    assert (Hil : zlen (pref_format s (zlen body) ++ body ++ rest) = pref_len s + (zlen body + zlen rest)) by (rewrite !zlen_app; lia).
    rewrite fetch_byte by lia. f_equal. f_equal. rewrite app_assoc.
    replace (pref_len s + zlen body) with (zlen (pref_format s (zlen body) ++ body)) by (rewrite zlen_app; lia).
    unfold zslice. rewrite zdrop_app, zlen_app. replace (zlen (pref_format s (zlen body) ++ body) + zlen rest - zlen (pref_format s (zlen body) ++ body)) with (zlen rest) by lia.
    pose proof (ztake_app rest (@nil byte)) as Ht. rewrite app_nil_r in Ht. exact Ht.
  - cbn [fst]. rewrite behind_residue; [|intros ->; cbn in Hl; lia]. rewrite Hl. reflexivity.
Qed.
Lemma payload_reads_slice cf D s t body rest v x :
  zlen body <= pref_max s -> reads WSlice cf D t body (ROk (v, x)) -> reads WSlice cf D (TDyn s t) (pref_format s (zlen body) ++ body ++ rest) (behind v x rest).
Proof.
  intros Hs H. apply settles_at in H. destruct H as [f H].
  apply (reads_at WSlice _ _ _ _ (S f)); [|unfold behind; destruct x; discriminate].
  cbn [run_with] in *. rewrite then_fetch in *. rewrite run_pbind in H. rewrite run_pbind. pose proof (zlen_nonneg body). pose proof (zlen_nonneg rest).
  pose proof (pref_by slice_h cf s (zlen body) _ _ ltac:(lia) (slice_pref_consume _ _ (body ++ rest) [] (pref_format_len s (zlen body)))) as Epre.
  cbn [parse]. rewrite !run_pbind. unfold sp_from_buffer at 1. rewrite Epre. cbv iota beta. rewrite !run_pbind. unfold p_set_fit. rewrite !run_do_op.
  cbn [slice_h sp_set_fit]. unfold slb_split_unchecked. rewrite zlen_app. replace (zlen body <=? zlen body + zlen rest) with true by lia.
  rewrite ztake_app, zdrop_app, !run_pbind.
  destruct (run slice_h (parse cf D f t) (sp_from_buffer body)) as [r st] eqn:Er.
  destruct (ProofAloneSlice.parse_alone [rest] cf D f t 0%nat [body] eq_refl) as (r0 & s0 & E0 & E1 & Hl).
  unfold sp_from_buffer in Er. rewrite Er in E0. injection E0 as <- <-. cbn [app] in E1. rewrite E1.
  destruct r as [v0|e0| | |]; try discriminate H. specialize (Hl v0 eq_refl). destruct st as [|w [|? ?]]; try discriminate Hl.
  rewrite fetch_slice in H. cbn [fst] in H. injection H as -> ->. cbn [app]. rewrite !run_pbind. unfold p_enforce_target. rewrite !run_do_op.
  cbn [slice_h sp_enforce_target]. destruct x as [|b x].
  - cbn [zlen length Z.of_nat Z.eqb run behind]. rewrite fetch_slice. reflexivity.
  - replace (zlen (b :: x) =? 0) with false by (rewrite zlen_cons; pose proof (zlen_nonneg x); lia). reflexivity.
Qed.
Lemma payload_any w cf D s t body rest v x :
  wf_defs D = true -> wf_ty D t = true -> w = WSlice \/ pads_ok cf D t = true -> zlen body <= pref_max s ->
  zlen (pref_format s (zlen body) ++ body ++ rest) <= isize_max ->
  reads w cf D t body (ROk (v, x)) -> reads w cf D (TDyn s t) (pref_format s (zlen body) ++ body ++ rest) (behind v x rest).
Proof.
  intros HD HW HP Hs Hb H. assert (Hw : w = WSlice \/ w <> WSlice) by (destruct w; auto; right; discriminate).
  destruct Hw as [->|Hw]; [apply payload_reads_slice; assumption|]. destruct HP as [->|HP]; [congruence|].
  pose proof (body_small s body rest Hb) as Hbs. apply same_reads in H; try assumption. apply same_reads; try assumption. apply payload_reads_byte; assumption.
Qed.
Lemma payload_reads w cf D s t body rest v :
  wf_defs D = true -> wf_ty D t = true -> w = WSlice \/ pads_ok cf D t = true -> zlen body <= pref_max s ->
  zlen (pref_format s (zlen body) ++ body ++ rest) <= isize_max ->
  reads w cf D t body (ROk (v, [])) -> reads w cf D (TDyn s t) (pref_format s (zlen body) ++ body ++ rest) (ROk (VWrap v, rest)).
Proof. intros. eapply (payload_any w cf D s t body rest v []); eassumption. Qed.
Lemma payload_residue w cf D s t body rest v x :
  wf_defs D = true -> wf_ty D t = true -> w = WSlice \/ pads_ok cf D t = true -> zlen body <= pref_max s ->
  zlen (pref_format s (zlen body) ++ body ++ rest) <= isize_max -> x <> [] ->
  reads w cf D t body (ROk (v, x)) ->
  reads w cf D (TDyn s t) (pref_format s (zlen body) ++ body ++ rest) (RErr (EWindow (CloseWithResidue (zlen x)))).
Proof. intros. rewrite <- (behind_residue v x rest) by assumption. apply payload_any; assumption. Qed.
