(** Ranged integers whose bounds make no sense. *)
From Verif Require Import Base BaseLemmas ModelErrors ModelSplitVec ModelParser ModelInt ModelTarget ModelSchema SpecParser
  SpecCodec SpecNum ProofParser ProofParserSim ProofInt ProofDec ProofCodec ProofMeta ProofRoundTrip ProofTransfer
  ProofSettle ProofView ProofBroken ProofEnc ProofEncBytes ProofCodecProps ProofCodecThms ProofNum ModelScan SpecScan ProofParserProps ProofScan ProofParserMisc ModelConv ProofConv.
From Coq Require Import ZifyBool.

Definition checked (cf : config) (lo hi : Z) : Prop :=
  cf_range_check cf = true -> - 2 ^ 30 <= lo /\ lo <= hi /\ hi < 2 ^ 30.

Lemma checked_ok E cf lo hi : checked cf lo hi -> @ri_check (cf_range_check cf) lo hi E = ROk tt.
Proof.
  unfold checked, ri_check. destruct (cf_range_check cf); [|reflexivity]. intros H. specialize (H eq_refl).
  assert (S : ri_sanity lo hi = true) by (apply sanity_spec; lia). rewrite S. reflexivity.
Qed.
Lemma unchecked_panics E lo hi : ~ (- 2 ^ 30 <= lo /\ lo <= hi /\ hi < 2 ^ 30) -> @ri_check true lo hi E = RPanic.
Proof.
  intros H. unfold ri_check. destruct (ri_sanity lo hi) eqn:S; [|reflexivity]. apply sanity_spec in S. lia.
Qed.
Lemma restrict_in lo hi k z : ranged_ok k lo hi z = true -> restrict z lo hi = ROk z.
Proof.
  intros H. apply ranged_ok_value in H. destruct H as [_ H]. apply restrict_ok. unfold ranged_value in H.
  destruct (0 <? lo); lia.
Qed.
Lemma restrict_out lo hi z : ~ lo <= ranged_value lo z <= hi -> exists e, restrict z lo hi = RErr e.
Proof.
  intros H. destruct (restrict_cases z lo hi) as [[e E]|E]; [eauto|].
  apply restrict_ok in E. unfold ranged_value in H. destruct (0 <? lo); lia.
Qed.

Section Bounds.
Variables (w : which_parser) (cf : config) (D : list def) (k : int_kind) (lo hi : Z).

Lemma bounds_no_ub f input : dec cf D f (TRanged k lo hi) input <> RUB.
Proof.
  destruct f as [|f]; [discriminate|]. cbn [dec]. unfold d_bind at 1. unfold d_ranged, d_bind.
  destruct (d_int_cases k input) as [(z & rest & ->)|[e ->]]; [|discriminate]. unfold d_lift, ri_try_from_underlying, ri_check.
  destruct (cf_range_check cf); [destruct (ri_sanity lo hi)|]; cbn [rbind rassert ext_int]; try discriminate;
    destruct (restrict_cases z lo hi) as [[e E]|E]; rewrite E; cbn [ext_int]; discriminate.
Qed.

Lemma bounds_decode input v rest : bytes_ok input -> zlen input <= isize_max -> checked cf lo hi ->
  reads w cf D (TRanged k lo hi) input (ROk (v, rest)) <->
  exists z, v = VInt z /\ ik_in k z = true /\ input = int_format k z ++ rest /\ lo <= ranged_value lo z <= hi.
Proof.
  intros HB HL HC. split.
  - intros H. destruct (reads_inv_in w cf D _ input HL v rest (fun f => bounds_no_ub f input) H) as (f & Hf).
    destruct f as [|f]; [discriminate Hf|]. cbn [dec] in Hf.
    apply d_bind_ok in Hf. destruct Hf as (z & r & Hz & Hf). apply d_ret_ok in Hf. destruct Hf as [-> ->].
    apply d_ranged_ok in Hz; [|exact HB]. destruct Hz as [-> Hz]. apply ranged_ok_value in Hz. exists z. tauto.
  - intros (z & -> & Hz & -> & Hr). apply (reads_ok w cf D _ _ HL 1). cbn [dec]. unfold d_bind at 1. unfold d_ranged, d_bind.
    rewrite d_int_app by exact Hz. unfold d_lift, ri_try_from_underlying. rewrite checked_ok by exact HC. cbn [rbind].
    rewrite (restrict_in lo hi k z); [reflexivity|]. apply ranged_ok_value. auto.
Qed.

Lemma bounds_rejected rest z : bytes_ok rest -> zlen (int_format k z ++ rest) <= isize_max -> checked cf lo hi ->
  ik_in k z = true -> ~ lo <= ranged_value lo z <= hi -> rejects w cf D (TRanged k lo hi) (int_format k z ++ rest).
Proof.
  intros HB HL HC Hz Hn. destruct (restrict_out lo hi z Hn) as [e He].
  destruct (decode_error_seen w cf [] 1 (TRanged k lo hi) _ HL (fun _ => conj eq_refl eq_refl)) as [e' E].
  { cbn [dec]. unfold d_bind at 1. unfold d_ranged, d_bind. rewrite d_int_app by exact Hz.
    unfold d_lift, ri_try_from_underlying. rewrite checked_ok by exact HC. cbn [rbind]. rewrite He. cbn [ext_int]. eexists; reflexivity. }
  exists e'. apply (decodes_at w cf D (TRanged k lo hi) _ 1); [|discriminate]. rewrite <- E. destruct w; reflexivity.
Qed.

Lemma bounds_panic rest z : zlen (int_format k z ++ rest) <= isize_max -> ik_in k z = true ->
  cf_range_check cf = true -> ~ (- 2 ^ 30 <= lo /\ lo <= hi /\ hi < 2 ^ 30) ->
  reads w cf D (TRanged k lo hi) (int_format k z ++ rest) RPanic.
Proof.
  intros HL Hz HC Hn. pose proof (reads_seen w cf D (TRanged k lo hi) _ HL 1) as R.
  replace (dec cf D 1 (TRanged k lo hi) (int_format k z ++ rest)) with (@RPanic parse_error (val * list byte)) in R.
  - cbv zeta in R. eapply reads_at; [exact R|discriminate].
  - symmetry. cbn [dec]. unfold d_bind at 1. unfold d_ranged, d_bind. rewrite d_int_app by exact Hz.
    unfold d_lift, ri_try_from_underlying. rewrite HC, unchecked_panics by exact Hn. reflexivity.
Qed.

Lemma bounds_encode kf z : ik_in k z = true -> lo <= ranged_value lo z <= hi -> checked cf lo hi ->
  to_bytes cf D kf (VInt z) (TRanged k lo hi) = ROk (int_format k z).
Proof.
  intros Hz Hr HC. rewrite to_bytes_wr. cbn [wr]. unfold r_ranged, ri_to_underlying. rewrite checked_ok by exact HC. cbn [rbind].
  rewrite (restrict_in lo hi k z) by (apply ranged_ok_value; auto).
  cbn [rbind]. rewrite to_be_bytes_format. pose proof (int_format_length k z) as L.
  assert (ik_len k <= 8) by (destruct k; cbn; lia). assert (8 < usize_mod) by reflexivity.
  unfold r_end, r_add, r_put. cbn [rbind fst snd]. unfold byte in *. rewrite uadd_ok by (rewrite L; lia). cbn [rbind fst snd rmap].
  rewrite uadd_ok by (rewrite L; lia). cbn [rbind rmap snd]. rewrite !app_nil_r. reflexivity.
Qed.
Lemma bounds_encode_panics kf z : (~ lo <= ranged_value lo z <= hi) \/ ~ checked cf lo hi ->
  to_bytes cf D kf (VInt z) (TRanged k lo hi) = RPanic.
Proof.
  intros H. rewrite to_bytes_wr. cbn [wr]. unfold r_ranged, ri_to_underlying.
  destruct H as [H|H].
  - destruct (restrict_out lo hi z H) as [e ->]. unfold ri_check.
    destruct (cf_range_check cf); [destruct (ri_sanity lo hi)|]; reflexivity.
  - unfold checked in H. destruct (cf_range_check cf); [|destruct H; discriminate].
    rewrite unchecked_panics by (intros N; apply H; intros _; exact N). reflexivity.
Qed.
End Bounds.

(** ** fast_kv_search with empty entries (C12) *)
Lemma byte_empty_entries m buf p V (f : list byte -> V) fuel :
  zlen buf <= isize_max -> reaches m (byte_h m) (bp_from_buffer buf) p ->
  run (byte_h m) (p_kv_search (S fuel) [] 0 f) p =
    (ROk (match zslice (bp_offset p) (bp_view_len p) buf with [] => None | _ => Some (f []) end), p).
Proof.
  intros Hb Hr. destruct (byte_view m buf p Hb Hr) as [Hi <-]. cbn [p_kv_search]. unfold p_remainder.
  rewrite (run_op (byte_h m)), bl_rem by exact Hi. destruct (bp_view p) as [|b l] eqn:Ev; [reflexivity|].
  assert (Hl : 0 < zlen (b :: l)) by (rewrite zlen_cons; pose proof (zlen_nonneg l); lia).
  replace (0 <? zlen (b :: l)) with true by lia. change (zlen []) with 0. rewrite <- Ev in *.
  assert (Hn : 0 <= 0 <= zlen (bp_view p)) by lia.
  rewrite (run_arr (byte_h m) bp_inv bp_view bp_moved (bl_consume m)) by assumption.
  rewrite ztake_0. cbn [bytes_eqb]. rewrite bl_moved_0.
  rewrite (run_arr (byte_h m) bp_inv bp_view bp_moved (bl_consume m)) by assumption.
  rewrite ztake_0, bl_moved_0. reflexivity.
Qed.
Lemma memo_empty_entries m buf p V (f : list byte -> V) fuel :
  zlen buf <= isize_max -> reaches m (memo_h m) (mp_from_buffer buf) p ->
  exists p', run (memo_h m) (p_kv_search (S fuel) [] 0 f) p =
    (ROk (match zslice (mp_offset p) (mp_view_len p) buf with [] => None | _ => Some (f []) end), p') /\ memo_same p' p.
Proof.
  intros Hb Hr. destruct (reaches_memo m buf p Hb Hr) as (Hi & _ & Hrb).
  pose proof (byte_empty_entries m buf (mp_bp p) V f fuel Hb Hrb) as E.
  destruct (memo_lift m _ p _ _ Hi (kv_fits m V (S fuel) [] 0 f ltac:(discriminate) ltac:(split; discriminate)) E) as (p' & E' & Hp).
  exists p'. split; [exact E'|]. apply memo_same_bp. exact Hp.
Qed.

Lemma bounds_encode_any cf D k lo hi kf z :
  (ik_in k z = true -> lo <= ranged_value lo z <= hi ->
   (cf_range_check cf = true -> - 2 ^ 30 <= lo /\ lo <= hi /\ hi < 2 ^ 30) ->
   to_bytes cf D kf (VInt z) (TRanged k lo hi) = ROk (int_format k z)) /\
  (~ lo <= ranged_value lo z <= hi \/ ~ (cf_range_check cf = true -> - 2 ^ 30 <= lo /\ lo <= hi /\ hi < 2 ^ 30) ->
   to_bytes cf D kf (VInt z) (TRanged k lo hi) = RPanic).
Proof. split; [apply bounds_encode|apply bounds_encode_panics]. Qed.

(** ** The prefix with enc_len_estimable_override (F8) *)
Lemma override_prefix_wrong : exists cf D kf s t v p bs,
  cf_est_override cf = true /\ wf_ty D (TDyn s t) = true /\ well_typed D (VWrap v) (TDyn s t) = true /\
  to_bytes cf D kf v t = ROk p /\ zlen p <= pref_max s /\
  to_bytes cf D kf (VWrap v) (TDyn s t) = ROk bs /\ bs <> pref_format s (zlen p) ++ p /\
  forall w, exists e, decodes w cf D (TDyn s t) bs (RErr (DParse e)).
Proof.
  exists (mkConfig Release false true false false false), [], 3%nat, PrefU8, TN, (VInt 0), [0], [0; 0].
  split; [reflexivity|]. split; [reflexivity|]. split; [reflexivity|]. split; [vm_compute; reflexivity|].
  split; [discriminate|]. split; [vm_compute; reflexivity|]. split; [vm_compute; discriminate|]. intros w.
  destruct w; eexists; (eapply (decodes_at _ _ _ _ _ 4); [vm_compute; reflexivity|discriminate]).
Qed.

(** ** [try_decode], [length_prefix] and [Estimable] at the edges *)
Lemma bounds_decode_panic w cf D k lo hi rest z : zlen (int_format k z ++ rest) <= isize_max -> ik_in k z = true ->
  cf_range_check cf = true -> ~ (- 2 ^ 30 <= lo /\ lo <= hi /\ hi < 2 ^ 30) ->
  decodes w cf D (TRanged k lo hi) (int_format k z ++ rest) RPanic.
Proof.
  intros HL Hz HC Hn. pose proof (decode_cases w cf D (TRanged k lo hi) _ HL 1) as R.
  replace (dec cf D 1 (TRanged k lo hi) (int_format k z ++ rest)) with (@RPanic parse_error (val * list byte)) in R.
  - eapply decodes_at; [exact R|discriminate].
  - symmetry. cbn [dec]. unfold d_bind at 1. unfold d_ranged, d_bind. rewrite d_int_app by exact Hz.
    unfold d_lift, ri_try_from_underlying. rewrite HC, unchecked_panics by exact Hn. reflexivity.
Qed.

Lemma bad_payload_prefix cf D kf s v t :
  wf_defs D = true -> wf_ty D t = true -> well_typed D v t = true -> zlen (format D v t) <= isize_max ->
  cf_est_override cf = false -> valid D v t = false -> length_prefix cf D kf s v t = RPanic.
Proof.
  intros HD HT HV HL EO Hn. pose proof (encode_is_format cf D kf t v HD HT HV EO HL) as E. rewrite Hn in E.
  rewrite to_bytes_wr in E. unfold length_prefix. rewrite enc_len_wr, EO.
  destruct (wr cf D kf v t) as [[n bs]| | | |]; cbn [rbind rmap] in *; try discriminate E; reflexivity.
Qed.

Lemma padded_estimable cf D kf n t : known cf D kf t = Some None ->
  (known cf D (S kf) (TPad n t) <> None <-> cf_relaxed_padding cf = true).
Proof. intros E. cbn [known]. rewrite E. destruct (cf_relaxed_padding cf); split; congruence. Qed.
