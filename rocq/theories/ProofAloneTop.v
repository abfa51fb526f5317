(** Windows of ByteParser and MemoParser: from a history of calls to the simulation. *)
From Coq Require Import Lia.
From Verif Require Import Base BaseLemmas ModelErrors ModelParser ModelInt ModelFloat ModelUtf8 ModelTarget ModelSchema
  SpecParser SpecCodec SpecAlone ProofParser ProofParserSim ProofParserProps ProofParserMisc ProofInt ProofDec ProofCodec ProofRoundTrip ProofAlone ProofMemoSame.
From Coq Require Import ZifyBool.

Lemma pads_cases cf D t : pads_ok cf D t = true -> (cf_mode cf = Release -> vpad_free_defs D = true) /\ (cf_mode cf = Release -> vpad_free t = true).
Proof. intros HP. split; intros Em; unfold pads_ok in HP; rewrite Em in HP; lia. Qed.

Lemma byte_alone cf D t f buf p n p1 r q r' q' :
  wf_defs D = true -> wf_ty D t = true -> pads_ok cf D t = true -> zlen buf <= isize_max ->
  reaches (cf_mode cf) (byte_h (cf_mode cf)) (bp_from_buffer buf) p -> size_fits (cf_mode cf) n ->
  byte_h (cf_mode cf) unit (OpSetFit n) p = (ROk tt, p1) ->
  run (byte_h (cf_mode cf)) (parse cf D f t) (bp_from_buffer (zslice (bp_offset p) (bp_offset p + n) buf)) = (r, q) ->
  run (byte_h (cf_mode cf)) (parse cf D f t) p1 = (r', q') ->
  as_alone (cf_mode cf) (bp_offset p) n r r' /\ (forall v, r = ROk v -> bp_offset q' = bp_offset p + bp_offset q).
Proof.
  intros HD HW HP Hb Hre Hn E Er Er'. destruct (pads_cases _ _ _ HP) as [HP1 HP2].
  destruct (bp_reaches_inv _ _ _ Hb Hre) as [Hi Hbuf].
  assert (Hn0 : 0 <= n) by (unfold size_fits, is_usize in Hn; destruct (cf_mode cf); lia).
  assert (Hle : n <= bp_view_len p - bp_offset p).
  { destruct (set_fit_exact (cf_mode cf) buf p n Hb Hre Hn) as (rem & Erem & _ & Hbad).
    destruct (Z.le_gt_cases n rem) as [Hc|Hc].
    - pose proof (co_inv_limit _ _ Hi) as HLm. cbn [byte_h] in Erem. unfold bp_remainder, usub in Erem.
      unfold bp_view_len, bp_offset, co_index in *.
      replace (co_cur (bp_off p) <=? co_limit (bp_off p)) with true in Erem by lia. injection Erem as <-. exact Hc.
    - destruct (Hbad ltac:(lia)) as [[e Ee]|[_ Ee]]; rewrite E in Ee; discriminate Ee. }
  cbn [byte_h] in E. rewrite bp_set_fit_ok in E by (auto; lia). injection E as <-.
  pose proof (co_inv_limit _ _ Hi) as HLm. destruct Hi as (_ & Habs & Hc0 & Hasc). rewrite Hbuf in *.
  unfold bp_view_len, bp_offset, co_index in *.
  set (k := co_cur (bp_off p)) in *.
  assert (HkL : k + n <= zlen buf) by lia.
  destruct (parse_alone (cf_mode cf) buf k n (co_frames (bp_off p)) Hc0 Hn0 HkL Hb cf D eq_refl HD HP1 f t HW HP2 []
     (bp_from_buffer (zslice k (k + n) buf)) (mkBP buf (mkCO (co_abs (bp_off p)) (k + n :: co_frames (bp_off p)) k))) as [H1 H2].
  - exists 0. split; [|split; [|split]].
    + unfold bp_from_buffer, alone, body, co_with_limit. rewrite zlen_zslice by lia. replace (k + n - k) with n by lia. reflexivity.
    + unfold inside. cbn [map app]. rewrite Habs, Z.add_0_r. reflexivity.
    + lia.
    + cbn. lia.
  - rewrite Er, Er' in H1, H2. cbn [fst snd] in *. split; [exact H1|].
    intros v Hv. destruct (H2 v Hv) as [(c & -> & -> & _) _]. reflexivity.
Qed.

Lemma memo_alone cf D t f buf p n p1 r q r' q' :
  wf_defs D = true -> wf_ty D t = true -> pads_ok cf D t = true -> zlen buf <= isize_max ->
  reaches (cf_mode cf) (memo_h (cf_mode cf)) (mp_from_buffer buf) p -> size_fits (cf_mode cf) n ->
  memo_h (cf_mode cf) unit (OpSetFit n) p = (ROk tt, p1) ->
  run (memo_h (cf_mode cf)) (parse cf D f t) (mp_from_buffer (zslice (mp_offset p) (mp_offset p + n) buf)) = (r, q) ->
  run (memo_h (cf_mode cf)) (parse cf D f t) p1 = (r', q') ->
  as_alone (cf_mode cf) (mp_offset p) n r r' /\ (forall v, r = ROk v -> mp_offset q' = mp_offset p + mp_offset q).
Proof.
  intros HD HW HP Hb Hre Hn E Er Er'. destruct (pads_cases _ _ _ HP) as [HP1 HP2].
  destruct (reaches_memo _ _ _ Hb Hre) as (Hi & Hbuf & Hre').
  destruct (mp_step (cf_mode cf) (OpSetFit n) p Hi Hn _ _ E) as [E1 Hi1].
  assert (Hsm : zlen (zslice (mp_offset p) (mp_offset p + n) buf) <= isize_max).
  { unfold zslice, ztake, zdrop, zlen in *. rewrite firstn_length, skipn_length. lia. }
  destruct (parse_memo (cf_mode cf) cf D eq_refl HD HP1 f t HW HP2 _ _ _ (mp_init_inv _ Hsm) Er) as [F _].
  destruct (parse_memo (cf_mode cf) cf D eq_refl HD HP1 f t HW HP2 p1 _ _ (Hi1 ltac:(discriminate)) Er') as [F' _].
  exact (byte_alone cf D t f buf (mp_bp p) n (mp_bp p1) r (mp_bp q) r' (mp_bp q') HD HW HP Hb Hre' Hn E1 F F').
Qed.

(** ** The payload behind a length prefix *)
Lemma byte_pref_consume m n a x : zlen a = n -> zlen (a ++ x) <= isize_max ->
  run (byte_h m) (p_consume n) (bp_from_buffer (a ++ x)) = (ROk a, mkBP (a ++ x) (mkCO (zlen (a ++ x)) [] n)).
Proof.
  intros Hn Hb. pose proof (zlen_nonneg a). pose proof (zlen_nonneg x). pose proof (zlen_app a x).
  unfold p_consume. rewrite run_do_op. cbn [byte_h].
  rewrite bp_consume_ok; [|apply bp_init_inv, Hb|unfold size_fits, is_usize; pose proof isize_max_lt; destruct m; lia|unfold bp_view_len, bp_offset, co_index, bp_from_buffer, co_with_limit, co_limit; cbn; lia].
  unfold bp_moved, bp_from_buffer, bp_offset, co_index, co_with_limit. cbn [bp_buf bp_off co_cur co_abs co_frames].
  unfold zslice. rewrite Z.sub_0_r || idtac. cbn [Z.add]. rewrite <- Hn. unfold zdrop. cbn [Z.to_nat skipn]. rewrite ?Z.sub_0_r, ztake_app. reflexivity.
Qed.
Lemma slice_pref_consume n a x ws : zlen a = n ->
  run slice_h (p_consume n) ((a ++ x) :: ws) = (ROk a, x :: ws).
Proof.
  intros Hn. pose proof (zlen_nonneg a). pose proof (zlen_nonneg x). pose proof (zlen_app a x).
  unfold p_consume. rewrite run_do_op. cbn [slice_h sp_consume]. unfold slb_take_unchecked. replace (n <=? zlen (a ++ x)) with true by lia.
  rewrite <- Hn, ztake_app, zdrop_app. reflexivity.
Qed.

Section Pref.
Context {P : Type} (h : handler P).
(** A prefix is read by one [consume]. *)
Lemma pref_by cf s n st st1 : 0 <= n <= pref_max s ->
  run h (p_consume (pref_len s)) st = (ROk (pref_format s n), st1) -> run h (p_pref cf s) st = (ROk n, st1).
Proof.
  intros Hn E.
  assert (HI : forall k, ik_len k = pref_len s -> pref_format s n = int_format k n -> ik_in k n = true -> run h (p_int k) st = (ROk n, st1)).
  { intros k Hk Hf Hi. unfold p_int, p_take_fixed, p_consume_arr. rewrite !run_pbind. rewrite Hk, E. cbv iota beta.
    unfold coerce_slice. rewrite Hf at 1. rewrite int_format_length, Hk, Z.eqb_refl. cbn [plift run]. rewrite Hf, from_to_be_bytes by assumption. reflexivity. }
  pose proof (pref_format_int s n Hn) as Hf.
  destruct s; cbn [p_pref pref_max] in *.
  - apply HI; [reflexivity|exact Hf|unfold ik_in; cbn; lia].
  - apply HI; [reflexivity|exact Hf|unfold ik_in; cbn; lia].
  - assert (Hi : ik_in U64 n = true).
    { apply ik_in_spec. change (ik_min U64) with 0. change (ik_max U64) with (2 ^ 64 - 1). unfold u30_max in Hn; lia. }
    assert (Hi2 : ik_in U32 n = true).
    { apply ik_in_spec. change (ik_min U32) with 0. change (ik_max U32) with (2 ^ 32 - 1). unfold u30_max in Hn; lia. }
    unfold p_ranged. rewrite !run_pbind. rewrite (HI U32); [|reflexivity|exact Hf|exact Hi2]. cbv iota beta.
    rewrite ri_ok; [|reflexivity|cbn [Z.ltb Z.compare]; lia]. cbn [ext_int plift run]. unfold ri_into. rewrite ik_wrap_id by exact Hi. reflexivity.
Qed.
End Pref.
