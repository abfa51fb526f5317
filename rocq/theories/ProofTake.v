(** The numeric methods of a parser agree with decoding the type. *)
From Verif Require Import Base BaseLemmas ModelErrors ModelParser ModelInt ModelFloat ModelSchema ModelTake
  SpecParser SpecCodec ProofInt ProofParser ProofParserSim ProofParserProps ProofParserMisc ProofDec ProofRoundTrip ProofMeta ProofTransfer ProofView ProofNum.
From Coq Require Import ZifyBool.
Local Open Scope Z_scope. Local Open Scope list_scope.

Definition one_byte {P} (h : handler P) (p : P) : Prop :=
  match h _ OpConsumeByte p with
  | (ROk b, q) => h _ (OpConsume 1) p = (ROk [b], q) /\ 0 <= b < 256
  | (RErr e, q) => h _ (OpConsume 1) p = (RErr e, q)
  | (RPanic, q) => h _ (OpConsume 1) p = (RPanic, q)
  | (RUB, q) => h _ (OpConsume 1) p = (RUB, q)
  | (RDiv, q) => h _ (OpConsume 1) p = (RDiv, q)
  end.

Lemma take_of_one_byte {P} (h : handler P) p : one_byte h p -> forall k, run h (p_take k) p = run h (p_int k) p.
Proof.
  intros H k.
  assert (E : forall k, ik_len k = 1 -> run h (pbind p_consume_byte (fun b => PRet (ik_wrap k b))) p = run h (p_int k) p).
  { intros k' Hk. unfold p_int, p_take_fixed, p_consume_arr. rewrite Hk, !run_pbind. unfold p_consume_byte, p_consume.
    rewrite !run_do_op. unfold one_byte in H. destruct (h _ OpConsumeByte p) as [[b|e| | |] q].
    - destruct H as [H Hb]. rewrite H. reflexivity.
    - rewrite H. reflexivity.
    - rewrite H. reflexivity.
    - rewrite H. reflexivity.
    - rewrite H. reflexivity. }
  destruct k; try reflexivity.
  - cbn [p_take]. rewrite <- (E U8 eq_refl). unfold p_take_u8. rewrite run_pbind.
    unfold p_consume_byte. rewrite !run_do_op. unfold one_byte in H. destruct (h _ OpConsumeByte p) as [[b|e| | |] q]; try reflexivity.
    cbn [run]. f_equal. f_equal. symmetry. apply ik_wrap_id. unfold ik_in. change (ik_min U8) with 0. change (ik_max U8) with 255. lia.
  - apply (E I8 eq_refl).
Qed.

Lemma nth_slice (buf : list byte) i : 0 <= i < zlen buf -> exists b, nth_error buf (Z.to_nat i) = Some b /\ zslice i (i + 1) buf = [b].
Proof.
  intros Hi. destruct (nth_error buf (Z.to_nat i)) as [b|] eqn:E.
  - exists b. split; [reflexivity|]. unfold zslice. replace (i + 1 - i) with 1 by lia. unfold ztake, zdrop.
    apply nth_error_split in E. destruct E as (l1 & l2 & -> & <-). rewrite skipn_app, skipn_all, Nat.sub_diag. reflexivity.
  - exfalso. apply nth_error_None in E. unfold zlen in Hi. lia.
Qed.

Lemma one_byte_byte m p : bp_inv p -> bytes_ok (bp_buf p) -> one_byte (byte_h m) p.
Proof.
  intros HI HB. unfold one_byte. cbn [byte_h]. unfold bp_consume_byte, bp_consume.
  pose proof (co_inv_limit _ _ HI) as HL.
  destruct (@co_advance_spec parse_error m 1 _ _ HI) as [[Hn ->]|[[Hn ->]|(_ & Hn & _)]].
  { unfold size_fits, is_usize. destruct m; split; try lia; reflexivity || discriminate. }
  - destruct (nth_slice (bp_buf p) (co_cur (bp_off p))) as (b & E & Es); [lia|].
    unfold vb_get_byte, vb_get_byte_unchecked. rewrite E. unfold rassert.
    replace (co_cur (bp_off p) <=? zlen (bp_buf p)) with true by lia. cbn [rbind]. split.
    + unfold vb_get_slice_unchecked. rewrite uadd_ok by (unfold isize_max, usize_mod in *; lia). cbn [rbind].
      replace ((co_cur (bp_off p) <=? co_cur (bp_off p) + 1) && (co_cur (bp_off p) + 1 <=? zlen (bp_buf p))) with true by lia.
      rewrite Es. reflexivity.
    + apply nth_error_In in E. unfold bytes_ok in HB. rewrite Forall_forall in HB. apply HB, E.
  - reflexivity.
  - unfold isize_max in Hn. lia.
Qed.

Lemma one_byte_memo m p : mp_inv p -> bytes_ok (mp_buf p) -> one_byte (memo_h m) p.
Proof.
  intros HI HB. pose proof (one_byte_byte m (mp_bp p) (proj1 HI) HB) as H. unfold one_byte in *. cbn [byte_h memo_h] in *.
  unfold mp_consume_byte, mp_consume, bp_consume_byte, bp_consume in *. unfold mp_bp in H. cbn [bp_buf bp_off] in H.
  destruct (@co_advance parse_error m 1 (mp_off p)) as [[[ix [|]] off]| | | |]; try reflexivity.
  - destruct (vb_get_byte ix (mp_buf p)) as [b|e| | |].
    + destruct H as [H Hb]. split; [|exact Hb]. injection H as H. rewrite H. reflexivity.
    + injection H as H. rewrite H. reflexivity.
    + injection H as H. rewrite H. reflexivity.
    + injection H as H. rewrite H. reflexivity.
    + injection H as H. rewrite H. reflexivity.
  - destruct (mp_dump m (mkMP (mp_buf p) off (mp_munches p))) as [?|?| | |]; reflexivity.
Qed.
Lemma one_byte_slice p : Forall bytes_ok p -> one_byte slice_h p.
Proof.
  intros HB. unfold one_byte. cbn [slice_h]. unfold sp_consume_byte, sp_consume. destruct p as [|[|b f] p].
  - reflexivity.
  - reflexivity.
  - cbn [slb_cut_first]. rewrite zlen_cons. pose proof (zlen_nonneg f). replace (1 <=? 1 + zlen f) with true by lia.
    unfold slb_take_unchecked. rewrite zlen_cons. replace (1 <=? 1 + zlen f) with true by lia. split; [reflexivity|].
    apply Forall_cons_iff in HB. destruct HB as [HB _]. apply Forall_cons_iff in HB. apply HB.
Qed.
(** The frames of a slice parser hold bytes of its input. *)
Lemma slice_frames m buf p : bytes_ok buf -> reaches m slice_h (sp_from_buffer buf) p -> Forall bytes_ok p.
Proof.
  intros HB (ops & _ & H). assert (H0 : Forall bytes_ok (sp_from_buffer buf)) by (repeat constructor; exact HB).
  revert H0 H. generalize (sp_from_buffer buf). induction ops as [|[X o] ops IH]; cbn [after]; intros q Hq H.
  - injection H as <-. exact Hq.
  - assert (Hs : Forall bytes_ok (snd (slice_h X o q))).
    { assert (Hz : forall n f, bytes_ok f -> bytes_ok (zdrop n f)) by (intros n f Hf; unfold bytes_ok in *; rewrite Forall_forall in *; intros x Hx; apply Hf; unfold zdrop in Hx; rewrite <- (firstn_skipn (Z.to_nat n) f); apply in_or_app; auto).
      assert (Ht : forall n f, bytes_ok f -> bytes_ok (ztake n f)) by (intros n f Hf; unfold bytes_ok in *; rewrite Forall_forall in *; intros x Hx; apply Hf; unfold ztake in Hx; rewrite <- (firstn_skipn (Z.to_nat n) f); apply in_or_app; auto).
      destruct o, q as [|f q]; cbn [slice_h];
        unfold sp_consume_byte, sp_consume, sp_set_fit, sp_test_target, sp_enforce_target, sp_skip,
          sp_skip_exactly, slb_take_unchecked, slb_split_unchecked, slb_cut_first; try exact Hq;
        try (apply Forall_cons_iff in Hq; destruct Hq as [Hf Hq]).
      - destruct f as [|b f]; cbn [snd]; [constructor; assumption|]. apply Forall_cons_iff in Hf. constructor; [apply Hf|exact Hq].
      - destruct (n <=? zlen f); cbn [snd]; constructor; auto.
      - destruct (n =? 0); constructor.
      - destruct (n <=? zlen f); cbn [snd]; repeat constructor; auto.
      - exact Hq.
      - destruct (Z.min (zlen f) n <=? zlen f); cbn [snd]; constructor; auto.
      - destruct (n <=? zlen f); cbn [snd]; constructor; auto. }
    destruct (slice_h X o q) as [r q']. cbn [snd] in Hs. destruct r; try discriminate H; eapply IH; eassumption.
Qed.
Theorem take_is_decode buf : bytes_ok buf -> zlen buf <= isize_max ->
  (forall m p, reaches m (byte_h m) (bp_from_buffer buf) p -> forall k, run (byte_h m) (p_take k) p = run (byte_h m) (p_int k) p) /\
  (forall m p, reaches m (memo_h m) (mp_from_buffer buf) p -> forall k, run (memo_h m) (p_take k) p = run (memo_h m) (p_int k) p) /\
  (forall m p, reaches m slice_h (sp_from_buffer buf) p -> forall k, run slice_h (p_take k) p = run slice_h (p_int k) p).
Proof.
  intros HB HL. repeat apply conj.
  - intros m p Hr k. destruct (bp_reaches_inv m buf p HL Hr) as [HI E]. apply take_of_one_byte, one_byte_byte; [exact HI|rewrite E; exact HB].
  - intros m p Hr k. destruct (reaches_memo m buf p HL Hr) as (HI & E & _). apply take_of_one_byte, one_byte_memo; [exact HI|rewrite E; exact HB].
  - intros m p Hr k. apply take_of_one_byte, one_byte_slice. eapply slice_frames; eassumption.
Qed.

Lemma run_then_eq {P A} (h : handler P) (a b : prog A) p : run h a p = run h b p -> run h (then_rest a) p = run h (then_rest b) p.
Proof. intros H. unfold then_rest. rewrite !run_pbind, H. reflexivity. Qed.
Lemma take_with {A} w m k input (K : prog Z -> prog A) : bytes_ok input -> zlen input <= isize_max ->
  (forall P (h : handler P) p, run h (p_take k) p = run h (p_int k) p -> run h (K (p_take k)) p = run h (K (p_int k)) p) ->
  run_with w m (K (p_take k)) input = run_with w m (K (p_int k)) input.
Proof.
  intros HB HL HK. destruct (take_is_decode input HB HL) as (H1 & H2 & H3).
  destruct w; cbn [run_with]; f_equal; apply HK.
  - apply H1. exists []. split; [constructor|reflexivity].
  - apply H2. exists []. split; [constructor|reflexivity].
  - apply (H3 Debug). exists []. split; [constructor|reflexivity].
Qed.
Lemma try_int k : try_bytes_only (p_int k).
Proof. unfold p_int, p_take_fixed, p_consume_arr, p_consume. tries. Qed.
Lemma take_value w m k z rest : ik_in k z = true -> bytes_ok rest -> zlen (int_format k z ++ rest) <= isize_max ->
  run_with w m (then_rest (p_take k)) (int_format k z ++ rest) = ROk (z, rest).
Proof.
  intros Hz HB HL. rewrite (take_with w m k _ then_rest); [|apply bytes_ok_app; split; [apply int_format_bytes|exact HB]|exact HL|].
  - pose proof (with_seen w m _ _ (int_format k z ++ rest) (runs_then _ _ (runs_int k) (shrinks_int k)) (try_then _ (try_int k)) HL) as H.
    rewrite d_then_eq in H by auto with dec. rewrite d_int_app in H by exact Hz. exact H.
  - intros P h p. apply run_then_eq.
Qed.
Lemma no_fit_p_int k : no_fit (p_int k).
Proof.
  unfold p_int, p_take_fixed, p_consume_arr, p_consume, do_op. cbn [pbind no_fit]. split; [reflexivity|].
  intros x. unfold plift, coerce_slice. destruct (zlen x =? ik_len k); exact I.
Qed.
Lemma take_short w m k input : bytes_ok input -> zlen input < ik_len k -> exists e, run_with w m (p_take k) input = RErr e.
Proof.
  intros HB Hl. assert (ik_len k <= 8) by (destruct k; cbn; lia). assert (8 < isize_max) by reflexivity.
  rewrite (take_with w m k _ (fun p => p)); [|exact HB|lia|auto].
  apply (run_error w m _ (d_int k)); [lia|apply try_int|apply no_fit_p_int|apply runs_int|].
  destruct (d_int_cases k input) as [(z & rest & E)|E]; [|exact E]. exfalso.
  apply d_int_ok in E; [|exact HB]. destruct E as [-> _]. rewrite zlen_app, int_format_length in Hl. pose proof (zlen_nonneg rest). lia.
Qed.

Lemma take_float :
  (forall P (h : handler P) cf D f p,
     run h (z <- p_take_f64 ;; PRet (VInt z)) p = run h (parse cf D (S f) TF64) p) /\
  (forall w m bits rest, 0 <= bits < 2 ^ 64 -> bytes_ok rest -> zlen (big_endian 8 bits ++ rest) <= isize_max ->
     run_with w m (then_rest p_take_f64) (big_endian 8 bits ++ rest) = ROk (bits, rest)) /\
  (forall w m input, bytes_ok input -> zlen input < 8 -> exists e, run_with w m p_take_f64 input = RErr e).
Proof.
  split; [|split].
  - intros P h cf D f p. reflexivity.
  - intros w m bits rest Hb. assert (E : big_endian 8 bits = int_format U64 bits).
    { unfold int_format. change (ik_len U64) with 8. change (256 ^ 8) with (2 ^ 64). rewrite Z.mod_small by exact Hb. reflexivity. }
    rewrite E. apply (take_value w m U64). unfold ik_in. change (ik_min U64) with 0. change (ik_max U64) with (2 ^ 64 - 1). lia.
  - intros w m input. apply (take_short w m U64).
Qed.
