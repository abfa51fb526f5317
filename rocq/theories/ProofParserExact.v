(** Exact failures of the parsers: when debug builds panic, what errors say,
    what is logged and when a leftover is empty. *)
From Verif Require Import Base BaseLemmas ModelErrors ModelSplitVec ModelParser SpecParser
  ProofParser ProofParserSim ProofParserProps ProofParserClean ProofParserMisc.
From Coq Require Import ZifyBool.

Lemma alpha_rest p : bp_inv p -> zlen (w_rest (bp_alpha p)) = zlen (bp_buf p) - bp_offset p.
Proof.
  intros Hi. pose proof (co_inv_limit _ _ Hi) as HL. destruct p as [buf [abs fs cur]].
  destruct Hi as (Hb & Habs & Hc & Hasc). unfold bp_bounds in Hasc; cbn [bp_off bp_buf co_abs co_frames co_cur] in *.
  unfold w_rest, bp_alpha, co_alpha, bp_bounds, bp_offset, co_index; cbn [bp_buf bp_off co_abs co_frames co_cur w_cur w_outer].
  assert (Hne : pieces buf cur (fs ++ [abs]) <> []) by (destruct fs; discriminate).
  assert (E : hd [] (pieces buf cur (fs ++ [abs])) ++ concat (tl (pieces buf cur (fs ++ [abs]))) = concat (pieces buf cur (fs ++ [abs])))
    by (destruct (pieces buf cur (fs ++ [abs])); [congruence|reflexivity]).
  rewrite E, pieces_concat, last_last; auto; [|rewrite last_last; lia].
  assert (cur <= abs) by (apply asc_last in Hasc; exact Hasc). rewrite zlen_zslice; lia.
Qed.

Lemma advance_exact {E} m n buf o : co_inv buf o -> size_fits m n ->
  @co_advance E m n o =
    if usize_mod <=? co_cur o + n then RPanic
    else if n <=? co_limit o - co_cur o then ROk (co_cur o, true, mkCO (co_abs o) (co_frames o) (co_cur o + n))
    else ROk (co_cur o, false, o).
Proof.
  intros H Hn. pose proof (co_inv_limit _ _ H) as HL. pose proof isize_max_lt as HM.
  unfold co_advance, increment_checked, rmap, rbind, uadd.
  bcase (co_cur o + n <? usize_mod).
  - bcase (usize_mod <=? co_cur o + n); [lia|]. bcase (co_cur o + n <=? co_limit o); bcase (n <=? co_limit o - co_cur o); try lia; [reflexivity|destruct o; reflexivity].
  - bcase (usize_mod <=? co_cur o + n); [|lia]. destruct m; [reflexivity|]. unfold size_fits in Hn. lia.
Qed.

(** What opening a window does, error values included. *)
Lemma set_fit_cases m n buf p : bp_inv p -> size_fits m n -> bp_buf p = buf ->
  bp_set_fit m n p =
    if n <=? bp_view_len p - bp_offset p then
      (ROk tt, mkBP buf (mkCO (co_abs (bp_off p)) (bp_offset p + n :: co_frames (bp_off p)) (co_cur (bp_off p))))
    else if bp_offset p + n <=? zlen buf then (RErr (EWindow (OpenWouldExceedWindow (bp_view_len p) (bp_offset p + n))), p)
    else if n <=? zlen buf then (RErr (EWindow (OpenWouldExceedBuffer (zlen buf - n) n)), p)
    else match m with
         | Debug => (RPanic, p)
         | Release => (RErr (EWindow (OpenWouldExceedBuffer (usize_mod + zlen buf - n) n)), p)
         end.
Proof.
  intros H Hn Hb. pose proof (co_inv_limit _ _ H) as HL. pose proof isize_max_lt. pose proof (size_fits_nonneg _ _ Hn).
  destruct (n <=? _) eqn:E1.
  - rewrite (bp_set_fit_ok m p n H) by lia. rewrite Hb. reflexivity.
  - assert (Habs : co_abs (bp_off p) = zlen buf) by (subst buf; apply H).
    destruct p as [buf' off]; cbn [bp_buf] in Hb; subst buf'. unfold bp_set_fit, co_set_fit, bp_view_len, bp_offset, co_index in *; cbn [bp_off bp_buf] in *.
    rewrite Habs. unfold uadd. bcase (co_cur off + n <? usize_mod).
    + bcase (zlen buf <? co_cur off + n).
      * bcase (co_cur off + n <=? zlen buf); [lia|]. unfold usub. bcase (n <=? zlen buf); cbn [rbind]; [reflexivity|].
        destruct m; cbn [rbind]; [reflexivity|]. do 4 f_equal. pose proof (zlen_nonneg buf). unfold size_fits in Hn.
        symmetry. apply Z.mod_unique with (q := -1); lia.
      * bcase (co_cur off + n <=? zlen buf); [|lia]. unfold fs_push_frame, detect_error, co_limit in *.
        destruct (fs_peek (co_frames off)) as [t|]; [|lia].
        bcase (t <? co_cur off + n); [reflexivity|lia].
    + destruct m; [|unfold size_fits in Hn; lia].
      bcase (co_cur off + n <=? zlen buf); [lia|]. bcase (n <=? zlen buf); [lia|]. reflexivity.
Qed.

Lemma panics_iff m {X : Set} (o : pop X) p : bp_inv p -> arg_fits m (AnyOp o) ->
  (fst (byte_h m X o p) = RPanic <-> m = Debug /\ overflows (zlen (bp_buf p)) o (bp_alpha p) = true).
Proof.
  intros Hi Ha. pose proof (co_inv_limit _ _ Hi) as HL. pose proof isize_max_lt as HM.
  assert (Hm : forall n, size_fits m n -> usize_mod <= co_cur (bp_off p) + n -> m = Debug).
  { intros n Hn Hl. destruct m; [reflexivity|]. unfold size_fits in Hn. lia. }
  destruct o; cbn [byte_h overflows].
  - rewrite (bp_remainder_ok m p Hi) || (pose proof (bp_remainder_ok m p Hi) as E; cbn [byte_h] in E; rewrite E). cbn [fst]. intuition discriminate.
  - destruct (Z.eq_dec (bp_view_len p - bp_offset p) 0) as [E|E].
    + rewrite bp_consume_byte_fail by assumption. cbn [fst]. intuition discriminate.
    + destruct (bp_consume_byte_ok m p Hi) as (b & H1 & _); [unfold bp_view_len, bp_offset, co_index in *; lia|].
      rewrite H1. cbn [fst]. intuition discriminate.
  - assert (Hn : size_fits m n) by (destruct m; exact Ha). rewrite (alpha_rest p Hi).
    unfold bp_offset, co_index. unfold bp_consume. rewrite (advance_exact m n _ _ Hi Hn).
    bcase (usize_mod <=? co_cur (bp_off p) + n).
    + cbn [fst]. split; [intros _; split; [eapply Hm; eassumption|lia]|reflexivity].
    + split; [|intros [_ ?]; lia]. pose proof (size_fits_nonneg _ _ Hn). bcase (n <=? co_limit (bp_off p) - co_cur (bp_off p)).
      * rewrite vb_get_slice_unchecked_ok by lia. discriminate.
      * discriminate.
  - assert (Hn : size_fits m n) by (destruct m; exact Ha). rewrite (set_fit_cases m n _ p Hi Hn eq_refl).
    unfold bp_view_len, bp_offset, co_index.
    bcase (n <=? co_limit (bp_off p) - co_cur (bp_off p)); [cbn [fst]; split; [discriminate|intros [_ ?]; lia]|].
    bcase (co_cur (bp_off p) + n <=? zlen (bp_buf p)); [cbn [fst]; split; [discriminate|intros [_ ?]; lia]|].
    bcase (n <=? zlen (bp_buf p)); [cbn [fst]; split; [discriminate|intros [_ ?]; lia]|].
    destruct m; cbn [fst]; split; try discriminate; auto; [intros _; split; [reflexivity|lia]|intros [? _]; discriminate].
  - unfold bp_test_target. cbn [fst]. split; [|intros [_ ?]; discriminate].
    unfold co_test_target. destruct (fs_peek _) as [t|]; [destruct (t ?= _)|]; discriminate.
  - unfold bp_enforce_target. split; [|intros [_ ?]; discriminate].
    unfold co_enforce_target. destruct (co_frames _) as [|t fs]; [discriminate|]. destruct (t ?= _); discriminate.
  - assert (Hn : size_fits m n) by (destruct m; exact Ha). pose proof (size_fits_nonneg _ _ Hn). unfold bp_skip. rewrite (co_rem_spec m _ _ Hi).
    assert (Hn' : size_fits m (Z.min (co_limit (bp_off p) - co_cur (bp_off p)) n)) by (destruct m; unfold size_fits, is_usize in *; lia).
    rewrite (advance_exact m _ _ _ Hi Hn').
    bcase (usize_mod <=? co_cur (bp_off p) + Z.min (co_limit (bp_off p) - co_cur (bp_off p)) n); [lia|].
    bcase (Z.min (co_limit (bp_off p) - co_cur (bp_off p)) n <=? co_limit (bp_off p) - co_cur (bp_off p)); [|lia].
    cbn [fst]. intuition discriminate.
  - assert (Hn : size_fits m n) by (destruct m; exact Ha). rewrite (alpha_rest p Hi).
    unfold bp_offset, co_index. unfold bp_skip_exactly. rewrite (advance_exact m n _ _ Hi Hn).
    bcase (usize_mod <=? co_cur (bp_off p) + n).
    + cbn [fst]. split; [intros _; split; [eapply Hm; eassumption|lia]|reflexivity].
    + split; [|intros [_ ?]; lia]. destruct (n <=? _); discriminate.
Qed.

Lemma debug_history_from ops : forall p, bp_inv p -> Forall (arg_fits Debug) ops ->
  history (byte_h Debug) ops p = history (spec_debug_h (zlen (bp_buf p)) Merge) ops (bp_alpha p).
Proof.
  induction ops as [|[X o] ops IH]; intros p Hi Hargs; cbn [history]; [reflexivity|].
  inversion Hargs as [|? ? Ha Hargs']; subst.
  pose proof (panics_iff Debug o p Hi Ha) as HP. pose proof (bp_buf_const Debug o p) as HB.
  destruct (spec_op Merge o (bp_alpha p)) as [x w'] eqn:Es.
  destruct (byte_h Debug X o p) as [r p'] eqn:Eb. cbn [fst snd] in *.
  pose proof (bp_step Debug o p Hi Ha _ _ _ _ Es Eb) as Hst; unfold step_rel in Hst.
  unfold spec_debug_h at 1. destruct (overflows _ o _) eqn:Eo.
  - destruct HP as [_ HP]. rewrite HP by auto. reflexivity.
  - rewrite (spec_h_eq _ _ _ _ _ Es). destruct r as [v|e| | |]; try contradiction.
    + destruct Hst as (-> & Hi' & <-). rewrite <- HB. rewrite IH by assumption. reflexivity.
    + destruct Hst as (-> & Hi' & <-). rewrite <- HB. rewrite IH by assumption. reflexivity.
    + destruct HP as [HP _]. destruct HP as [_ HP]; [reflexivity|discriminate].
Qed.
Lemma debug_history buf ops : zlen buf <= isize_max -> Forall (arg_fits Debug) ops ->
  history (byte_h Debug) ops (bp_from_buffer buf) = history (spec_debug_h (zlen buf) Merge) ops (w_init buf).
Proof.
  intros Hb Ha. rewrite <- bp_init_alpha. exact (debug_history_from ops _ (bp_init_inv buf Hb) Ha).
Qed.
Lemma memo_debug_history buf ops : zlen buf <= isize_max -> Forall (arg_fits Debug) ops ->
  history (memo_h Debug) ops (mp_from_buffer buf) = history (spec_debug_h (zlen buf) Merge) ops (w_init buf).
Proof. intros Hb Ha. rewrite (proj1 (memo_equals_byte Debug buf ops Hb Ha)). apply debug_history; assumption. Qed.

(** ** Failures, one by one *)
Lemma consume_fails m buf p n : zlen buf <= isize_max -> reaches m (byte_h m) (bp_from_buffer buf) p -> size_fits m n ->
  bp_view_len p - bp_offset p < n ->
  byte_h m _ (OpConsume n) p =
    (if usize_mod <=? bp_offset p + n then RPanic
     else RErr (EWindow (ConsumeWouldExceedLimit (bp_offset p) n (bp_view_len p))), p).
Proof.
  intros Hb Hr Hn Hlt. destruct (bp_reaches_inv _ _ _ Hb Hr) as [Hi _].
  unfold bp_view_len, bp_offset, co_index in *. cbn [byte_h]. unfold bp_consume, bp_view_len, bp_offset, co_index.
  rewrite (advance_exact m n _ _ Hi Hn). destruct (usize_mod <=? _); [reflexivity|].
  bcase (n <=? co_limit (bp_off p) - co_cur (bp_off p)); [lia|]. destruct p; reflexivity.
Qed.
Lemma set_fit_fails m buf p n : zlen buf <= isize_max -> reaches m (byte_h m) (bp_from_buffer buf) p -> size_fits m n ->
  bp_view_len p - bp_offset p < n ->
  byte_h m _ (OpSetFit n) p =
    (if bp_offset p + n <=? zlen buf then RErr (EWindow (OpenWouldExceedWindow (bp_view_len p) (bp_offset p + n)))
     else if n <=? zlen buf then RErr (EWindow (OpenWouldExceedBuffer (zlen buf - n) n))
     else match m with
          | Debug => RPanic
          | Release => RErr (EWindow (OpenWouldExceedBuffer (usize_mod + zlen buf - n) n))
          end, p).
Proof.
  intros Hb Hr Hn Hlt. destruct (bp_reaches_inv _ _ _ Hb Hr) as [Hi Hbuf].
  cbn [byte_h]. rewrite (set_fit_cases m n buf p Hi Hn Hbuf). bcase (n <=? bp_view_len p - bp_offset p); [lia|].
  destruct (_ <=? _); [reflexivity|]. destruct (_ <=? _); [reflexivity|]. destruct m; reflexivity.
Qed.

(** ** Leftovers *)
Lemma empty_segments segs : segs <> [] -> 
  (lo_is_empty (lo_collect LEmpty segs) = true <-> kept_segments segs = []) /\
  lo_len (lo_collect LEmpty segs) = zlen (concat segs).
Proof.
  intros Hs. destruct (collect_empty segs Hs) as [H1 H2]. split.
  - destruct segs as [|s segs]; [congruence|]. destruct segs as [|s2 segs].
    + cbn [lo_collect]. unfold lo_add, kept_segments; cbn [removelast last app].
      destruct (zlen s =? 0) eqn:Hz; bsimp.
      * apply zlen_0_nil in Hz; subst s. cbn. tauto.
      * destruct s; [rewrite zlen_nil in *; lia|]. cbn. split; discriminate.
    + rewrite lo_collect_cons in * by discriminate.
      assert (Hf : exists sv, lo_escape_context (lo_add LEmpty s) = LWindowed sv /\
        sb_active (sv_spans sv) = None /\ sv_buffer sv = s /\ sb_stable (sv_spans sv) = [zlen s]).
      { unfold lo_add. (destruct (zlen s =? 0) eqn:Hz; bsimp); eexists; (split; [reflexivity|]); (split; [reflexivity|]).
        - rewrite Hz. apply zlen_0_nil in Hz; subst s. auto.
        - cbn. auto. }
      destruct Hf as (sv & E & Ha & Hb & Hst). rewrite E in *.
      destruct (collect_windowed (s2 :: segs) sv) as (sv' & E' & Hb' & Hv); [discriminate|exact Ha|].
      rewrite E' in *. rewrite (kept_segments_cons s (s2 :: segs)) by discriminate.
      split; [|discriminate]. cbn [lo_is_empty]. unfold sv_is_empty. rewrite Hst in Hv.
      destruct (sv_buffer sv'); [|discriminate]. unfold sb_is_empty. unfold sb_into_vec in Hv.
      destruct (sb_stable (sv_spans sv')); [|discriminate]. destruct (sb_active (sv_spans sv')) as [a|]; [|discriminate].
      discriminate.
  - rewrite <- H1. destruct (lo_collect LEmpty segs); reflexivity.
Qed.

Lemma kept_nil segs : segs <> [] -> (kept_segments segs = [] <-> segs = [[]]).
Proof.
  destruct segs as [|s [|s2 segs]]; [congruence| |]; intros _.
  - unfold kept_segments; cbn [removelast last app]. destruct s; split; congruence.
  - rewrite kept_segments_cons by discriminate. split; discriminate.
Qed.

Lemma cleanup_empty m buf ops p w lo :
  zlen buf <= isize_max -> Forall (arg_fits m) ops ->
  after (byte_h m) ops (bp_from_buffer buf) = Some p ->
  after (spec_h Merge) ops (w_init buf) = Some w ->
  bp_cleanup m p = ROk lo ->
  lo_len lo = zlen buf - bp_offset p /\ (lo_is_empty lo = true <-> bp_offset p = zlen buf /\ w_outer w = []).
Proof.
  intros Hb Ha Hp Hw Hc.
  destruct (bp_after_from m ops _ _ (bp_init_inv buf Hb) Ha Hp) as [Hi Hs].
  rewrite bp_init_alpha, Hw in Hs. inversion Hs; subst w; clear Hs.
  assert (Hbuf : bp_buf p = buf) by (apply after_buf in Hp; exact Hp).
  pose proof (alpha_rest p Hi) as HR.
  destruct p as [b [abs fs cur]]; cbn [bp_buf] in Hbuf; subst b.
  unfold bp_cleanup in Hc; cbn [bp_off co_frames] in Hc.
  rewrite bp_cleanup_loop in Hc by exact Hi. inversion Hc; subst lo; clear Hc.
  assert (Hne : pieces buf cur (fs ++ [abs]) <> []) by (destruct fs; discriminate).
  destruct (empty_segments _ Hne) as [H1 H2]. rewrite H1, H2, (kept_nil _ Hne). clear H1 H2.
  unfold w_rest, bp_alpha, co_alpha, bp_bounds in *; cbn [bp_buf bp_off co_frames co_abs co_cur w_cur w_outer] in *.
  destruct (pieces buf cur (fs ++ [abs])) as [|x l]; [congruence|]. cbn [hd tl concat] in *. split; [exact HR|].
  split.
  - intros [= -> ->]. change (zlen ([] ++ concat [])) with 0 in HR. split; [lia|reflexivity].
  - intros [Ho ->]. rewrite Ho, Z.sub_diag in HR. cbn [concat] in HR. rewrite app_nil_r in HR. apply zlen_0_nil in HR. congruence.
Qed.
Lemma memo_cleanup_empty m buf ops p w lo :
  zlen buf <= isize_max -> Forall (arg_fits m) ops ->
  after (memo_h m) ops (mp_from_buffer buf) = Some p ->
  after (spec_h Merge) ops (w_init buf) = Some w ->
  mp_cleanup m p = ROk lo ->
  lo_len lo = zlen buf - mp_offset p /\ (lo_is_empty lo = true <-> mp_offset p = zlen buf /\ w_outer w = []).
Proof.
  intros Hb Ha Hp Hw Hc. pose proof (mp_init_inv buf Hb) as Hi0.
  destruct (mp_after_from m ops _ Hi0 Ha) as [H Hi]. specialize (Hi _ Hp).
  rewrite Hp in H; cbn [option_map] in H. unfold mp_cleanup in Hc. rewrite mp_cleanup_loop in Hc by exact Hi.
  exact (cleanup_empty m buf ops (mp_bp p) w lo Hb Ha (eq_sym H) Hw Hc).
Qed.
Lemma slice_cleanup_empty (p : slice_parser) lo : sp_cleanup p = ROk lo ->
  lo_len lo = zlen (concat p) /\ (lo_is_empty lo = true <-> p = []).
Proof.
  unfold sp_cleanup. rewrite sp_cleanup_loop_ok. intros [= <-].
  assert (Hne : p ++ [[]] <> []) by (destruct p; discriminate).
  destruct (empty_segments _ Hne) as [H1 H2]. rewrite H1, H2, (kept_nil _ Hne), concat_app. cbn [concat]. rewrite app_nil_r.
  split; [reflexivity|]. destruct p as [|x [|? ?]]; split; try discriminate; reflexivity.
Qed.

(** ** The log *)
Lemma munches_exact m {X : Set} (o : pop X) p r p' x w' :
  mp_inv p -> arg_fits m (AnyOp o) ->
  spec_op Merge o (bp_alpha (mp_bp p)) = (x, w') -> memo_h m X o p = (r, p') -> r <> RPanic ->
  mp_munches p' = mp_munches p ++
    match o, x with
    | OpConsumeByte, Some _ => [1] | OpConsume n, Some _ => [n] | OpSkip n, Some d => [d] | _, _ => []
    end.
Proof.
  intros Hinv Ha Hs Hm Hr.
  destruct o;
    try (destruct (mp_munches_step m _ p r p' x w' Hinv Ha I Hs Hm Hr) as (-> & _); f_equal;
         destruct x; cbn [op_group map spec_op] in *; try reflexivity).
  - destruct (w_cur _) as [|b0 cur]; [discriminate|]. rewrite zlen_ztake; [reflexivity|].
    rewrite zlen_cons. pose proof (zlen_nonneg cur). lia.
  - assert (Hn : size_fits m n) by (destruct m; exact Ha). apply size_fits_nonneg in Hn.
    bcase (n <=? zlen (w_cur (bp_alpha (mp_bp p)))); [|discriminate]. rewrite zlen_ztake by lia. reflexivity.
  - assert (Hn : size_fits m n) by (destruct m; exact Ha). apply size_fits_nonneg in Hn.
    injection Hs as <- _. f_equal. destruct (Z_le_gt_dec n (zlen (w_cur (bp_alpha (mp_bp p))))).
    + rewrite zlen_ztake by lia. unfold bp_alpha, mp_bp, co_alpha in *; cbn [w_cur bp_buf bp_off] in *; lia.
    + rewrite ztake_ge by lia. unfold bp_alpha, mp_bp, co_alpha in *; cbn [w_cur bp_buf bp_off] in *; lia.
  - cbn [memo_h] in Hm. unfold mp_skip_exactly in Hm. destruct (co_advance m n (mp_off p)) as [[[ix adv] off]| | | |]; try (pinv Hm; congruence).
    destruct adv; [pinv Hm; cbn [mp_munches]; rewrite app_nil_r; reflexivity|].
    pinv Hm. cbn [mp_munches]. rewrite app_nil_r. reflexivity.
Qed.

Lemma log_from m ops : forall p p',
  mp_inv p -> Forall (arg_fits m) ops -> after (memo_h m) ops p = Some p' ->
  mp_munches p' = mp_munches p ++ logged Merge ops (bp_alpha (mp_bp p)) /\ mp_inv p' /\ mp_buf p' = mp_buf p.
Proof.
  induction ops as [|[X o] ops IH]; intros p p' Hinv Hargs H; cbn [after logged] in *.
  - inversion H; subst. rewrite app_nil_r. auto.
  - inversion Hargs as [|? ? Ha Hargs']; subst.
    destruct (spec_op Merge o (bp_alpha (mp_bp p))) as [x w'] eqn:Es.
    destruct (memo_h m X o p) as [r q] eqn:Em.
    assert (Hr : r <> RPanic) by (intros ->; discriminate).
    pose proof (munches_exact m o p r q x w' Hinv Ha Es Em Hr) as H1.
    destruct (mp_step m o p Hinv Ha _ _ Em) as [Hb Hi]. specialize (Hi Hr).
    pose proof (bp_step m o (mp_bp p) (proj1 Hinv) Ha _ _ _ _ Es Hb) as Hst; unfold step_rel in Hst.
    assert (Hw : bp_alpha (mp_bp q) = w' /\ after (memo_h m) ops q = Some p').
    { destruct r; try discriminate; try contradiction; destruct Hst as (_ & _ & Hst); auto. }
    destruct Hw as [Hw Haft]. pose proof (bp_buf_const m o (mp_bp p)) as HB. rewrite Hb in HB. cbn [snd mp_bp bp_buf] in HB.
    destruct (IH q p' Hi Hargs' Haft) as (G1 & G2 & G3). rewrite Hw in G1. rewrite G1, H1, app_assoc.
    split; [reflexivity|]. split; [exact G2|]. congruence.
Qed.
Lemma memo_log_exact m buf ops p :
  zlen buf <= isize_max -> Forall (arg_fits m) ops -> after (memo_h m) ops (mp_from_buffer buf) = Some p ->
  exists sv, @mp_dump unit m p = ROk sv /\
    sv_into_parts sv = (ztake (fold_right Z.add 0 (logged Merge ops (w_init buf))) buf, logged Merge ops (w_init buf)).
Proof.
  intros Hb Ha H. destruct (log_from m ops _ _ (mp_init_inv buf Hb) Ha H) as (H1 & (Hc & Hf & Hs) & H3).
  change (bp_alpha (mp_bp (mp_from_buffer buf))) with (bp_alpha (bp_from_buffer buf)) in *. rewrite bp_init_alpha in *.
  cbn [mp_from_buffer mp_munches mp_buf app] in *. set (gs := logged Merge ops (w_init buf)) in *.
  pose proof (co_inv_limit _ _ Hc) as HL. rewrite H3 in HL. unfold mp_dump. rewrite H3. rewrite H1 in *.
  destruct (@mp_dump_loop_value unit m buf gs 0 sv_new) as (sv & E1 & E2 & E3 & E4); auto; try lia.
  exists sv. split; [exact E1|]. unfold sv_into_parts, sb_into_vec. rewrite E2, E3, E4, Z.add_0_l.
  cbn [sv_new sv_buffer sv_spans sb_new sb_stable app]. unfold zslice. rewrite zdrop_0, Z.sub_0_r. reflexivity.
Qed.
