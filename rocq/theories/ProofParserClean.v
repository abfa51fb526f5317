(** Lemmas behind C09 (cleanup) and C10 (the log of a MemoParser). *)
From Verif Require Import Base BaseLemmas ModelErrors ModelSplitVec ModelParser SpecParser
  ProofParser ProofParserSim ProofParserProps.
From Coq Require Import ZifyBool.

(** ** Cleanup *)

Definition lo_add (lo : leftover) (s : list byte) : leftover :=
  if zlen s =? 0 then lo else fst (lo_append lo s).

Fixpoint lo_collect (lo : leftover) (segs : list (list byte)) : leftover :=
  match segs with
  | [] => lo
  | [s] => lo_add lo s
  | s :: rest => lo_collect (lo_escape_context (lo_add lo s)) rest
  end.

Lemma lo_collect_cons lo s rest :
  rest <> [] -> lo_collect lo (s :: rest) = lo_collect (lo_escape_context (lo_add lo s)) rest.
Proof. destruct rest; [congruence|reflexivity]. Qed.

Lemma bp_cleanup_loop m buf : forall fs abs cur lo,
  co_inv buf (mkCO abs fs cur) ->
  cleanup_loop (byte_h m) (S (length fs)) (inl lo) (mkBP buf (mkCO abs fs cur)) =
  ROk (lo_collect lo (pieces buf cur (fs ++ [abs]))).
Proof.
  induction fs as [|t fs IH]; intros abs cur lo H.
  - pose proof (co_inv_limit _ _ H) as HL. unfold co_limit in HL; cbn [fs_peek hd_error co_frames co_cur co_abs bp_buf bp_off] in HL.
    cbn [cleanup_loop].
    rewrite (bp_remainder_ok m (mkBP buf (mkCO abs [] cur)) H).
    unfold bp_view_len, bp_offset, co_index, co_limit; cbn [bp_off co_frames co_cur co_abs fs_peek hd_error].
    cbn [app pieces lo_collect]. unfold lo_add. rewrite zlen_zslice by lia.
    bcase (abs - cur =? 0).
    + reflexivity.
    + cbn [byte_h].
      rewrite (bp_consume_ok m (mkBP buf (mkCO abs [] cur)) (abs - cur) H).
      * cbn [bp_moved bp_offset co_index bp_off co_cur bp_buf]. unfold bp_offset, co_index; cbn [bp_off co_cur].
        replace (cur + (abs - cur)) with abs by lia. reflexivity.
      * pose proof isize_max_lt. destruct m; unfold size_fits, is_usize; lia.
      * unfold bp_view_len, bp_offset, co_index, co_limit; cbn. lia.
  - pose proof (co_inv_limit _ _ H) as HL. unfold co_limit in HL; cbn [fs_peek hd_error co_frames co_cur co_abs bp_buf bp_off] in HL.
    assert (Hi : co_inv buf (mkCO abs fs t)).
    { pose proof (co_inv_move buf _ (t - cur) H) as Hm. cbn in Hm.
      replace (cur + (t - cur)) with t in Hm by lia.
      destruct (co_pop buf _ t fs (Hm ltac:(lia)) eq_refl) as (? & ? & _ & Hp & _). exact Hp. }
    remember (length (t :: fs)) as k eqn:Hk.
    cbn [cleanup_loop].
    rewrite (bp_remainder_ok m (mkBP buf (mkCO abs (t :: fs) cur)) H).
    unfold bp_view_len, bp_offset, co_index, co_limit; cbn [bp_off co_frames co_cur co_abs fs_peek hd_error].
    cbn [app pieces]. rewrite lo_collect_cons by (destruct fs; discriminate).
    unfold lo_add. rewrite zlen_zslice by lia.
    bcase (t - cur =? 0).
    + assert (cur = t) by lia; subst cur.
      cbn [byte_h]. unfold bp_enforce_target, co_enforce_target, co_index; cbn [bp_off co_cur co_frames fs_peek hd_error tl bp_buf].
      rewrite Z.compare_refl. subst k; cbn [length]. apply IH; exact Hi.
    + cbn [byte_h].
      rewrite (bp_consume_ok m (mkBP buf (mkCO abs (t :: fs) cur)) (t - cur) H).
      * unfold bp_moved; cbn [bp_off co_cur bp_buf co_abs co_frames]. unfold bp_offset, co_index; cbn [bp_off co_cur].
        replace (cur + (t - cur)) with t by lia.
        unfold bp_enforce_target, co_enforce_target, co_index; cbn [bp_off co_cur co_frames fs_peek hd_error tl bp_buf].
        rewrite Z.compare_refl. subst k; cbn [length]. apply IH; exact Hi.
      * pose proof isize_max_lt. destruct m; unfold size_fits, is_usize; lia.
      * unfold bp_view_len, bp_offset, co_index, co_limit; cbn. lia.
Qed.

Lemma mp_cleanup_loop m fuel : forall ret p,
  mp_inv p -> cleanup_loop (memo_h m) fuel ret p = cleanup_loop (byte_h m) fuel ret (mp_bp p).
Proof.
  assert (Hclose : forall fuel,
    (forall ret p, mp_inv p -> cleanup_loop (memo_h m) fuel ret p = cleanup_loop (byte_h m) fuel ret (mp_bp p)) ->
    forall ret p, mp_inv p ->
    match memo_h m unit OpEnforceTarget p with
        | (ROk tt, p') =>
            cleanup_loop (memo_h m) fuel
              (match ret with inl o => inl (lo_escape_context o) | inr e => inr e end) p'
        | (RErr (EWindow CloseWithoutWindow), _) =>
            match ret with inl o => ROk o | inr e => RErr e end
        | (RErr (EWindow w), p') => cleanup_loop (memo_h m) fuel (inr (ErrorCaseUnexpected w)) p'
        | (RErr e, p') => cleanup_loop (memo_h m) fuel (inr (ErrorKindUnexpected e)) p'
        | (RPanic, _) => RPanic
        | (RUB, _) => RUB
        | (RDiv, _) => RDiv
        end =
    match byte_h m unit OpEnforceTarget (mp_bp p) with
        | (ROk tt, p') =>
            cleanup_loop (byte_h m) fuel
              (match ret with inl o => inl (lo_escape_context o) | inr e => inr e end) p'
        | (RErr (EWindow CloseWithoutWindow), _) =>
            match ret with inl o => ROk o | inr e => RErr e end
        | (RErr (EWindow w), p') => cleanup_loop (byte_h m) fuel (inr (ErrorCaseUnexpected w)) p'
        | (RErr e, p') => cleanup_loop (byte_h m) fuel (inr (ErrorKindUnexpected e)) p'
        | (RPanic, _) => RPanic
        | (RUB, _) => RUB
        | (RDiv, _) => RDiv
        end).
  { intros f IH ret p Hp. destruct (memo_h m unit OpEnforceTarget p) as [r p'] eqn:E.
    destruct (mp_step m OpEnforceTarget p Hp ltac:(destruct m; exact I) _ _ E) as [Hb Hi].
    rewrite Hb. destruct r as [[]|[[]| | |]| | |]; auto; try (apply IH; apply Hi; discriminate). }
  induction fuel as [|fuel IH]; intros ret p Hp; cbn [cleanup_loop]; [reflexivity|].
  destruct (memo_h m Z OpRemainder p) as [r p'] eqn:E.
  destruct (mp_step m OpRemainder p Hp ltac:(destruct m; exact I) _ _ E) as [Hb Hi].
  rewrite Hb. destruct r as [rem| | | |]; try reflexivity.
  specialize (Hi ltac:(discriminate)).
  assert (Hfit : arg_fits m (AnyOp (OpConsume rem))).
  { rewrite (bp_remainder_ok m (mp_bp p) (proj1 Hp)) in Hb. pinv Hb.
    pose proof (co_inv_limit _ _ (proj1 Hp)). pose proof isize_max_lt.
    unfold bp_view_len, bp_offset, co_index, mp_bp in *; cbn [bp_off] in *.
    injection H as <-. destruct m; unfold arg_fits, arg_ok, arg_small, is_usize; lia. }
  destruct (rem =? 0); [apply Hclose; assumption|].
  destruct (memo_h m (list byte) (OpConsume rem) p') as [r2 p2] eqn:E2.
  destruct (mp_step m (OpConsume rem) p' Hi Hfit _ _ E2) as [Hb2 Hi2].
  rewrite Hb2. destruct r2; try reflexivity. apply Hclose; [assumption|].
  apply Hi2; discriminate.
Qed.

Lemma sp_cleanup_loop_ok : forall p lo,
  sp_cleanup_loop (S (length p)) lo p = ROk (lo_collect lo (p ++ [[]])).
Proof.
  induction p as [|s p IH]; intros lo.
  - reflexivity.
  - remember (length (s :: p)) as k eqn:Hk. cbn [sp_cleanup_loop app].
    rewrite lo_collect_cons by (destruct p; discriminate).
    unfold sp_remainder, sp_view_len, lo_add. bcase (zlen s =? 0).
    + unfold sp_enforce_target. replace (zlen s =? 0) with true by (symmetry; apply Z.eqb_eq; lia).
      subst k; apply IH.
    + unfold sp_consume. rewrite Z.leb_refl.
      unfold slb_take_unchecked. rewrite Z.leb_refl, ztake_all, zdrop_all by lia.
      cbn [sp_enforce_target]. rewrite zlen_nil; cbn [Z.eqb].
      subst k; apply IH.
Qed.

(** What a collected leftover contains. *)
Lemma cut_map_zlen {T} (ls : list (list T)) : cut (map zlen ls) (concat ls) = ls.
Proof.
  induction ls as [|l ls IH]; cbn [map concat cut]; [reflexivity|].
  rewrite ztake_app, zdrop_app, IH. reflexivity.
Qed.

Definition kept_segments (segs : list (list byte)) : list (list byte) :=
  removelast segs ++ match last segs [] with [] => [] | tail => [tail] end.

Lemma kept_segments_cons s segs :
  segs <> [] -> kept_segments (s :: segs) = s :: kept_segments segs.
Proof. destruct segs; [congruence|reflexivity]. Qed.

Lemma concat_kept segs : concat (kept_segments segs) = concat segs.
Proof.
  induction segs as [|s segs IH]; [reflexivity|].
  destruct segs as [|s2 segs]; [destruct s; reflexivity|].
  rewrite kept_segments_cons by discriminate. cbn [concat] in *. rewrite IH; reflexivity.
Qed.

Lemma lo_add_windowed sv s :
  sb_active (sv_spans sv) = None ->
  exists sv', lo_add (LWindowed sv) s = LWindowed sv' /\
    sv_buffer sv' = sv_buffer sv ++ s /\
    sb_stable (sv_spans sv') = sb_stable (sv_spans sv) /\
    sb_active (sv_spans sv') = if zlen s =? 0 then None else Some (zlen s).
Proof.
  intros Ha. unfold lo_add. (destruct (zlen s =? 0) eqn:Hz; bsimp).
  - exists sv. apply zlen_0_nil in Hz; subst s. rewrite app_nil_r. auto.
  - eexists; split; [reflexivity|].
    cbn [lo_append fst sv_append_current sv_extend_current sv_buffer sv_spans sb_increment sb_stable sb_active].
    rewrite Ha. split; [reflexivity|]. split; reflexivity.
Qed.

Lemma collect_windowed : forall segs sv,
  segs <> [] -> sb_active (sv_spans sv) = None ->
  exists sv', lo_collect (LWindowed sv) segs = LWindowed sv' /\
    sv_buffer sv' = sv_buffer sv ++ concat segs /\
    sb_into_vec (sv_spans sv') = sb_stable (sv_spans sv) ++ map zlen (kept_segments segs).
Proof.
  induction segs as [|s segs IH]; intros sv Hne Ha; [congruence|].
  destruct (lo_add_windowed sv s Ha) as (sv1 & E1 & Hb & Hs & Hact).
  destruct segs as [|s2 segs].
  - cbn [lo_collect]. exists sv1. split; [exact E1|]. cbn [concat]. rewrite app_nil_r.
    split; [exact Hb|]. unfold sb_into_vec. rewrite Hact, Hs.
    unfold kept_segments; cbn [removelast last app].
    (destruct (zlen s =? 0) eqn:Hz; bsimp).
    + apply zlen_0_nil in Hz; subst s. cbn. rewrite app_nil_r; reflexivity.
    + destruct s; [rewrite zlen_nil in *; lia|reflexivity].
  - rewrite lo_collect_cons by discriminate. rewrite E1.
    cbn [lo_escape_context lo_promote].
    destruct (IH (sv_split_force sv1)) as (sv' & E & Hb' & Hv); [intro; discriminate|reflexivity|].
    exists sv'. split; [exact E|]. split.
    + rewrite Hb'. unfold sv_split_force; cbn [sv_buffer concat]. rewrite Hb, <- app_assoc. reflexivity.
    + rewrite Hv, (kept_segments_cons s (s2 :: segs)) by discriminate.
      unfold sv_split_force; cbn [sv_spans sb_flush_force sb_stable map].
      rewrite Hs, <- app_assoc. cbn [app]. do 2 f_equal. rewrite Hact.
      (destruct (zlen s =? 0) eqn:Hz; bsimp); cbn [or_zero]; lia.
Qed.

Lemma collect_empty segs :
  segs <> [] ->
  lo_bytes (lo_collect LEmpty segs) = concat segs /\
  lo_segments (lo_collect LEmpty segs) = kept_segments segs.
Proof.
  destruct segs as [|s segs]; [congruence|intros _]. destruct segs as [|s2 segs].
  - cbn [lo_collect]. unfold lo_add, kept_segments; cbn [removelast last app concat].
    rewrite app_nil_r. (destruct (zlen s =? 0) eqn:Hz; bsimp).
    + apply zlen_0_nil in Hz; subst s. auto.
    + destruct s; [rewrite zlen_nil in *; lia|]. auto.
  - rewrite lo_collect_cons by discriminate.
    assert (Hf : exists sv, lo_escape_context (lo_add LEmpty s) = LWindowed sv /\
      sb_active (sv_spans sv) = None /\ sv_buffer sv = s /\ sb_stable (sv_spans sv) = [zlen s]).
    { unfold lo_add. (destruct (zlen s =? 0) eqn:Hz; bsimp); eexists; (split; [reflexivity|]); (split; [reflexivity|]).
      - rewrite Hz. apply zlen_0_nil in Hz; subst s. auto.
      - cbn. auto. }
    destruct Hf as (sv & E & Ha & Hb & Hs). rewrite E.
    destruct (collect_windowed (s2 :: segs) sv) as (sv' & E' & Hb' & Hv); [discriminate|exact Ha|].
    rewrite E'. cbn [lo_bytes lo_segments]. unfold sv_into_parts.
    rewrite Hb', Hv, Hb, Hs. split; [reflexivity|].
    rewrite (kept_segments_cons s (s2 :: segs)) by discriminate.
    rewrite <- (cut_map_zlen (s :: kept_segments (s2 :: segs))).
    f_equal. cbn [concat]. rewrite concat_kept; reflexivity.
Qed.

Lemma pieces_concat buf : forall bounds i,
  0 <= i -> asc i bounds -> last bounds i <= zlen buf ->
  concat (pieces buf i bounds) = zslice i (last bounds i) buf.
Proof.
  induction bounds as [|b bs IH]; intros i Hi Ha Hl; cbn [pieces concat].
  - cbn [last]. rewrite zslice_nil; reflexivity.
  - cbn [asc] in Ha. destruct Ha as [H1 H2].
    assert (Hlast : last (b :: bs) i = last bs b).
    { destruct bs as [|b2 bs]; [reflexivity|].
      clear. revert b2. induction bs as [|x bs IH]; intros; [reflexivity|]. apply (IH x). }
    rewrite Hlast in *. rewrite IH by (auto; lia).
    assert (b <= last bs b).
    { clear - H2. revert b H2. induction bs as [|x bs IH]; intros b H2; cbn [last]; [lia|].
      destruct H2 as [? H2]. destruct bs as [|y bs]; [lia|].
      specialize (IH x H2). etransitivity; [eassumption|].
      replace (last (y :: bs) b) with (last (y :: bs) x); [assumption|].
      clear. revert y; induction bs as [|z bs IH]; intros; [reflexivity|]. apply (IH z). }
    apply zslice_app; lia.
Qed.

Lemma bp_cleanup_spec m buf ops p w :
  zlen buf <= isize_max -> Forall (arg_fits m) ops ->
  after (byte_h m) ops (bp_from_buffer buf) = Some p ->
  after (spec_h Merge) ops (w_init buf) = Some w ->
  exists lo, bp_cleanup m p = ROk lo /\
    lo_bytes lo = zdrop (bp_offset p) buf /\
    lo_segments lo = unread_segments w.
Proof.
  intros Hb Ha Hp Hw.
  destruct (bp_after_from m ops _ _ (bp_init_inv buf Hb) Ha Hp) as [Hi Hs].
  rewrite bp_init_alpha, Hw in Hs. inversion Hs; subst w; clear Hs.
  assert (Hbuf : bp_buf p = buf) by (apply after_buf in Hp; exact Hp).
  destruct p as [b [abs fs cur]]; cbn [bp_buf] in Hbuf; subst b.
  unfold bp_cleanup; cbn [bp_off co_frames].
  rewrite bp_cleanup_loop by exact Hi.
  eexists; split; [reflexivity|].
  assert (Hne : pieces buf cur (fs ++ [abs]) <> []) by (destruct fs; discriminate).
  destruct (collect_empty _ Hne) as [H1 H2]. split.
  - rewrite H1. destruct Hi as (_ & Habs & Hc & Hasc). unfold bp_bounds in Hasc; cbn [bp_off bp_buf co_abs co_frames co_cur] in *.
    rewrite pieces_concat, last_last; auto; [|rewrite last_last; lia].
    unfold bp_offset, co_index; cbn [bp_off co_cur]. subst abs.
    unfold zslice. apply ztake_ge.
    assert (cur <= zlen buf) by (apply asc_last in Hasc; exact Hasc).
    rewrite zlen_zdrop by lia. lia.
  - rewrite H2. unfold bp_alpha, co_alpha, unread_segments, bp_bounds; cbn [bp_buf bp_off co_frames co_abs co_cur w_cur w_outer].
    destruct (pieces buf cur (fs ++ [abs])) as [|x l]; [congruence|]. reflexivity.
Qed.

Lemma mp_cleanup_spec m buf ops p w :
  zlen buf <= isize_max -> Forall (arg_fits m) ops ->
  after (memo_h m) ops (mp_from_buffer buf) = Some p ->
  after (spec_h Merge) ops (w_init buf) = Some w ->
  exists lo, mp_cleanup m p = ROk lo /\
    lo_bytes lo = zdrop (mp_offset p) buf /\
    lo_segments lo = unread_segments w.
Proof.
  intros Hb Ha Hp Hw. pose proof (mp_init_inv buf Hb) as Hi0.
  destruct (mp_after_from m ops _ Hi0 Ha) as [H Hi]. specialize (Hi _ Hp).
  rewrite Hp in H; cbn [option_map] in H.
  destruct (bp_cleanup_spec m buf ops (mp_bp p) w Hb Ha (eq_sym H) Hw) as (lo & E & H1 & H2).
  exists lo. split; [|split; assumption].
  unfold mp_cleanup. rewrite mp_cleanup_loop by exact Hi. exact E.
Qed.

Lemma sp_cleanup_spec (p : slice_parser) :
  exists lo, sp_cleanup p = ROk lo /\ lo_bytes lo = concat p /\ lo_segments lo = p.
Proof.
  unfold sp_cleanup. rewrite sp_cleanup_loop_ok. eexists; split; [reflexivity|].
  destruct (collect_empty (p ++ [[]])) as [H1 H2]; [destruct p; discriminate|].
  rewrite H1, H2. split.
  - rewrite concat_app; cbn. apply app_nil_r.
  - unfold kept_segments. rewrite removelast_last, last_last. apply app_nil_r.
Qed.

(** With no window open, the leftover is empty exactly when nothing is unread. *)
Lemma bp_cleanup_empty m buf ops p w lo :
  zlen buf <= isize_max -> Forall (arg_fits m) ops ->
  after (byte_h m) ops (bp_from_buffer buf) = Some p ->
  after (spec_h Merge) ops (w_init buf) = Some w -> w_outer w = [] ->
  bp_cleanup m p = ROk lo ->
  (lo_is_empty lo = true <-> bp_offset p = zlen buf).
Proof.
  intros Hb Ha Hp Hw Ho Hc.
  destruct (bp_after_from m ops _ _ (bp_init_inv buf Hb) Ha Hp) as [Hi Hs].
  rewrite bp_init_alpha, Hw in Hs. inversion Hs; subst w; clear Hs.
  apply pieces_outer_nil in Ho.
  assert (Hbuf : bp_buf p = buf) by (apply after_buf in Hp; exact Hp).
  destruct p as [b [abs fs cur]]; cbn [bp_buf bp_off co_frames] in Hbuf, Ho; subst b fs.
  unfold bp_cleanup in Hc; cbn [bp_off co_frames] in Hc.
  rewrite bp_cleanup_loop in Hc by exact Hi. inversion Hc; subst lo; clear Hc.
  pose proof (co_inv_limit _ _ Hi) as HL. unfold co_limit in HL; cbn [fs_peek hd_error co_frames co_cur co_abs bp_buf bp_off] in HL.
  cbn [app pieces lo_collect]. unfold lo_add, bp_offset, co_index; cbn [bp_off co_cur].
  rewrite zlen_zslice by lia. bcase (abs - cur =? 0).
  - split; [lia|reflexivity].
  - cbn. destruct (zslice cur abs buf) eqn:E2.
    + apply zslice_nil_iff in E2; lia.
    + split; [discriminate|lia].
Qed.

(** ** The log of a MemoParser *)

Definition mp_log_ok (p : memo_parser) : Prop :=
  mp_inv p /\ zsum (mp_munches p) = co_cur (mp_off p).

Definition op_group {X : Set} (o : pop X) (x : option X) (w : wstack) : list (list byte) :=
  match o, x with
  | OpConsumeByte, Some _ => [ztake 1 (w_cur w)]
  | OpConsume n, Some _ => [ztake n (w_cur w)]
  | OpSkip n, Some _ => [ztake n (w_cur w)]
  | OpSkipExactly n, Some _ => [ztake n (w_cur w)]
  | _, _ => []
  end.

Lemma mp_munches_step m {X : Set} (o : pop X) p r p' x w' :
  mp_inv p -> arg_fits m (AnyOp o) -> no_skip_exactly (AnyOp o) ->
  spec_op Merge o (bp_alpha (mp_bp p)) = (x, w') -> memo_h m X o p = (r, p') ->
  r <> RPanic ->
  mp_munches p' = mp_munches p ++ map zlen (op_group o x (bp_alpha (mp_bp p))) /\
  concat (op_group o x (bp_alpha (mp_bp p))) =
    zslice (co_cur (mp_off p)) (co_cur (mp_off p')) (mp_buf p) /\
  co_cur (mp_off p) <= co_cur (mp_off p') /\ mp_buf p' = mp_buf p.
Proof.
  intros Hinv Ha Hns Hs Hm Hr.
  destruct p as [buf off mu]; destruct Hinv as (Hc & _ & _); cbn [mp_off mp_buf] in Hc.
  pose proof (co_inv_limit _ _ Hc) as HL.
  pose proof (co_alpha_len _ _ Hc) as Hlen. pose proof (co_alpha_cur buf off) as Hcur.
  unfold bp_alpha, mp_bp in *; cbn [mp_off mp_buf mp_munches bp_buf bp_off] in *.
  destruct o; cbn [memo_h spec_op op_group] in *.
  - pinv Hm. cbn [mp_off mp_munches mp_buf map concat]. rewrite app_nil_r, zslice_nil; repeat split; auto; lia.
  - unfold mp_consume_byte in Hm; cbn [mp_off mp_buf mp_munches] in Hm.
    destruct (@co_advance_spec parse_error m 1 _ _ Hc (size_fits_1 m)) as [[Hle Ha']|[[Hlt Ha']|(? & ? & Ha')]];
      rewrite Ha' in Hm.
    + pinv Hm. cbn [mp_off mp_munches mp_buf co_cur].
      destruct (w_cur (co_alpha buf off)) as [|b cur] eqn:Ew; [rewrite zlen_nil in Hlen; lia|].
      pinv Hs. cbn [map concat]. rewrite zlen_ztake by (rewrite Hlen; lia). rewrite app_nil_r.
      rewrite Hcur, ztake_zslice by lia. repeat split; auto; lia.
    + destruct (w_cur (co_alpha buf off)) as [|b cur] eqn:Ew.
      2:{ rewrite zlen_cons in Hlen. pose proof (zlen_nonneg cur). lia. }
      pinv Hs. destruct (@mp_dump parse_error m _); pinv Hm; cbn; rewrite ?app_nil_r, ?zslice_nil; repeat split; auto; try lia; congruence.
    + pinv Hm; congruence.
  - assert (Hn : size_fits m n) by (destruct m; exact Ha).
    pose proof (size_fits_nonneg _ _ Hn) as Hn0.
    unfold mp_consume in Hm; cbn [mp_off mp_buf mp_munches] in Hm.
    destruct (@co_advance_spec parse_error m n _ _ Hc Hn) as [[Hle Ha']|[[Hlt Ha']|(? & ? & Ha')]];
      rewrite Ha' in Hm.
    + pinv Hm. cbn [mp_off mp_munches mp_buf co_cur].
      rewrite Hlen in Hs. bcase (n <=? co_limit off - co_cur off); [|lia].
      pinv Hs. cbn [map concat]. rewrite zlen_ztake by (rewrite Hlen; lia). rewrite app_nil_r.
      rewrite Hcur, ztake_zslice by lia. repeat split; auto; lia.
    + rewrite Hlen in Hs. bcase (n <=? co_limit off - co_cur off); [lia|].
      pinv Hs. destruct (@mp_dump parse_error m _); pinv Hm; cbn; rewrite ?app_nil_r, ?zslice_nil; repeat split; auto; try lia; congruence.
    + pinv Hm; congruence.
  - unfold mp_set_fit in Hm; cbn [mp_off mp_buf mp_munches] in Hm.
    destruct (co_set_fit m n off) as [r0 off'] eqn:E. pinv Hm. cbn [mp_off mp_buf mp_munches].
    apply co_inv_set_fit in E. rewrite E, zslice_nil. destruct x; cbn; rewrite app_nil_r; repeat split; auto; lia.
  - unfold mp_test_target in Hm. pinv Hm. cbn [mp_off mp_buf mp_munches]. rewrite zslice_nil.
    destruct x; cbn; rewrite app_nil_r; repeat split; auto; lia.
  - unfold mp_enforce_target in Hm; cbn [mp_off mp_buf mp_munches] in Hm.
    destruct (co_enforce_target off) as [r0 off'] eqn:E. pinv Hm. cbn [mp_off mp_buf mp_munches].
    apply co_cur_enforce in E. rewrite E, zslice_nil. destruct x; cbn; rewrite app_nil_r; repeat split; auto; lia.
  - assert (Hn : size_fits m n) by (destruct m; exact Ha).
    pose proof (size_fits_nonneg _ _ Hn) as Hn0.
    unfold mp_skip in Hm; cbn [mp_off mp_buf mp_munches] in Hm.
    rewrite (co_rem_spec m buf off Hc) in Hm.
    assert (Hn' : size_fits m (Z.min (co_limit off - co_cur off) n)).
    { pose proof isize_max_lt. destruct m; unfold size_fits, is_usize in *; lia. }
    destruct (@co_advance_spec parse_error m _ _ _ Hc Hn') as [[Hle Ha']|[[Hlt Ha']|(? & ? & Ha')]];
      rewrite Ha' in Hm.
    + pinv Hm. pinv Hs. cbn [mp_off mp_munches mp_buf co_cur map concat].
      assert (Ht : ztake n (w_cur (co_alpha buf off)) =
                   zslice (co_cur off) (co_cur off + Z.min (co_limit off - co_cur off) n) buf).
      { destruct (Z_le_gt_dec n (co_limit off - co_cur off)).
        - rewrite Z.min_r by lia. rewrite Hcur, ztake_zslice by lia. reflexivity.
        - rewrite Z.min_l by lia. rewrite ztake_ge by lia. rewrite Hcur. f_equal; lia. }
      rewrite Ht, app_nil_r. rewrite zlen_zslice by lia. repeat split; auto; try lia.
      f_equal. f_equal. lia.
    + lia.
    + pinv Hm; congruence.
  - contradiction.
Qed.

Lemma mp_log_from m ops : forall p p',
  mp_inv p -> Forall (arg_fits m) ops -> Forall no_skip_exactly ops ->
  after (memo_h m) ops p = Some p' ->
  mp_munches p' = mp_munches p ++ map zlen (groups_read Merge ops (bp_alpha (mp_bp p))) /\
  concat (groups_read Merge ops (bp_alpha (mp_bp p))) = zslice (co_cur (mp_off p)) (co_cur (mp_off p')) (mp_buf p) /\
  co_cur (mp_off p) <= co_cur (mp_off p') /\ mp_buf p' = mp_buf p /\ mp_inv p'.
Proof.
  induction ops as [|[X o] ops IH]; intros p p' Hinv Hargs Hns H; cbn [after groups_read] in *.
  - inversion H; subst. rewrite app_nil_r, zslice_nil. repeat split; try apply Hinv; lia.
  - inversion Hargs as [|? ? Ha Hargs']; subst. inversion Hns as [|? ? Hn Hns']; subst.
    destruct (spec_op Merge o (bp_alpha (mp_bp p))) as [x w'] eqn:Es.
    destruct (memo_h m X o p) as [r q] eqn:Em.
    assert (Hr : r <> RPanic) by (intros ->; discriminate).
    destruct (mp_munches_step m o p r q x w' Hinv Ha Hn Es Em Hr) as (H1 & H2 & H3 & H4).
    destruct (mp_step m o p Hinv Ha _ _ Em) as [Hb Hi]. specialize (Hi Hr).
    pose proof (bp_step m o (mp_bp p) (proj1 Hinv) Ha _ _ _ _ Es Hb) as Hst; unfold step_rel in Hst.
    assert (Hw : bp_alpha (mp_bp q) = w' /\ after (memo_h m) ops q = Some p').
    { destruct r; try discriminate; try contradiction; destruct Hst as (_ & _ & Hst); auto. }
    destruct Hw as [Hw Haft].
    destruct (IH q p' Hi Hargs' Hns' Haft) as (G1 & G2 & G3 & G4 & G5).
    rewrite Hw in *. rewrite H4 in *.
    fold (op_group o x (bp_alpha (mp_bp p))).
    pose proof (co_inv_limit _ _ (proj1 Hinv)). pose proof (co_inv_limit _ _ (proj1 G5)).
    split; [rewrite G1, H1, map_app, app_assoc; reflexivity|].
    split; [|split; [lia|split; [assumption|assumption]]].
    rewrite concat_app, H2, G2. apply zslice_app; try lia.
Qed.

Lemma mp_dump_loop_value {E} m buf munches : forall ix sv,
  zlen buf <= isize_max -> 0 <= ix -> Forall (fun n => 0 <= n) munches ->
  ix + zsum munches <= zlen buf -> sb_active (sv_spans sv) = None ->
  exists sv', @mp_dump_loop E m buf munches ix sv = ROk sv' /\
    sv_buffer sv' = sv_buffer sv ++ zslice ix (ix + zsum munches) buf /\
    sb_stable (sv_spans sv') = sb_stable (sv_spans sv) ++ munches /\
    sb_active (sv_spans sv') = None.
Proof.
  induction munches as [|n ns IH]; intros ix sv Hb Hix Hf Hs Ha; cbn [mp_dump_loop].
  - exists sv. split; [reflexivity|]. change (zsum []) with 0.
    rewrite Z.add_0_r, zslice_nil, !app_nil_r. auto.
  - inversion Hf; subst. change (zsum (n :: ns)) with (n + zsum ns) in *.
    pose proof (zsum_nonneg ns ltac:(assumption)). pose proof isize_max_lt.
    rewrite vb_get_slice_ok by lia. cbn [rbind]. rewrite uadd_ok by lia. cbn [rbind].
    destruct (IH (ix + n) (sv_split (sv_extend_current (zslice ix (ix + n) buf) sv)))
      as (sv' & E1 & E2 & E3 & E4); auto; try lia.
    exists sv'. split; [exact E1|].
    rewrite E2, E3. unfold sv_split, sv_extend_current; cbn [sv_buffer sv_spans sb_increment sb_flush sb_stable sb_active].
    rewrite Ha. cbn [or_zero].
    split; [|split; [|assumption]].
    + rewrite <- app_assoc, zslice_app by lia. do 2 f_equal; lia.
    + rewrite <- app_assoc. cbn [app]. do 2 f_equal.
      rewrite zlen_app, zlen_zslice by lia. f_equal; lia.
Qed.

Lemma memo_log m buf ops p :
  zlen buf <= isize_max -> Forall (arg_fits m) ops -> Forall no_skip_exactly ops ->
  after (memo_h m) ops (mp_from_buffer buf) = Some p ->
  exists sv, @mp_dump unit m p = ROk sv /\
    sv_into_inner sv = ztake (mp_offset p) buf /\
    (let (bytes, lens) := sv_into_parts sv in cut lens bytes) =
      groups_read Merge ops (w_init buf) /\
    concat (groups_read Merge ops (w_init buf)) = ztake (mp_offset p) buf.
Proof.
  intros Hb Ha Hns H.
  destruct (mp_log_from m ops _ _ (mp_init_inv buf Hb) Ha Hns H) as (H1 & H2 & H3 & H4 & H5).
  change (bp_alpha (mp_bp (mp_from_buffer buf))) with (bp_alpha (bp_from_buffer buf)) in *.
  rewrite bp_init_alpha in *. cbn [mp_from_buffer mp_munches mp_buf mp_off app] in *.
  set (gs := groups_read Merge ops (w_init buf)) in *.
  change (co_cur (co_with_limit (zlen buf))) with 0 in *.
  pose proof (co_inv_limit _ _ (proj1 H5)) as HL.
  assert (Hsum : zsum (map zlen gs) = co_cur (mp_off p)).
  { transitivity (zlen (concat gs)).
    - clear. induction gs as [|g gs IH]; [reflexivity|]. cbn [map concat].
      rewrite zlen_app. change (zsum (zlen g :: map zlen gs)) with (zlen g + zsum (map zlen gs)). lia.
    - rewrite H2. rewrite H4 in HL. rewrite zlen_zslice by lia. lia. }
  unfold mp_dump. rewrite H4, H1 in *. cbn [app].
  destruct (@mp_dump_loop_value unit m buf (map zlen gs) 0 sv_new) as (sv & E1 & E2 & E3 & E4); auto; try lia.
  { apply Forall_forall. intros n Hn. apply in_map_iff in Hn. destruct Hn as (g & <- & _). apply zlen_nonneg. }
  exists sv. split; [exact E1|].
  assert (Hz : zslice 0 (co_cur (mp_off p)) buf = ztake (mp_offset p) buf)
    by (unfold zslice; rewrite zdrop_0, Z.sub_0_r; reflexivity).
  unfold sv_into_inner, sv_into_parts, sb_into_vec. rewrite E2, E3, E4, Hsum. rewrite Z.add_0_l, Hz.
  cbn [sv_new sv_buffer sv_spans sb_new sb_stable app].
  rewrite Hz in H2. split; [reflexivity|]. split; [|exact H2].
  rewrite <- H2. apply cut_map_zlen.
Qed.
