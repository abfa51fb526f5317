(** Lemmas behind the parser properties (C01-C11, C44, C45, C47). *)
From Verif Require Import Base BaseLemmas ModelErrors ModelSplitVec ModelParser SpecParser
  ProofParser ProofParserSim.
From Coq Require Import ZifyBool.

Lemma isize_max_nonneg : 0 <= isize_max.
Proof. discriminate. Qed.

(** ** Reachable ByteParser states *)

Lemma after_buf m ops : forall p p', after (byte_h m) ops p = Some p' -> bp_buf p' = bp_buf p.
Proof.
  induction ops as [|[X o] ops IH]; intros p p' H; cbn [after] in H.
  - inversion H; reflexivity.
  - pose proof (bp_buf_const m o p) as Hc.
    destruct (byte_h m X o p) as [r q]; cbn [snd] in Hc.
    destruct r; try discriminate; apply IH in H; congruence.
Qed.

Lemma bp_reaches_inv m buf p :
  zlen buf <= isize_max -> reaches m (byte_h m) (bp_from_buffer buf) p ->
  bp_inv p /\ bp_buf p = buf.
Proof.
  intros Hb (ops & Hargs & Haft). split.
  - apply (bp_after_from m ops _ _ (bp_init_inv buf Hb) Hargs Haft).
  - apply after_buf in Haft; exact Haft.
Qed.

Lemma bp_remainder_ok m p :
  bp_inv p -> byte_h m Z OpRemainder p = (ROk (bp_view_len p - bp_offset p), p).
Proof.
  intros H; apply co_inv_limit in H. cbn [byte_h]. unfold bp_remainder, bp_view_len, bp_offset, co_index.
  rewrite usub_ok by lia. reflexivity.
Qed.

Definition bp_moved (p : byte_parser) (n : Z) : byte_parser :=
  mkBP (bp_buf p) (mkCO (co_abs (bp_off p)) (co_frames (bp_off p)) (co_cur (bp_off p) + n)).

Lemma bp_moved_offset p n : bp_offset (bp_moved p n) = bp_offset p + n.
Proof. reflexivity. Qed.
Lemma bp_moved_view p n : bp_view_len (bp_moved p n) = bp_view_len p.
Proof. reflexivity. Qed.
Lemma bp_moved_inv p n :
  bp_inv p -> 0 <= n <= bp_view_len p - bp_offset p -> bp_inv (bp_moved p n).
Proof. intros; apply co_inv_move; assumption. Qed.

Lemma bp_consume_ok m p n :
  bp_inv p -> size_fits m n -> n <= bp_view_len p - bp_offset p ->
  bp_consume m n p =
    (ROk (zslice (bp_offset p) (bp_offset p + n) (bp_buf p)), bp_moved p n).
Proof.
  intros H Hn Hle. pose proof (co_inv_limit _ _ H). pose proof (size_fits_nonneg _ _ Hn).
  unfold bp_consume, bp_view_len, bp_offset, co_index in *.
  destruct (@co_advance_spec parse_error m n _ _ H Hn) as [[? Ha]|[[? Ha]|(? & ? & Ha)]]; try lia.
  rewrite Ha, vb_get_slice_unchecked_ok by lia. reflexivity.
Qed.

Lemma bp_consume_fail m p n :
  bp_inv p -> size_fits m n -> bp_view_len p - bp_offset p < n ->
  bp_consume m n p =
    (RErr (EWindow (ConsumeWouldExceedLimit (bp_offset p) n (bp_view_len p))), p) \/
  (m = Debug /\ isize_max < n /\ bp_consume m n p = (RPanic, p)).
Proof.
  intros H Hn Hle. pose proof (co_inv_limit _ _ H). pose proof (size_fits_nonneg _ _ Hn).
  unfold bp_consume, bp_view_len, bp_offset, co_index in *.
  destruct (@co_advance_spec parse_error m n _ _ H Hn) as [[? Ha]|[[? Ha]|(? & ? & Ha)]]; try lia;
    rewrite Ha; destruct p; auto.
Qed.

Lemma size_fits_1 m : size_fits m 1.
Proof. destruct m; cbv; intuition congruence. Qed.

Lemma zslice_1 (buf : list byte) i b :
  0 <= i -> nth_error buf (Z.to_nat i) = Some b -> zslice i (i + 1) buf = [b].
Proof.
  intros Hi H. assert (Hlt : (Z.to_nat i < length buf)%nat)
    by (apply nth_error_Some; congruence).
  destruct (nth_error_zslice buf i (i + 1)) as (b' & Hb' & Hs); [lia|unfold zlen; lia|].
  rewrite Hs, zslice_nil. congruence.
Qed.

Lemma bp_consume_byte_ok m p :
  bp_inv p -> 1 <= bp_view_len p - bp_offset p ->
  exists b, bp_consume_byte m p = (ROk b, bp_moved p 1) /\
            bp_consume m 1 p = (ROk [b], bp_moved p 1).
Proof.
  intros H Hle. pose proof (co_inv_limit _ _ H).
  unfold bp_view_len, bp_offset, co_index in *.
  destruct (co_cur_byte _ _ H ltac:(lia)) as (b & Hn & Hg & _).
  exists b. split.
  - unfold bp_consume_byte.
    destruct (@co_advance_spec parse_error m 1 _ _ H (size_fits_1 m))
      as [[? Ha]|[[? Ha]|(? & ? & Ha)]]; try lia.
    rewrite Ha, Hg. reflexivity.
  - rewrite (bp_consume_ok m p 1 H (size_fits_1 m)) by (unfold bp_view_len, bp_offset, co_index; lia).
    rewrite (zslice_1 _ _ b); [reflexivity| unfold bp_offset, co_index; lia | exact Hn].
Qed.

Lemma bp_consume_byte_fail m p :
  bp_inv p -> bp_view_len p - bp_offset p = 0 ->
  bp_consume_byte m p =
    (RErr (EWindow (ConsumeWouldExceedLimit (bp_offset p) 1 (bp_view_len p))), p).
Proof.
  intros H Hle. pose proof (co_inv_limit _ _ H).
  unfold bp_view_len, bp_offset, co_index, bp_consume_byte in *.
  destruct (@co_advance_spec parse_error m 1 _ _ H (size_fits_1 m))
      as [[? Ha]|[[? Ha]|(? & ? & Ha)]]; try lia.
  - rewrite Ha; destruct p; reflexivity.
  - assert (1 <= isize_max) by discriminate; lia.
Qed.

(** C01 *)
Lemma consume_exact m buf p n :
  zlen buf <= isize_max -> reaches m (byte_h m) (bp_from_buffer buf) p -> size_fits m n ->
  exists rem,
    byte_h m Z OpRemainder p = (ROk rem, p) /\ 0 <= rem /\ bp_offset p + rem <= zlen buf /\
    (n <= rem ->
       exists p',
         byte_h m _ (OpConsume n) p = (ROk (zslice (bp_offset p) (bp_offset p + n) buf), p') /\
         bp_offset p' = bp_offset p + n /\
         byte_h m Z OpRemainder p' = (ROk (rem - n), p')) /\
    (rem < n ->
       (exists e, byte_h m _ (OpConsume n) p = (RErr e, p)) \/
       (m = Debug /\ fst (byte_h m _ (OpConsume n) p) = RPanic)) /\
    (1 <= rem ->
       exists b p', byte_h m _ OpConsumeByte p = (ROk b, p') /\
                    byte_h m _ (OpConsume 1) p = (ROk [b], p')) /\
    (rem = 0 -> exists e, byte_h m _ OpConsumeByte p = (RErr e, p)).
Proof.
  intros Hb Hr Hn. destruct (bp_reaches_inv _ _ _ Hb Hr) as [Hinv Hbuf].
  pose proof (co_inv_limit _ _ Hinv) as HL.
  exists (bp_view_len p - bp_offset p).
  split; [apply bp_remainder_ok; assumption|].
  unfold bp_view_len, bp_offset, co_index in *. rewrite Hbuf in HL.
  split; [lia|]. split; [lia|]. split; [|split; [|split]].
  - intros Hle. exists (bp_moved p n). split.
    + cbn [byte_h]. rewrite bp_consume_ok, Hbuf by assumption. reflexivity.
    + split; [reflexivity|].
      rewrite bp_remainder_ok.
      * rewrite bp_moved_view, bp_moved_offset. unfold bp_view_len, bp_offset, co_index. do 2 f_equal; lia.
      * apply bp_moved_inv; [assumption|].
        pose proof (size_fits_nonneg _ _ Hn). unfold bp_view_len, bp_offset, co_index; lia.
  - intros Hlt. cbn [byte_h].
    destruct (bp_consume_fail m p n Hinv Hn Hlt) as [->|(-> & _ & ->)]; eauto.
  - intros Hle. destruct (bp_consume_byte_ok m p Hinv Hle) as (b & H1 & H2). cbn [byte_h]; eauto.
  - intros Hz. cbn [byte_h]. rewrite bp_consume_byte_fail by assumption. eauto.
Qed.

(** The offset counts what was consumed. *)
Definition op_moved {X : Set} (o : pop X) (y : obs) : Z :=
  match o, y with
  | OpConsumeByte, ObsByte _ => 1
  | OpConsume _, ObsBytes l => zlen l
  | OpSkip _, ObsNum d => d
  | OpSkipExactly n, ObsUnit => n
  | _, _ => 0
  end.
Lemma bp_obs_offset m {X : Set} (o : pop X) p r p' :
  bp_inv p -> arg_fits m (AnyOp o) -> byte_h m X o p = (r, p') ->
  match r with
  | ROk x => bp_offset p' = bp_offset p + op_moved o (obs_ok o x)
  | RErr _ => bp_offset p' = bp_offset p
  | _ => True
  end.
Proof.
  intros H Ha Hb. pose proof (co_inv_limit _ _ H) as HL.
  destruct o; cbn [byte_h obs_ok op_moved] in *.
  - pinv Hb. destruct (bp_remainder m p'); auto; lia.
  - destruct (Z.eq_dec (bp_view_len p - bp_offset p) 0) as [E|E].
    + rewrite bp_consume_byte_fail in Hb by assumption. pinv Hb; reflexivity.
    + unfold bp_view_len, bp_offset, co_index in E.
      destruct (bp_consume_byte_ok m p H) as (b & H1 & _);
        [unfold bp_view_len, bp_offset, co_index; lia|].
      rewrite H1 in Hb. pinv Hb. reflexivity.
  - assert (Hn : size_fits m n) by (destruct m; exact Ha). pose proof (size_fits_nonneg _ _ Hn).
    destruct (Z_le_gt_dec n (bp_view_len p - bp_offset p)) as [Hle|Hgt].
    + rewrite bp_consume_ok in Hb by assumption. pinv Hb.
      rewrite bp_moved_offset. f_equal. symmetry.
      unfold bp_view_len, bp_offset, co_index in *. rewrite zlen_zslice; lia.
    + destruct (bp_consume_fail m p n H Hn) as [E|(_ & _ & E)]; [lia| |];
        rewrite E in Hb; pinv Hb; auto.
  - unfold bp_set_fit in Hb. destruct (co_set_fit m n (bp_off p)) as [r0 off'] eqn:E.
    pinv Hb. unfold bp_offset, co_index; cbn [bp_off].
    rewrite (co_inv_set_fit _ _ _ _ _ E). destruct r; auto; lia.
  - unfold bp_test_target in Hb. pinv Hb. destruct (co_test_target (bp_off p')); auto; lia.
  - unfold bp_enforce_target in Hb. destruct (co_enforce_target (bp_off p)) as [r0 off'] eqn:E.
    pinv Hb. unfold bp_offset, co_index; cbn [bp_off].
    rewrite (co_cur_enforce _ _ _ E). destruct r; auto; lia.
  - assert (Hn : size_fits m n) by (destruct m; exact Ha). pose proof (size_fits_nonneg _ _ Hn).
    unfold bp_skip in Hb. rewrite (co_rem_spec m (bp_buf p) (bp_off p) H) in Hb.
    assert (Hn' : size_fits m (Z.min (co_limit (bp_off p) - co_cur (bp_off p)) n)).
    { pose proof isize_max_lt. destruct m; unfold size_fits, is_usize in *; lia. }
    destruct (@co_advance_spec parse_error m _ _ _ H Hn') as [[? E]|[[? E]|(? & ? & E)]]; try lia;
      rewrite E in Hb; pinv Hb; try exact I. unfold bp_offset, co_index; cbn [bp_off co_cur]. reflexivity.
  - assert (Hn : size_fits m n) by (destruct m; exact Ha).
    unfold bp_skip_exactly in Hb.
    destruct (@co_advance_spec parse_error m _ _ _ H Hn) as [[? E]|[[? E]|(? & ? & E)]];
      rewrite E in Hb; pinv Hb; try exact I; reflexivity.
Qed.

Lemma offset_counts_from m ops : forall p p',
  bp_inv p -> Forall (arg_fits m) ops -> after (byte_h m) ops p = Some p' ->
  bp_offset p' = bp_offset p + consumed_total ops (history (byte_h m) ops p).
Proof.
  induction ops as [|[X o] ops IH]; intros p p' Hinv Hargs H; cbn [after] in H.
  - inversion H; subst; cbn; lia.
  - inversion Hargs as [|? ? Ha Hargs']; subst.
    cbn [history]. destruct (byte_h m X o p) as [r q] eqn:Eb.
    pose proof (bp_obs_offset m o p r q Hinv Ha Eb) as Ho.
    destruct (spec_op Merge o (bp_alpha p)) as [x w'] eqn:Es.
    pose proof (bp_step m o p Hinv Ha _ _ _ _ Es Eb) as Hst; unfold step_rel in Hst.
    destruct r as [v|e| | |]; try discriminate; destruct Hst as (_ & Hi & _);
      rewrite (IH _ _ Hi Hargs' H), Ho; cbn [consumed_total].
    + fold (op_moved o (obs_ok o v)). lia.
    + destruct o; lia.
Qed.

Lemma offset_counts_consumed m buf ops p :
  zlen buf <= isize_max -> Forall (arg_fits m) ops ->
  after (byte_h m) ops (bp_from_buffer buf) = Some p ->
  bp_offset p = consumed_total ops (history (byte_h m) ops (bp_from_buffer buf)).
Proof.
  intros Hb Ha H. rewrite (offset_counts_from m ops _ _ (bp_init_inv buf Hb) Ha H). reflexivity.
Qed.

(** C02 *)
Lemma byte_refines_stack m buf ops :
  zlen buf <= isize_max -> Forall (arg_fits m) ops ->
  agrees_or_panics (history (byte_h m) ops (bp_from_buffer buf))
                   (history (spec_h Merge) ops (w_init buf)) /\
  (m = Release -> history (byte_h m) ops (bp_from_buffer buf)
                  = history (spec_h Merge) ops (w_init buf)).
Proof.
  intros Hb Ha. rewrite <- bp_init_alpha.
  apply bp_history_from; [apply bp_init_inv|]; assumption.
Qed.

(** C03 *)
Lemma memo_equals_byte m buf ops :
  zlen buf <= isize_max -> Forall (arg_fits m) ops ->
  history (memo_h m) ops (mp_from_buffer buf) = history (byte_h m) ops (bp_from_buffer buf) /\
  (forall p, after (memo_h m) ops (mp_from_buffer buf) = Some p ->
     exists q, after (byte_h m) ops (bp_from_buffer buf) = Some q /\
       mp_offset p = bp_offset q /\ mp_view_len p = bp_view_len q).
Proof.
  intros Hb Ha. pose proof (mp_init_inv buf Hb) as Hi.
  split; [exact (mp_history_from m ops _ Hi Ha)|].
  intros p Hp. destruct (mp_after_from m ops _ Hi Ha) as [H _].
  rewrite Hp in H; cbn [option_map] in H. exists (mp_bp p).
  split; [symmetry; exact H|]. split; reflexivity.
Qed.

Lemma memo_equals_byte_prog m buf {A} (pg : prog A) :
  zlen buf <= isize_max -> prog_fits m pg ->
  fst (run (memo_h m) pg (mp_from_buffer buf)) = fst (run (byte_h m) pg (bp_from_buffer buf)).
Proof.
  intros Hb Hf. destruct (run (memo_h m) pg (mp_from_buffer buf)) as [r p'] eqn:E.
  destruct (mp_run m pg _ (mp_init_inv buf Hb) Hf _ _ E) as [H _].
  change (mp_bp (mp_from_buffer buf)) with (bp_from_buffer buf) in H. rewrite H. reflexivity.
Qed.

(** C04 *)
Lemma slice_agrees_with_byte buf ops :
  zlen buf <= isize_max -> Forall arg_small ops -> closes_clean ops (w_init buf) ->
  history slice_h ops (sp_from_buffer buf) =
  history (byte_h Release) ops (bp_from_buffer buf) /\
  agrees_or_panics (history (byte_h Debug) ops (bp_from_buffer buf))
                   (history slice_h ops (sp_from_buffer buf)).
Proof.
  intros Hb Ha Hc.
  assert (Hs : history slice_h ops (sp_from_buffer buf) = history (spec_h Keep) ops (w_init buf)).
  { rewrite (sp_history_from ops (sp_from_buffer buf)).
    - apply clean_history; exact Hc.
    - discriminate.
    - apply clean_bracketed; exact Hc. }
  destruct (byte_refines_stack Release buf ops Hb Ha) as [_ Hr].
  assert (Hd : Forall (arg_fits Debug) ops).
  { eapply Forall_impl; [|exact Ha]. pose proof isize_max_lt. pose proof isize_max_nonneg.
    intros [X o]; destruct o; unfold arg_small, arg_fits, arg_ok, is_usize; auto; lia. }
  destruct (byte_refines_stack Debug buf ops Hb Hd) as [Hg _].
  rewrite (clean_history Merge) in Hr, Hg by exact Hc.
  rewrite Hs, Hr by reflexivity. auto.
Qed.

Lemma slice_history_exact buf ops :
  bracketed Drop ops (w_init buf) ->
  history slice_h ops (sp_from_buffer buf) = history (spec_h Drop) ops (w_init buf).
Proof. intros H; apply (sp_history_from ops (sp_from_buffer buf)); [discriminate|exact H]. Qed.

Lemma slice_closed ops : history slice_h ops [] = map closed_answer ops.
Proof.
  induction ops as [|[X o] ops IH]; [reflexivity|]. cbn [history map]. destruct o; cbn [slice_h sp_consume_byte sp_consume sp_set_fit sp_test_target sp_enforce_target sp_skip sp_skip_exactly closed_answer]; try (rewrite IH; reflexivity).
  destruct (n =? 0); rewrite IH; reflexivity.
Qed.
Definition in_window (p : slice_parser) : wstack := match p with [] => mkW [] [] | f :: r => mkW f (r ++ [[]]) end.
Lemma slice_whole_from ops : forall p, Forall arg_ok ops -> asks_inside Drop ops (in_window p) -> history slice_h ops p = history (spec_h Drop) ops (in_window p).
Proof.
  induction ops as [|[X o] ops IH]; intros p Ha Hi; [reflexivity|]. inversion Ha as [|? ? Hn Hr]; subst. cbn [asks_inside] in Hi. destruct Hi as [H0 Hi]. cbn [history].
  assert (K : forall r p', slice_h X o p = (r, p') -> (exists x, r = ROk x /\ spec_op Drop o (in_window p) = (Some x, in_window p')) \/ (exists e, r = RErr e /\ spec_op Drop o (in_window p) = (None, in_window p'))).
  { clear IH Hi Hr Ha. intros r p' E. destruct p as [|f p]; cbn [in_window] in *.
    - destruct o; cbn [slice_h sp_consume_byte sp_consume sp_set_fit sp_test_target sp_enforce_target sp_skip sp_skip_exactly spec_op w_cur w_outer] in *; cbn [arg_ok asks_none] in *; unfold is_usize in *.
      all: try specialize (H0 eq_refl); change (zlen (@nil byte)) with 0 in *.
      all: try (rewrite H0 in E); injection E as <- <-; cbn [in_window].
      all: try (left; eexists; split; reflexivity); try (right; eexists; split; [reflexivity|]; try reflexivity).
      all: try (replace (n <=? 0) with false by lia; reflexivity).
      left. eexists. split; [reflexivity|]. replace (Z.min 0 n) with 0 by lia. reflexivity.
    - destruct o; cbn [slice_h sp_remainder sp_view_len sp_consume_byte sp_consume sp_set_fit sp_test_target sp_enforce_target sp_skip sp_skip_exactly spec_op w_cur w_outer] in *; cbn [arg_ok] in *; unfold is_usize, slb_take_unchecked, slb_split_unchecked in *; clear H0.
      all: try (destruct (Z.leb_spec n (zlen f)) as [Hl|Hl]).
      all: try (injection E as <- <-; cbn [in_window]; first [left; eexists; split; reflexivity|right; eexists; split; reflexivity]).
      + destruct f as [|b f]; injection E as <- <-; cbn [in_window]; [right|left]; eexists; split; reflexivity.
      + injection E as <- <-. left. eexists. split; [reflexivity|]. cbn [in_window]. destruct p, f; reflexivity.
      + destruct f as [|b f]; [|]. 
        * injection E as <- <-. left. eexists. split; [reflexivity|]. destruct p; reflexivity.
        * replace (zlen (b :: f) =? 0) with false in E by (rewrite zlen_cons; pose proof (zlen_nonneg f); lia). injection E as <- <-. right. eexists. split; [reflexivity|]. destruct p; reflexivity.
      + replace (Z.min (zlen f) n <=? zlen f) with true in E by lia. injection E as <- <-. left. eexists. split; reflexivity.
      + replace (Z.min (zlen f) n <=? zlen f) with true in E by lia. injection E as <- <-. left. eexists. split; reflexivity. }
  destruct (slice_h X o p) as [r p'] eqn:E. destruct (K _ _ eq_refl) as [(x & -> & S)|(e & -> & S)]; unfold spec_h; rewrite S; rewrite S in Hi; cbn [snd] in Hi; f_equal; apply IH; assumption.
Qed.
Lemma slice_whole buf ops : Forall arg_ok ops -> asks_inside Drop ops (mkW buf [[]]) ->
  history slice_h ops (sp_from_buffer buf) = history (spec_h Drop) ops (mkW buf [[]]).
Proof. exact (slice_whole_from ops (sp_from_buffer buf)). Qed.

(** C05 *)
Lemma bp_set_fit_ok m p n :
  bp_inv p -> 0 <= n <= bp_view_len p - bp_offset p ->
  bp_set_fit m n p =
    (ROk tt, mkBP (bp_buf p) (mkCO (co_abs (bp_off p)) (bp_offset p + n :: co_frames (bp_off p))
                                   (co_cur (bp_off p)))).
Proof.
  intros H Hn. pose proof (co_inv_limit _ _ H) as HL. pose proof isize_max_lt.
  unfold bp_set_fit, co_set_fit, bp_view_len, bp_offset, co_index in *.
  rewrite uadd_ok by lia.
  bcase (co_abs (bp_off p) <? co_cur (bp_off p) + n); [lia|].
  unfold fs_push_frame, detect_error, co_limit in *.
  destruct (fs_peek (co_frames (bp_off p))) as [t|]; [|reflexivity].
  bcase (t <? co_cur (bp_off p) + n); [lia | reflexivity].
Qed.

Lemma bp_set_fit_fail m p n :
  bp_inv p -> size_fits m n -> bp_view_len p - bp_offset p < n ->
  (exists e, bp_set_fit m n p = (RErr e, p)) \/ (m = Debug /\ fst (bp_set_fit m n p) = RPanic).
Proof.
  intros H Hn Hlt. pose proof (co_inv_limit _ _ H) as HL.
  pose proof isize_max_lt. pose proof (size_fits_nonneg _ _ Hn).
  destruct p as [buf off]; unfold bp_set_fit, co_set_fit, bp_view_len, bp_offset, co_index in *;
    cbn [bp_off bp_buf] in *.
  unfold uadd. bcase (co_cur off + n <? usize_mod).
  - bcase (co_abs off <? co_cur off + n).
    + unfold usub. bcase (n <=? co_abs off); cbn [rbind]; [eauto|].
      destruct m; cbn [rbind fst]; eauto.
    + unfold fs_push_frame, detect_error, co_limit in *.
      destruct (fs_peek (co_frames off)) as [t|]; [|lia].
      bcase (t <? co_cur off + n); [eauto|lia].
  - destruct m; unfold size_fits in Hn; [auto|lia].
Qed.

Lemma set_fit_exact m buf p n :
  zlen buf <= isize_max -> reaches m (byte_h m) (bp_from_buffer buf) p -> size_fits m n ->
  exists rem, byte_h m Z OpRemainder p = (ROk rem, p) /\
    (n <= rem -> exists p', byte_h m _ (OpSetFit n) p = (ROk tt, p') /\
        byte_h m Z OpRemainder p' = (ROk n, p') /\ bp_offset p' = bp_offset p /\
        bp_view_len p' <= bp_view_len p) /\
    (rem < n -> (exists e, byte_h m _ (OpSetFit n) p = (RErr e, p)) \/
                (m = Debug /\ fst (byte_h m _ (OpSetFit n) p) = RPanic)).
Proof.
  intros Hb Hr Hn. destruct (bp_reaches_inv _ _ _ Hb Hr) as [Hinv Hbuf].
  pose proof (size_fits_nonneg _ _ Hn).
  exists (bp_view_len p - bp_offset p). split; [apply bp_remainder_ok; assumption|]. split.
  - intros Hle. cbn [byte_h]. rewrite bp_set_fit_ok by (auto; lia).
    eexists; split; [reflexivity|]. split; [|split].
    + pose proof (co_push (bp_buf p) (bp_off p) n Hinv) as Hp.
      destruct Hp as [Hp _]; [unfold bp_view_len, bp_offset, co_index in *; lia|].
      pose proof (bp_remainder_ok m (mkBP (bp_buf p) _) Hp) as E.
      etransitivity; [exact E|].
      unfold bp_view_len, bp_offset, co_index; cbn. do 2 f_equal; lia.
    + reflexivity.
    + unfold bp_view_len at 1; cbn. lia.
  - intros Hlt. cbn [byte_h]. apply bp_set_fit_fail; auto.
Qed.

(** Frames below the inner ones stay, whatever is called. *)
Definition frames_after {X : Set} (o : pop X) (y : obs) (inner keep now : list Z) : Prop :=
  match o, y with
  | OpSetFit _, ObsUnit => exists f, now = (f :: inner) ++ keep
  | OpEnforceTarget, _ => match inner with [] => True | _ :: inner' => now = inner' ++ keep end
  | _, _ => now = inner ++ keep
  end.
Lemma frames_kept m {X : Set} (o : pop X) p r p' inner t fs :
  byte_h m X o p = (r, p') -> co_frames (bp_off p) = inner ++ t :: fs ->
  match r with
  | ROk x => frames_after o (obs_ok o x) inner (t :: fs) (co_frames (bp_off p'))
  | RErr _ => frames_after o ObsFail inner (t :: fs) (co_frames (bp_off p'))
  | _ => True
  end.
Proof.
  intros H Hf. destruct p as [buf [abs frames cur]]; cbn [bp_off co_frames] in Hf; subst frames.
  destruct o; cbn [byte_h obs_ok frames_after] in *.
  - pinv H. destruct (bp_remainder m _); auto.
  - unfold bp_consume_byte, co_advance, rmap in H; cbn [bp_off bp_buf co_cur] in H.
    destruct (increment_checked m cur 1 _) as [[[? b] ?]|e| | |]; cbn [rbind] in H;
      try (pinv H; exact I).
    destruct b; pinv H; cbn [bp_off co_frames]; auto.
    destruct (vb_get_byte _ _); auto.
  - unfold bp_consume, co_advance, rmap in H; cbn [bp_off bp_buf co_cur] in H.
    destruct (increment_checked m cur n _) as [[[? b] ?]|e| | |]; cbn [rbind] in H;
      try (pinv H; exact I).
    destruct b; pinv H; cbn [bp_off co_frames]; auto.
    destruct (vb_get_slice_unchecked _ _ _ _); auto.
  - unfold bp_set_fit, co_set_fit, co_index in H; cbn [bp_off bp_buf co_cur co_abs co_frames] in H.
    destruct (uadd m cur n) as [tg|e| | |]; try (pinv H; exact I).
    destruct (abs <? tg).
    + destruct (usub m abs n) as [bl|e| | |]; cbn [rbind] in H; pinv H; auto.
    + unfold fs_push_frame in H. destruct (detect_error _ _); pinv H; cbn [bp_off co_frames]; [auto|].
      exists tg; reflexivity.
  - unfold bp_test_target in H. pinv H. destruct (co_test_target _); auto.
  - unfold bp_enforce_target, co_enforce_target in H; cbn [bp_off bp_buf co_cur co_abs co_frames] in H.
    destruct inner as [|i inner]; cbn [app] in H.
    + destruct r; exact I.
    + destruct (i ?= co_index _); pinv H; cbn [bp_off co_frames]; auto.
  - unfold bp_skip in H. destruct (co_rem m _); try (pinv H; auto; fail).
    unfold co_advance, rmap in H; cbn [bp_off bp_buf co_cur] in H.
    destruct (increment_checked m cur _ _) as [[[? b] ?]|e| | |]; cbn [rbind] in H;
      try (pinv H; exact I).
    destruct b; pinv H; cbn [bp_off co_frames]; auto.
  - unfold bp_skip_exactly, co_advance, rmap in H; cbn [bp_off bp_buf co_cur] in H.
    destruct (increment_checked m cur n _) as [[[? b] ?]|e| | |]; cbn [rbind] in H;
      try (pinv H; exact I).
    destruct b; pinv H; cbn [bp_off co_frames]; auto.
Qed.

Lemma asc_in i inner t rest : asc i (inner ++ t :: rest) -> i <= t.
Proof.
  revert i; induction inner as [|x inner IH]; intros i; cbn [app asc].
  - tauto.
  - intros [H1 H2]. apply IH in H2; lia.
Qed.

Lemma window_protects_from m ops : forall p p' inner t fs,
  bp_inv p -> Forall (arg_fits m) ops ->
  co_frames (bp_off p) = inner ++ t :: fs ->
  window_kept (length inner) ops (history (byte_h m) ops p) ->
  after (byte_h m) ops p = Some p' ->
  bp_offset p' <= t.
Proof.
  induction ops as [|[X o] ops IH]; intros p p' inner t fs Hinv Hargs Hf Hk H; cbn [after] in H.
  - inversion H; subst. destruct Hinv as (_ & _ & _ & Hasc).
    unfold bp_bounds in Hasc; rewrite Hf, <- app_assoc in Hasc; cbn [app] in Hasc.
    apply asc_in in Hasc. exact Hasc.
  - inversion Hargs as [|? ? Ha Hargs']; subst.
    cbn [history] in Hk. destruct (byte_h m X o p) as [r q] eqn:Eb.
    pose proof (frames_kept m o p r q inner t fs Eb Hf) as Hfr.
    destruct (spec_op Merge o (bp_alpha p)) as [x w'] eqn:Es.
    pose proof (bp_step m o p Hinv Ha _ _ _ _ Es Eb) as Hst; unfold step_rel in Hst.
    destruct r as [v|e| | |]; try discriminate; destruct Hst as (_ & Hi & _);
      destruct o; cbn [window_kept obs_ok] in Hk; cbn [obs_ok frames_after] in Hfr;
      try (eapply IH; [exact Hi|exact Hargs'| |exact Hk|exact H]; exact Hfr);
      try (destruct inner as [|i inner]; cbn [length] in Hk; [contradiction|];
           eapply IH; [exact Hi|exact Hargs'|exact Hfr|exact Hk|exact H]).
    destruct Hfr as [f Hfr]. eapply IH; [exact Hi|exact Hargs'|exact Hfr|exact Hk|exact H].
Qed.

Lemma window_protects m buf p p1 n ops p2 :
  zlen buf <= isize_max -> reaches m (byte_h m) (bp_from_buffer buf) p -> size_fits m n ->
  byte_h m unit (OpSetFit n) p = (ROk tt, p1) ->
  Forall (arg_fits m) ops -> window_kept 0 ops (history (byte_h m) ops p1) ->
  after (byte_h m) ops p1 = Some p2 ->
  bp_offset p2 <= bp_offset p + n.
Proof.
  intros Hb Hr Hn Hs Ha Hk H. destruct (bp_reaches_inv _ _ _ Hb Hr) as [Hinv Hbuf].
  pose proof (size_fits_nonneg _ _ Hn).
  assert (Hle : n <= bp_view_len p - bp_offset p).
  { destruct (Z_le_gt_dec n (bp_view_len p - bp_offset p)); [assumption|].
    cbn [byte_h] in Hs.
    destruct (bp_set_fit_fail m p n Hinv Hn) as [[e E]|[_ E]]; [lia| |].
    - rewrite E in Hs; discriminate.
    - rewrite Hs in E; discriminate. }
  cbn [byte_h] in Hs. rewrite bp_set_fit_ok in Hs by (auto; lia). pinv Hs.
  refine (window_protects_from m ops _ p2 [] (bp_offset p + n) (co_frames (bp_off p)) _ Ha _ Hk H).
  - apply co_push; [exact Hinv|]. unfold bp_view_len, bp_offset, co_index in *; lia.
  - reflexivity.
Qed.
