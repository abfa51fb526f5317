(** Proofs for release builds and sizes of any [usize] (SpecWrap). *)
From Coq Require Import Lia ZifyBool.
From Verif Require Import Base ModelErrors ModelSplitVec ModelParser SpecParser SpecWrap ProofParserSim ProofParserProps.

Lemma mod64 : usize_mod = 2 ^ 64. Proof. reflexivity. Qed.

Lemma uadd_release {E} a b : 0 <= a + b -> @uadd E Release a b = ROk (plus64 a b).
Proof.
  intros H. unfold uadd, plus64. rewrite mod64. destruct (a + b <? 2 ^ 64) eqn:L; [|reflexivity].
  rewrite Z.mod_small by lia. reflexivity.
Qed.

Lemma usub_release {E} a b : b <= 2 ^ 63 -> 0 <= b -> 0 <= a <= 2 ^ 63 -> @usub E Release a b = ROk (minus64 a b).
Proof.
  intros H H' H0. unfold usub, minus64. rewrite mod64. destruct (b <=? a) eqn:L; [|reflexivity].
  rewrite Z.mod_small by lia. reflexivity.
Qed.

Lemma plus64_cases a b : 0 <= a < 2 ^ 63 -> 0 <= b < 2 ^ 64 ->
  (a + b < 2 ^ 64 /\ plus64 a b = a + b) \/ (2 ^ 64 <= a + b /\ plus64 a b = a + b - 2 ^ 64).
Proof.
  intros Ha Hb. unfold plus64. destruct (Z.ltb_spec (a + b) (2 ^ 64)) as [L | L]; [left | right]; split; try lia.
  - apply Z.mod_small. lia.
  - symmetry. apply (Z.mod_unique _ _ 1); lia.
Qed.

Lemma minus64_range a b : 0 <= minus64 a b < 2 ^ 64.
Proof. apply Z.mod_pos_bound. lia. Qed.

(** States of the two parsers and of the machine. *)
Definition t_inv (input : list byte) (t : tape) : Prop :=
  zlen input <= isize_max /\ 0 <= t_pos t <= zlen input /\ Forall (fun e => 0 <= e <= zlen input) (t_ends t).

Definition co_of (input : list byte) (t : tape) : context_offset := mkCO (zlen input) (t_ends t) (t_pos t).
Definition bp_of (input : list byte) (t : tape) : byte_parser := mkBP input (co_of input t).
Definition mp_of (input : list byte) (t : tape) : memo_parser := mkMP input (co_of input t) (t_log t).

Lemma isize_lt : isize_max = 2 ^ 63 - 1. Proof. reflexivity. Qed.

Lemma t_end_range input t : t_inv input t -> 0 <= t_end input t <= zlen input.
Proof.
  intros (H & Hp & F). unfold t_end. destruct (t_ends t) as [|e es]; [lia|]. inversion F; subst. assumption.
Qed.

Lemma limit_of input t : co_limit (co_of input t) = t_end input t.
Proof. unfold co_limit, t_end, co_of; cbn [co_frames co_abs]. destruct (t_ends t); reflexivity. Qed.

Lemma advance_of {E} input t n : t_inv input t -> 0 <= n < 2 ^ 64 ->
  @co_advance E Release n (co_of input t) =
    ROk (t_pos t, plus64 (t_pos t) n <=? t_end input t,
         if plus64 (t_pos t) n <=? t_end input t then mkCO (zlen input) (t_ends t) (plus64 (t_pos t) n)
         else co_of input t).
Proof.
  intros H Hn. unfold co_advance, increment_checked. rewrite limit_of. change (co_cur (co_of input t)) with (t_pos t).
  destruct H as (H & Hp & _). rewrite uadd_release by lia. cbn [rbind].
  destruct (plus64 (t_pos t) n <=? t_end input t); reflexivity.
Qed.

Lemma inv_move input t n log : t_inv input t -> plus64 (t_pos t) n <= t_end input t ->
  t_inv input (mkTape (plus64 (t_pos t) n) (t_ends t) log).
Proof.
  intros H L. pose proof (t_end_range _ _ H) as R. destruct H as (H & Hp & F).
  split; [exact H|]. split; [|exact F]. cbn [t_pos].
  pose proof (Z.mod_pos_bound (t_pos t + n) (2 ^ 64) ltac:(lia)). unfold plus64 in *. lia.
Qed.

(** What a failing MemoParser prints. *)
Lemma dump_loop_of {E} input log : zlen input <= isize_max -> forall at_ v, 0 <= at_ <= zlen input ->
  Forall (fun n => 0 <= n < 2 ^ 64) log ->
  match print_groups input at_ log with
  | PrintsAll => exists r, @mp_dump_loop E Release input log at_ v = ROk r
  | PrintPanics => @mp_dump_loop E Release input log at_ v = RPanic
  | PrintReadsOutside => @mp_dump_loop E Release input log at_ v = RUB
  end.
Proof.
  intros Hl. induction log as [|n log IH]; intros at_ v Ha F; cbn [print_groups mp_dump_loop].
  - eexists. reflexivity.
  - inversion F as [|? ? Hn F']; subst. pose proof isize_lt.
    unfold vb_get_slice, vb_get_slice_unchecked. rewrite uadd_release by lia. cbn [rbind].
    pose proof (plus64_cases at_ n ltac:(lia) Hn) as C.
    destruct (zlen input <? plus64 at_ n) eqn:L.
    + replace (plus64 at_ n <=? zlen input) with false by lia. reflexivity.
    + replace (plus64 at_ n <=? zlen input) with true by lia. cbn [rassert rbind].
      destruct (plus64 at_ n <? at_) eqn:L'.
      * replace (at_ <=? plus64 at_ n) with false by lia. reflexivity.
      * replace (at_ <=? plus64 at_ n) with true by lia. cbn [andb rbind]. apply IH; [lia | exact F'].
Qed.

Definition log_inv (t : tape) : Prop := Forall (fun n => 0 <= n < 2 ^ 64) (t_log t).

Lemma dump_of {E} input t : t_inv input t -> log_inv t ->
  match print_groups input 0 (t_log t) with
  | PrintsAll => exists r, @mp_dump E Release (mp_of input t) = ROk r
  | PrintPanics => @mp_dump E Release (mp_of input t) = RPanic
  | PrintReadsOutside => @mp_dump E Release (mp_of input t) = RUB
  end.
Proof.
  intros (H & Hp & _) L. unfold mp_dump, mp_of; cbn [mp_buf mp_munches].
  apply dump_loop_of; [exact H | lia | exact L].
Qed.

(** One call. *)
Definition step_ok {P} (h : handler P) (of : tape -> P) (memo : bool) (input : list byte) : Prop :=
  forall (X : Set) (o : pop X) t, t_inv input t -> log_inv t -> arg_ok (AnyOp o) ->
  t_inv input (snd (tape_h memo input X o t)) /\ log_inv (snd (tape_h memo input X o t)) /\
  snd (h X o (of t)) = of (snd (tape_h memo input X o t)) /\
  same_outcome (fst (tape_h memo input X o t)) (fst (h X o (of t))).

Ltac wrap_ranges H :=
  pose proof isize_lt; pose proof (t_end_range _ _ H); destruct H as (? & ? & ?).

Lemma log_move t n e es : log_inv t -> 0 <= n < 2 ^ 64 -> log_inv (mkTape e es (t_log t ++ [n])).
Proof. intros H Hn. apply Forall_app. split; [exact H | repeat constructor; lia]. Qed.

Lemma nth_byte {E} ix (input : list byte) : 0 <= ix < zlen input ->
  @vb_get_byte E ix input = ROk (nth (Z.to_nat ix) input 0).
Proof.
  intros H. unfold vb_get_byte, vb_get_byte_unchecked. replace (ix <=? zlen input) with true by lia. cbn [rassert rbind].
  rewrite (nth_error_nth' _ 0) by (unfold zlen, byte in *; lia). reflexivity.
Qed.

Lemma slice_of {E} input t n : t_inv input t -> 0 <= n < 2 ^ 64 -> plus64 (t_pos t) n <= t_end input t ->
  @vb_get_slice_unchecked E Release (t_pos t) n input =
    if t_pos t + n <? 2 ^ 64 then ROk (zslice (t_pos t) (t_pos t + n) input) else RUB.
Proof.
  intros H Hn L. wrap_ranges H. unfold vb_get_slice_unchecked. rewrite uadd_release by lia. cbn [rbind].
  destruct (plus64_cases (t_pos t) n ltac:(lia) Hn) as [[A B] | [A B]]; rewrite B in *.
  - replace (t_pos t + n <? 2 ^ 64) with true by lia.
    replace (t_pos t <=? t_pos t + n) with true by lia. replace (t_pos t + n <=? zlen input) with true by lia. reflexivity.
  - replace (t_pos t + n <? 2 ^ 64) with false by lia.
    replace (t_pos t <=? t_pos t + n - 2 ^ 64) with false by lia. reflexivity.
Qed.

Lemma set_fit_of input t n : t_inv input t -> 0 <= n < 2 ^ 64 ->
  exists e, co_set_fit Release n (co_of input t) =
    if plus64 (t_pos t) n <=? t_end input t
    then (ROk tt, mkCO (zlen input) (plus64 (t_pos t) n :: t_ends t) (t_pos t))
    else (RErr e, co_of input t).
Proof.
  intros H Hn. wrap_ranges H. unfold co_set_fit. change (co_index (co_of input t)) with (t_pos t).
  change (co_abs (co_of input t)) with (zlen input). rewrite uadd_release by lia.
  assert (U : exists b, @usub parse_error Release (zlen input) n = ROk b)
    by (unfold usub; destruct (n <=? zlen input); eexists; reflexivity).
  destruct U as [b U].
  destruct (zlen input <? plus64 (t_pos t) n) eqn:A.
  - replace (plus64 (t_pos t) n <=? t_end input t) with false by lia. rewrite U. cbn [rbind].
    eexists. reflexivity.
  - unfold fs_push_frame, detect_error, fs_peek, co_of, t_end in *; cbn [co_frames co_abs co_cur].
    destruct (t_ends t) as [|e es]; cbn [hd_error].
    + replace (plus64 (t_pos t) n <=? zlen input) with true by lia. exists spec_failure. reflexivity.
    + destruct (e <? plus64 (t_pos t) n) eqn:B.
      * replace (plus64 (t_pos t) n <=? e) with false by lia. eexists. reflexivity.
      * replace (plus64 (t_pos t) n <=? e) with true by lia. exists spec_failure. reflexivity.
Qed.

Lemma plus64_nonneg a b : 0 <= plus64 a b.
Proof. apply Z.mod_pos_bound. lia. Qed.

Lemma inv_open input t n log : t_inv input t -> plus64 (t_pos t) n <= t_end input t ->
  t_inv input (mkTape (t_pos t) (plus64 (t_pos t) n :: t_ends t) log).
Proof.
  intros H L. wrap_ranges H. split; [assumption|]. cbn [t_pos t_ends]. split; [assumption|].
  constructor; [|assumption]. pose proof (plus64_nonneg (t_pos t) n). lia.
Qed.

Lemma inv_close input t e es log : t_inv input t -> t_ends t = e :: es -> t_inv input (mkTape (t_pos t) es log).
Proof.
  intros (H & Hp & F) E. rewrite E in F. inversion F; subst. repeat split; cbn [t_pos t_ends]; try assumption; apply Hp.
Qed.

Lemma plus_one input t : t_inv input t -> plus64 (t_pos t) 1 = t_pos t + 1.
Proof. intros H. wrap_ranges H. destruct (plus64_cases (t_pos t) 1); lia. Qed.

Lemma test_of input t :
  same_outcome (fst (tape_h false input _ OpTestTarget t)) (co_test_target (co_of input t)).
Proof.
  cbn [tape_h]. unfold co_test_target, co_of, fs_peek; cbn [co_frames co_index co_cur].
  destruct (t_ends t) as [|e es]; cbn [hd_error fst]; [reflexivity|].
  destruct (Z.compare_spec e (t_pos t)).
  - replace (e <? t_pos t) with false by lia. replace (e =? t_pos t) with true by lia. reflexivity.
  - replace (e <? t_pos t) with true by lia. exact I.
  - replace (e <? t_pos t) with false by lia. replace (e =? t_pos t) with false by lia. reflexivity.
Qed.

Lemma enforce_of input t :
  match t_ends t with
  | [] => exists e, co_enforce_target (co_of input t) = (RErr e, co_of input t)
  | e :: es =>
      exists r, co_enforce_target (co_of input t) = (r, mkCO (zlen input) es (t_pos t)) /\
      same_outcome (if e =? t_pos t then ROk tt else RErr spec_failure) r
  end.
Proof.
  unfold co_enforce_target, co_of; cbn [co_frames co_index co_cur co_abs].
  destruct (t_ends t) as [|e es]; [eexists; reflexivity|].
  destruct (Z.compare_spec e (t_pos t)); eexists; (split; [reflexivity|]).
  - replace (e =? t_pos t) with true by lia. reflexivity.
  - replace (e =? t_pos t) with false by lia. exact I.
  - replace (e =? t_pos t) with false by lia. exact I.
Qed.

Lemma rem_of {E} input t : t_inv input t ->
  @co_rem E Release (co_of input t) = ROk (minus64 (t_end input t) (t_pos t)).
Proof.
  intros H. unfold co_rem. cbn [debug_assert rbind]. rewrite limit_of.
  change (co_index (co_of input t)) with (t_pos t). wrap_ranges H. apply usub_release; lia.
Qed.

Lemma byte_step input : step_ok (byte_h Release) (bp_of input) false input.
Proof.
  intros X o t H L A. pose proof H as H'. wrap_ranges H'.
  destruct o; cbn [byte_h tape_h arg_ok] in *; try (unfold is_usize in A; rewrite mod64 in A).
  - (* remainder *)
    cbn [fst snd]. repeat (split; [assumption || reflexivity|]).
    unfold bp_remainder, bp_view_len, bp_offset, bp_of; cbn [bp_off]. rewrite limit_of.
    change (co_index (co_of input t)) with (t_pos t). rewrite usub_release by lia. reflexivity.
  - (* consume_byte *)
    unfold bp_consume_byte, bp_of; cbn [bp_off bp_buf]. rewrite advance_of by (assumption || lia).
    rewrite (plus_one _ _ H). destruct (t_pos t <? t_end input t) eqn:B.
    + replace (t_pos t + 1 <=? t_end input t) with true by lia. cbn [fst snd].
      rewrite nth_byte by lia. rewrite <- (plus_one _ _ H).
      split; [apply inv_move; [assumption | rewrite (plus_one _ _ H); lia]|].
      split; [apply log_move; [assumption | lia]|]. split; reflexivity.
    + replace (t_pos t + 1 <=? t_end input t) with false by lia. cbn [fst snd].
      repeat (split; [assumption || reflexivity|]). exact I.
  - (* consume *)
    unfold bp_consume, bp_of; cbn [bp_off bp_buf]. rewrite advance_of by assumption.
    destruct (plus64 (t_pos t) n <=? t_end input t) eqn:B; cbn [fst snd].
    + rewrite slice_of by (assumption || lia).
      split; [apply inv_move; [assumption | lia]|].
      split; [apply log_move; assumption|]. split; [reflexivity|].
      destruct (t_pos t + n <? 2 ^ 64); reflexivity.
    + repeat (split; [assumption || reflexivity|]). exact I.
  - (* set_fit *)
    unfold bp_set_fit, bp_of; cbn [bp_off bp_buf]. destruct (set_fit_of input t n H A) as [e ->].
    destruct (plus64 (t_pos t) n <=? t_end input t) eqn:B; cbn [fst snd].
    + split; [apply inv_open; [assumption | lia]|]. split; [exact L|]. split; reflexivity.
    + repeat (split; [assumption || reflexivity|]). exact I.
  - (* test_target *)
    pose proof (test_of input t) as T. cbn [tape_h] in T. unfold bp_test_target, bp_of; cbn [bp_off fst snd].
    destruct (t_ends t); cbn [fst snd] in *; repeat (split; [assumption || reflexivity|]); exact T.
  - (* enforce_target *)
    pose proof (enforce_of input t) as T. unfold bp_enforce_target, bp_of; cbn [bp_off bp_buf].
    destruct (t_ends t) as [|e es] eqn:F; cbn [fst snd].
    + destruct T as [e ->]. cbn [fst snd]. repeat (split; [assumption || reflexivity|]). exact I.
    + destruct T as (r & -> & S). cbn [fst snd].
      split; [eapply inv_close; eassumption|]. split; [exact L|]. split; [reflexivity | exact S].
  - (* skip *)
    unfold bp_skip, bp_of; cbn [bp_off bp_buf]. rewrite rem_of by assumption.
    pose proof (minus64_range (t_end input t) (t_pos t)).
    rewrite advance_of by (assumption || lia).
    set (d := Z.min (minus64 (t_end input t) (t_pos t)) n) in *.
    destruct (plus64 (t_pos t) d <=? t_end input t) eqn:B; cbn [fst snd].
    + split; [apply inv_move; [assumption | lia]|].
      split; [apply log_move; [assumption | lia]|]. split; reflexivity.
    + repeat (split; [assumption || reflexivity|]). exact I.
  - (* skip_exactly *)
    unfold bp_skip_exactly, bp_of; cbn [bp_off bp_buf]. rewrite advance_of by assumption.
    destruct (plus64 (t_pos t) n <=? t_end input t) eqn:B; cbn [fst snd].
    + rewrite app_nil_r. split; [apply inv_move; [assumption | lia]|]. split; [exact L|]. split; reflexivity.
    + repeat (split; [assumption || reflexivity|]). exact I.
Qed.

Lemma refuse_of {X} input t e : t_inv input t -> log_inv t ->
  same_outcome (@refuse X true input t) (rbind (@mp_dump parse_error Release (mp_of input t)) (fun _ => RErr e)).
Proof.
  intros H L. pose proof (@dump_of parse_error input t H L) as D. unfold refuse.
  destruct (print_groups input 0 (t_log t)); [destruct D as [r ->] | rewrite D | rewrite D]; exact I.
Qed.
Lemma crash_of {X} input t : t_inv input t -> log_inv t ->
  same_outcome (@crash X true input t) (rbind (@mp_dump parse_error Release (mp_of input t)) (fun _ => RPanic)).
Proof.
  intros H L. pose proof (@dump_of parse_error input t H L) as D. unfold crash.
  destruct (print_groups input 0 (t_log t)); [destruct D as [r ->] | rewrite D | rewrite D]; exact I.
Qed.

Lemma memo_step input : step_ok (memo_h Release) (mp_of input) true input.
Proof.
  intros X o t H L A. pose proof H as H'. wrap_ranges H'.
  destruct o; cbn [memo_h tape_h arg_ok] in *; try (unfold is_usize in A; rewrite mod64 in A).
  - (* remainder *)
    cbn [fst snd]. repeat (split; [assumption || reflexivity|]).
    unfold mp_remainder, mp_view_len, mp_offset, mp_of; cbn [mp_off mp_munches]. rewrite limit_of.
    change (co_index (co_of input t)) with (t_pos t). rewrite usub_release by lia. reflexivity.
  - (* consume_byte *)
    unfold mp_consume_byte, mp_of; cbn [mp_off mp_buf mp_munches]. rewrite advance_of by (assumption || lia).
    rewrite (plus_one _ _ H). destruct (t_pos t <? t_end input t) eqn:B.
    + replace (t_pos t + 1 <=? t_end input t) with true by lia. cbn [fst snd].
      rewrite nth_byte by lia. rewrite <- (plus_one _ _ H).
      split; [apply inv_move; [assumption | rewrite (plus_one _ _ H); lia]|].
      split; [apply log_move; [assumption | lia]|]. split; reflexivity.
    + replace (t_pos t + 1 <=? t_end input t) with false by lia. cbn [fst snd].
      repeat (split; [assumption || reflexivity|]). exact (refuse_of _ _ _ H L).
  - (* consume *)
    unfold mp_consume, mp_of; cbn [mp_off mp_buf mp_munches]. rewrite advance_of by assumption.
    destruct (plus64 (t_pos t) n <=? t_end input t) eqn:B; cbn [fst snd].
    + rewrite slice_of by (assumption || lia).
      split; [apply inv_move; [assumption | lia]|].
      split; [apply log_move; assumption|]. split; [reflexivity|].
      destruct (t_pos t + n <? 2 ^ 64); reflexivity.
    + repeat (split; [assumption || reflexivity|]). exact (refuse_of _ _ _ H L).
  - (* set_fit *)
    unfold mp_set_fit, mp_of; cbn [mp_off mp_buf mp_munches]. destruct (set_fit_of input t n H A) as [e ->].
    destruct (plus64 (t_pos t) n <=? t_end input t) eqn:B; cbn [fst snd].
    + split; [apply inv_open; [assumption | lia]|]. split; [exact L|]. split; reflexivity.
    + repeat (split; [assumption || reflexivity|]). exact I.
  - (* test_target *)
    pose proof (test_of input t) as T. cbn [tape_h] in T. unfold mp_test_target, mp_of; cbn [mp_off fst snd].
    destruct (t_ends t); cbn [fst snd] in *; repeat (split; [assumption || reflexivity|]); exact T.
  - (* enforce_target *)
    pose proof (enforce_of input t) as T. unfold mp_enforce_target, mp_of; cbn [mp_off mp_buf mp_munches].
    destruct (t_ends t) as [|e es] eqn:F; cbn [fst snd].
    + destruct T as [e ->]. cbn [fst snd]. repeat (split; [assumption || reflexivity|]). exact I.
    + destruct T as (r & -> & S). cbn [fst snd].
      split; [eapply inv_close; eassumption|]. split; [exact L|]. split; [reflexivity | exact S].
  - (* skip *)
    unfold mp_skip, mp_of; cbn [mp_off mp_buf mp_munches]. rewrite rem_of by assumption.
    pose proof (minus64_range (t_end input t) (t_pos t)).
    rewrite advance_of by (assumption || lia).
    set (d := Z.min (minus64 (t_end input t) (t_pos t)) n) in *.
    destruct (plus64 (t_pos t) d <=? t_end input t) eqn:B; cbn [fst snd].
    + split; [apply inv_move; [assumption | lia]|].
      split; [apply log_move; [assumption | lia]|]. split; reflexivity.
    + repeat (split; [assumption || reflexivity|]). exact (crash_of _ _ H L).
  - (* skip_exactly *)
    unfold mp_skip_exactly, mp_of; cbn [mp_off mp_buf mp_munches]. rewrite advance_of by assumption.
    destruct (plus64 (t_pos t) n <=? t_end input t) eqn:B; cbn [fst snd].
    + rewrite app_nil_r. split; [apply inv_move; [assumption | lia]|]. split; [exact L|]. split; reflexivity.
    + repeat (split; [assumption || reflexivity|]). exact (refuse_of _ _ _ H L).
Qed.

(** Histories. *)
Lemma history_of {P} (h : handler P) of memo input : step_ok h of memo input -> forall ops t,
  t_inv input t -> log_inv t -> Forall arg_ok ops ->
  history h ops (of t) = history (tape_h memo input) ops t /\
  after h ops (of t) = option_map of (after (tape_h memo input) ops t) /\
  (forall t', after (tape_h memo input) ops t = Some t' -> t_inv input t' /\ log_inv t').
Proof.
  intros S. induction ops as [|[X o] ops IH]; intros t H L F.
  - cbn [history after option_map]. repeat split; try reflexivity; injection H0 as <-; apply H || exact L.
  - inversion F as [|? ? A F']; subst. destruct (S X o t H L A) as (H1 & L1 & E & O).
    cbn [history after].
    destruct (tape_h memo input X o t) as [r t1]; destruct (h X o (of t)) as [r' p1]; cbn [fst snd] in *. subst p1.
    destruct (IH t1 H1 L1 F') as (I1 & I2 & I3).
    destruct r, r'; try contradiction O.
    + cbn [same_outcome] in O. subst. rewrite I1. auto.
    + rewrite I1. auto.
    + cbn [option_map]. split; [reflexivity|]. split; [reflexivity | discriminate].
    + cbn [option_map]. split; [reflexivity|]. split; [reflexivity | discriminate].
    + cbn [option_map]. split; [reflexivity|]. split; [reflexivity | discriminate].
Qed.

Lemma init_inv input : zlen input <= isize_max -> t_inv input tape_init /\ log_inv tape_init.
Proof.
  intros H. split; [|constructor]. split; [exact H|]. cbn [tape_init t_pos t_ends].
  split; [unfold zlen; lia | constructor].
Qed.

Lemma release_exact buf ops : zlen buf <= isize_max -> Forall arg_ok ops ->
  history (byte_h Release) ops (bp_from_buffer buf) = history (tape_h false buf) ops tape_init.
Proof.
  intros H F. destruct (init_inv buf H) as [I L].
  exact (proj1 (history_of _ _ _ _ (byte_step buf) ops tape_init I L F)).
Qed.
Lemma release_exact_memo buf ops : zlen buf <= isize_max -> Forall arg_ok ops ->
  history (memo_h Release) ops (mp_from_buffer buf) = history (tape_h true buf) ops tape_init.
Proof.
  intros H F. destruct (init_inv buf H) as [I L].
  exact (proj1 (history_of _ _ _ _ (memo_step buf) ops tape_init I L F)).
Qed.

(** Every state a release build reaches, with any sizes. *)
Lemma reached buf ops p : zlen buf <= isize_max -> Forall arg_ok ops ->
  after (byte_h Release) ops (bp_from_buffer buf) = Some p -> exists t, p = bp_of buf t /\ t_inv buf t /\ log_inv t.
Proof.
  intros H F A. destruct (init_inv buf H) as [I L].
  destruct (history_of _ _ _ _ (byte_step buf) ops tape_init I L F) as (_ & E & V).
  change (bp_of buf tape_init) with (bp_from_buffer buf) in E. rewrite E in A.
  destruct (after (tape_h false buf) ops tape_init) as [t|]; [|discriminate]. injection A as <-.
  exists t. split; [reflexivity|]. apply V. reflexivity.
Qed.

(** [consume] in such a state. *)
Lemma release_consume buf ops p n : zlen buf <= isize_max -> Forall arg_ok ops -> is_usize n ->
  after (byte_h Release) ops (bp_from_buffer buf) = Some p ->
  (bp_offset p + n <= bp_view_len p -> exists p',
     byte_h Release _ (OpConsume n) p = (ROk (zslice (bp_offset p) (bp_offset p + n) buf), p') /\
     bp_offset p' = bp_offset p + n /\ bp_view_len p' = bp_view_len p) /\
  (bp_view_len p < bp_offset p + n < 2 ^ 64 \/ 2 ^ 64 + bp_view_len p < bp_offset p + n ->
     exists e, byte_h Release _ (OpConsume n) p = (RErr e, p)) /\
  (2 ^ 64 <= bp_offset p + n <= 2 ^ 64 + bp_view_len p ->
     fst (byte_h Release _ (OpConsume n) p) = RUB).
Proof.
  intros H F N A. destruct (reached buf ops p H F A) as (t & -> & I & L).
  unfold is_usize in N. rewrite mod64 in N.
  pose proof (limit_of buf t) as LO. pose proof I as I'. wrap_ranges I'.
  change (bp_view_len (bp_of buf t)) with (co_limit (co_of buf t)). rewrite LO.
  change (bp_offset (bp_of buf t)) with (t_pos t).
  cbn [byte_h]. unfold bp_consume, bp_of; cbn [bp_off bp_buf]. rewrite advance_of by assumption.
  destruct (plus64_cases (t_pos t) n ltac:(lia) N) as [[C D] | [C D]].
  - split; [|split].
    + intros Q. replace (plus64 (t_pos t) n <=? t_end buf t) with true by lia.
      rewrite slice_of by (assumption || lia). replace (t_pos t + n <? 2 ^ 64) with true by lia.
      eexists. split; [reflexivity|]. unfold bp_offset, bp_view_len; cbn [bp_off co_index co_cur].
      rewrite D. split; [reflexivity|]. exact LO.
    + intros Q. replace (plus64 (t_pos t) n <=? t_end buf t) with false by lia. eexists. reflexivity.
    + lia.
  - split; [lia|]. split.
    + intros Q. replace (plus64 (t_pos t) n <=? t_end buf t) with false by lia. eexists. reflexivity.
    + intros Q. replace (plus64 (t_pos t) n <=? t_end buf t) with true by lia. cbn [fst].
      rewrite slice_of by (assumption || lia). replace (t_pos t + n <? 2 ^ 64) with false by lia. reflexivity.
Qed.

(** Which calls of the machine read outside the input. *)
Lemma tape_ub {X : Set} input (o : pop X) t : t_inv input t -> arg_ok (AnyOp o) ->
  fst (tape_h false input X o t) = RUB ->
  exists n, AnyOp o = AnyOp (OpConsume n) /\ 2 ^ 64 <= t_pos t + n <= 2 ^ 64 + t_end input t.
Proof.
  intros I A. pose proof I as I'. wrap_ranges I'. destruct o; cbn [tape_h refuse crash arg_ok] in *.
  - discriminate.
  - destruct (_ <? _); discriminate.
  - unfold is_usize in A. rewrite mod64 in A.
    destruct (plus64 (t_pos t) n <=? t_end input t) eqn:B; [|discriminate]. cbn [fst].
    destruct (t_pos t + n <? 2 ^ 64) eqn:C; [discriminate|]. intros _. exists n. split; [reflexivity|].
    destruct (plus64_cases (t_pos t) n ltac:(lia) A); lia.
  - destruct (_ <=? _); discriminate.
  - destruct (t_ends t); [discriminate|]. cbn [fst]. destruct (_ <? _); discriminate.
  - destruct (t_ends t); [discriminate|]. cbn [fst]. destruct (_ =? _); discriminate.
  - destruct (_ <=? _); discriminate.
  - destruct (_ <=? _); discriminate.
Qed.

Lemma obs_ok_not_ub {X : Set} (o : pop X) x : obs_ok o x <> ObsUB.
Proof. destruct o; discriminate. Qed.

(** No call of a ByteParser is ever out of steps. *)
Lemma tape_total {X : Set} memo input (o : pop X) t : fst (tape_h memo input X o t) <> RDiv.
Proof.
  destruct o; cbn [tape_h]; unfold refuse, crash;
    repeat match goal with
    | |- context[match ?x with _ => _ end] => destruct x; cbn [fst]
    end; discriminate.
Qed.

Lemma release_ub_exactly buf ops : zlen buf <= isize_max -> Forall arg_ok ops ->
  (In ObsUB (history (byte_h Release) ops (bp_from_buffer buf)) <->
   exists before n later p, ops = before ++ AnyOp (OpConsume n) :: later /\
     after (byte_h Release) before (bp_from_buffer buf) = Some p /\
     2 ^ 64 <= bp_offset p + n <= 2 ^ 64 + bp_view_len p).
Proof.
  intros H F. split.
  - rewrite release_exact by assumption. destruct (init_inv buf H) as [I L].
    change (bp_from_buffer buf) with (bp_of buf tape_init). revert I L. generalize tape_init as t.
    induction ops as [|[X o] ops IH]; intros t I L; [intros []|].
    inversion F as [|? ? A F']; subst.
    destruct (byte_step buf X o t I L A) as (I1 & L1 & E & O).
    pose proof (tape_ub buf o t I A) as U. pose proof (tape_total false buf o t) as T.
    cbn [history after].
    destruct (tape_h false buf X o t) as [r t1] eqn:Q; cbn [fst snd] in *.
    assert (G : ((exists x, r = ROk x) \/ (exists e, r = RErr e)) -> In ObsUB (history (tape_h false buf) ops t1) ->
      exists before n later p, AnyOp o :: ops = before ++ AnyOp (OpConsume n) :: later /\
        after (byte_h Release) before (bp_of buf t) = Some p /\
        2 ^ 64 <= bp_offset p + n <= 2 ^ 64 + bp_view_len p).
    { intros R K. destruct (IH F' t1 I1 L1 K) as (before & n & later & p & E1 & E2 & E3).
      exists (AnyOp o :: before), n, later, p. split; [rewrite E1; reflexivity|]. split; [|exact E3].
      cbn [after]. destruct (byte_h Release X o (bp_of buf t)) as [r' p']; cbn [fst snd] in *. subst p'.
      destruct R as [[x ->] | [e ->]]; destruct r'; try contradiction O; exact E2. }
    assert (N : r = RUB -> exists before n later p, AnyOp o :: ops = before ++ AnyOp (OpConsume n) :: later /\
        after (byte_h Release) before (bp_of buf t) = Some p /\
        2 ^ 64 <= bp_offset p + n <= 2 ^ 64 + bp_view_len p).
    { intros R. destruct (U R) as (n & E1 & E2). exists [], n, ops, (bp_of buf t). rewrite E1.
      split; [reflexivity|]. split; [reflexivity|].
      change (bp_offset (bp_of buf t)) with (t_pos t).
      change (bp_view_len (bp_of buf t)) with (co_limit (co_of buf t)). rewrite limit_of. exact E2. }
    destruct r; cbn [In].
    + intros [K | K]; [destruct (obs_ok_not_ub _ _ K)|]. apply G; eauto.
    + intros [K | K]; [discriminate|]. apply G; [right; eexists; reflexivity | exact K].
    + intros [K | []]; discriminate.
    + intros _. apply N. reflexivity.
    + intros _. contradiction T. reflexivity.
  - intros (before & n & later & p & -> & A & R).
    apply Forall_app in F. destruct F as [F1 F2]. inversion F2 as [|? ? N _]; subst.
    destruct (release_consume buf before p n H F1 N A) as (_ & _ & U). specialize (U R).
    revert A. clear F1. generalize (bp_from_buffer buf) as q.
    induction before as [|[X o] before IH]; intros q A; cbn [after app history] in *.
    + injection A as ->. destruct (byte_h Release _ (OpConsume n) p) as [r p']. cbn [fst] in U. subst. left. reflexivity.
    + destruct (byte_h Release X o q) as [[x | e | | |] q']; try discriminate; right; apply IH; exact A.
Qed.

(** Until a call is refused, the two parsers answer alike. *)
Lemma alike_until_refused buf ops t :
  ~ In ObsFail (history (tape_h false buf) ops t) -> ~ In ObsPanic (history (tape_h false buf) ops t) ->
  history (tape_h true buf) ops t = history (tape_h false buf) ops t.
Proof.
  revert t. induction ops as [|[X o] ops IH]; intros t; [reflexivity|].
  cbn [history]. destruct (tape_h false buf X o t) as [r t'] eqn:Q.
  assert (S : (forall e, r <> RErr e) -> r <> RPanic -> tape_h true buf X o t = (r, t')).
  { revert Q. destruct o; cbn [tape_h]; unfold refuse, crash; try (intros Q _ _; exact Q);
      (destruct (_ <=? _) || destruct (_ <? _)); try (intros Q _ _; exact Q);
      intros Q A B; apply pair_equal_spec in Q; destruct Q as [<- <-];
      (destruct (A spec_failure eq_refl) || destruct (B eq_refl)). }
  destruct r; cbn [In]; intros A B.
  - rewrite S by discriminate. rewrite IH by tauto. reflexivity.
  - exfalso. apply A. left. reflexivity.
  - exfalso. apply B. left. reflexivity.
  - rewrite S by discriminate. reflexivity.
  - rewrite S by discriminate. reflexivity.
Qed.

Lemma memo_until_refused buf ops : zlen buf <= isize_max -> Forall arg_ok ops ->
  ~ In ObsFail (history (byte_h Release) ops (bp_from_buffer buf)) ->
  ~ In ObsPanic (history (byte_h Release) ops (bp_from_buffer buf)) ->
  history (memo_h Release) ops (mp_from_buffer buf) = history (byte_h Release) ops (bp_from_buffer buf).
Proof.
  intros H F. rewrite release_exact_memo, release_exact by assumption. apply alike_until_refused.
Qed.

Lemma slice_agrees_debug buf ops :
  zlen buf <= isize_max -> Forall arg_ok ops -> closes_clean ops (w_init buf) ->
  agrees_or_panics (history (byte_h Debug) ops (bp_from_buffer buf))
                   (history slice_h ops (sp_from_buffer buf)).
Proof.
  intros Hb Ha Hc. rewrite (sp_history_from ops (sp_from_buffer buf));
    [| discriminate | apply clean_bracketed; exact Hc].
  destruct (byte_refines_stack Debug buf ops Hb Ha) as [Hg _].
  rewrite (clean_history Merge) in Hg by exact Hc.
  match goal with |- agrees_or_panics _ ?h => replace h with (history (spec_h Keep) ops (w_init buf)) end; [exact Hg|].
  symmetry. apply clean_history. exact Hc.
Qed.

(** A panic changes nothing, whatever the sizes. *)
Lemma tape_panic {X : Set} memo input (o : pop X) t t' : tape_h memo input X o t = (RPanic, t') -> t' = t.
Proof.
  destruct o; cbn [tape_h]; intros Q;
    try (destruct (_ <=? _) eqn:B in Q || destruct (_ <? _) eqn:B in Q);
    repeat match type of Q with
    | context[match t_ends t with _ => _ end] => destruct (t_ends t)
    | context[if ?b then _ else _] => destruct b eqn:?
    end;
    apply pair_equal_spec in Q; destruct Q as [Q <-]; try discriminate Q; reflexivity.
Qed.

Lemma panic_unchanged_byte buf pre p : zlen buf <= isize_max -> Forall arg_ok pre ->
  after (byte_h Release) pre (bp_from_buffer buf) = Some p ->
  forall (X : Set) (o : pop X) p', arg_ok (AnyOp o) -> byte_h Release X o p = (RPanic, p') -> p' = p.
Proof.
  intros H F A X o p' N E. destruct (reached buf pre p H F A) as (t & -> & I & L).
  destruct (byte_step buf X o t I L N) as (_ & _ & S & O). rewrite E in S, O. cbn [fst snd] in S, O.
  pose proof (tape_panic false buf o t) as T. destruct (tape_h false buf X o t) as [r t']; cbn [fst snd] in *.
  destruct r; try contradiction O. rewrite S, (T t' eq_refl). reflexivity.
Qed.

Lemma panic_unchanged_memo buf pre p : zlen buf <= isize_max -> Forall arg_ok pre ->
  after (memo_h Release) pre (mp_from_buffer buf) = Some p ->
  forall (X : Set) (o : pop X) p', arg_ok (AnyOp o) -> memo_h Release X o p = (RPanic, p') -> p' = p.
Proof.
  intros H F A X o p' N E. destruct (init_inv buf H) as [I0 L0].
  destruct (history_of _ _ _ _ (memo_step buf) pre tape_init I0 L0 F) as (_ & EE & V).
  change (mp_of buf tape_init) with (mp_from_buffer buf) in EE. rewrite EE in A.
  destruct (after (tape_h true buf) pre tape_init) as [t|]; [|discriminate]. injection A as <-.
  destruct (V t eq_refl) as [I L].
  destruct (memo_step buf X o t I L N) as (_ & _ & S & O). rewrite E in S, O. cbn [fst snd] in S, O.
  pose proof (tape_panic true buf o t) as T. destruct (tape_h true buf X o t) as [r t']; cbn [fst snd] in *.
  destruct r; try contradiction O. rewrite S, (T t' eq_refl). reflexivity.
Qed.
