(** Histories and programs: ByteParser, MemoParser and SliceParser against the
    specification. *)
From Verif Require Import Base BaseLemmas ModelErrors ModelSplitVec ModelParser SpecParser ProofParser.
From Coq Require Import ZifyBool.

(** ** Histories on ByteParser *)

Lemma bp_init_inv buf : zlen buf <= isize_max -> bp_inv (bp_from_buffer buf).
Proof.
  intros H. unfold bp_inv, co_inv, bp_bounds; cbn. pose proof (zlen_nonneg buf).
  repeat split; auto; lia.
Qed.

Lemma bp_init_alpha buf : bp_alpha (bp_from_buffer buf) = w_init buf.
Proof.
  unfold bp_alpha, co_alpha, bp_bounds, w_init; cbn. rewrite zslice_all; reflexivity.
Qed.

Lemma spec_h_eq pol {X : Set} (o : pop X) w x w' :
  spec_op pol o w = (x, w') ->
  spec_h pol X o w = (match x with Some v => ROk v | None => RErr spec_failure end, w').
Proof. unfold spec_h; intros ->; destruct x; reflexivity. Qed.

Lemma bp_history_from m ops : forall p,
  bp_inv p -> Forall (arg_fits m) ops ->
  agrees_or_panics (history (byte_h m) ops p) (history (spec_h Merge) ops (bp_alpha p)) /\
  (m = Release -> history (byte_h m) ops p = history (spec_h Merge) ops (bp_alpha p)).
Proof.
  induction ops as [|[X o] ops IH]; intros p Hinv Hargs; cbn [history].
  - split; [constructor | reflexivity].
  - inversion Hargs as [|? ? Ha Hargs']; subst.
    destruct (spec_op Merge o (bp_alpha p)) as [x w'] eqn:Es.
    rewrite (spec_h_eq _ _ _ _ _ Es).
    destruct (byte_h m X o p) as [r p'] eqn:Eb.
    pose proof (bp_step m o p Hinv Ha _ _ _ _ Es Eb) as Hst; unfold step_rel in Hst.
    destruct r as [v|e| | |]; try contradiction.
    + destruct Hst as (-> & Hi & <-). destruct (IH p' Hi Hargs') as [H1 H2].
      split; [apply aop_cons; exact H1 | intros Hm; rewrite (H2 Hm); reflexivity].
    + destruct Hst as (-> & Hi & <-). destruct (IH p' Hi Hargs') as [H1 H2].
      split; [apply aop_cons; exact H1 | intros Hm; rewrite (H2 Hm); reflexivity].
    + destruct Hst as (-> & ->). split; [constructor | discriminate].
Qed.

Lemma bp_after_from m ops : forall p p',
  bp_inv p -> Forall (arg_fits m) ops -> after (byte_h m) ops p = Some p' ->
  bp_inv p' /\ after (spec_h Merge) ops (bp_alpha p) = Some (bp_alpha p').
Proof.
  induction ops as [|[X o] ops IH]; intros p p' Hinv Hargs Haft; cbn [after] in *.
  - inversion Haft; subst; auto.
  - inversion Hargs as [|? ? Ha Hargs']; subst.
    destruct (spec_op Merge o (bp_alpha p)) as [x w'] eqn:Es.
    rewrite (spec_h_eq _ _ _ _ _ Es).
    destruct (byte_h m X o p) as [r q] eqn:Eb.
    pose proof (bp_step m o p Hinv Ha _ _ _ _ Es Eb) as Hst; unfold step_rel in Hst.
    destruct r as [v|e| | |]; try discriminate;
      destruct Hst as (-> & Hi & <-); apply IH; assumption.
Qed.

(** The buffer never changes. *)
Lemma bp_buf_const m {X : Set} (o : pop X) p : bp_buf (snd (byte_h m X o p)) = bp_buf p.
Proof.
  destruct p as [buf off]; destruct o; cbn [byte_h snd];
    unfold bp_consume_byte, bp_consume, bp_set_fit, bp_test_target, bp_enforce_target,
      bp_skip, bp_skip_exactly, bp_remainder; cbn [bp_buf bp_off snd];
    repeat match goal with
    | |- bp_buf (snd (match ?x with _ => _ end)) = _ => destruct x
    | |- bp_buf (snd (let (_, _) := ?x in _)) = _ => destruct x
    | |- bp_buf (snd (if ?x then _ else _)) = _ => destruct x
    end; reflexivity.
Qed.

(** ** MemoParser simulates ByteParser exactly *)

Definition mp_bp (p : memo_parser) : byte_parser := mkBP (mp_buf p) (mp_off p).

Definition mp_inv (p : memo_parser) : Prop :=
  co_inv (mp_buf p) (mp_off p) /\ Forall (fun n => 0 <= n) (mp_munches p) /\
  zsum (mp_munches p) <= co_cur (mp_off p).

Lemma zsum_app l l' : zsum (l ++ l') = zsum l + zsum l'.
Proof. unfold zsum; induction l; cbn [app fold_right]; lia. Qed.

Lemma zsum_nonneg l : Forall (fun n => 0 <= n) l -> 0 <= zsum l.
Proof. unfold zsum; induction 1; cbn [fold_right]; lia. Qed.

Lemma mp_dump_loop_ok {E} m buf munches : forall ix sv,
  zlen buf <= isize_max -> 0 <= ix -> Forall (fun n => 0 <= n) munches ->
  ix + zsum munches <= zlen buf ->
  exists sv', @mp_dump_loop E m buf munches ix sv = ROk sv'.
Proof.
  induction munches as [|n ns IH]; intros ix sv Hb Hix Hf Hs; cbn [mp_dump_loop].
  - eexists; reflexivity.
  - inversion Hf; subst. change (zsum (n :: ns)) with (n + zsum ns) in Hs.
    pose proof (zsum_nonneg ns ltac:(assumption)). pose proof isize_max_lt.
    rewrite vb_get_slice_ok by lia. cbn [rbind].
    rewrite uadd_ok by lia. cbn [rbind]. apply IH; auto; lia.
Qed.

Lemma mp_dump_ok {E} m p : mp_inv p -> exists sv, @mp_dump E m p = ROk sv.
Proof.
  intros (Hc & Hf & Hs). pose proof (co_inv_limit _ _ Hc).
  apply mp_dump_loop_ok; auto; lia.
Qed.

Lemma co_inv_set_fit m n off r off' :
  co_set_fit m n off = (r, off') -> co_cur off' = co_cur off.
Proof.
  unfold co_set_fit. intros H.
  repeat match type of H with
  | context [match ?x with _ => _ end] => destruct x
  end; inversion H; subst; reflexivity.
Qed.

Lemma co_cur_enforce off r off' :
  co_enforce_target off = (r, off') -> co_cur off' = co_cur off.
Proof.
  unfold co_enforce_target. intros H.
  repeat match type of H with
  | context [match ?x with _ => _ end] => destruct x
  end; inversion H; subst; reflexivity.
Qed.

Lemma mp_step m {X : Set} (o : pop X) p :
  mp_inv p -> arg_fits m (AnyOp o) ->
  forall r p', memo_h m X o p = (r, p') ->
  byte_h m X o (mp_bp p) = (r, mp_bp p') /\ (r <> RPanic -> mp_inv p').
Proof.
  intros Hinv Harg r p' H.
  assert (Hbp : bp_inv (mp_bp p)) by (exact (proj1 Hinv)).
  destruct (spec_op Merge o (bp_alpha (mp_bp p))) as [x w'] eqn:Es.
  assert (Hkey : byte_h m X o (mp_bp p) = (r, mp_bp p') /\
                 (r <> RPanic -> Forall (fun n => 0 <= n) (mp_munches p') /\
                    zsum (mp_munches p') <= co_cur (mp_off p'))).
  { destruct Hinv as (Hc & Hf & Hs). pose proof (co_inv_limit _ _ Hc) as HL.
    destruct p as [buf off mun]; unfold mp_bp in *; cbn [mp_buf mp_off mp_munches] in *.
    assert (Hd : forall mm, exists sv, @mp_dump parse_error mm (mkMP buf off mun) = ROk sv)
      by (intros; apply mp_dump_ok; exact (conj Hc (conj Hf Hs))).
    destruct o; cbn [memo_h byte_h] in *.
    - pinv H. auto.
    - unfold mp_consume_byte, bp_consume_byte in *; cbn [mp_buf mp_off mp_munches bp_buf bp_off] in *.
      assert (Hsz : size_fits m 1) by (destruct m; cbv; intuition congruence).
      destruct (@co_advance_spec parse_error m 1 buf off Hc Hsz)
        as [[Hle Ha]|[[Hle Ha]|(Hm & Hle & Ha)]]; rewrite Ha in *; clear Ha.
      + pinv H. split; [reflexivity|]. intros _. cbn [mp_munches mp_off co_cur].
        split; [apply Forall_app; split; [assumption|repeat constructor; lia]|].
        rewrite zsum_app; unfold zsum at 2; cbn [fold_right]; lia.
      + destruct (Hd m) as [sv Hsv]; rewrite Hsv in H; cbn [rbind] in H. pinv H.
        split; [reflexivity|auto].
      + unfold isize_max in Hle; lia.
    - unfold mp_consume, bp_consume in *; cbn [mp_buf mp_off mp_munches bp_buf bp_off] in *.
      assert (Hsz : size_fits m n) by (destruct m; exact Harg).
      pose proof (size_fits_nonneg _ _ Hsz).
      destruct (@co_advance_spec parse_error m n buf off Hc Hsz)
        as [[Hle Ha]|[[Hle Ha]|(Hm & Hle & Ha)]]; rewrite Ha in *; clear Ha.
      + pinv H. split; [reflexivity|]. intros _. cbn [mp_munches mp_off co_cur].
        split; [apply Forall_app; split; [assumption|repeat constructor; lia]|].
        rewrite zsum_app; unfold zsum at 2; cbn [fold_right]; lia.
      + destruct (Hd m) as [sv Hsv]; rewrite Hsv in H; cbn [rbind] in H. pinv H.
        split; [reflexivity|auto].
      + pinv H. split; [reflexivity|]. congruence.
    - unfold mp_set_fit, bp_set_fit in *; cbn [mp_buf mp_off mp_munches bp_buf bp_off] in *.
      destruct (co_set_fit m n off) as [r0 off'] eqn:E. pinv H.
      split; [reflexivity|]. intros _; cbn [mp_munches mp_off].
      rewrite (co_inv_set_fit _ _ _ _ _ E). auto.
    - unfold mp_test_target, bp_test_target in *; cbn [mp_off bp_off] in *. pinv H. auto.
    - unfold mp_enforce_target, bp_enforce_target in *; cbn [mp_buf mp_off mp_munches bp_buf bp_off] in *.
      destruct (co_enforce_target off) as [r0 off'] eqn:E. pinv H.
      split; [reflexivity|]. intros _; cbn [mp_munches mp_off].
      rewrite (co_cur_enforce _ _ _ E). auto.
    - unfold mp_skip, bp_skip in *; cbn [mp_buf mp_off mp_munches bp_buf bp_off] in *.
      rewrite (co_rem_spec m buf off Hc) in *.
      assert (Hsz : size_fits m n) by (destruct m; exact Harg).
      pose proof (size_fits_nonneg _ _ Hsz). pose proof isize_max_lt.
      assert (Hsz' : size_fits m (Z.min (co_limit off - co_cur off) n))
        by (destruct m; unfold size_fits, is_usize; lia).
      destruct (@co_advance_spec parse_error m _ buf off Hc Hsz')
        as [[Hle Ha]|[[Hle Ha]|(Hm & Hle & Ha)]]; try lia; rewrite Ha in *; clear Ha.
      pinv H. split; [reflexivity|]. intros _. cbn [mp_munches mp_off co_cur].
      split; [apply Forall_app; split; [assumption|repeat constructor; lia]|].
      rewrite zsum_app; unfold zsum at 2; cbn [fold_right]; lia.
    - unfold mp_skip_exactly, bp_skip_exactly in *; cbn [mp_buf mp_off mp_munches bp_buf bp_off] in *.
      assert (Hsz : size_fits m n) by (destruct m; exact Harg).
      pose proof (size_fits_nonneg _ _ Hsz).
      destruct (@co_advance_spec parse_error m n buf off Hc Hsz)
        as [[Hle Ha]|[[Hle Ha]|(Hm & Hle & Ha)]]; rewrite Ha in *; clear Ha.
      + pinv H. split; [reflexivity|]. intros _. cbn [mp_munches mp_off co_cur].
        split; [assumption|lia].
      + destruct (Hd m) as [sv Hsv]; rewrite Hsv in H; cbn [rbind] in H. pinv H.
        split; [reflexivity|auto].
      + pinv H. split; [reflexivity|]. congruence. }
  destruct Hkey as [Hb Hm]. split; [exact Hb|].
  intros Hr. specialize (Hm Hr).
  pose proof (bp_step m o (mp_bp p) Hbp Harg _ _ _ _ Es Hb) as Hst; unfold step_rel in Hst.
  split; [|exact Hm].
  destruct r; try contradiction; try congruence; destruct Hst as (_ & Hst & _); exact Hst.
Qed.

Lemma mp_init_inv buf : zlen buf <= isize_max -> mp_inv (mp_from_buffer buf).
Proof.
  intros H. split; [apply bp_init_inv; assumption|]. cbn. split; [constructor | lia].
Qed.

Lemma mp_history_from m ops : forall p,
  mp_inv p -> Forall (arg_fits m) ops ->
  history (memo_h m) ops p = history (byte_h m) ops (mp_bp p).
Proof.
  induction ops as [|[X o] ops IH]; intros p Hinv Hargs; cbn [history]; [reflexivity|].
  inversion Hargs as [|? ? Ha Hargs']; subst.
  destruct (memo_h m X o p) as [r p'] eqn:Em.
  destruct (mp_step m o p Hinv Ha _ _ Em) as [Hb Hi]. rewrite Hb.
  destruct r; try reflexivity; rewrite IH by (auto; apply Hi; discriminate); reflexivity.
Qed.

Lemma mp_after_from m ops : forall p,
  mp_inv p -> Forall (arg_fits m) ops ->
  option_map mp_bp (after (memo_h m) ops p) = after (byte_h m) ops (mp_bp p) /\
  (forall p', after (memo_h m) ops p = Some p' -> mp_inv p').
Proof.
  induction ops as [|[X o] ops IH]; intros p Hinv Hargs; cbn [after].
  - split; [reflexivity|]. intros ? H; inversion H; subst; assumption.
  - inversion Hargs as [|? ? Ha Hargs']; subst.
    destruct (memo_h m X o p) as [r p'] eqn:Em.
    destruct (mp_step m o p Hinv Ha _ _ Em) as [Hb Hi]. rewrite Hb.
    destruct r; try (split; [reflexivity|discriminate]); apply IH; auto; apply Hi; discriminate.
Qed.

(** Programs: the results are identical, error values included. *)
Lemma mp_run m {A} (pg : prog A) : forall p,
  mp_inv p -> prog_fits m pg ->
  forall r p', run (memo_h m) pg p = (r, p') ->
  run (byte_h m) pg (mp_bp p) = (r, mp_bp p') /\ (r <> RPanic -> mp_inv p').
Proof.
  induction pg as [a|e| | | |X o k IH|X o k IHk f IHf]; intros p Hinv Hfit r p' H; cbn [run] in *;
    try (inversion H; subst; auto; fail).
  - destruct Hfit as [Ha Hk].
    destruct (memo_h m X o p) as [r0 p0] eqn:Em.
    destruct (mp_step m o p Hinv Ha _ _ Em) as [Hb Hi]. rewrite Hb.
    destruct r0; try (inversion H; subst; split; [reflexivity|intros; apply Hi; congruence]).
    apply IH; auto. apply Hi; discriminate.
  - destruct Hfit as (Ha & Hk & Hf).
    destruct (memo_h m X o p) as [r0 p0] eqn:Em.
    destruct (mp_step m o p Hinv Ha _ _ Em) as [Hb Hi]. rewrite Hb.
    destruct r0; try (inversion H; subst; split; [reflexivity|intros; apply Hi; congruence]).
    + apply IHk; auto. apply Hi; discriminate.
    + apply IHf; auto. apply Hi; discriminate.
Qed.

(** ** The contract: what every parser implements *)

Definition refines_contract {P} (m : mode) (h : handler P) (inv : P -> Prop) (alpha : P -> wstack)
  : Prop :=
  forall (X : Set) (o : pop X) p x w' r p',
    inv p -> in_contract o (alpha p) = true ->
    spec_op Keep o (alpha p) = (x, w') -> h X o p = (r, p') ->
    match r with
    | ROk v => x = Some v /\ inv p' /\ alpha p' = w'
    | RErr _ => x = None /\ (is_byte_op o = true -> inv p' /\ alpha p' = w')
    | RPanic => m = Debug /\ x = None /\ is_byte_op o = false
    | _ => False
    end.

(** Outcome of [real] given the outcome [ideal] of the contract machine. *)
Definition outcome_rel {P A} (m : mode) (inv : P -> Prop) (alpha : P -> wstack)
  (ideal : pres A * wstack) (real : pres A * P) : Prop :=
  match fst ideal with
  | ROk a => fst real = ROk a /\ inv (snd real) /\ alpha (snd real) = snd ideal
  | RErr _ => (exists e, fst real = RErr e) \/ (m = Debug /\ fst real = RPanic)
  | RPanic => fst real = RPanic
  | RDiv => fst real = RDiv
  | RUB => True
  end.

Lemma run_refines {P} m (h : handler P) inv alpha :
  refines_contract m h inv alpha ->
  forall {A} (pg : prog A) p, inv p -> try_bytes_only pg ->
  outcome_rel m inv alpha (run contract_h pg (alpha p)) (run h pg p).
Proof.
  intros Href A pg.
  induction pg as [a|e| | | |X o k IH|X o k IHk f IHf]; intros p Hinv Htry; cbn [run];
    try (cbn; eauto; fail).
  - unfold contract_h at 1. destruct (in_contract o (alpha p)) eqn:Ec; [|exact I].
    destruct (spec_op Keep o (alpha p)) as [x w'] eqn:Es. rewrite (spec_h_eq _ _ _ _ _ Es).
    destruct (h X o p) as [r p'] eqn:Eh.
    pose proof (Href X o p x w' r p' Hinv Ec Es Eh) as Hst.
    destruct r; try contradiction.
    + destruct Hst as (-> & Hi & <-). apply IH; auto.
    + destruct Hst as (-> & _). left; eexists; reflexivity.
    + destruct Hst as (-> & -> & _). right; auto.
  - destruct Htry as (Hbop & Hk & Hf).
    unfold contract_h at 1. destruct (in_contract o (alpha p)) eqn:Ec; [|exact I].
    destruct (spec_op Keep o (alpha p)) as [x w'] eqn:Es. rewrite (spec_h_eq _ _ _ _ _ Es).
    destruct (h X o p) as [r p'] eqn:Eh.
    pose proof (Href X o p x w' r p' Hinv Ec Es Eh) as Hst.
    destruct r; try contradiction.
    + destruct Hst as (-> & Hi & <-). apply IHk; auto.
    + destruct Hst as (-> & Hi). destruct (Hi Hbop) as [Hi1 <-]. apply IHf; auto.
    + destruct Hst as (_ & _ & ?); congruence.
Qed.

Lemma in_contract_fits m {X : Set} (o : pop X) w : in_contract o w = true -> arg_fits m (AnyOp o).
Proof.
  unfold in_contract, size_ok, arg_fits.
  pose proof isize_max_lt. assert (0 <= isize_max) by discriminate.
  destruct o, m; unfold arg_ok, arg_small, is_usize; intros; bsimp; auto; lia.
Qed.

Lemma spec_op_policy {X : Set} (o : pop X) pol w :
  fst (spec_op pol o w) = fst (spec_op Keep o w) /\
  (fst (spec_op Keep o w) <> None -> snd (spec_op pol o w) = snd (spec_op Keep o w)).
Proof.
  destruct o; cbn; auto.
  destruct (w_outer w); [auto|]. destruct (w_cur w); cbn; [auto|].
  split; [reflexivity|congruence].
Qed.

Lemma byte_refines m : refines_contract m (byte_h m) bp_inv bp_alpha.
Proof.
  intros X o p x w' r p' Hinv Hc Hs Hb.
  pose proof (in_contract_fits m o _ Hc) as Hfit.
  destruct (spec_op Merge o (bp_alpha p)) as [x2 w2] eqn:Es2.
  pose proof (spec_op_policy o Merge (bp_alpha p)) as [Hp1 Hp2].
  rewrite Hs, Es2 in *; cbn [fst snd] in *. subst x2.
  pose proof (bp_step m o p Hinv Hfit _ _ _ _ Es2 Hb) as Hst; unfold step_rel in Hst.
  destruct r; try contradiction.
  - destruct Hst as (-> & Hi & <-). split; [reflexivity|]. split; [assumption|]. apply Hp2; discriminate.
  - destruct Hst as (-> & Hi & Ha). split; [reflexivity|].
    intros Hbo; split; [assumption|]. rewrite Ha.
    destruct o; try discriminate. cbn [spec_op] in *.
    destruct (w_cur (bp_alpha p)); congruence.
  - destruct Hst as (-> & ->). repeat split.
    destruct o; try reflexivity. exfalso.
    cbn [byte_h] in Hb. unfold bp_consume_byte in Hb.
    assert (Hsz : size_fits Debug 1) by (cbv; intuition congruence).
    unfold bp_inv in Hinv.
    destruct (@co_advance_spec parse_error Debug 1 (bp_buf p) (bp_off p) Hinv Hsz)
      as [[Hle Ha]|[[Hle Ha]|(Hm & Hle & Ha)]].
    + rewrite Ha in Hb.
      destruct (co_cur_byte _ _ Hinv ltac:(lia)) as (b & _ & Hg & _).
      rewrite Hg in Hb. discriminate.
    + rewrite Ha in Hb; discriminate.
    + unfold isize_max in Hle; lia.
Qed.

Lemma memo_refines m :
  refines_contract m (memo_h m) mp_inv (fun p => bp_alpha (mp_bp p)).
Proof.
  intros X o p x w' r p' Hinv Hc Hs Hb.
  pose proof (in_contract_fits m o _ Hc) as Hfit.
  destruct (mp_step m o p Hinv Hfit _ _ Hb) as [Hb' Hi].
  pose proof (byte_refines m X o (mp_bp p) x w' r (mp_bp p') (proj1 Hinv) Hc Hs Hb') as H.
  destruct r; try contradiction; auto.
  - destruct H as (? & _ & ?). split; [assumption|]. split; [apply Hi; discriminate|assumption].
  - destruct H as (? & H). split; [assumption|]. intros Hbo. destruct (H Hbo).
    split; [apply Hi; discriminate | assumption].
Qed.

(** ** SliceParser *)

Definition sp_inv (p : slice_parser) : Prop := p <> [].
Definition sp_alpha (p : slice_parser) : wstack := mkW (hd [] p) (tl p).

Lemma slb_split_ok {E} n buf :
  n <= zlen buf -> @slb_split_unchecked E n buf = ROk (ztake n buf, zdrop n buf).
Proof.
  unfold slb_split_unchecked; intros; rewrite (proj2 (Z.leb_le _ _)) by assumption; reflexivity.
Qed.
Lemma slb_take_ok {E} n buf :
  n <= zlen buf -> @slb_take_unchecked E n buf = ROk (ztake n buf, zdrop n buf).
Proof.
  unfold slb_take_unchecked; intros; rewrite (proj2 (Z.leb_le _ _)) by assumption; reflexivity.
Qed.

(** One operation with a window open below (or one that does not look at
    windows), against the specification with policy [Drop]. *)
Lemma sp_step {X : Set} (o : pop X) p :
  sp_inv p ->
  (match o with OpTestTarget | OpEnforceTarget => w_outer (sp_alpha p) <> [] | _ => True end) ->
  forall x w' r p',
    spec_op Drop o (sp_alpha p) = (x, w') -> slice_h X o p = (r, p') ->
    match r with
    | ROk v => x = Some v /\ sp_inv p' /\ sp_alpha p' = w'
    | RErr _ => x = None /\ sp_inv p' /\ sp_alpha p' = w'
    | _ => False
    end.
Proof.
  intros Hinv Hw x w' r p' Hs Hr. unfold sp_inv in *.
  destruct p as [|frame rest]; [congruence|]. unfold sp_alpha in *; cbn [hd tl] in *.
  destruct o; cbn [spec_op slice_h w_cur w_outer] in *.
  - pinv Hs; pinv Hr. (split; [|split]; (reflexivity || discriminate)).
  - cbn [sp_consume_byte slb_cut_first] in Hr. destruct frame; cbn [slb_cut_first] in Hr;
      pinv Hs; pinv Hr; cbn; (split; [|split]; (reflexivity || discriminate)).
  - unfold sp_consume in Hr. bcase (n <=? zlen frame).
    + rewrite slb_take_ok in Hr by assumption. pinv Hs; pinv Hr; cbn; (split; [|split]; (reflexivity || discriminate)).
    + pinv Hs; pinv Hr; cbn; (split; [|split]; (reflexivity || discriminate)).
  - unfold sp_set_fit in Hr. bcase (n <=? zlen frame).
    + rewrite slb_split_ok in Hr by assumption. pinv Hs; pinv Hr; cbn; (split; [|split]; (reflexivity || discriminate)).
    + pinv Hs; pinv Hr; cbn; (split; [|split]; (reflexivity || discriminate)).
  - unfold sp_test_target in Hr. pinv Hs; pinv Hr. cbn.
    destruct rest; [congruence|]. destruct frame; (split; [|split]; (reflexivity || discriminate)).
  - unfold sp_enforce_target in Hr. destruct rest as [|nxt rest]; [congruence|].
    destruct frame as [|c cs].
    + rewrite zlen_nil in Hr; cbn in Hr. pinv Hs; pinv Hr; cbn; (split; [|split]; (reflexivity || discriminate)).
    + bcase (zlen (c :: cs) =? 0).
      { apply zlen_0_nil in E; discriminate. }
      pinv Hs; pinv Hr; cbn; (split; [|split]; (reflexivity || discriminate)).
  - unfold sp_skip in Hr. rewrite slb_split_ok in Hr by lia.
    pinv Hs; pinv Hr; cbn; (split; [|split]; (reflexivity || discriminate)).
  - unfold sp_skip_exactly in Hr. bcase (n <=? zlen frame).
    + rewrite slb_split_ok in Hr by assumption. pinv Hs; pinv Hr; cbn; (split; [|split]; (reflexivity || discriminate)).
    + pinv Hs; pinv Hr; cbn; (split; [|split]; (reflexivity || discriminate)).
Qed.

Lemma slice_refines m : refines_contract m slice_h sp_inv sp_alpha.
Proof.
  intros X o p x w' r p' Hinv Hc Hs Hb.
  destruct (spec_op Drop o (sp_alpha p)) as [x2 w2] eqn:Es2.
  pose proof (spec_op_policy o Drop (sp_alpha p)) as [Hp1 Hp2].
  rewrite Hs, Es2 in *; cbn [fst snd] in *. subst x2.
  assert (Hw : match o with OpTestTarget | OpEnforceTarget => w_outer (sp_alpha p) <> [] | _ => True end).
  { destruct o; auto; cbn [in_contract] in Hc; destruct (w_outer (sp_alpha p)); congruence. }
  pose proof (sp_step o p Hinv Hw _ _ _ _ Es2 Hb) as Hst.
  destruct r; try contradiction.
  - destruct Hst as (-> & Hi & <-). split; [reflexivity|]. split; [assumption|]. apply Hp2; discriminate.
  - destruct Hst as (-> & Hi & Ha). split; [reflexivity|].
    intros Hbo; split; [assumption|]. rewrite Ha.
    destruct o; try discriminate. cbn [spec_op] in *.
    destruct (w_cur (sp_alpha p)); congruence.
Qed.

(** Histories of SliceParser. *)
Lemma sp_history_from ops : forall p,
  sp_inv p -> bracketed Drop ops (sp_alpha p) ->
  history slice_h ops p = history (spec_h Drop) ops (sp_alpha p).
Proof.
  induction ops as [|[X o] ops IH]; intros p Hinv Hbr; cbn [history bracketed] in *; [reflexivity|].
  destruct Hbr as [Hw Hbr].
  destruct (spec_op Drop o (sp_alpha p)) as [x w'] eqn:Es.
  rewrite (spec_h_eq _ _ _ _ _ Es).
  destruct (slice_h X o p) as [r p'] eqn:Er.
  pose proof (sp_step o p Hinv Hw _ _ _ _ Es Er) as Hst. cbn [snd] in Hbr.
  destruct r; try contradiction; destruct Hst as (-> & Hi & <-); rewrite IH; auto.
Qed.

(** No failed close: then the policy is irrelevant. *)
Lemma spec_step_clean {X : Set} (o : pop X) pol w :
  match o with
  | OpTestTarget => w_outer w <> []
  | OpEnforceTarget => w_outer w <> [] /\ w_cur w = []
  | _ => True
  end -> spec_op pol o w = spec_op Keep o w.
Proof.
  destruct o; auto. intros [H1 H2]; cbn. destruct (w_outer w); [congruence|].
  rewrite H2; reflexivity.
Qed.

Lemma clean_bracketed pol ops : forall w, closes_clean ops w -> bracketed pol ops w.
Proof.
  induction ops as [|[X o] ops IH]; intros w H; cbn [closes_clean bracketed] in *; [exact I|].
  destruct H as [H1 H2]. rewrite (spec_step_clean o pol w H1). split; [|apply IH; exact H2].
  destruct o; tauto.
Qed.

Lemma clean_history pol ops : forall w,
  closes_clean ops w -> history (spec_h pol) ops w = history (spec_h Keep) ops w.
Proof.
  induction ops as [|[X o] ops IH]; intros w H; cbn [closes_clean history] in *; [reflexivity|].
  destruct H as [H1 H2].
  destruct (spec_op Keep o w) as [x w'] eqn:E. pose proof (spec_step_clean o pol w H1) as E'.
  rewrite E in E'. rewrite (spec_h_eq _ _ _ _ _ E), (spec_h_eq _ _ _ _ _ E').
  cbn [snd] in H2. destruct x; rewrite IH; auto.
Qed.
