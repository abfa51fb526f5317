(** Lemmas behind C06, C07, C08, C11, C32, C44, C45 and C47. *)
From Verif Require Import Base BaseLemmas ModelErrors ModelSplitVec ModelParser SpecParser
  ProofParser ProofParserSim ProofParserProps ProofParserClean.
From Coq Require Import ZifyBool.

(** ** C06 *)

Lemma bp_enforce_cases m buf ops p w :
  zlen buf <= isize_max -> Forall (arg_fits m) ops ->
  after (byte_h m) ops (bp_from_buffer buf) = Some p ->
  after (spec_h Merge) ops (w_init buf) = Some w ->
  byte_h m Z OpRemainder p = (ROk (zlen (w_cur w)), p) /\
  (w_outer w = [] ->
     byte_h m unit OpEnforceTarget p = (RErr (EWindow CloseWithoutWindow), p)) /\
  (w_outer w <> [] -> w_cur w <> [] ->
     fst (byte_h m unit OpEnforceTarget p) = RErr (EWindow (CloseWithResidue (zlen (w_cur w))))) /\
  (forall next rest, w_outer w = next :: rest -> w_cur w = [] ->
     exists p', byte_h m unit OpEnforceTarget p = (ROk tt, p') /\
       bp_offset p' = bp_offset p /\
       byte_h m Z OpRemainder p' = (ROk (zlen next), p')).
Proof.
  intros Hb Ha Hp Hw.
  destruct (bp_after_from m ops _ _ (bp_init_inv buf Hb) Ha Hp) as [Hi Hs].
  rewrite bp_init_alpha, Hw in Hs. injection Hs as ->.
  pose proof (co_inv_limit _ _ Hi) as HL. pose proof (co_alpha_len _ _ Hi) as Hlen.
  unfold bp_alpha in *.
  split; [|split; [|split]].
  - rewrite bp_remainder_ok by exact Hi. rewrite Hlen. reflexivity.
  - intros Ho. apply pieces_outer_nil in Ho. cbn [byte_h]. unfold bp_enforce_target, co_enforce_target.
    rewrite Ho. destruct p; reflexivity.
  - intros Ho Hc. cbn [byte_h]. unfold bp_enforce_target, co_enforce_target, co_index.
    destruct (co_frames (bp_off p)) as [|t fs] eqn:Hf.
    + exfalso; apply Ho, pieces_outer_nil; exact Hf.
    + destruct (tgt_pos _ _ _ _ Hi Hf) as [Hcur Hle].
      unfold co_limit in *; rewrite Hf in *; cbn [fs_peek hd_error] in *.
      destruct (Z.compare_spec t (co_cur (bp_off p))); cbn [fst].
      * exfalso; apply Hc. rewrite Hcur, H, zslice_nil; reflexivity.
      * lia.
      * rewrite Hlen. reflexivity.
  - intros next rest Ho Hc. cbn [byte_h]. unfold bp_enforce_target, co_enforce_target, co_index.
    destruct (co_frames (bp_off p)) as [|t fs] eqn:Hf.
    + apply (pieces_outer_nil (bp_buf p)) in Hf. congruence.
    + destruct (tgt_pos _ _ _ _ Hi Hf) as [Hcur Hle].
      rewrite Hc, zlen_nil in Hlen.
      unfold co_limit in *; rewrite Hf in *; cbn [fs_peek hd_error] in *.
      replace (t ?= co_cur (bp_off p)) with Eq by (symmetry; apply Z.compare_eq_iff; lia).
      eexists; split; [reflexivity|]. split; [reflexivity|].
      destruct (co_pop _ _ _ _ Hi Hf) as (nxt & rst & E & Hi' & Hal).
      rewrite Ho in E. injection E as <- <-. rewrite Hc in Hal; cbn [app] in Hal.
      etransitivity; [exact (bp_remainder_ok m (mkBP (bp_buf p) _) Hi')|].
      pose proof (co_alpha_len _ _ Hi') as Hl'. rewrite Hal in Hl'; cbn [w_cur] in Hl'.
      rewrite Hl'. reflexivity.
Qed.

(** ** C07 *)

Lemma bp_test_predicts m buf p :
  zlen buf <= isize_max -> reaches m (byte_h m) (bp_from_buffer buf) p ->
  exists b, byte_h m bool OpTestTarget p = (ROk b, p) /\
            (b = true <-> fst (byte_h m unit OpEnforceTarget p) = ROk tt).
Proof.
  intros Hb Hr. destruct (bp_reaches_inv _ _ _ Hb Hr) as [Hi _].
  cbn [byte_h]. unfold bp_test_target, bp_enforce_target, co_test_target, co_enforce_target, co_index.
  destruct (co_frames (bp_off p)) as [|t fs] eqn:Hf; cbn [fs_peek hd_error fst].
  - exists false. split; [reflexivity|]. split; discriminate.
  - destruct (tgt_pos _ _ _ _ Hi Hf) as [_ Hle].
    destruct (Z.compare_spec t (co_cur (bp_off p))); cbn [fst]; [|lia|].
    + exists true. tauto.
    + exists false. split; [reflexivity|]. split; discriminate.
Qed.

Lemma reaches_memo m buf p :
  zlen buf <= isize_max -> reaches m (memo_h m) (mp_from_buffer buf) p ->
  mp_inv p /\ mp_buf p = buf /\ reaches m (byte_h m) (bp_from_buffer buf) (mp_bp p).
Proof.
  intros Hb (ops & Ha & Hp).
  destruct (mp_after_from m ops _ (mp_init_inv buf Hb) Ha) as [H Hi]. specialize (Hi _ Hp).
  rewrite Hp in H; cbn [option_map] in H.
  split; [exact Hi|].
  assert (Hre : reaches m (byte_h m) (bp_from_buffer buf) (mp_bp p))
    by (exists ops; split; [assumption | symmetry; exact H]).
  split; [|exact Hre]. apply (bp_reaches_inv _ _ _ Hb Hre).
Qed.

Lemma mp_test_predicts m buf p :
  zlen buf <= isize_max -> reaches m (memo_h m) (mp_from_buffer buf) p ->
  exists b, memo_h m bool OpTestTarget p = (ROk b, p) /\
            (b = true <-> fst (memo_h m unit OpEnforceTarget p) = ROk tt).
Proof.
  intros Hb Hr. destruct (reaches_memo _ _ _ Hb Hr) as (_ & _ & Hr').
  destruct (bp_test_predicts m buf (mp_bp p) Hb Hr') as (b & H1 & H2).
  exists b. cbn [memo_h byte_h] in *. unfold mp_test_target, bp_test_target, mp_enforce_target, bp_enforce_target, mp_bp in *.
  cbn [bp_off bp_buf] in *. split.
  - injection H1 as H1. rewrite H1. reflexivity.
  - destruct (co_enforce_target (mp_off p)); exact H2.
Qed.

Lemma sp_test_predicts (p : slice_parser) :
  exists b, slice_h bool OpTestTarget p = (ROk b, p) /\
            (b = true <-> fst (slice_h unit OpEnforceTarget p) = ROk tt).
Proof.
  cbn [slice_h]. unfold sp_test_target, sp_enforce_target. destruct p as [|t p].
  - exists false. split; [reflexivity|]. split; discriminate.
  - eexists; split; [reflexivity|]. destruct t; cbn [fst].
    + tauto.
    + rewrite zlen_cons. pose proof (zlen_nonneg t). bcase (1 + zlen t =? 0); [lia|].
      split; discriminate.
Qed.

(** ** C08 *)

Lemma agrees_no_ub l l' : agrees_or_panics l l' -> ~ In ObsUB l' -> ~ In ObsUB l.
Proof.
  induction 1; cbn [In] in *; intros Hn; intuition congruence.
Qed.

Lemma spec_no_ub pol ops : forall w, ~ In ObsUB (history (spec_h pol) ops w).
Proof.
  induction ops as [|[X o] ops IH]; intros w; cbn [history In]; [tauto|].
  destruct (spec_op pol o w) as [x w'] eqn:E. rewrite (spec_h_eq _ _ _ _ _ E).
  destruct x; cbn [In]; intros [H|H]; try (eapply IH; exact H); destruct o; discriminate.
Qed.

Lemma bp_no_ub m buf ops :
  zlen buf <= isize_max -> Forall (arg_fits m) ops ->
  ~ In ObsUB (history (byte_h m) ops (bp_from_buffer buf)).
Proof.
  intros Hb Ha. eapply agrees_no_ub; [apply byte_refines_stack; assumption|]. apply spec_no_ub.
Qed.

Lemma mp_no_ub m buf ops :
  zlen buf <= isize_max -> Forall (arg_fits m) ops ->
  ~ In ObsUB (history (memo_h m) ops (mp_from_buffer buf)).
Proof.
  intros Hb Ha. destruct (memo_equals_byte m buf ops Hb Ha) as [-> _]. apply bp_no_ub; assumption.
Qed.

Lemma sp_total {X : Set} (o : pop X) p :
  match fst (slice_h X o p) with ROk _ | RErr _ => True | _ => False end.
Proof.
  destruct o, p as [|f p]; cbn [slice_h];
    unfold sp_consume_byte, sp_consume, sp_set_fit, sp_test_target, sp_enforce_target, sp_skip,
      sp_skip_exactly, slb_take_unchecked, slb_split_unchecked, slb_cut_first;
    try (cbn; exact I).
  - destruct f; exact I.
  - destruct (n <=? zlen f); exact I.
  - destruct (n =? 0); exact I.
  - destruct (n <=? zlen f); exact I.
  - cbn [fst]. destruct (zlen f =? 0); exact I.
  - bcase (Z.min (zlen f) n <=? zlen f); [exact I|lia].
  - destruct (n <=? zlen f); exact I.
Qed.

Lemma sp_no_ub ops : forall p,
  ~ In ObsUB (history slice_h ops p) /\ ~ In ObsPanic (history slice_h ops p).
Proof.
  induction ops as [|[X o] ops IH]; intros p; cbn [history In]; [tauto|].
  pose proof (sp_total o p) as Ht. destruct (slice_h X o p) as [r q]; cbn [fst] in Ht.
  destruct (IH q) as [H1 H2].
  destruct r; try contradiction; cbn [In]; split; intros [H|H]; auto; destruct o; discriminate.
Qed.

(** ** C11 *)

Lemma bp_skip_is_consume m buf p n :
  zlen buf <= isize_max -> reaches m (byte_h m) (bp_from_buffer buf) p -> size_fits m n ->
  (exists rem p' bs,
     byte_h m Z OpRemainder p = (ROk rem, p) /\
     byte_h m Z (OpSkip n) p = (ROk (Z.min rem n), p') /\
     byte_h m _ (OpConsume (Z.min rem n)) p = (ROk bs, p')) /\
  (exists r p',
     byte_h m _ (OpConsume n) p = (r, p') /\
     byte_h m unit (OpSkipExactly n) p = (rmap (fun _ => tt) r, p')).
Proof.
  intros Hb Hr Hn. destruct (bp_reaches_inv _ _ _ Hb Hr) as [Hi Hbuf].
  pose proof (co_inv_limit _ _ Hi) as HL. pose proof (size_fits_nonneg _ _ Hn).
  split.
  - exists (bp_view_len p - bp_offset p).
    assert (Hn' : size_fits m (Z.min (bp_view_len p - bp_offset p) n)).
    { unfold bp_view_len, bp_offset, co_index. pose proof isize_max_lt.
      destruct m; unfold size_fits, is_usize in *; lia. }
    eexists; eexists. split; [apply bp_remainder_ok; exact Hi|].
    cbn [byte_h]. rewrite (bp_consume_ok m p _ Hi Hn') by lia. split; [|reflexivity].
    unfold bp_skip. rewrite (co_rem_spec m (bp_buf p) (bp_off p) Hi).
    unfold bp_view_len, bp_offset, co_index in *.
    destruct (@co_advance_spec parse_error m _ _ _ Hi Hn') as [[? E]|[[? E]|(? & ? & E)]]; try lia;
      rewrite E; try reflexivity; lia.
  - cbn [byte_h]. unfold bp_consume, bp_skip_exactly.
    destruct (@co_advance_spec parse_error m n _ _ Hi Hn) as [[Hle E]|[[? E]|(? & ? & E)]]; rewrite E.
    + rewrite vb_get_slice_unchecked_ok by lia. eexists; eexists; split; reflexivity.
    + eexists; eexists; split; reflexivity.
    + exists RPanic, p; split; reflexivity.
Qed.

Lemma sp_skip_closed n :
  slice_h Z (OpSkip n) [] = (ROk 0, []) /\
  slice_h unit (OpSkipExactly n) [] = (rmap (fun _ => tt) (fst (slice_h _ (OpConsume n) [])), []).
Proof. split; reflexivity. Qed.

Lemma sp_skip_is_consume (p : slice_parser) n :
  p <> [] -> 0 <= n ->
  (exists p' bs,
     slice_h Z (OpSkip n) p = (ROk (Z.min (sp_remainder p) n), p') /\
     slice_h _ (OpConsume (Z.min (sp_remainder p) n)) p = (ROk bs, p')) /\
  (exists r p',
     slice_h _ (OpConsume n) p = (r, p') /\
     slice_h unit (OpSkipExactly n) p = (rmap (fun _ => tt) r, p')).
Proof.
  destruct p as [|f p]; [congruence|intros _ Hn]. cbn [slice_h]. split.
  - unfold sp_skip, sp_consume, slb_split_unchecked, slb_take_unchecked, sp_remainder, sp_view_len.
    bcase (Z.min (zlen f) n <=? zlen f); [|lia]. eexists; eexists; split; reflexivity.
  - unfold sp_skip_exactly, sp_consume, slb_split_unchecked, slb_take_unchecked.
    bcase (n <=? zlen f); eexists; eexists; split; reflexivity.
Qed.

(** ** C44 *)

Lemma bp_drain m fuel : forall p,
  bp_inv p -> (Z.to_nat (bp_view_len p - bp_offset p) < fuel)%nat ->
  run (byte_h m) (drain fuel) p =
    (ROk (zslice (bp_offset p) (bp_view_len p) (bp_buf p)),
     bp_moved p (bp_view_len p - bp_offset p)).
Proof.
  induction fuel as [|fuel IH]; intros p Hi Hf; [lia|].
  pose proof (co_inv_limit _ _ Hi) as HL.
  cbn [drain p_iter_next pbind run byte_h].
  destruct (Z.eq_dec (bp_view_len p - bp_offset p) 0) as [E|E].
  - rewrite (bp_consume_byte_fail m p Hi E). cbn [pbind run].
    replace (bp_view_len p) with (bp_offset p) by lia. rewrite zslice_nil, Z.sub_diag.
    unfold bp_moved. rewrite Z.add_0_r. destruct p as [? []]; reflexivity.
  - assert (1 <= bp_view_len p - bp_offset p) by (unfold bp_view_len, bp_offset, co_index in *; lia).
    destruct (bp_consume_byte_ok m p Hi) as (b & H1 & H2); [assumption|].
    rewrite H1. cbn [pbind].
    assert (Hm : bp_inv (bp_moved p 1)) by (apply bp_moved_inv; [assumption|lia]).
    assert (Hrun : forall A B (pg : prog A) (k : A -> prog B) (h : handler byte_parser) s,
      run h (pbind pg k) s = match run h pg s with
        | (ROk a, s') => run h (k a) s' | (RErr e, s') => (RErr e, s')
        | (RPanic, s') => (RPanic, s') | (RUB, s') => (RUB, s') | (RDiv, s') => (RDiv, s') end).
    { clear. intros A B pg k h.
      induction pg as [a|e| | | |X o kk IH|X o kk IHk f IHf]; intros s; cbn [pbind run]; try reflexivity.
      - destruct (h X o s) as [[] s']; auto.
      - destruct (h X o s) as [[] s']; auto. }
    rewrite Hrun, IH.
    + cbn [run]. rewrite bp_moved_view, bp_moved_offset. cbn [bp_moved bp_buf bp_off co_cur co_abs co_frames].
      rewrite (bp_consume_ok m p 1 Hi (size_fits_1 m)) in H2 by lia.
      injection H2 as H2. f_equal.
      * change (b :: ?l) with ([b] ++ l). rewrite <- H2.
        rewrite zslice_app; [reflexivity|..]; unfold bp_view_len, bp_offset, co_index in *; lia.
      * unfold bp_moved; cbn [bp_buf bp_off co_cur co_abs co_frames]. do 2 f_equal. lia.
    + exact Hm.
    + rewrite bp_moved_view, bp_moved_offset. lia.
Qed.

Lemma drain_fits m fuel : prog_fits m (drain fuel).
Proof.
  assert (Hb : forall A B (pg : prog A) (k : A -> prog B),
    prog_fits m pg -> (forall a, prog_fits m (k a)) -> prog_fits m (pbind pg k)).
  { intros A B pg k. induction pg as [a|e| | | |X o kk IH|X o kk IHk f IHf]; cbn [pbind prog_fits]; intros Hp Hk; auto.
    - destruct Hp; split; auto.
    - destruct Hp as (? & ? & ?); split; [|split]; auto. }
  induction fuel as [|fuel IH]; cbn [drain]; [exact I|].
  apply Hb; [split; [destruct m; exact I|split; intros; exact I]|]. intros [b|]; [|exact I].
  apply Hb; [exact IH|]. intros; exact I.
Qed.

Lemma byte_iter_yields_rest m buf p :
  zlen buf <= isize_max -> reaches m (byte_h m) (bp_from_buffer buf) p ->
  exists fuel p',
    run (byte_h m) (drain fuel) p = (ROk (zslice (bp_offset p) (bp_view_len p) buf), p') /\
    bp_offset p' = bp_view_len p /\ bp_view_len p' = bp_view_len p /\
    run (byte_h m) p_iter_next p' = (ROk None, p').
Proof.
  intros Hb Hr. destruct (bp_reaches_inv _ _ _ Hb Hr) as [Hi Hbuf].
  pose proof (co_inv_limit _ _ Hi) as HL.
  exists (S (Z.to_nat (bp_view_len p - bp_offset p))). eexists.
  rewrite (bp_drain m _ p Hi) by lia. rewrite Hbuf. split; [reflexivity|].
  rewrite bp_moved_offset, bp_moved_view. split; [lia|]. split; [reflexivity|].
  assert (Hm : bp_inv (bp_moved p (bp_view_len p - bp_offset p)))
    by (apply bp_moved_inv; [assumption|unfold bp_view_len, bp_offset, co_index in *; lia]).
  cbn [p_iter_next run byte_h].
  rewrite (bp_consume_byte_fail m _ Hm); [reflexivity|].
  rewrite bp_moved_offset, bp_moved_view. lia.
Qed.

Lemma memo_iter_yields_rest m buf p :
  zlen buf <= isize_max -> reaches m (memo_h m) (mp_from_buffer buf) p ->
  exists fuel p',
    run (memo_h m) (drain fuel) p = (ROk (zslice (mp_offset p) (mp_view_len p) buf), p') /\
    mp_offset p' = mp_view_len p /\ mp_view_len p' = mp_view_len p /\
    run (memo_h m) p_iter_next p' = (ROk None, p').
Proof.
  intros Hb Hr. destruct (reaches_memo _ _ _ Hb Hr) as (Hi & Hbuf & Hr').
  destruct (byte_iter_yields_rest m buf (mp_bp p) Hb Hr') as (fuel & q & H1 & H2 & H3 & H4).
  exists fuel. destruct (run (memo_h m) (drain fuel) p) as [r p'] eqn:E.
  destruct (mp_run m (drain fuel) p Hi (drain_fits m fuel) _ _ E) as [Hb' Hi'].
  rewrite Hb' in H1. injection H1 as -> <-. exists p'. split; [reflexivity|]. split; [exact H2|]. split; [exact H3|].
  assert (Hf : prog_fits m p_iter_next) by (split; [destruct m; exact I|split; intros; exact I]).
  destruct (run (memo_h m) p_iter_next p') as [r2 p2] eqn:E2.
  destruct (mp_run m p_iter_next p' (Hi' ltac:(discriminate)) Hf _ _ E2) as [Hb2 _].
  rewrite Hb2 in H4. injection H4 as -> Ebuf Eoff. f_equal. destruct p2 as [b2 o2 u2], p' as [b1 o1 u1].
  cbn [mp_buf mp_off mp_bp] in *. subst b2 o2. f_equal.
  cbn [p_iter_next run memo_h] in E2. unfold mp_consume_byte in E2. cbn [mp_buf mp_off mp_munches] in E2.
  destruct (co_advance m 1 o1) as [[[ix adv] off]| | | |]; try (injection E2 as <-; reflexivity); try discriminate E2.
  destruct adv.
  - unfold vb_get_byte, vb_get_byte_unchecked, rassert in E2. destruct (ix <=? zlen b1); cbn [rbind] in E2; [|discriminate E2].
    destruct (nth_error b1 (Z.to_nat ix)); cbn [run] in E2; discriminate E2.
  - destruct (rbind _ _); cbn [run] in E2; try discriminate E2. injection E2; congruence.
Qed.

Lemma slice_iter_yields_rest (s : list byte) rest :
  run slice_h (drain (S (length s))) (s :: rest) = (ROk s, [] :: rest) /\
  run slice_h p_iter_next ([] :: rest) = (ROk None, [] :: rest).
Proof.
  split; [|reflexivity].
  induction s as [|b s IH]; [reflexivity|].
  change (drain (S (length (b :: s)))) with
    (pbind p_iter_next (fun ob => match ob with
        | Some b => pbind (drain (S (length s))) (fun bs => PRet (b :: bs))
        | None => PRet [] end)).
  cbn [p_iter_next pbind run slice_h sp_consume_byte slb_cut_first].
  assert (Hrun : forall A B (pg : prog A) (f : A -> B) s0,
      run slice_h (pbind pg (fun a => PRet (f a))) s0 = match run slice_h pg s0 with
        | (ROk a, s') => (ROk (f a), s') | (RErr e, s') => (RErr e, s')
        | (RPanic, s') => (RPanic, s') | (RUB, s') => (RUB, s') | (RDiv, s') => (RDiv, s') end).
  { clear. intros A B pg f.
    induction pg as [a|e| | | |X o kk IH|X o kk IHk g IHg]; intros s; cbn [pbind run]; try reflexivity.
    - destruct (slice_h X o s) as [[] s']; auto.
    - destruct (slice_h X o s) as [[] s']; auto. }
  rewrite Hrun, IH. reflexivity.
Qed.

(** ** C45 *)

Lemma bp_error_numbers m buf p n :
  zlen buf <= isize_max -> reaches m (byte_h m) (bp_from_buffer buf) p -> size_fits m n ->
  exists rem, byte_h m Z OpRemainder p = (ROk rem, p) /\
  (forall e, fst (byte_h m _ (OpConsume n) p) = RErr e \/
             fst (byte_h m _ (OpSkipExactly n) p) = RErr e \/
             (n = 1 /\ fst (byte_h m _ OpConsumeByte p) = RErr e) ->
     e = EWindow (ConsumeWouldExceedLimit (bp_offset p) n (bp_view_len p)) /\
     bp_view_len p - bp_offset p = rem /\ rem < n) /\
  (forall r, fst (byte_h m unit OpEnforceTarget p) = RErr (EWindow (CloseWithResidue r)) ->
     r = rem /\ 0 < r) /\
  (forall e, fst (byte_h m unit (OpSetFit n) p) = RErr e -> rem < n).
Proof.
  intros Hb Hr Hn. destruct (bp_reaches_inv _ _ _ Hb Hr) as [Hi Hbuf].
  pose proof (co_inv_limit _ _ Hi) as HL. pose proof (size_fits_nonneg _ _ Hn).
  exists (bp_view_len p - bp_offset p). split; [apply bp_remainder_ok; exact Hi|].
  split; [|split].
  - intros e He.
    destruct (Z_le_gt_dec n (bp_view_len p - bp_offset p)) as [Hle|Hgt].
    + exfalso. destruct He as [He|[He|[-> He]]].
      * cbn [byte_h] in He. rewrite (bp_consume_ok m p n Hi Hn Hle) in He. discriminate.
      * destruct (bp_skip_is_consume m buf p n Hb Hr Hn) as [_ (r & p' & H1 & H2)].
        rewrite H2 in He. cbn [byte_h] in H1. rewrite (bp_consume_ok m p n Hi Hn Hle) in H1.
        injection H1 as <- <-. discriminate.
      * destruct (bp_consume_byte_ok m p Hi Hle) as (b & H1 & _). cbn [byte_h] in He.
        rewrite H1 in He; discriminate.
    + split; [|split; [reflexivity|lia]].
      destruct He as [He|[He|[-> He]]].
      * cbn [byte_h] in He. destruct (bp_consume_fail m p n Hi Hn) as [E|(_ & _ & E)]; [lia| |];
          rewrite E in He; [injection He as <-; reflexivity|discriminate].
      * destruct (bp_skip_is_consume m buf p n Hb Hr Hn) as [_ (r & p' & H1 & H2)].
        rewrite H2 in He. cbn [byte_h] in H1.
        destruct (bp_consume_fail m p n Hi Hn) as [E|(_ & _ & E)]; [lia| |];
          rewrite E in H1; injection H1 as <- <-; cbn in He; [injection He as <-; reflexivity|discriminate].
      * cbn [byte_h] in He. rewrite bp_consume_byte_fail in He;
          [injection He as <-; reflexivity|assumption|unfold bp_view_len, bp_offset, co_index in *; lia].
  - intros r Hr'. cbn [byte_h] in Hr'. unfold bp_enforce_target, co_enforce_target, co_index in Hr'.
    destruct (co_frames (bp_off p)) as [|t fs] eqn:Hf; [discriminate|].
    unfold bp_view_len, bp_offset, co_index, co_limit in *; rewrite Hf in *; cbn [fs_peek hd_error] in *.
    destruct (Z.compare_spec t (co_cur (bp_off p))); cbn [fst] in Hr'; try discriminate.
    injection Hr' as <-. lia.
  - intros e He. destruct (Z_le_gt_dec n (bp_view_len p - bp_offset p)) as [Hle|Hgt]; [|lia].
    cbn [byte_h] in He. rewrite bp_set_fit_ok in He by (auto; lia). discriminate.
Qed.

Lemma overflow_excess m :
  (forall p k, fst (byte_h m unit OpEnforceTarget p) = RErr (EWindow (OffsetOverflow k)) -> k = bp_offset p - bp_view_len p /\ 0 < k) /\
  (forall p k, fst (memo_h m unit OpEnforceTarget p) = RErr (EWindow (OffsetOverflow k)) -> k = mp_offset p - mp_view_len p /\ 0 < k) /\
  (forall p k, fst (slice_h unit OpEnforceTarget p) <> RErr (EWindow (OffsetOverflow k))).
Proof.
  split; [|split].
  - intros p k H. cbn [byte_h] in H. unfold bp_enforce_target, co_enforce_target, co_index in H. unfold bp_offset, bp_view_len, co_limit, co_index.
    destruct (co_frames (bp_off p)) as [|t fs]; [discriminate H|]. cbn [fs_peek hd_error].
    destruct (Z.compare_spec t (co_cur (bp_off p))); cbn [fst] in H; try discriminate H. injection H as <-. lia.
  - intros p k H. cbn [memo_h] in H. unfold mp_enforce_target, co_enforce_target, co_index in H. unfold mp_offset, mp_view_len, co_limit, co_index.
    destruct (co_frames (mp_off p)) as [|t fs]; [discriminate H|]. cbn [fs_peek hd_error].
    destruct (Z.compare_spec t (co_cur (mp_off p))); cbn [fst] in H; try discriminate H. injection H as <-. lia.
  - intros p k H. cbn [slice_h] in H. unfold sp_enforce_target in H. destruct p as [|fr [|fr2 rest]]; try discriminate H; destruct fr; discriminate H.
Qed.

Lemma overflow_asking m :
  (forall p k, fst (byte_h m bool OpTestTarget p) = RErr (EWindow (OffsetOverflow k)) -> k = bp_offset p - bp_view_len p /\ 0 < k) /\
  (forall p k, fst (memo_h m bool OpTestTarget p) = RErr (EWindow (OffsetOverflow k)) -> k = mp_offset p - mp_view_len p /\ 0 < k) /\
  (forall p k, fst (slice_h bool OpTestTarget p) <> RErr (EWindow (OffsetOverflow k))).
Proof.
  split; [|split].
  - intros p k H. cbn [byte_h] in H. unfold bp_test_target, co_test_target, co_index in H. unfold bp_offset, bp_view_len, co_limit, co_index.
    destruct (co_frames (bp_off p)) as [|t fs]; [discriminate H|]. cbn [fs_peek hd_error] in *.
    destruct (Z.compare_spec t (co_cur (bp_off p))); cbn [fst] in H; try discriminate H. injection H as <-. lia.
  - intros p k H. cbn [memo_h] in H. unfold mp_test_target, co_test_target, co_index in H. unfold mp_offset, mp_view_len, co_limit, co_index.
    destruct (co_frames (mp_off p)) as [|t fs]; [discriminate H|]. cbn [fs_peek hd_error] in *.
    destruct (Z.compare_spec t (co_cur (mp_off p))); cbn [fst] in H; try discriminate H. injection H as <-. lia.
  - intros p k H. cbn [slice_h] in H. unfold sp_test_target in H.
    repeat match goal with H : context [match ?x with _ => _ end] |- _ => destruct x; try discriminate H end.
Qed.

Lemma sp_error_numbers (p : slice_parser) n :
  (forall e, fst (slice_h _ (OpConsume n) p) = RErr e \/
             fst (slice_h _ (OpSkipExactly n) p) = RErr e \/
             (n = 1 /\ fst (slice_h _ OpConsumeByte p) = RErr e) ->
     e = EWindow (ConsumeWouldExceedLimit 0 n (sp_remainder p)) /\
     (p <> [] -> sp_remainder p < n)) /\
  (forall r, fst (slice_h unit OpEnforceTarget p) = RErr (EWindow (CloseWithResidue r)) ->
     r = sp_remainder p /\ 0 < r) /\
  (forall e, p <> [] -> fst (slice_h unit (OpSetFit n) p) = RErr e ->
     e = EWindow (OpenWouldExceedWindow (sp_remainder p) n) /\ sp_remainder p < n) /\
  (forall e, p = [] -> fst (slice_h unit (OpSetFit n) p) = RErr e ->
     e = EWindow (OpenWouldExceedBuffer 0 n) /\ n <> 0).
Proof.
  destruct p as [|f p]; cbn [slice_h].
  - split; [|split; [|split]].
    + intros e [He|[He|[-> He]]]; cbn in He; injection He as <-; split; auto; congruence.
    + intros r He; discriminate.
    + congruence.
    + intros e _ He. cbn [sp_set_fit] in He. bcase (n =? 0); [discriminate|]. injection He as <-. auto.
  - unfold sp_remainder, sp_view_len. split; [|split; [|split; [|discriminate]]].
    + intros e [He|[He|[-> He]]].
      * unfold sp_consume, slb_take_unchecked in He. bcase (n <=? zlen f); [discriminate|].
        injection He as <-. auto.
      * unfold sp_skip_exactly, slb_split_unchecked in He. bcase (n <=? zlen f); [discriminate|].
        injection He as <-. auto.
      * destruct f; [injection He as <-|discriminate]. cbn. split; [reflexivity|lia].
    + cbn. intros r He. bcase (zlen f =? 0); [discriminate|]. injection He as <-.
      pose proof (zlen_nonneg f). lia.
    + intros e _ He. unfold sp_set_fit, slb_split_unchecked in He.
      bcase (n <=? zlen f); [discriminate|]. injection He as <-. auto.
Qed.

(** ** C47 *)

Lemma vb_get_slice_spec {E} m ix n buf :
  zlen buf <= isize_max -> 0 <= ix -> 0 <= n -> ix + n < usize_mod ->
  @vb_get_slice E m ix n buf =
    (if ix + n <=? zlen buf then ROk (zslice ix (ix + n) buf) else RPanic).
Proof.
  intros Hb Hi Hn Ho. bcase (ix + n <=? zlen buf).
  - apply vb_get_slice_ok; lia.
  - unfold vb_get_slice. rewrite uadd_ok by lia. cbn [rbind]. unfold rassert.
    bcase (ix + n <=? zlen buf); [lia|reflexivity].
Qed.

Lemma vb_get_slice_debug {E} ix n buf :
  zlen buf <= isize_max -> is_usize ix -> is_usize n ->
  @vb_get_slice E Debug ix n buf =
    (if ix + n <=? zlen buf then ROk (zslice ix (ix + n) buf) else RPanic).
Proof.
  intros Hb Hi Hn. unfold is_usize in *. pose proof isize_max_lt.
  destruct (Z_lt_ge_dec (ix + n) usize_mod).
  - apply vb_get_slice_spec; lia.
  - bcase (ix + n <=? zlen buf); [lia|]. unfold vb_get_slice, uadd.
    bcase (ix + n <? usize_mod); [lia|reflexivity].
Qed.

Lemma vb_get_byte_spec {E} ix buf :
  0 <= ix -> ix <> zlen buf ->
  @vb_get_byte E ix buf =
    match nth_error buf (Z.to_nat ix) with Some b => ROk b | None => RPanic end.
Proof.
  intros Hi Hne. unfold vb_get_byte, rassert, vb_get_byte_unchecked.
  bcase (ix <=? zlen buf); cbn [rbind].
  - destruct (vb_get_byte_ok (E:=E) ix buf) as (b & _ & Hb); [lia|]. rewrite Hb; reflexivity.
  - rewrite (proj2 (nth_error_None buf (Z.to_nat ix))); [reflexivity|]. unfold zlen in *; lia.
Qed.

Lemma slb_accessors {E} n buf :
  0 <= n ->
  @slb_split E n buf = (if n <=? zlen buf then ROk (ztake n buf, zdrop n buf) else RPanic) /\
  @slb_take E n buf = (if n <=? zlen buf then ROk (ztake n buf, zdrop n buf) else RPanic) /\
  slb_cut_first buf = (match buf with [] => None | b :: t => Some (b, t) end) /\
  @slb_cut_first_unchecked E buf = (match slb_cut_first buf with Some bt => ROk bt | None => RUB end).
Proof.
  intros Hn. unfold slb_split, slb_take, slb_split_unchecked, slb_take_unchecked, rassert, slb_cut_first, slb_cut_first_unchecked.
  destruct (n <=? zlen buf), buf; auto.
Qed.

(** ** C32, program level *)

Lemma outcome_agrees {P A} m inv alpha (ideal : pres A * wstack) (real : pres A * P) :
  fst ideal <> RUB -> outcome_rel m inv alpha ideal real -> agrees_with m (fst ideal) (fst real).
Proof.
  unfold outcome_rel, agrees_with. destruct ideal as [[a|e| | |] w]; cbn [fst]; intros Hub H.
  - destruct H as [-> _]. left; reflexivity.
  - destruct H as [[e' ->]|[-> ->]]; [left; exact I|right; eauto].
  - rewrite H. left; exact I.
  - congruence.
  - rewrite H. left; exact I.
Qed.

Lemma parsers_agree m buf {A} (pg : prog A) :
  zlen buf <= isize_max -> try_bytes_only pg -> fst (run contract_h pg (w_init buf)) <> RUB ->
  agrees_with m (fst (run contract_h pg (w_init buf))) (fst (run (byte_h m) pg (bp_from_buffer buf))) /\
  agrees_with m (fst (run contract_h pg (w_init buf))) (fst (run (memo_h m) pg (mp_from_buffer buf))) /\
  agrees_with m (fst (run contract_h pg (w_init buf))) (fst (run slice_h pg (sp_from_buffer buf))).
Proof.
  intros Hb Ht Hub. split; [|split].
  - eapply outcome_agrees; [exact Hub|]. rewrite <- bp_init_alpha.
    eapply run_refines; [apply byte_refines|apply bp_init_inv; exact Hb|exact Ht].
  - eapply outcome_agrees; [exact Hub|]. rewrite <- bp_init_alpha.
    change (bp_from_buffer buf) with (mp_bp (mp_from_buffer buf)).
    apply (run_refines m (memo_h m) mp_inv (fun p => bp_alpha (mp_bp p)) (memo_refines m));
      [apply mp_init_inv; exact Hb|exact Ht].
  - eapply outcome_agrees; [exact Hub|]. change (w_init buf) with (sp_alpha (sp_from_buffer buf)).
    eapply run_refines; [apply slice_refines| |exact Ht]. discriminate.
Qed.

(** C07 in terms of the specification. *)
Lemma bp_test_exact m buf ops p w :
  zlen buf <= isize_max -> Forall (arg_fits m) ops ->
  after (byte_h m) ops (bp_from_buffer buf) = Some p ->
  after (spec_h Merge) ops (w_init buf) = Some w ->
  exists b, byte_h m bool OpTestTarget p = (ROk b, p) /\
            (b = true <-> w_outer w <> [] /\ w_cur w = []) /\
            (b = true <-> fst (byte_h m unit OpEnforceTarget p) = ROk tt).
Proof.
  intros Hb Ha Hp Hw.
  assert (Hr : reaches m (byte_h m) (bp_from_buffer buf) p) by (exists ops; auto).
  destruct (bp_test_predicts m buf p Hb Hr) as (b & H1 & H2).
  destruct (bp_enforce_cases m buf ops p w Hb Ha Hp Hw) as (_ & C1 & C2 & C3).
  exists b. split; [exact H1|]. split; [|exact H2].
  rewrite H2. destruct (w_outer w) as [|nx rs] eqn:Ho.
  - rewrite C1 by reflexivity. split; [discriminate|]. intros [H _]; congruence.
  - destruct (w_cur w) as [|c cs] eqn:Hc.
    + destruct (C3 nx rs eq_refl eq_refl) as (p' & E & _). rewrite E. split; auto.
      intros _; split; [discriminate|reflexivity].
    + rewrite C2 by discriminate. split; [discriminate|]. intros [_ H]; discriminate.
Qed.

(** C01 for SliceParser. *)
Lemma sp_consume_exact s rest n :
  0 <= n ->
  slice_h Z OpRemainder (s :: rest) = (ROk (zlen s), s :: rest) /\
  (n <= zlen s -> slice_h _ (OpConsume n) (s :: rest) = (ROk (ztake n s), zdrop n s :: rest)) /\
  (zlen s < n -> exists e, slice_h _ (OpConsume n) (s :: rest) = (RErr e, s :: rest)) /\
  (forall b t, s = b :: t -> slice_h _ OpConsumeByte (s :: rest) = (ROk b, t :: rest)) /\
  (s = [] -> exists e, slice_h _ OpConsumeByte (s :: rest) = (RErr e, s :: rest)).
Proof.
  intros Hn. cbn [slice_h]. unfold sp_consume, slb_take_unchecked, sp_consume_byte, slb_cut_first.
  split; [reflexivity|]. split; [|split; [|split]].
  - intros H. bcase (n <=? zlen s); [reflexivity|lia].
  - intros H. bcase (n <=? zlen s); [lia|]. eauto.
  - intros b t ->. reflexivity.
  - intros ->. eauto.
Qed.
