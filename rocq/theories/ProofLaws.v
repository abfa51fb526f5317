(** The parsers keep the laws of the trait. *)
From Verif Require Import Base BaseLemmas ModelErrors ModelParser SpecParser SpecLaws ProofParser ProofParserSim
  ProofParserProps ProofParserMisc.
From Coq Require Import ZifyBool Sorted.
Local Open Scope Z_scope. Local Open Scope list_scope.

Lemma bp_laws m p : bp_inv p ->
  reading_laws (byte_h m) bp_view_len bp_offset (fun p => List.length (co_frames (bp_off p))) (size_fits m) p /\
  window_laws (byte_h m) bp_view_len bp_offset (fun p => List.length (co_frames (bp_off p))) p.
Proof.
  intros Hi. pose proof (co_inv_limit _ _ Hi) as HL.
  assert (HV : bp_view_len p = co_limit (bp_off p)) by reflexivity.
  assert (HO : bp_offset p = co_cur (bp_off p)) by reflexivity.
  split; [repeat apply conj|apply conj].
  - apply bp_remainder_ok, Hi.
  - rewrite HO. lia.
  - rewrite HO, HV. lia.
  - intros n Hn. unfold remaining. pose proof (size_fits_nonneg _ _ Hn). destruct (Z.leb_spec n (bp_view_len p - bp_offset p)).
    + do 2 eexists. split; [apply bp_consume_ok; assumption|]. rewrite bp_moved_view, bp_moved_offset. rewrite zlen_zslice by lia.
      split; [lia|]. split; [lia|]. split; [reflexivity|]. right. reflexivity.
    + destruct (bp_consume_fail m p n Hi Hn) as [E|(_ & _ & E)]; [lia|left; eexists; exact E|right; cbn [byte_h]; rewrite E; reflexivity].
  - unfold consume_byte_law, remaining. cbn [byte_h]. assert (bp_view_len p - bp_offset p = 0 \/ 1 <= bp_view_len p - bp_offset p) as [H|H] by lia.
    + rewrite (bp_consume_byte_fail m p Hi H). split; [|exact H].
      destruct (bp_consume_fail m p 1 Hi (size_fits_1 m)) as [E|(_ & E & _)]; [lia|exact E|].
      assert (1 <= isize_max) by discriminate. lia.
    + destruct (bp_consume_byte_ok m p Hi H) as (b & E & E'). rewrite E. auto.
  - intros n Hn. unfold remaining. pose proof (size_fits_nonneg _ _ Hn). destruct (Z.leb_spec n (bp_view_len p - bp_offset p)).
    + eexists. split; [apply bp_set_fit_ok; [exact Hi|lia]|]. split; [|split; reflexivity].
      unfold bp_view_len, bp_offset, co_index; cbn. lia.
    + destruct (bp_set_fit_fail m p n Hi Hn) as [E|[_ E]]; [lia|left; exact E|right; exact E].
  - unfold enforce_target_law, remaining. rewrite HV, HO. cbn [byte_h]. unfold bp_enforce_target, co_enforce_target, co_index.
    destruct (co_frames (bp_off p)) as [|t fs] eqn:Hf; cbn [List.length].
    + destruct p; reflexivity.
    + destruct (tgt_pos _ _ _ _ Hi Hf) as [_ Hle]. unfold co_limit. rewrite Hf. cbn [fs_peek hd_error].
      destruct (Z.compare_spec t (co_cur (bp_off p))); [|lia|].
      * replace (t - co_cur (bp_off p) =? 0) with true by lia. eexists. split; [reflexivity|]. split; reflexivity.
      * replace (t - co_cur (bp_off p) =? 0) with false by lia. reflexivity.
  - unfold test_target_law, remaining. rewrite HV, HO. cbn [byte_h]. unfold bp_test_target, co_test_target, bp_enforce_target, co_enforce_target, co_index, co_limit.
    destruct (co_frames (bp_off p)) as [|t fs] eqn:Hf; cbn [List.length fs_peek hd_error].
    + exists false. split; [reflexivity|]. split; split; try discriminate. intros [H _]. congruence.
    + destruct (tgt_pos _ _ _ _ Hi Hf) as [_ Hle].
      destruct (Z.compare_spec t (co_cur (bp_off p))); [|lia|]; cbn [fst].
      * exists true. split; [reflexivity|]. split; [|tauto]. split; [split; [congruence|lia]|reflexivity].
      * exists false. split; [reflexivity|]. split; split; try discriminate. intros [_ H']. lia.
Qed.
Theorem byte_laws m buf : zlen buf <= isize_max ->
  fresh_law (byte_h m) bp_view_len bp_offset (fun p => List.length (co_frames (bp_off p))) (bp_from_buffer buf) buf /\
  forall p, reaches m (byte_h m) (bp_from_buffer buf) p ->
    reading_laws (byte_h m) bp_view_len bp_offset (fun p => List.length (co_frames (bp_off p))) (size_fits m) p /\
    window_laws (byte_h m) bp_view_len bp_offset (fun p => List.length (co_frames (bp_off p))) p.
Proof.
  intros HL. split.
  - repeat split. etransitivity; [apply bp_remainder_ok, bp_init_inv, HL|]. unfold bp_view_len, bp_offset, bp_from_buffer, co_with_limit, co_limit, co_index. cbn. do 2 f_equal. lia.
  - intros p Hr. apply bp_laws. exact (proj1 (bp_reaches_inv _ _ _ HL Hr)).
Qed.

(** MemoParser, by way of ByteParser. *)
Lemma fits_op m n : size_fits m n -> arg_fits m (AnyOp (OpConsume n)).
Proof. destruct m; exact (fun H => H). Qed.
Lemma fits_op' m n : size_fits m n -> arg_fits m (AnyOp (OpSetFit n)).
Proof. destruct m; exact (fun H => H). Qed.
Lemma mp_same m {X : Set} (o : pop X) p : mp_inv p -> arg_fits m (AnyOp o) ->
  byte_h m X o (mp_bp p) = (fst (memo_h m X o p), mp_bp (snd (memo_h m X o p))).
Proof. intros Hi Ha. destruct (memo_h m X o p) as [r p'] eqn:E. apply (mp_step m o p Hi Ha r p' E). Qed.
Lemma mp_refused {X : Set} m (o : pop X) p : (match o with OpConsume _ | OpSetFit _ => True | _ => False end) -> mp_inv p ->
  arg_fits m (AnyOp o) -> refused (byte_h m) o (mp_bp p) -> refused (memo_h m) o p.
Proof.
  intros Ho Hi Ha H. pose proof (mp_same m o p Hi Ha) as E. destruct H as [[e H]|H].
  - rewrite H in E. apply pair_equal_spec in E. destruct E as [E Es]. left. exists e. destruct (memo_h m X o p) as [r q] eqn:Em. cbn [fst snd] in E, Es.
    subst r. f_equal. destruct p as [b o' mu], q as [b' o'' mu']. unfold mp_bp in Es. cbn [mp_buf mp_off] in Es. injection Es as <- <-. f_equal.
    destruct o; try contradiction Ho; cbn [memo_h] in Em.
    + unfold mp_consume in Em. destruct (co_advance m n _) as [[[ix [|]] off]| | | |]; try discriminate Em.
      * unfold vb_get_slice_unchecked in Em. injection Em as Em _ _ . exfalso. revert Em.
        unfold uadd. destruct (ix + n <? usize_mod); [|destruct m]; cbn [rbind]; try discriminate;
        match goal with |- context [if ?c then _ else _] => destruct c end; discriminate.
      * injection Em as _ _ Em. symmetry; exact Em.
    + unfold mp_set_fit in Em. destruct (co_set_fit m n _) as [r off]. injection Em as _ _ Em. symmetry; exact Em.
  - right. rewrite E in H. exact H.
Qed.
Lemma advance_stays {E} m n o ix off : @co_advance E m n o = ROk (ix, false, off) -> off = o.
Proof.
  unfold co_advance, increment_checked, uadd. destruct o as [a fs c]. cbn [co_cur co_abs co_frames].
  destruct (c + n <? usize_mod); [|destruct m]; cbn [rbind rmap]; try discriminate;
    match goal with |- context [if ?x <=? ?y then _ else _] => destruct (x <=? y) end; cbn [rbind rmap]; congruence.
Qed.
Lemma mp_laws m p : mp_inv p ->
  reading_laws (memo_h m) mp_view_len mp_offset (fun p => List.length (co_frames (mp_off p))) (size_fits m) p /\
  window_laws (memo_h m) mp_view_len mp_offset (fun p => List.length (co_frames (mp_off p))) p.
Proof.
  intros Hi. destruct (bp_laws m (mp_bp p) (proj1 Hi)) as [((H1 & H1') & H2 & H3 & H4) [H5 H6]].
  split; [repeat apply conj|apply conj].
  - pose proof (mp_same m OpRemainder p Hi ltac:(destruct m; exact I)) as E. rewrite H1 in E. cbn [memo_h fst snd] in *. injection E as E. rewrite <- E. reflexivity.
  - apply H1'.
  - apply H1'.
  - intros n Hn. specialize (H2 n Hn). change (remaining mp_view_len mp_offset p) with (remaining bp_view_len bp_offset (mp_bp p)). destruct (n <=? _).
    + destruct H2 as (bs & q & E & H2). rewrite (mp_same m (OpConsume n) p Hi (fits_op m n Hn)) in E. apply pair_equal_spec in E. destruct E as [E Eq]. subst q.
      destruct (memo_h m _ (OpConsume n) p) as [r q]. cbn [fst snd] in *. subst r. exists bs, q. split; [reflexivity|exact H2].
    + apply mp_refused; [exact I|exact Hi|apply fits_op, Hn|exact H2].
  - unfold consume_byte_law in *. cbn [byte_h memo_h] in *. change (remaining mp_view_len mp_offset p) with (remaining bp_view_len bp_offset (mp_bp p)).
    unfold mp_consume_byte, mp_consume, bp_consume_byte, bp_consume in *. unfold mp_bp in H3. cbn [bp_buf bp_off] in H3.
    destruct (@co_advance parse_error m 1 (mp_off p)) as [[[ix [|]] off]| | | |] eqn:Ea; try exact H3.
    + destruct (vb_get_byte ix (mp_buf p)) as [b|e| | |]; try contradiction H3.
      * destruct H3 as [E H3]. split; [|exact H3]. injection E as E. rewrite E. reflexivity.
      * destruct H3 as [E H3]. split; [|exact H3]. injection E as E. rewrite E. reflexivity.
    + apply advance_stays in Ea. subst off. assert (Hi' : mp_inv (mkMP (mp_buf p) (mp_off p) (mp_munches p))) by exact Hi.
      destruct (@mp_dump_ok parse_error m _ Hi') as [sv ->]. cbn [rbind]. split; [reflexivity|apply H3].
  - intros n Hn. specialize (H4 n Hn). change (remaining mp_view_len mp_offset p) with (remaining bp_view_len bp_offset (mp_bp p)). destruct (n <=? _).
    + destruct H4 as (q & E & H4). rewrite (mp_same m (OpSetFit n) p Hi (fits_op' m n Hn)) in E. apply pair_equal_spec in E. destruct E as [E Eq]. subst q.
      destruct (memo_h m _ (OpSetFit n) p) as [r q]. cbn [fst snd] in *. subst r. exists q. split; [reflexivity|exact H4].
    + apply mp_refused; [exact I|exact Hi|apply fits_op', Hn|exact H4].
  - unfold enforce_target_law in *. change (remaining mp_view_len mp_offset p) with (remaining bp_view_len bp_offset (mp_bp p)).
    cbn [byte_h memo_h] in *. unfold bp_enforce_target, mp_enforce_target, mp_bp in *. cbn [bp_off bp_buf] in *.
    destruct (co_enforce_target (mp_off p)) as [r off]. destruct (List.length (co_frames (mp_off p))) as [|k].
    + injection H5 as -> ->. destruct p; reflexivity.
    + destruct (_ =? 0); [|exact H5]. destruct H5 as (q & E & H5). apply pair_equal_spec in E. destruct E as [-> <-]. eexists. split; [reflexivity|exact H5].
  - unfold test_target_law in *. destruct H6 as (b & E & H6). exists b.
    cbn [byte_h memo_h] in *. unfold bp_test_target, mp_test_target, bp_enforce_target, mp_enforce_target, mp_bp in *. cbn [bp_off bp_buf] in *.
    destruct (co_enforce_target (mp_off p)) as [r off]. apply pair_equal_spec in E. destruct E as [-> _]. split; [reflexivity|exact H6].
Qed.
Theorem memo_laws m buf : zlen buf <= isize_max ->
  fresh_law (memo_h m) mp_view_len mp_offset (fun p => List.length (co_frames (mp_off p))) (mp_from_buffer buf) buf /\
  forall p, reaches m (memo_h m) (mp_from_buffer buf) p ->
    reading_laws (memo_h m) mp_view_len mp_offset (fun p => List.length (co_frames (mp_off p))) (size_fits m) p /\
    window_laws (memo_h m) mp_view_len mp_offset (fun p => List.length (co_frames (mp_off p))) p.
Proof.
  intros HL. split.
  - repeat split. unfold memo_h, mp_remainder, mp_view_len, mp_offset, mp_from_buffer, co_with_limit, co_limit, co_index. cbn.
    pose proof (zlen_nonneg buf). rewrite usub_ok by lia. do 2 f_equal. lia.
  - intros p Hr. apply mp_laws. exact (proj1 (reaches_memo _ _ _ HL Hr)).
Qed.

(** SliceParser: the frame that stands for the whole input is not a window of the caller's. *)
Lemma sp_laws frame rest (Q : Z -> Prop) : (forall n, Q n -> 0 <= n) ->
  reading_laws slice_h sp_view_len sp_offset (fun p => List.length (tl p)) Q (frame :: rest) /\
  (List.length rest <> O -> window_laws slice_h sp_view_len sp_offset (fun p => List.length (tl p)) (frame :: rest)).
Proof.
  intros HQ. pose proof (zlen_nonneg frame) as HF.
  assert (HR : remaining sp_view_len sp_offset (frame :: rest) = zlen frame) by (unfold remaining, sp_offset; cbn [sp_view_len]; lia).
  split; [repeat apply conj|intros Hr; apply conj].
  - rewrite HR. reflexivity.
  - unfold sp_offset. lia.
  - unfold sp_offset. cbn [sp_view_len]. lia.
  - intros n Hn. rewrite HR. apply HQ in Hn. cbn [slice_h]. unfold refused. cbn [slice_h]. unfold sp_consume, slb_take_unchecked. destruct (Z.leb_spec n (zlen frame)).
    + do 2 eexists. split; [reflexivity|]. rewrite zlen_ztake by lia. split; [reflexivity|]. split; [|split; [reflexivity|left; reflexivity]].
      unfold remaining, sp_offset. cbn [sp_view_len]. rewrite zlen_zdrop by lia. lia.
    + left. eexists. reflexivity.
  - unfold consume_byte_law. rewrite HR. cbn [slice_h]. unfold sp_consume_byte, sp_consume. destruct frame as [|b f]; cbn [slb_cut_first].
    + rewrite zlen_nil. auto.
    + rewrite zlen_cons in *. pose proof (zlen_nonneg f). unfold slb_take_unchecked. rewrite zlen_cons. replace (1 <=? 1 + zlen f) with true by lia.
      split; [reflexivity|lia].
  - intros n Hn. rewrite HR. apply HQ in Hn. unfold refused. cbn [slice_h]. unfold sp_set_fit, slb_split_unchecked. destruct (Z.leb_spec n (zlen frame)).
    + eexists. split; [reflexivity|]. split; [|split; reflexivity]. unfold remaining, sp_offset. cbn [sp_view_len]. rewrite zlen_ztake by lia. lia.
    + left. eexists. reflexivity.
  - unfold enforce_target_law. rewrite HR. cbn [tl slice_h sp_enforce_target]. destruct rest as [|r0 rest]; [elim Hr; reflexivity|]. cbn [List.length].
    destruct (zlen frame =? 0); [|reflexivity]. eexists. split; [reflexivity|]. split; reflexivity.
  - unfold test_target_law. rewrite HR. cbn [tl slice_h sp_enforce_target sp_test_target]. destruct rest as [|r0 rest]; [elim Hr; reflexivity|]. cbn [List.length].
    destruct frame as [|b f].
    + exists true. rewrite zlen_nil. repeat split; try reflexivity; congruence.
    + exists false. rewrite zlen_cons. pose proof (zlen_nonneg f). replace (1 + zlen f =? 0) with false by lia. cbn [fst].
      split; [reflexivity|]. split; split; try discriminate. intros [_ H']. lia.
Qed.
Theorem slice_laws buf :
  fresh_law slice_h sp_view_len sp_offset (fun p => List.length (tl p)) (sp_from_buffer buf) buf /\
  forall p, p <> [] ->
    reading_laws slice_h sp_view_len sp_offset (fun p => List.length (tl p)) (fun n => 0 <= n) p /\
    (List.length (tl p) <> O -> window_laws slice_h sp_view_len sp_offset (fun p => List.length (tl p)) p).
Proof.
  split; [repeat split|]. intros p Hp. destruct p as [|frame rest]; [congruence|]. apply sp_laws. auto.
Qed.

(** ** Where the laws fail *)
Theorem slice_test_law : exists buf p, reaches Debug slice_h (sp_from_buffer buf) p /\ List.length (tl p) = O /\ p <> [] /\
  ~ test_target_law slice_h sp_view_len sp_offset (fun p => List.length (tl p)) p.
Proof.
  exists [7], [[]]. split; [exists [AnyOp OpConsumeByte]; split; [repeat constructor|reflexivity]|]. split; [reflexivity|]. split; [discriminate|].
  intros (b & E & H & _). injection E as <-. destruct (proj1 H eq_refl) as [H' _]. apply H'. reflexivity.
Qed.
Theorem slice_consume_nothing : exists buf p, reaches Debug slice_h (sp_from_buffer buf) p /\
  slice_h Z OpRemainder p = (ROk 0, p) /\
  (exists e, slice_h _ (OpConsume 0) p = (RErr e, p)) /\
  slice_h _ (OpSetFit 0) p = (ROk tt, p).
Proof.
  exists [], []. split; [exists [AnyOp OpEnforceTarget]; split; [repeat constructor|reflexivity]|]. split; [reflexivity|].
  split; [eexists; reflexivity|reflexivity].
Qed.
Theorem release_consume_law : exists buf p, zlen buf <= isize_max /\ reaches Release (byte_h Release) (bp_from_buffer buf) p /\
  ~ consume_law (byte_h Release) bp_view_len bp_offset (fun p => List.length (co_frames (bp_off p))) is_usize p.
Proof.
  exists [1; 2], (mkBP [1; 2] (mkCO 2 [] 1)). split; [discriminate|]. split; [exists [AnyOp OpConsumeByte]; split; [repeat constructor|reflexivity]|].
  intros H. specialize (H (usize_mod - 1)). destruct H as [[e H]|H]; [split; [discriminate|reflexivity]|discriminate H|discriminate H].
Qed.

(** ** The frames (offset.rs 215-216): the innermost ends first, none before the
    offset nor after the end of the buffer *)
Lemma asc_sorted l : forall i, asc i l -> Sorted Z.le l /\ Forall (Z.le i) l.
Proof.
  induction l as [|x l IH]; cbn [asc]; intros i H; [split; constructor|]. destruct H as [H1 H2]. destruct (IH x H2) as [HS HF]. split.
  - constructor; [exact HS|]. destruct l; constructor. apply Forall_cons_iff in HF. apply HF.
  - constructor; [exact H1|]. eapply Forall_impl; [|exact HF]. intros y Hy. cbv beta in *. lia.
Qed.
Lemma asc_front l a : forall i, asc i (l ++ [a]) -> asc i l /\ Forall (fun t => t <= a) l.
Proof.
  induction l as [|x l IH]; cbn [app asc]; intros i H; [split; [exact I|constructor]|]. destruct H as [H1 H2].
  destruct (IH x H2) as [HS HF]. apply asc_last in H2. repeat split; try assumption. constructor; assumption.
Qed.
Lemma frames_of buf o : co_inv buf o -> Sorted Z.le (co_frames o) /\ Forall (fun t => co_cur o <= t <= zlen buf) (co_frames o).
Proof.
  intros (_ & Ha & _ & H). unfold bp_bounds in H. rewrite Ha in H. apply asc_front in H. destruct H as [H HF].
  apply asc_sorted in H. destruct H as [HS HF']. split; [exact HS|]. rewrite Forall_forall in *. intros t Ht. split; [apply HF'|apply HF]; exact Ht.
Qed.
Theorem frames_sorted m buf : zlen buf <= isize_max ->
  (forall p, reaches m (byte_h m) (bp_from_buffer buf) p ->
     Sorted Z.le (co_frames (bp_off p)) /\ Forall (fun t => bp_offset p <= t <= zlen buf) (co_frames (bp_off p))) /\
  (forall p, reaches m (memo_h m) (mp_from_buffer buf) p ->
     Sorted Z.le (co_frames (mp_off p)) /\ Forall (fun t => mp_offset p <= t <= zlen buf) (co_frames (mp_off p))).
Proof.
  intros HL. split; intros p Hr.
  - destruct (bp_reaches_inv _ _ _ HL Hr) as [Hi E]. rewrite <- E. apply frames_of. exact Hi.
  - destruct (reaches_memo _ _ _ HL Hr) as (_ & Hb & Hr'). destruct (bp_reaches_inv _ _ _ HL Hr') as [Hi E]. rewrite <- E.
    exact (frames_of _ _ Hi).
Qed.

(** The frames of a SliceParser, the innermost first, are what is left of the input. *)
Theorem slice_frames_left m buf p : reaches m slice_h (sp_from_buffer buf) p -> exists before, buf = before ++ concat p.
Proof.
  intros (ops & _ & H). assert (H0 : exists before, buf = before ++ concat (sp_from_buffer buf)) by (exists []; cbn; rewrite app_nil_r; reflexivity).
  revert H0 H. generalize (sp_from_buffer buf). induction ops as [|[X o] ops IH]; cbn [after]; intros q Hq H.
  - injection H as <-. exact Hq.
  - assert (Hs : exists before, buf = before ++ concat (snd (slice_h X o q))).
    { destruct Hq as [bs Hq].
      destruct o, q as [|f q]; cbn [slice_h];
        unfold sp_consume_byte, sp_consume, sp_set_fit, sp_test_target, sp_enforce_target, sp_skip,
          sp_skip_exactly, slb_take_unchecked, slb_split_unchecked, slb_cut_first; try (exists bs; exact Hq); cbn [concat] in Hq.
      - destruct f as [|b f]; [exists bs; exact Hq|]. cbn [snd concat]. exists (bs ++ [b]). rewrite Hq, <- app_assoc. reflexivity.
      - destruct (n <=? zlen f); cbn [snd concat]; [|exists bs; exact Hq]. exists (bs ++ ztake n f).
        rewrite Hq, <- app_assoc, (app_assoc (ztake n f)), ztake_zdrop. reflexivity.
      - destruct (n =? 0); exists bs; exact Hq.
      - destruct (n <=? zlen f); cbn [snd concat]; [|exists bs; exact Hq]. exists bs. rewrite Hq, (app_assoc (ztake n f)), ztake_zdrop. reflexivity.
      - cbn [snd]. exists (bs ++ f). rewrite Hq, <- app_assoc. reflexivity.
      - destruct (Z.min (zlen f) n <=? zlen f); cbn [snd concat]; [|exists bs; exact Hq]. exists (bs ++ ztake (Z.min (zlen f) n) f).
        rewrite Hq, <- app_assoc, (app_assoc (ztake _ f)), ztake_zdrop. reflexivity.
      - destruct (n <=? zlen f); cbn [snd concat]; [|exists bs; exact Hq]. exists (bs ++ ztake n f).
        rewrite Hq, <- app_assoc, (app_assoc (ztake _ f)), ztake_zdrop. reflexivity. }
    destruct (slice_h X o q) as [r q']. cbn [snd] in Hs. destruct r; try discriminate H; eapply IH; eassumption.
Qed.
