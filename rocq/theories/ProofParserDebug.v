(** Proofs about the [{:?}] texts of parsers and builders. *)
From Coq Require Import String.
From Verif Require Import Base BaseLemmas ModelErrors ModelHex ModelParser ModelSplitVec ModelDisplay ModelDebug ModelSplitText ModelErrDebug ModelTarget ModelParserDebug.
From Verif Require Import SpecHex SpecSplitVec SpecParser SpecLeftover SpecDisplay SpecDebug SpecParserDebug
  ProofHex ProofDisplay ProofSplitVec ProofLeftover ProofDebug ProofErrDebug.
From Coq Require Import ZifyBool.

(** ** The texts *)
Ltac names := unfold byte_parser_debug, memo_parser_debug, slice_parser_debug, memo_buffer_debug, offset_debug, index_debug, frames_debug, vec_buffer_debug.
Lemma offset_says o : offset_text o (offset_debug o).
Proof.
  destruct o as [a f c]. names. cbn [co_abs co_frames co_cur]. plain_text. join_txt.
  apply offset_fields; try apply show_int_decimal. apply list_says.
Qed.
Lemma byte_parser_says p : byte_parser_text p (byte_parser_debug p).
Proof.
  destruct p as [b o]. unfold byte_parser_debug, vec_buffer_debug. cbn [bp_buf bp_off]. plain_text. join_txt.
  apply byte_parser_fields; [apply list_says|apply offset_says].
Qed.
Lemma memo_parser_says p : memo_parser_text p (memo_parser_debug p).
Proof.
  destruct p as [b o m]. unfold memo_parser_debug, vec_buffer_debug. cbn [mp_buf mp_off mp_munches]. plain_text. join_txt.
  apply memo_parser_fields; [apply list_says|apply offset_says|apply list_says].
Qed.
Lemma slice_parser_says p : slice_parser_text p (slice_parser_debug p).
Proof.
  unfold slice_parser_debug, views_debug. plain_text. join_txt.
  unfold debug_list. rewrite join_commas. fold (list_text (map slice_buffer_debug (rev p))). apply slice_parser_fields.
  induction (rev p) as [|v vs IH]; constructor; [|exact IH]. exists (debug_list (map show_int v)). split; [apply list_says|].
  unfold slice_buffer_debug. plain_text. join_txt. reflexivity.
Qed.

(** ** Equal texts *)
Ltac number E := apply int_tells in E; [|exact I|exact I|reflexivity|reflexivity]; destruct E as [-> E].
Lemma offset_tells o o' r r' : offset_debug o ++ r = offset_debug o' ++ r' -> o = o' /\ r = r'.
Proof.
  destruct o as [a f c], o' as [a' f' c']. names. cbn [co_abs co_frames co_cur]. plain_text. join_txt. intros E.
  peel E. number E. peel E. apply list_tells in E as [F E]. apply (f_equal (@rev Z)) in F. rewrite !rev_involutive in F. subst f'.
  peel E. number E. peel E. auto.
Qed.
Lemma byte_parser_tells p p' : byte_parser_debug p = byte_parser_debug p' -> p = p'.
Proof.
  destruct p as [b o], p' as [b' o']. unfold byte_parser_debug, vec_buffer_debug. cbn [bp_buf bp_off]. plain_text. join_txt. intros E.
  peel E. apply list_tells in E as [-> E]. peel E. apply offset_tells in E as [-> _]. reflexivity.
Qed.
Lemma memo_parser_tells p p' : memo_parser_debug p = memo_parser_debug p' -> p = p'.
Proof.
  destruct p as [b o m], p' as [b' o' m']. unfold memo_parser_debug, vec_buffer_debug. cbn [mp_buf mp_off mp_munches]. plain_text. join_txt. intros E.
  peel E. apply list_tells in E as [-> E]. peel E. apply offset_tells in E as [-> E]. peel E. apply list_tells in E as [-> _]. reflexivity.
Qed.
Lemma view_tells v v' r r' : slice_buffer_debug v ++ r = slice_buffer_debug v' ++ r' -> v = v' /\ r = r'.
Proof.
  unfold slice_buffer_debug. plain_text. join_txt. intros E. peel E. apply list_tells in E as [-> E]. peel E. auto.
Qed.
Lemma views_more l : forall l' r r', join_more (map slice_buffer_debug l) ++ 93 :: r = join_more (map slice_buffer_debug l') ++ 93 :: r' -> l = l'.
Proof.
  induction l as [|z l IH]; intros [|z' l'] r r' E; cbn [map join_more app] in E; try reflexivity.
  - exfalso. change (txt ", ") with [44; 32] in E. discriminate E.
  - exfalso. change (txt ", ") with [44; 32] in E. discriminate E.
  - rewrite <- !app_assoc in E. apply app_inv_head in E. apply view_tells in E as [-> E]. f_equal. exact (IH _ _ _ E).
Qed.
Lemma slice_parser_tells (p p' : slice_parser) : slice_parser_debug p = slice_parser_debug p' -> p = p'.
Proof.
  unfold slice_parser_debug, views_debug. plain_text. join_txt. intros E. peel E.
  unfold debug_list in E. rewrite <- !app_assoc in E. peel E. change (txt "]" ++ txt " }") with (93 :: txt " }") in E.
  rewrite <- (rev_involutive p), <- (rev_involutive p'). f_equal.
  destruct (rev p) as [|v l], (rev p') as [|v' l']; cbn [map join app] in E; try reflexivity.
  - exfalso. unfold slice_buffer_debug in E. revert E. plain_text. join_txt. intros E. differ E.
  - exfalso. unfold slice_buffer_debug in E. revert E. plain_text. join_txt. intros E. differ E.
  - rewrite <- !app_assoc in E. apply view_tells in E as [-> E]. f_equal. exact (views_more _ _ _ _ E).
Qed.
Lemma kinds_differ p q w : byte_parser_debug p <> memo_parser_debug q /\ byte_parser_debug p <> slice_parser_debug w /\ memo_parser_debug q <> slice_parser_debug w.
Proof.
  unfold byte_parser_debug, memo_parser_debug, slice_parser_debug. plain_text. repeat split; intros E; differ E.
Qed.
Lemma parsers_tell :
  (forall p p', byte_parser_debug p = byte_parser_debug p' -> p = p') /\
  (forall p p', memo_parser_debug p = memo_parser_debug p' -> p = p') /\
  (forall p p' : slice_parser, slice_parser_debug p = slice_parser_debug p' -> p = p') /\
  (forall p q w, byte_parser_debug p <> memo_parser_debug q /\ byte_parser_debug p <> slice_parser_debug w /\ memo_parser_debug q <> slice_parser_debug w).
Proof. split; [exact byte_parser_tells|split; [exact memo_parser_tells|split; [exact slice_parser_tells|exact kinds_differ]]]. Qed.
Lemma parsers_say :
  (forall p, byte_parser_text p (byte_parser_debug p)) /\ (forall p, memo_parser_text p (memo_parser_debug p)) /\
  (forall p, slice_parser_text p (slice_parser_debug p)).
Proof. split; [exact byte_parser_says|split; [exact memo_parser_says|exact slice_parser_says]]. Qed.

(** ** Builders *)
Lemma builder_says v s : sv_history v s -> memo_builder_debug v = ROk (txt "MemoBuilder { segs: " ++ barred show_list (sg_all s) ++ txt " }").
Proof. intros H. unfold memo_builder_debug. rewrite (debug_gives v s H). cbn [rbind]. plain_text. join_txt. reflexivity. Qed.
Lemma rok_inj {E A} (a b : A) : @ROk E A a = ROk b -> a = b.
Proof. congruence. Qed.
Lemma builder_tells v s w t : sv_history v s -> sv_history w t -> (memo_builder_debug v = memo_builder_debug w <-> sg_all s = sg_all t).
Proof.
  intros H K. rewrite <- (debug_texts v s w t H K). rewrite (builder_says v s H), (builder_says w t K), (debug_gives v s H), (debug_gives w t K).
  split; intros E; apply rok_inj in E.
  - apply app_inv_head in E. apply app_inv_tail in E. rewrite E. reflexivity.
  - rewrite E. reflexivity.
Qed.
Lemma buffer_tells b b' : memo_buffer_debug b = memo_buffer_debug b' -> b = b'.
Proof.
  destruct b as [b l], b' as [b' l']. unfold memo_buffer_debug. cbn [fst snd]. plain_text. join_txt. intros E.
  peel E. apply list_tells in E as [-> E]. peel E. apply list_tells in E as [-> _]. reflexivity.
Qed.
Lemma buffer_says b : exists sb sl, byte_list (fst b) sb /\ byte_list (snd b) sl /\
  memo_buffer_debug b = txt "MemoBuffer { buf: " ++ sb ++ txt ", lens: " ++ sl ++ txt " }".
Proof.
  exists (debug_list (map show_int (fst b))), (debug_list (map show_int (snd b))).
  split; [apply list_says|split; [apply list_says|]]. unfold memo_buffer_debug. plain_text. join_txt. reflexivity.
Qed.

(** ** Index *)
Lemma index_formats r ix : 0 <= ix ->
  numeral (match r with Bin => 2 | Oct => 8 | LHex | UHex => 16 end) (index_fmt r ix) ix /\
  Forall (match r with UHex => upper_hex | _ => lower_hex end) (index_fmt r ix) /\ decimal (index_display ix) ix.
Proof.
  intros H. split; [|split].
  - change (match r with Bin => 2 | Oct => 8 | _ => 16 end) with (radix_base r).
    apply digits_ok; [destruct r; cbn [radix_base]; lia|apply radix_digit_ok|exact H].
  - apply digits_chars; [destruct r; cbn [radix_base]; lia| |exact H].
    intros d Hd. destruct r; cbn [radix_digit]; try (apply lower_digit_spec; exact Hd). unfold upper_digit, upper_hex. destruct (d <? 10) eqn:?; lia.
  - apply show_int_decimal.
Qed.

Lemma resume_alike A (f : prog A) :
  (forall m p p', byte_parser_debug p = byte_parser_debug p' -> run (byte_h m) f p = run (byte_h m) f p') /\
  (forall m p p', memo_parser_debug p = memo_parser_debug p' -> run (memo_h m) f p = run (memo_h m) f p') /\
  (forall p p' : slice_parser, slice_parser_debug p = slice_parser_debug p' -> run slice_h f p = run slice_h f p').
Proof.
  split; [|split].
  - intros m p p' E. apply byte_parser_tells in E as ->. reflexivity.
  - intros m p p' E. apply memo_parser_tells in E as ->. reflexivity.
  - intros p p' E. apply slice_parser_tells in E as ->. reflexivity.
Qed.
