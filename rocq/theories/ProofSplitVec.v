(** Proofs about SplitVec (C38, C39). *)
From Verif Require Import Base BaseLemmas ModelSplitVec SpecSplitVec.

Section Proofs.
Context {T : Type}.
Implicit Types (v w : split_vec T) (s t : segs T).

Lemma zsum_app a b : zsum (a ++ b) = zsum a + zsum b.
Proof. induction a; cbn [zsum fold_right app] in *; [reflexivity|]. unfold zsum in *; cbn [fold_right] in *. lia. Qed.

Lemma zsum_concat (ls : list (list T)) : zsum (map zlen ls) = zlen (concat ls).
Proof.
  induction ls as [|l ls IH]; [reflexivity|].
  cbn [map concat]. rewrite zlen_app, <- IH. reflexivity.
Qed.

Definition repr v s : Prop :=
  sv_buffer v = sg_elems s /\
  sb_stable (sv_spans v) = map zlen (sg_closed s) /\
  sb_active (sv_spans v) = option_map zlen (sg_open s) /\
  sb_cache (sv_spans v) = zsum (map zlen (sg_closed s)).

Lemma repr_iter v s : repr v s -> sb_iter (sv_spans v) = map zlen (sg_all s).
Proof.
  intros (_ & H1 & H2 & _). unfold sb_iter, sg_all. rewrite H1, H2, map_app.
  destruct (sg_open s); reflexivity.
Qed.

Lemma repr_sum v s : repr v s -> sb_sum (sv_spans v) = zlen (sv_buffer v).
Proof.
  intros (H0 & H1 & H2 & H3). unfold sb_sum. rewrite H0, H2, H3.
  unfold sg_elems, sg_all. rewrite concat_app, zlen_app, zsum_concat.
  destruct (sg_open s); cbn [option_map or_zero concat]; rewrite ?app_nil_r; reflexivity.
Qed.

Lemma repr_append l v s k :
  repr v s -> k = zlen l ->
  repr (mkSplitVec (sv_buffer v ++ l) (sb_increment k (sv_spans v))) (sg_append l s).
Proof.
  intros (H0 & H1 & H2 & H3) ->. unfold repr, sg_append, sb_increment.
  cbn [sv_buffer sv_spans sb_stable sb_active sb_cache sg_closed sg_open option_map].
  split; [|split; [assumption|split; [|assumption]]].
  - rewrite H0. unfold sg_elems, sg_all. cbn [sg_closed sg_open]. rewrite !concat_app.
    destruct (sg_open s); cbn [concat]; rewrite ?app_nil_r, ?app_assoc, ?app_nil_r; reflexivity.
  - rewrite H2. f_equal. destruct (sg_open s); cbn [option_map or_zero].
    + rewrite zlen_app; reflexivity.
    + reflexivity.
Qed.

Lemma repr_split v s : repr v s -> repr (sv_split v) (sg_close s).
Proof.
  intros (H0 & H1 & H2 & H3). unfold repr, sv_split, sb_flush, sg_close, sg_elems, sg_all in *.
  cbn [sv_buffer sv_spans sg_closed sg_open option_map].
  rewrite app_nil_r. split; [assumption|].
  rewrite H2. destruct (sg_open s); cbn [option_map sb_stable sb_active sb_cache].
  - rewrite map_app, zsum_app, H1, H3. cbn. rewrite Z.add_0_r. auto.
  - rewrite app_nil_r. auto.
Qed.

Lemma repr_split_force v s : repr v s -> repr (sv_split_force v) (sg_close_force s).
Proof.
  intros (H0 & H1 & H2 & H3).
  unfold repr, sv_split_force, sb_flush_force, sg_close_force, sg_elems, sg_all in *.
  cbn [sv_buffer sv_spans sg_closed sg_open option_map sb_stable sb_active sb_cache].
  rewrite app_nil_r, H0, H1, H2, H3, map_app, zsum_app, !concat_app.
  destruct (sg_open s); cbn; rewrite ?Z.add_0_r; auto.
Qed.

Lemma repr_cleave v s : repr v s -> repr (sv_cleave v) (sg_close_force (sg_close s)).
Proof. intros H. exact (repr_split_force _ _ (repr_split _ _ H)). Qed.

Lemma repr_extend_current l v s : repr v s -> repr (sv_extend_current l v) (sg_append l s).
Proof. intros H. apply repr_append; [assumption|]. rewrite zlen_app; lia. Qed.

Lemma sg_close_idem s : sg_close (sg_close s) = sg_close s.
Proof. unfold sg_close, sg_all; cbn [sg_closed sg_open]. rewrite !app_nil_r. reflexivity. Qed.

Lemma repr_extend_loop ls : forall v s, repr v s ->
  exists s', repr (sv_extend_loop ls v) s' /\ sg_all s' = sg_all s ++ ls.
Proof.
  induction ls as [|l ls IH]; intros v s H; cbn [sv_extend_loop].
  - exists s. rewrite app_nil_r. auto.
  - destruct (IH _ _ (repr_extend_current l _ _ (repr_split _ _ H))) as (s' & Hr & Ha).
    exists s'. split; [assumption|]. rewrite Ha.
    unfold sg_append, sg_close, sg_all at 1. cbn [sg_closed sg_open app].
    rewrite <- app_assoc. reflexivity.
Qed.

Lemma repr_extend ls v s : repr v s -> repr (sv_extend ls v) (mkSegs (sg_all s ++ ls) None).
Proof.
  intros H. destruct (repr_extend_loop ls _ _ H) as (s' & Hr & Ha).
  unfold sv_extend. rewrite <- Ha. exact (repr_split _ _ Hr).
Qed.

Lemma repr_from_iter_loop ls : forall v c, repr v (mkSegs c None) ->
  repr (sv_from_iter_loop ls v) (mkSegs (c ++ ls) None).
Proof.
  induction ls as [|l ls IH]; intros v c H; cbn [sv_from_iter_loop].
  - rewrite app_nil_r; assumption.
  - replace (c ++ l :: ls) with ((c ++ [l]) ++ ls) by (rewrite <- app_assoc; reflexivity).
    apply IH. exact (repr_split _ _ (repr_extend_current l _ _ H)).
Qed.

Lemma repr_new : repr sv_new (mkSegs [] None).
Proof. unfold repr; cbn; auto. Qed.

Lemma concat_balanced m v w s t : repr v s -> repr w t ->
  exists v' w', sv_concat m v w = ROk (v', w') /\ repr v' (sg_concat s t) /\
                repr w' (mkSegs [] None).
Proof.
  intros Hv Hw. unfold sv_concat, sv_is_balanced.
  rewrite (repr_sum _ _ Hv), (repr_sum _ _ Hw), !Z.eqb_refl.
  replace (@debug_assert unit m true) with (@ROk unit unit tt) by (destruct m; reflexivity).
  cbn [rbind]. unfold sb_append.
  destruct (repr_split _ _ Hv) as (A0 & A1 & A2 & A3).
  destruct Hw as (B0 & B1 & B2 & B3). destruct Hv as (C0 & _).
  unfold sv_split, sg_close in *. cbn [sv_buffer sv_spans sg_closed sg_open option_map] in *.
  do 2 eexists. split; [reflexivity|]. unfold repr, sg_concat.
  cbn [sv_buffer sv_spans sb_stable sb_active sb_cache sg_closed sg_open option_map].
  rewrite A1, A2, A3, B1, B2, B3, C0, B0, map_app, zsum_app.
  unfold sg_elems, sg_all. cbn [sg_closed sg_open].
  rewrite !concat_app, !app_assoc. cbn. auto 10.
Qed.

Lemma history_repr v s : sv_history v s -> repr v s.
Proof.
  induction 1.
  - apply repr_new.
  - unfold repr; cbn. rewrite app_nil_r. auto.
  - exact (repr_from_iter_loop ls sv_new [] repr_new).
  - apply repr_append; auto.
  - apply repr_extend_current; auto.
  - apply repr_append; auto.
  - apply repr_append; auto.
  - apply repr_split; auto.
  - apply repr_split_force; auto.
  - apply repr_cleave; auto.
  - apply repr_extend; auto.
  - destruct (concat_balanced m v w s t) as (v1 & w1 & E & Hv & Hw); auto.
    rewrite E in H1; injection H1 as <- <-; assumption.
  - destruct (concat_balanced m v w s t) as (v1 & w1 & E & Hv & Hw); auto.
    rewrite E in H1; injection H1 as <- <-; assumption.
Qed.

(** C38 *)
Lemma splitvec_adds_up v s :
  sv_history v s ->
  sv_is_balanced v = true /\
  sv_into_inner v = sg_elems s /\
  sv_len v = zlen (sg_elems s) /\
  sv_into_parts v = (sg_elems s, map zlen (sg_all s)) /\
  fold_right Z.add 0 (snd (sv_into_parts v)) = sv_len v /\
  sb_count_spans (sv_spans v) = zlen (sg_all s) /\
  (sv_is_empty v = true <-> sg_all s = []) /\
  (sv_is_contiguous v = true <-> zlen (sg_all s) <= 1) /\
  fst (sb_check_sum (sv_spans v)) = true.
Proof.
  intros H; apply history_repr in H. pose proof (repr_sum _ _ H) as Hs.
  pose proof (repr_iter _ _ H) as Hi. destruct H as (H0 & H1 & H2 & H3).
  assert (Hv : sb_into_vec (sv_spans v) = map zlen (sg_all s)).
  { rewrite <- Hi. unfold sb_into_vec, sb_iter. destruct (sb_active _); [reflexivity|].
    symmetry; apply app_nil_r. }
  assert (Hparts : sv_into_parts v = (sg_elems s, map zlen (sg_all s)))
    by (unfold sv_into_parts; rewrite H0, Hv; reflexivity).
  split. { unfold sv_is_balanced. rewrite Hs. apply Z.eqb_refl. }
  split. { exact H0. }
  split. { unfold sv_len; rewrite H0; reflexivity. }
  split. { exact Hparts. }
  split. { rewrite Hparts. unfold sv_len. rewrite H0. exact (zsum_concat (sg_all s)). }
  split. { unfold sb_count_spans, sg_all. rewrite H1, H2, zlen_app, zlen_map.
    destruct (sg_open s); reflexivity. }
  split. { unfold sv_is_empty, sb_is_empty. rewrite H0, H1, H2.
    unfold sg_elems, sg_all. destruct (sg_closed s) as [|c cs], (sg_open s) as [o|]; cbn.
    - split; [|discriminate]. destruct (o ++ []); discriminate.
    - tauto.
    - split; [|discriminate]. destruct (c ++ concat (cs ++ [o])); discriminate.
    - split; [|discriminate]. destruct (c ++ concat (cs ++ [])); discriminate. }
  split. { unfold sv_is_contiguous, sb_is_contiguous. rewrite H1, H2. unfold sg_all.
    destruct (sg_closed s) as [|c [|c' cs]], (sg_open s) as [o|]; cbn [map option_map app];
      rewrite ?zlen_cons, ?zlen_nil; (split; intros; [| try reflexivity]);
      try discriminate; try lia.
    - pose proof (zlen_nonneg (cs ++ [o])); lia.
    - pose proof (zlen_nonneg (cs ++ [])); lia. }
  unfold sb_check_sum; cbn [fst]. rewrite H3, H1. apply Z.eqb_refl.
Qed.

Lemma splitvec_concat_total m v w s t :
  sv_history v s -> sv_history w t ->
  exists v' w', sv_concat m v w = ROk (v', w') /\ sv_history v' (sg_concat s t) /\
                sv_is_empty w' = true.
Proof.
  intros Hv Hw.
  destruct (concat_balanced m v w s t) as (v' & w' & E & Hv' & Hw').
  1, 2: apply history_repr; assumption.
  exists v', w'. split; [assumption|]. split; [exact (H_concat_left m v w v' w' s t Hv Hw E)|].
  assert (Hh : sv_history w' (mkSegs [] None)) by (exact (H_concat_right m v w v' w' s t Hv Hw E)).
  pose proof (splitvec_adds_up _ _ Hh) as (_ & _ & _ & _ & _ & _ & He & _).
  apply He; reflexivity.
Qed.

(** Splitting never changes the elements. *)
Lemma splitting_keeps_elements v :
  sv_into_inner (sv_split v) = sv_into_inner v /\
  sv_into_inner (sv_split_force v) = sv_into_inner v /\
  sv_into_inner (sv_cleave v) = sv_into_inner v.
Proof. repeat split. Qed.

(** C39 *)
Lemma spans_next_segs m l ls :
  spans_next m (mkSpans (concat (l :: ls)) (map zlen (l :: ls)))
  = ROk (Some l, @mkSpans T (concat ls) (map zlen ls)).
Proof.
  unfold spans_next. cbn [map si_lens si_buf concat].
  rewrite zlen_app. pose proof (zlen_nonneg (concat ls)).
  rewrite (proj2 (Z.leb_le _ _)) by lia. rewrite ztake_app, zdrop_app. reflexivity.
Qed.

Lemma spans_next_back_segs m l ls :
  spans_next_back m (mkSpans (concat (ls ++ [l])) (map zlen (ls ++ [l])))
  = ROk (Some l, @mkSpans T (concat ls) (map zlen ls)).
Proof.
  unfold spans_next_back. cbn [si_lens si_buf].
  rewrite <- map_rev, rev_app_distr. cbn [rev app map].
  rewrite concat_app. cbn [concat]. rewrite app_nil_r, zlen_app.
  pose proof (zlen_nonneg (concat ls)).
  rewrite (proj2 (Z.leb_le _ _)) by lia.
  replace (zlen (concat ls) + zlen l - zlen l) with (zlen (concat ls)) by lia.
  rewrite ztake_app, zdrop_app, map_rev, rev_involutive. reflexivity.
Qed.

Lemma spans_asks_deque m asks : forall ls,
  spans_asks m asks (@mkSpans T (concat ls) (map zlen ls)) = ROk (deque asks ls).
Proof.
  induction asks as [|[] asks IH]; intros ls; [reflexivity| |].
  - cbn [spans_asks deque]. destruct ls as [|l ls].
    + cbn. replace (@debug_assert unit m true) with (@ROk unit unit tt) by (destruct m; reflexivity).
      cbn [rbind fst snd]. pose proof (IH []) as IH0. cbn [concat map] in IH0. rewrite IH0. reflexivity.
    + rewrite spans_next_segs. cbn [rbind snd fst]. rewrite IH. reflexivity.
  - cbn [spans_asks deque]. destruct (rev ls) as [|l r] eqn:E.
    + apply (f_equal (@rev _)) in E. rewrite rev_involutive in E. subst ls.
      cbn. replace (@debug_assert unit m true) with (@ROk unit unit tt) by (destruct m; reflexivity).
      cbn [rbind fst snd]. pose proof (IH []) as IH0. cbn [concat map] in IH0. rewrite IH0. reflexivity.
    + apply (f_equal (@rev _)) in E. rewrite rev_involutive in E. subst ls. cbn [rev].
      rewrite spans_next_back_segs. cbn [rbind snd fst]. rewrite IH. reflexivity.
Qed.

Lemma splitvec_iterates m v s asks :
  sv_history v s -> spans_asks m asks (sv_spans_iter v) = ROk (deque asks (sg_all s)).
Proof.
  intros H; apply history_repr in H. unfold sv_spans_iter.
  rewrite (repr_iter _ _ H). destruct H as (H0 & _). rewrite H0. apply spans_asks_deque.
Qed.

Lemma deque_front {A} (l : list A) :
  deque (repeat true (S (length l))) l = map Some l ++ [None].
Proof. induction l as [|x l IH]; [reflexivity|]. cbn [length repeat deque map app]. f_equal. exact IH. Qed.

Lemma deque_back {A} (l : list A) :
  deque (repeat false (S (length l))) l = map Some (rev l) ++ [None].
Proof.
  remember (rev l) as r eqn:E. revert l E.
  induction r as [|x r IH]; intros l E.
  - cbn [repeat deque]. rewrite <- E. apply (f_equal (@length _)) in E.
    rewrite rev_length in E. cbn in E. rewrite <- E. reflexivity.
  - cbn [repeat deque]. rewrite <- E. cbn [map app]. f_equal.
    assert (Hl : length l = S (length (rev r))).
    { rewrite rev_length. apply (f_equal (@length _)) in E. rewrite rev_length in E.
      cbn [length] in E. auto. }
    rewrite Hl. apply IH. symmetry; apply rev_involutive.
Qed.

Lemma splitvec_forwards_backwards m v s :
  sv_history v s ->
  spans_asks m (repeat true (S (length (sg_all s)))) (sv_spans_iter v)
    = ROk (map Some (sg_all s) ++ [None]) /\
  spans_asks m (repeat false (S (length (sg_all s)))) (sv_spans_iter v)
    = ROk (map Some (rev (sg_all s)) ++ [None]) /\
  concat (sg_all s) = sv_into_inner v.
Proof.
  intros H. rewrite !(splitvec_iterates m v s _ H), deque_front, deque_back.
  split; [reflexivity|]. split; [reflexivity|].
  apply splitvec_adds_up in H. symmetry; apply H.
Qed.

Lemma collect_then_iterate m (ls : list (list T)) :
  spans_asks m (repeat true (S (length ls))) (sv_spans_iter (sv_from_iter ls))
    = ROk (map Some ls ++ [None]).
Proof.
  pose proof (splitvec_forwards_backwards m _ _ (H_from_iter ls)) as (H & _).
  unfold sg_all in H; cbn [sg_closed sg_open] in H. rewrite app_nil_r in H. exact H.
Qed.

End Proofs.

(** [unfreeze] (feature unfreeze_spanbuffer) takes a span back without taking
    its length out of the cached sum. *)
Lemma unfreeze_breaks_sum :
  exists v : split_vec Z, exists s, sv_history v s /\
    exists sp, sb_unfreeze (sv_spans v) = ROk sp /\
      sv_is_balanced v = true /\ sv_is_balanced (mkSplitVec (sv_buffer v) sp) = false.
Proof.
  exists (sv_split (sv_from_vec [7])). eexists. split.
  - apply H_split, H_from_vec.
  - eexists. split; [reflexivity|]. split; reflexivity.
Qed.

Lemma unfreeze_outcome s :
  (forall rest last, sb_active s = None -> sb_stable s = rest ++ [last] ->
     sb_unfreeze s = ROk (mkSpanBuffer rest (Some last) (sb_cache s))) /\
  (sb_active s <> None \/ sb_stable s = [] -> sb_unfreeze s = RPanic).
Proof.
  unfold sb_unfreeze. split.
  - intros rest last -> ->. rewrite rev_app_distr. cbn [rev app]. rewrite rev_involutive. reflexivity.
  - intros [H|H]; destruct (sb_active s); try reflexivity; [congruence|]. rewrite H. reflexivity.
Qed.
