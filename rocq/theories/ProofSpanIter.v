(** Proofs about the iterators over spans (C39). *)
From Verif Require Import Base ModelSplitVec ModelSpanIter SpecSplitVec ProofSplitVec.

Definition still {A} (c : chain A) : list A :=
  match ch_a c with Some l => l | None => [] end ++
  match ch_b c with Some (Some x) => [x] | _ => [] end.

Lemma chain_next_still {A} (c : chain A) :
  fst (chain_next c) = hd_error (still c) /\ still (snd (chain_next c)) = tl (still c).
Proof. destruct c as [[[|x l]|] [[y|]|]]; split; reflexivity. Qed.

Lemma chain_next_back_still {A} (c : chain A) :
  fst (chain_next_back c) = hd_error (rev (still c)) /\ still (snd (chain_next_back c)) = rev (tl (rev (still c))).
Proof.
  destruct c as [[l|] [[y|]|]]; unfold still, chain_next_back, items_next_back; cbn [ch_a ch_b and_then_or_clear item_take].
  - cbn [fst snd ch_a ch_b]. rewrite rev_app_distr. cbn [rev app hd_error tl].
    rewrite rev_involutive, app_nil_r. split; reflexivity.
  - rewrite app_nil_r. unfold and_then, items_next_back.
    destruct (rev l) as [|x r]; cbn [fst snd ch_a ch_b hd_error tl]; rewrite app_nil_r; split; reflexivity.
  - rewrite app_nil_r. unfold and_then, items_next_back.
    destruct (rev l) as [|x r]; cbn [fst snd ch_a ch_b hd_error tl]; rewrite app_nil_r; split; reflexivity.
  - split; reflexivity.
  - split; reflexivity.
  - split; reflexivity.
Qed.

Lemma span_asks_still asks : forall c, span_asks asks c = deque asks (still c).
Proof.
  induction asks as [|[] asks IH]; intros c; [reflexivity| |]; cbn [span_asks deque].
  - destruct (chain_next_still c) as (H1 & H2). unfold span_next. destruct (chain_next c) as [x c'].
    cbn [fst snd] in *. rewrite IH, H2, H1. destruct (still c); reflexivity.
  - destruct (chain_next_back_still c) as (H1 & H2). unfold span_next_back. destruct (chain_next_back c) as [x c'].
    cbn [fst snd] in *. rewrite IH, H2, H1. destruct (rev (still c)); reflexivity.
Qed.

Lemma span_lengths_double_ended s asks :
  span_asks asks (sb_chain s) =
  deque asks (sb_stable s ++ match sb_active s with Some n => [n] | None => [] end).
Proof. rewrite span_asks_still. unfold still, sb_chain; cbn [ch_a ch_b]. destruct (sb_active s); reflexivity. Qed.

Section T.
Context {T : Type}.

(** The iterator over the list of lengths does what the one over the chain does. *)
Lemma sp_asks_spans m asks : forall (it : spans T),
  sp_asks m asks it = spans_asks m asks (mkSpans (sp_buf it) (still (sp_lens it))).
Proof.
  induction asks as [|[] asks IH]; intros [buf c]; [reflexivity| |]; cbn [sp_asks spans_asks sp_buf sp_lens].
  - unfold sp_next, spans_next, span_next. cbn [sp_lens sp_buf si_buf si_lens].
    destruct (chain_next_still c) as (H1 & H2). destruct (chain_next c) as [x c']. cbn [fst snd] in H1, H2.
    destruct (still c) as [|len ls] eqn:E; subst x; cbn [hd_error].
    + destruct (debug_assert m _); cbn [rbind fst snd]; try reflexivity.
      rewrite IH. cbn [sp_buf sp_lens]. rewrite H2. reflexivity.
    + destruct (len <=? zlen buf); cbn [rbind fst snd]; [|reflexivity].
      rewrite IH. cbn [sp_buf sp_lens]. rewrite H2. reflexivity.
  - unfold sp_next_back, spans_next_back, span_next_back. cbn [sp_lens sp_buf si_buf si_lens].
    destruct (chain_next_back_still c) as (H1 & H2). destruct (chain_next_back c) as [x c']. cbn [fst snd] in H1, H2.
    destruct (rev (still c)) as [|len ls] eqn:E; subst x; cbn [hd_error].
    + destruct (debug_assert m _); cbn [rbind fst snd]; try reflexivity.
      rewrite IH. cbn [sp_buf sp_lens]. rewrite H2. cbn [tl rev].
      apply (f_equal (@rev _)) in E. rewrite rev_involutive in E. rewrite E. reflexivity.
    + destruct (len <=? zlen buf); cbn [rbind fst snd]; [|reflexivity].
      rewrite IH. cbn [sp_buf sp_lens]. rewrite H2. reflexivity.
Qed.

Lemma spans_double_ended m (v : split_vec T) s asks :
  sv_history v s -> sp_asks m asks (sv_spans_of v) = ROk (deque asks (sg_all s)).
Proof.
  intros H. rewrite sp_asks_spans. rewrite <- (splitvec_iterates m v s asks H).
  unfold sv_spans_of, sv_spans_iter, sb_iter, still, sb_chain; cbn [sp_buf sp_lens ch_a ch_b].
  destruct (sb_active (sv_spans v)); reflexivity.
Qed.
End T.
