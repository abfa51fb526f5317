(** When decoding an unbounded sequence ends. *)
From Verif Require Import Base BaseLemmas ModelErrors ModelParser ModelSchema SpecParser SpecCodec ProofDec ProofMeta
  ProofSettle ProofView ProofBroken ProofHalt.
From Coq Require Import ZifyBool.

Section Stall.
Variables (w : which_parser) (cf : config) (D : list def) (t : ty).
Hypothesis HD : wf_defs D = true.
Hypothesis HW : wf_ty D t = true.

Lemma dec_either f g cur r : dec cf D f t cur = r -> r <> RDiv -> dec cf D g t cur = RDiv \/ dec cf D g t cur = r.
Proof.
  intros E N. destruct (Nat.le_ge_cases g f) as [H|H].
  - pose proof (dec_mono cf D g f t H cur) as M. destruct (dec cf D g t cur) eqn:G; auto; right; rewrite <- E; symmetry; apply M; discriminate.
  - right. rewrite (dec_mono cf D f g t H cur); [exact E|congruence].
Qed.

Lemma stuck_stays f0 rest v : rest <> [] -> dec cf D f0 t rest = ROk (v, rest) ->
  forall f g acc, d_seq f (dec cf D g t) acc rest = RDiv.
Proof.
  intros Hr E f g. induction f as [|f IH]; intros acc; [reflexivity|]. cbn [d_seq]. unfold d_bind at 1, d_rem.
  destruct (Z.eqb_spec (zlen rest) 0) as [Z|_]; [apply zlen_0_nil in Z; congruence|].
  unfold d_bind. destruct (dec_either f0 g rest _ E ltac:(discriminate)) as [->| ->]; [reflexivity|apply IH].
Qed.

Lemma eats_suffix a b : eats w cf D t a b -> bytes_ok a -> zlen a <= isize_max -> suffix b a.
Proof.
  induction 1 as [a|a b c v R _ IH]; intros Hb Hl; [apply suffix_refl|].
  destruct (reads_inv w cf D t a HD HW Hb Hl _ _ R) as [f E]. pose proof (shrinks_dec cf D f t _ _ _ E) as S.
  eapply suffix_trans; [apply IH|exact S].
  - eapply suffix_bytes; eassumption.
  - apply suffix_zlen in S. lia.
Qed.

Lemma stuck_from a b v f0 : eats w cf D t a b -> bytes_ok a -> zlen a <= isize_max ->
  b <> [] -> dec cf D f0 t b = ROk (v, b) -> forall f g acc, d_seq f (dec cf D g t) acc a = RDiv.
Proof.
  intros H. induction H as [a|a b c v' R Hc IH]; intros Hb Hl Hn E f g acc.
  - eapply stuck_stays; eassumption.
  - destruct (reads_inv w cf D t a HD HW Hb Hl _ _ R) as [f1 E1]. pose proof (shrinks_dec cf D f1 t _ _ _ E1) as S.
    assert (Hbb : bytes_ok b) by (eapply suffix_bytes; eassumption).
    assert (Hlb : zlen b <= isize_max) by (apply suffix_zlen in S; lia).
    destruct f as [|f]; [reflexivity|]. cbn [d_seq]. unfold d_bind at 1, d_rem.
    destruct (Z.eqb_spec (zlen a) 0) as [Z|_].
    + exfalso. apply Hn. apply zlen_0_nil in Z. pose proof (suffix_zlen _ _ S). pose proof (suffix_zlen _ _ (eats_suffix _ _ Hc Hbb Hlb)).
      subst a. change (zlen []) with 0 in *. pose proof (zlen_nonneg c). apply zlen_0_nil. lia.
    + unfold d_bind. destruct (dec_either f1 g a _ E1 ltac:(discriminate)) as [->| ->]; [reflexivity|apply IH; assumption].
Qed.

Lemma stuck_diverges w' input f : bytes_ok input -> zlen input <= isize_max -> gets_stuck w cf D t input ->
  decode_with w' cf D f (TSeq t) input = RDiv.
Proof.
  intros Hb Hl (rest & v & Hn & He & R). pose proof (eats_suffix _ _ He Hb Hl) as S.
  destruct (reads_inv w cf D t rest HD HW (suffix_bytes _ _ S Hb) ltac:(apply suffix_zlen in S; lia) _ _ R) as [f0 E].
  pose proof (decode_cases w' cf D (TSeq t) input Hl f) as C.
  assert (X : dec cf D f (TSeq t) input = RDiv).
  { destruct f as [|f]; [reflexivity|]. cbn [dec]. unfold d_bind. rewrite (stuck_from _ _ _ _ He Hb Hl Hn E). reflexivity. }
  rewrite X in C. exact C.
Qed.

Hypothesis HP : pads_ok cf D t = true.

Lemma seq_halts : forall n cur, (Z.to_nat (zlen cur) < n)%nat -> bytes_ok cur -> zlen cur <= isize_max ->
  (forall rest, suffix rest cur -> exists out, reads w cf D t rest out) ->
  ~ gets_stuck w cf D t cur -> exists f, forall acc, d_seq f (dec cf D f t) acc cur <> RDiv.
Proof.
  induction n as [|n IH]; intros cur Hn Hb Hl HA HS; [lia|].
  destruct (Z.eqb_spec (zlen cur) 0) as [Z|Z].
  { exists 1%nat. intros acc. cbn [d_seq]. unfold d_bind, d_rem. rewrite Z. discriminate. }
  destruct (HA cur (suffix_refl _)) as [out R]. pose proof R as R0. apply settles_at in R. destruct R as [f0 R].
  pose proof (reads_seen w cf D t cur Hl f0) as V. cbv zeta in V. rewrite R in V.
  pose proof (dec_no_ub cf D t cur f0 HD HW HP Hb Hl) as NU.
  destruct (dec cf D f0 t cur) as [[v rest]| | | |] eqn:E; try congruence.
  - pose proof (shrinks_dec cf D f0 t _ _ _ E) as Sf. pose proof (suffix_zlen _ _ Sf) as L.
    rewrite V in R0. assert (LT : zlen rest < zlen cur).
    { destruct (Z.eq_dec (zlen rest) (zlen cur)) as [Q|]; [|lia]. exfalso. apply HS. destruct Sf as [pre Sf].
      assert (pre = []) by (apply zlen_0_nil; subst cur; rewrite zlen_app in Q; lia). subst pre. cbn [app] in Sf. subst rest.
      exists cur, v. split; [intros ->; apply Z; reflexivity|]. split; [apply eats_none|exact R0]. }
    destruct (IH rest) as [f1 H1].
    + pose proof (zlen_nonneg rest). lia.
    + eapply suffix_bytes; eassumption.
    + lia.
    + intros r Hr. apply HA. eapply suffix_trans; eassumption.
    + intros (r & v' & Hr & He & HR). apply HS. exists r, v'. split; [exact Hr|]. split; [|exact HR]. eapply eats_one; eassumption.
    + exists (S (f0 + f1)%nat). intros acc. cbn [d_seq]. unfold d_bind at 1, d_rem. destruct (Z.eqb_spec (zlen cur) 0); [congruence|].
      unfold d_bind. rewrite (dec_mono cf D f0 (S (f0 + f1)%nat) t ltac:(lia) cur ltac:(congruence)), E.
      rewrite (d_le_seq _ (dec cf D (S (f0 + f1)%nat) t) f1 (dec_mono cf D f1 (S (f0 + f1)%nat) t ltac:(lia)) (f0 + f1) (acc ++ [v]) ltac:(lia)); apply H1.
  - exists (S f0). intros acc. cbn [d_seq]. unfold d_bind at 1, d_rem. destruct (Z.eqb_spec (zlen cur) 0); [congruence|].
    unfold d_bind. rewrite (dec_mono cf D f0 (S f0) t ltac:(lia) cur ltac:(congruence)), E. discriminate.
  - exists (S f0). intros acc. cbn [d_seq]. unfold d_bind at 1, d_rem. destruct (Z.eqb_spec (zlen cur) 0); [congruence|].
    unfold d_bind. rewrite (dec_mono cf D f0 (S f0) t ltac:(lia) cur ltac:(congruence)), E. discriminate.
  - destruct R0 as [R0 _]. congruence.
Qed.

Lemma seq_answers w' input : bytes_ok input -> zlen input <= isize_max ->
  (forall pre rest, input = pre ++ rest -> exists out, reads w cf D t rest out) ->
  (exists out, decodes w' cf D (TSeq t) input out) <-> ~ gets_stuck w cf D t input.
Proof.
  intros Hb Hl HA. split.
  - intros [out H] HS. pose proof H as [N _]. apply settles_at in H. destruct H as [f H].
    rewrite (stuck_diverges w' input f Hb Hl HS) in H. congruence.
  - intros HS. destruct (seq_halts _ input (Nat.lt_succ_diag_r _) Hb Hl) as [f Hf]; [|exact HS|].
    { intros rest [pre Hr]. eapply HA; eassumption. }
    exists (decode_with w' cf D (S f) (TSeq t) input). eapply decodes_at; [reflexivity|].
    pose proof (decode_cases w' cf D (TSeq t) input Hl (S f)) as C.
    pose proof (dec_no_ub cf D (TSeq t) input (S f) HD HW HP Hb Hl) as NU.
    assert (X : dec cf D (S f) (TSeq t) input <> RDiv).
    { cbn [dec]. unfold d_bind. specialize (Hf []). destruct (d_seq f _ _ _) as [[? ?]| | | |]; try congruence; discriminate. }
    destruct (dec cf D (S f) (TSeq t) input) as [[v rest]| | | |]; try congruence.
    + unfold finished in C. destruct (_ && _); [destruct C as (lo & -> & _)|rewrite C]; discriminate.
    + destruct C as [[e' ->]|[_ ->]]; discriminate.
Qed.
End Stall.
