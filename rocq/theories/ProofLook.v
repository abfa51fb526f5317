(** C79: nothing is looked at beyond what is consumed. *)
From Verif Require Import Base BaseLemmas ModelErrors ModelInt ModelFloat ModelParser ModelSchema SpecCodec SpecParser SpecNum SpecGrammar
  ProofParserSim ProofDec ProofMeta ProofCodec ProofHalt ProofView ProofCodecProps ProofCodecThms ProofSettle ProofCut ProofCanon ProofGrammar.
From Coq Require Import ZifyBool.

Lemma small_tl a b : small_ok (a ++ b) -> small_ok b.
Proof. intros [H1 H2]. apply bytes_ok_app in H1. rewrite zlen_app in H2. pose proof (zlen_nonneg a). split; [tauto|lia]. Qed.

Section Look.
Variables (cf : config) (D : list def) (I : list tinfo).
Hypothesis HD : wf_defs D = true.
Hypothesis HI : disciplined D I = true.
Notation den := (denotes (cf_check_padding cf) D).

Lemma den_consumes t bs v r : wf_ty D t = true -> small_ok bs -> nonempty I t = true -> den t bs v r -> zlen r < zlen bs.
Proof.
  intros HW HS HN H. destruct (complete cf D HD t bs v r H HW HS) as [f Hf].
  eapply (consumes_dec cf D I (disciplined_claims D I HI) f t HN). exact Hf.
Qed.

Definition frames t bs v r := exists pre, bs = pre ++ r /\ forall r', den t (pre ++ r') v r'.

Lemma den_frames t bs v r : den t bs v r -> wf_ty D t = true -> small_ok bs -> kind_of I t = Some Delim -> frames t bs v r.
Proof.
  pose (P := fun t bs v r => wf_ty D t = true -> small_ok bs -> kind_of I t = Some Delim -> frames t bs v r).
  pose (Q := fun t bs vs r => wf_ty D t = true -> small_ok bs -> kind_of I t = Some Delim -> nonempty I t = true ->
    exists pre, bs = pre ++ r /\ forall r', many (cf_check_padding cf) D t (pre ++ r') vs r').
  pose (R := fun ts bs vs r => forallb (wf_ty D) ts = true -> small_ok bs -> Forall (fun t => kind_of I t = Some Delim) ts ->
    exists pre, bs = pre ++ r /\ forall r', in_turn (cf_check_padding cf) D ts (pre ++ r') vs r').
  intros H. change (P t bs v r).
  induction H using denotes_mut with (P0 := fun t bs vs r _ => Q t bs vs r) (P1 := fun ts bs vs r _ => R ts bs vs r);
    unfold P, Q, R, frames in *; cbn [wf_ty kind_of]; intros HW HS HK; try discriminate HK.
  - exists []. split; [reflexivity|]. intros. constructor.
  - exists [255]. split; [reflexivity|]. intros. constructor.
  - exists [0]. split; [reflexivity|]. intros. constructor.
  - eexists. split; [reflexivity|]. intros. constructor; assumption.
  - eexists. split; [reflexivity|]. intros. constructor; assumption.
  - eexists. split; [reflexivity|]. intros. constructor; assumption.
  - eexists. split; [reflexivity|]. intros. constructor; assumption.
  - eexists. split; [reflexivity|]. intros. constructor; assumption.
  - eexists. split; [reflexivity|]. intros. constructor; assumption.
  - eexists. split; [reflexivity|]. intros. constructor; assumption.
  - eexists. split; [reflexivity|]. intros. constructor; assumption.
  - exists [0]. split; [reflexivity|]. intros. constructor.
  - destruct (IHdenotes HW (small_tl [255] _ HS) HK) as (pre & -> & H1). exists (255 :: pre). split; [reflexivity|].
    intros r'. cbn [app]. constructor. apply H1.
  - destruct (kind_of I t) as [k|]; [|discriminate]. destruct (_ && _); discriminate.
  - destruct (kind_of I t) as [k|]; [|discriminate]. destruct (_ && _); discriminate.
  - destruct (kind_of I t) as [[|]|]; try discriminate. destruct (nonempty I t); discriminate.
  - destruct (kind_of I t) as [[|]|]; try discriminate. destruct (nonempty I t); discriminate.
  - apply andb_prop in HW as [Hn HW]. destruct (kind_of I t) as [[|]|] eqn:E; try discriminate.
    destruct (nonempty I t) eqn:N.
    + destruct (IHdenotes HW HS eq_refl eq_refl) as (pre & -> & H1). exists pre. split; [reflexivity|]. intros r'. constructor; [apply H1|assumption].
    + cbn [orb] in HK. destruct (Z.eqb_spec n 0) as [->|]; [|discriminate]. destruct vs as [|v vs]; [|rewrite zlen_cons in *; pose proof (zlen_nonneg vs); lia].
      match goal with H : many _ _ _ _ [] _ |- _ => inversion H; subst end.
      exists []. split; [reflexivity|]. intros r'. constructor; [constructor|reflexivity].
  - exists (pref_format s (zlen payload) ++ payload). split; [rewrite app_assoc; reflexivity|].
    intros r'. rewrite <- app_assoc. constructor; assumption.
  - destruct (kind_of I t) as [k|]; [|discriminate]. destruct (greedy_ok k); discriminate.
  - destruct (kind_of I t) as [[|m]|] eqn:E; try discriminate; [|destruct (n <=? m); discriminate].
    apply andb_prop in HW as [Hn HW]. destruct (IHdenotes HW HS eq_refl) as (pre & -> & H1).
    exists (pre ++ padding). split; [rewrite app_assoc; reflexivity|]. intros r'. rewrite <- app_assoc.
    econstructor; [apply H1|assumption|assumption].
  - destruct (IHdenotes HW HS HK) as (pre & -> & H1). exists pre. split; [reflexivity|]. intros r'. constructor. apply H1.
  - injection HK as HK. pose proof (disciplined_nth D I _ _ HI e) as H. cbn [check_def] in H. apply andb_prop in H; destruct H as [H _].
    apply andb_prop in H; destruct H as [H _]. apply (kind_check_delim I _ _ H) in HK.
    destruct (IHdenotes (wf_struct _ _ _ HD e) HS HK) as (pre & -> & H1). exists pre. split; [reflexivity|]. intros r'. econstructor; [eassumption|apply H1].
  - eexists. split; [reflexivity|]. intros. econstructor; eassumption.
  - injection HK as HK. pose proof (disciplined_nth D I _ _ HI e) as H. cbn [check_def] in H. rewrite forallb_forall in H.
    specialize (H _ (nth_error_In _ _ e0)). cbn [snd] in H. apply andb_prop in H; destruct H as [H _]. apply (kind_check_delim I _ _ H) in HK.
    destruct (IHdenotes (wf_data _ _ _ _ _ _ _ HD e e0) (small_tl _ _ HS) HK) as (pre & -> & H1).
    exists (int_format k tag ++ pre). split; [rewrite app_assoc; reflexivity|]. intros r'. rewrite <- app_assoc. econstructor; [eassumption..|apply H1].
  - exists []. split; [reflexivity|]. constructor.
  - intros HN. destruct (IHdenotes HW HS HK) as (pre & -> & H1).
    destruct (IHdenotes0 HW (small_tl _ _ HS) HK HN) as (pre2 & -> & H2).
    exists (pre ++ pre2). split; [rewrite app_assoc; reflexivity|]. intros r'. rewrite <- app_assoc.
    econstructor; [|apply H1|apply H2].
    match goal with H : denotes _ _ t (pre ++ _) v _ |- _ => apply den_consumes in H; [|assumption..] end.
    rewrite !zlen_app in *. destruct pre; [change (zlen (@nil byte)) with 0 in *; lia|discriminate].
  - exists []. split; [reflexivity|]. constructor.
  - cbn [forallb] in HW. apply andb_prop in HW as [HW1 HW2]. inversion HK; subst.
    destruct (IHdenotes HW1 HS ltac:(assumption)) as (pre & -> & K1).
    destruct (IHdenotes0 HW2 (small_tl _ _ HS) ltac:(assumption)) as (pre2 & -> & K2).
    exists (pre ++ pre2). split; [rewrite app_assoc; reflexivity|]. intros r'. rewrite <- app_assoc. econstructor; [apply K1|apply K2].
Qed.

Section Reads.
Variable t : ty.
Hypothesis HW : wf_ty D t = true.
Hypothesis HK : self_delimiting I t = true.

Lemma is_delim : kind_of I t = Some Delim.
Proof. unfold self_delimiting in HK. destruct (kind_of I t) as [[|]|]; congruence. Qed.

Lemma no_lookahead w input v rest : bytes_ok input -> zlen input <= isize_max -> reads w cf D t input (ROk (v, rest)) ->
  exists pre, input = pre ++ rest /\
  forall w' rest', bytes_ok rest' -> zlen (pre ++ rest') <= isize_max -> reads w' cf D t (pre ++ rest') (ROk (v, rest')).
Proof.
  intros HB HL H. apply (grammar_exact cf D HD) in H; [|assumption..].
  destruct (den_frames _ _ _ _ H HW (conj HB HL) is_delim) as (pre & -> & F). exists pre. split; [reflexivity|].
  intros w' rest' HB' HL'. apply (grammar_exact cf D HD); [assumption| |assumption|apply F].
  apply bytes_ok_app in HB. apply bytes_ok_app. tauto.
Qed.

Lemma reads_unique w w' input x y : bytes_ok input -> zlen input <= isize_max ->
  reads w cf D t input (ROk x) -> reads w' cf D t input (ROk y) -> x = y.
Proof.
  intros HB HL H H'. destruct x as [v r], y as [v' r'].
  apply (grammar_exact cf D HD) in H; [|assumption..]. apply (grammar_exact cf D HD) in H'; [|assumption..].
  destruct (grammar_unambiguous cf D t input HD HW HB HL _ _ _ _ H H') as [-> ->]. reflexivity.
Qed.

Lemma cut_refused w p q v rest : bytes_ok (p ++ q) -> zlen (p ++ q) <= isize_max ->
  reads w cf D t (p ++ q) (ROk (v, rest)) -> zlen rest < zlen q ->
  forall w' v' rest', ~ reads w' cf D t p (ROk (v', rest')).
Proof.
  intros HB HL H Hq w' v' rest' H'. pose proof HB as HB2. apply bytes_ok_app in HB2. destruct HB2 as [HB1 HB2].
  assert (HLp : zlen p <= isize_max) by (rewrite zlen_app in HL; pose proof (zlen_nonneg q); lia).
  destruct (no_lookahead w' p v' rest' HB1 HLp H') as (pre & -> & F).
  rewrite <- app_assoc in *. apply bytes_ok_app in HB1.
  specialize (F w (rest' ++ q) ltac:(apply bytes_ok_app; tauto) HL).
  pose proof (reads_unique _ _ _ _ _ HB HL H F) as E. injection E as _ ->. rewrite zlen_app in Hq. pose proof (zlen_nonneg rest'). lia.
Qed.

Lemma messages_many ms vs w : nonempty I t = true -> bytes_ok (concat ms) -> zlen (concat ms) <= isize_max ->
  Forall2 (fun m v => reads w cf D t m (ROk (v, []))) ms vs -> many (cf_check_padding cf) D t (concat ms) vs [].
Proof.
  intros HN HB HL H. induction H as [|m v ms vs H Hs IH]; [constructor|]. cbn [concat] in *.
  pose proof HB as HB2. apply bytes_ok_app in HB2. destruct HB2 as [HB1 HB2]. rewrite zlen_app in HL.
  pose proof (zlen_nonneg m). pose proof (zlen_nonneg (concat ms)).
  apply (grammar_exact cf D HD) in H; [|assumption|assumption|lia].
  assert (HS : small_ok m) by (split; [assumption|lia]).
  destruct (den_frames _ _ _ _ H HW HS is_delim) as (pre & E & F). rewrite app_nil_r in E. subst pre.
  pose proof (den_consumes _ _ _ _ HW HS HN H) as C. change (zlen (@nil byte)) with 0 in C.
  econstructor; [|apply F|apply IH; [assumption|lia]]. destruct m; [change (zlen (@nil byte)) with 0 in C; lia|discriminate].
Qed.

Lemma stream_read ms vs w w' : nonempty I t = true -> bytes_ok (concat ms) -> zlen (concat ms) <= isize_max ->
  Forall2 (fun m v => reads w cf D t m (ROk (v, []))) ms vs -> reads w' cf D (TSeq t) (concat ms) (ROk (VSeq vs, [])).
Proof.
  intros HN HB HL H. apply (grammar_exact cf D HD); [exact HW|assumption|assumption|]. constructor. eapply messages_many; eassumption.
Qed.

Lemma stream_split ms : forall ms' w w', nonempty I t = true -> bytes_ok (concat ms) -> zlen (concat ms) <= isize_max ->
  Forall (fun m => exists v, reads w cf D t m (ROk (v, []))) ms -> Forall (fun m => exists v, reads w' cf D t m (ROk (v, []))) ms' ->
  concat ms = concat ms' -> ms = ms'.
Proof.
  assert (NE : forall w m, nonempty I t = true -> bytes_ok m -> zlen m <= isize_max -> (exists v, reads w cf D t m (ROk (v, []))) -> m <> []).
  { intros w m HN HB HL [v H] ->. apply (grammar_exact cf D HD) in H; [|assumption..].
    apply (den_consumes _ _ _ _ HW (conj HB HL) HN) in H. change (zlen (@nil byte)) with 0 in H. lia. }
  induction ms as [|m ms IH]; intros ms' w w' HN HB HL H H' E.
  - destruct ms' as [|m' ms']; [reflexivity|]. cbn [concat] in E. symmetry in E. apply app_eq_nil in E. destruct E as [-> _].
    inversion H'; subst. exfalso. eapply NE; [exact HN| | |eassumption|reflexivity]; [constructor|discriminate].
  - destruct ms' as [|m' ms'].
    { cbn [concat] in E. apply app_eq_nil in E. destruct E as [-> _]. inversion H; subst.
      exfalso. eapply NE; [exact HN| | |eassumption|reflexivity]; [constructor|discriminate]. }
    inversion H as [|? ? [v Hm] Hms]; subst. inversion H' as [|? ? [v' Hm'] Hms']; subst. cbn [concat] in *.
    pose proof HB as HB2. apply bytes_ok_app in HB2. destruct HB2 as [HB1 HB2].
    pose proof HB as HB3. rewrite E in HB3. apply bytes_ok_app in HB3. destruct HB3 as [HB3 HB4].
    pose proof HL as HL2. rewrite E in HL2. pose proof HL as HL1. rewrite zlen_app in HL1, HL2.
    pose proof (zlen_nonneg m). pose proof (zlen_nonneg m'). pose proof (zlen_nonneg (concat ms)). pose proof (zlen_nonneg (concat ms')).
    destruct (no_lookahead w m v [] HB1 ltac:(lia) Hm) as (pre & Ep & F). rewrite app_nil_r in Ep. subst pre.
    destruct (no_lookahead w' m' v' [] HB3 ltac:(lia) Hm') as (pre & Ep & F'). rewrite app_nil_r in Ep. subst pre.
    specialize (F w (concat ms) HB2 HL). specialize (F' w' (concat ms') HB4 ltac:(rewrite <- E; exact HL)). rewrite <- E in F'.
    pose proof (reads_unique _ _ _ _ _ HB HL F F') as U. injection U as -> Ec. rewrite <- Ec in E. apply app_inv_tail in E. subst m'.
    f_equal. eapply IH; [exact HN|exact HB2|lia|exact Hms|exact Hms'|exact Ec].
Qed.
End Reads.
End Look.

