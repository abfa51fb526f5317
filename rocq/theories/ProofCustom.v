(** C78: hand-written parsers. *)
From Verif Require Import Base BaseLemmas ModelErrors ModelInt ModelFloat ModelParser ModelSchema SpecCodec SpecParser SpecGrammar SpecCustom
  ProofParserSim ProofParserMisc ProofDec ProofMeta ProofCodec ProofHalt ProofView ProofCodecProps ProofCodecThms ProofSettle ProofGrammar.
From Coq Require Import ZifyBool.

Lemma runs_rest {A} (pg : prog A) d : runs pg d -> shrinks d -> forall cur outer, zlen cur <= isize_max ->
  match d cur with
  | ROk (a, rest) => run contract_h (then_rest pg) (mkW cur outer) = (ROk (a, rest), mkW [] outer)
  | r => outcome (A := A) r outer (run contract_h pg (mkW cur outer))
  end.
Proof.
  intros Hr Hs cur outer Hl. specialize (Hr cur outer Hl). destruct (d cur) as [[a rest]|e| | |] eqn:E; try exact Hr.
  unfold then_rest. rewrite run_pbind. cbn [outcome] in Hr. rewrite Hr. rewrite run_pbind.
  unfold p_remainder, p_consume. rewrite run_do_op. unfold contract_h at 1, spec_h. cbn [in_contract spec_op w_cur].
  rewrite run_pbind, run_do_op. unfold contract_h, spec_h. cbn [in_contract spec_op w_cur w_outer].
  pose proof (suffix_zlen _ _ (Hs _ _ _ E)). pose proof (zlen_nonneg rest).
  assert (size_ok (zlen rest) = true) as -> by (unfold size_ok; lia). rewrite Z.leb_refl.
  rewrite ztake_all, zdrop_all by lia. reflexivity.
Qed.
Section Custom.
Context {P : Type}.
Variables (h : handler P) (sees : P -> wstack -> Prop).
Hypothesis HH : honours h sees.

Lemma custom_run {A} (pg : prog A) : forall p w, sees p w -> try_bytes_only pg ->
  match run contract_h pg w with
  | (ROk a, w') => exists p', run h pg p = (ROk a, p') /\ sees p' w'
  | (RErr _, _) => exists e p', run h pg p = (RErr e, p')
  | (RPanic, _) => exists p', run h pg p = (RPanic, p')
  | (RDiv, _) => exists p', run h pg p = (RDiv, p')
  | (RUB, _) => True
  end.
Proof.
  induction pg as [a|e| | | |X o k IH|X o k IHk f IHf]; intros p w Hs Ht; cbn [run]; try (cbn; eauto; fail).
  - unfold contract_h at 1. destruct (in_contract o w) eqn:Ec; [|exact I].
    pose proof (HH X o p w Hs Ec) as H. unfold spec_h. destruct (spec_op Keep o w) as [[x|] w'].
    + destruct H as (p' & -> & Hs'). apply IH; auto.
    + destruct H as (e & p' & -> & _). eauto.
  - destruct Ht as (Hb & Hk & Hf). unfold contract_h at 1. destruct (in_contract o w) eqn:Ec; [|exact I].
    pose proof (HH X o p w Hs Ec) as H. unfold spec_h. destruct (spec_op Keep o w) as [[x|] w'].
    + destruct H as (p' & -> & Hs'). apply IHk; auto.
    + destruct H as (e & p' & -> & Hs'). apply IHf; auto.
Qed.

Lemma try_rest {A} (pg : prog A) : try_bytes_only pg -> try_bytes_only (then_rest pg).
Proof. intros H. unfold then_rest. apply try_bind; [exact H|]. intros v. cbn. auto. Qed.

Section Thms.
Variables (cf : config) (D : list def) (t : ty) (input : list byte) (p : P).
Hypothesis HD : wf_defs D = true.
Hypothesis HW : wf_ty D t = true.
Hypothesis HB : bytes_ok input.
Hypothesis HL : zlen input <= isize_max.
Hypothesis HS : sees p (w_init input).

Lemma through_at f out : fst (run h (then_rest (parse cf D f t)) p) = out -> out <> RDiv -> reads_through h p cf D t out.
Proof.
  intros H Ho. split; [exact Ho|]. exists f. intros g Hg. destruct (run h (then_rest (parse cf D f t)) p) as [r q] eqn:E.
  cbn [fst] in H. subst r. rewrite (ap_then _ _ (ap_parse cf D f g t Hg) _ _ _ _ _ E Ho). reflexivity.
Qed.

Lemma through_cases f : 
  match dec cf D f t input with
  | ROk (v, rest) => fst (run h (then_rest (parse cf D f t)) p) = ROk (v, rest)
  | RErr _ => exists e, fst (run h (then_rest (parse cf D f t)) p) = RErr e
  | RPanic => fst (run h (then_rest (parse cf D f t)) p) = RPanic
  | RDiv => fst (run h (then_rest (parse cf D f t)) p) = RDiv
  | RUB => True
  end.
Proof.
  pose proof (runs_rest _ _ (runs_dec cf D f t) (shrinks_dec cf D f t) input [] HL) as H.
  pose proof (custom_run (then_rest (parse cf D f t)) p (w_init input) HS (try_rest _ (try_parse cf D f t))) as C.
  unfold w_init in *. unfold outcome in H. destruct (dec cf D f t input) as [[v rest]|e| | |].
  - rewrite H in C. destruct C as (q & -> & _). reflexivity.
  - destruct H as [e' H]. destruct (run contract_h (parse cf D f t) _) as [r w'] eqn:E. cbn [fst] in H. subst r.
    assert (run contract_h (then_rest (parse cf D f t)) {| w_cur := input; w_outer := [] |} = (RErr e', w')) as H
      by (unfold then_rest; rewrite run_pbind, E; reflexivity).
    rewrite H in C. destruct C as (e2 & q & ->). exists e2. reflexivity.
  - destruct (run contract_h (parse cf D f t) _) as [r w'] eqn:E. cbn [fst] in H. subst r.
    assert (run contract_h (then_rest (parse cf D f t)) {| w_cur := input; w_outer := [] |} = (RPanic, w')) as H
      by (unfold then_rest; rewrite run_pbind, E; reflexivity).
    rewrite H in C. destruct C as (q & ->). reflexivity.
  - exact I.
  - destruct (run contract_h (parse cf D f t) _) as [r w'] eqn:E. cbn [fst] in H. subst r.
    assert (run contract_h (then_rest (parse cf D f t)) {| w_cur := input; w_outer := [] |} = (RDiv, w')) as H
      by (unfold then_rest; rewrite run_pbind, E; reflexivity).
    rewrite H in C. destruct C as (q & ->). reflexivity.
Qed.

Lemma through_complete v rest : denotes (cf_check_padding cf) D t input v rest -> reads_through h p cf D t (ROk (v, rest)).
Proof.
  intros H. apply (complete cf D HD) in H; [|assumption|split; assumption]. destruct H as [f Hf].
  pose proof (through_cases f) as C. rewrite Hf in C. apply (through_at f); [exact C|discriminate].
Qed.

Lemma through_exact v rest : pads_ok cf D t = true ->
  reads_through h p cf D t (ROk (v, rest)) <-> denotes (cf_check_padding cf) D t input v rest.
Proof.
  intros HP. split; [|apply through_complete]. intros H. apply settles_at in H. destruct H as [f Hf].
  pose proof (through_cases f) as C. pose proof (dec_no_ub cf D t input f HD HW HP HB HL) as NU.
  destruct (dec cf D f t input) as [[v' rest']|e| | |] eqn:E; try congruence.
  - rewrite Hf in C. injection C as <- <-. eapply (sound_all cf D HD); [exact HW|split; assumption|exact E].
  - destruct C as [e' C]. congruence.
Qed.

Lemma through_refuses I R : pads_ok cf D t = true -> terminating D I R = true -> loops_ok I t = true ->
  (forall v rest, ~ denotes (cf_check_padding cf) D t input v rest) ->
  (exists e, reads_through h p cf D t (RErr e)) \/ (cf_mode cf = Debug /\ reads_through h p cf D t RPanic).
Proof.
  intros HP HT HLo N. set (f := Z.to_nat (step_bound D I R t (zlen input))).
  assert (Hf : step_bound D I R t (zlen input) <= Z.of_nat f) by (unfold f; lia).
  pose proof (dec_halts cf D I R f t input HT HLo Hf) as Hh.
  pose proof (through_cases f) as C. pose proof (dec_no_ub cf D t input f HD HW HP HB HL) as NU.
  destruct (dec cf D f t input) as [[v rest]|e| | |] eqn:E; try congruence.
  - destruct (N v rest). eapply (sound_all cf D HD); [exact HW|split; assumption|exact E].
  - destruct C as [e' C]. left. exists e'. apply (through_at f); [exact C|discriminate].
  - right. split; [|apply (through_at f); [exact C|discriminate]].
    destruct (cf_mode cf) eqn:Em; [reflexivity|exfalso]. unfold pads_ok in HP. rewrite Em in HP. apply andb_prop in HP. destruct HP as [P1 P2].
    destruct (no_panic_thm WSlice cf D t input f HD HW P1 P2 ltac:(rewrite Em; discriminate) HB HL) as [NP _].
    pose proof (decode_cases WSlice cf D t input HL f) as DC. rewrite E in DC. congruence.
Qed.

Lemma through_same w v rest : pads_ok cf D t = true ->
  reads_through h p cf D t (ROk (v, rest)) <-> reads w cf D t input (ROk (v, rest)).
Proof. intros HP. rewrite through_exact by exact HP. symmetry. apply grammar_exact; assumption. Qed.
End Thms.
End Custom.

Lemma stack_honours e : honours (stack_h e) (fun p w => w = mkW (fst p) (snd p)).
Proof.
  intros X o [cur outer] w -> _. cbn [fst snd]. unfold stack_h. destruct (spec_op Keep o (mkW cur outer)) as [[x|] [c u]].
  - eexists. split; reflexivity.
  - eexists _, _. split; reflexivity.
Qed.

Lemma honours_of {P} (h : handler P) inv alpha : refines_contract Release h inv alpha ->
  honours h (fun p w => inv p /\ alpha p = w).
Proof.
  intros Hr X o p w [Hi <-] Hc. destruct (spec_op Keep o (alpha p)) as [x w'] eqn:E. destruct (h X o p) as [r q] eqn:Eh.
  pose proof (Hr X o p x w' r q Hi Hc E Eh) as H. destruct r; try contradiction.
  - destruct H as (-> & H1 & H2). eexists. split; [reflexivity|split; assumption].
  - destruct H as (-> & H). eexists _, _. split; [reflexivity|exact H].
  - destruct H as [H _]. discriminate H.
Qed.

Lemma stack_keeps e : exists sees, honours (stack_h e) sees /\ forall buf, sees (buf, []) (w_init buf).
Proof. exists (fun p w => w = mkW (fst p) (snd p)). split; [apply stack_honours|reflexivity]. Qed.
Lemma slice_keeps : exists sees, honours slice_h sees /\ forall buf, sees (sp_from_buffer buf) (w_init buf).
Proof.
  exists (fun p w => sp_inv p /\ sp_alpha p = w). split; [exact (honours_of _ _ _ (slice_refines Release))|].
  intros buf. split; [unfold sp_inv, sp_from_buffer; discriminate|reflexivity].
Qed.
Lemma byte_keeps : exists sees, honours (byte_h Release) sees /\
  forall buf, zlen buf <= isize_max -> sees (bp_from_buffer buf) (w_init buf).
Proof.
  eexists. split; [exact (honours_of _ _ _ (byte_refines Release))|].
  intros buf Hl. split; [apply bp_init_inv; exact Hl|apply bp_init_alpha].
Qed.
