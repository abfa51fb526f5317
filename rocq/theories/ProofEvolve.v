(** C77: schemas that grow. *)
From Verif Require Import Base BaseLemmas ModelErrors ModelInt ModelFloat ModelZarith ModelUtf8 ModelParser ModelTarget ModelSchema
  SpecCodec SpecGrammar SpecEvolve ProofDec ProofSettle ProofCodec ProofCodecProps ProofFloat ProofGrammar ProofMeter ProofCodecThms.
From Coq Require Import ZifyBool SpecFloat.

Lemma widens_refl t : widens t t.
Proof. induction t; try (apply wd_basic; reflexivity); constructor; assumption || lia. Qed.
Lemma evolves_nth D D' i d : evolves D D' -> nth_error D i = Some d -> exists d', nth_error D' i = Some d' /\ widens_def d d'.
Proof.
  intros (old & new & -> & H). revert i. induction H as [|a b D1 D2 Hab _ IH]; intros [|i] E; try discriminate E.
  - injection E as <-. exists b. split; [reflexivity|exact Hab].
  - exact (IH i E).
Qed.

(** ** Programs that fail earlier *)
Definition lesser {A} (p p' : prog A) : Prop :=
  forall P (h : handler P) s, run h p s = run h p' s \/ exists e s', run h p s = (RErr e, s').
Lemma les_refl {A} (p : prog A) : lesser p p. Proof. intros P h s. left. reflexivity. Qed.
Lemma les_err {A} e (p : prog A) : lesser (PErr e) p. Proof. intros P h s. right. eexists _, _. reflexivity. Qed.
Lemma les_bind {A B} (p p' : prog A) (k k' : A -> prog B) : lesser p p' -> (forall a, lesser (k a) (k' a)) ->
  lesser (pbind p k) (pbind p' k').
Proof.
  intros H HK P h s. rewrite !run_pbind. destruct (H P h s) as [E|(e & s' & E)]; rewrite E.
  - destruct (run h p' s) as [[a|e| | |] s']; try (left; reflexivity). apply HK.
  - right. eexists _, _. reflexivity.
Qed.
Lemma les_bind_same {A B} (p : prog A) (k k' : A -> prog B) : (forall a, lesser (k a) (k' a)) -> lesser (pbind p k) (pbind p k').
Proof. apply les_bind, les_refl. Qed.
Lemma les_wrap {A B} (p p' : prog A) (f : A -> B) : lesser p p' ->
  lesser (pbind p (fun a => PRet (f a))) (pbind p' (fun a => PRet (f a))).
Proof. intros H. apply les_bind; [exact H|]. intros a. apply les_refl. Qed.

Lemma les_seq f (e e' : prog val) : lesser e e' -> forall l, lesser (p_seq_loop f e l) (p_seq_loop f e' l).
Proof.
  intros H. induction f as [|f IH]; intros l; cbn [p_seq_loop]; [apply les_refl|].
  apply les_bind_same. intros rem. destruct (rem =? 0); [apply les_refl|]. apply les_bind; [exact H|]. intros v. apply IH.
Qed.
Lemma les_push n n' (l : list val) v {B} (k k' : list val -> prog B) : n <= n' -> (forall l, lesser (k l) (k' l)) ->
  lesser (pbind (plift (ext_len (try_push n l v))) k) (pbind (plift (ext_len (try_push n' l v))) k').
Proof.
  intros Hn H. unfold try_push. destruct (zlen l <? n) eqn:E; [|apply les_err].
  assert (zlen l <? n' = true) as -> by lia. apply H.
Qed.
Lemma les_lim f (e e' : prog val) n n' : n <= n' -> lesser e e' -> forall l, lesser (p_lim_loop f n e l) (p_lim_loop f n' e' l).
Proof.
  intros Hn H. induction f as [|f IH]; intros l; cbn [p_lim_loop]; [apply les_refl|].
  apply les_bind_same. intros rem. destruct (rem =? 0); [apply les_refl|]. apply les_bind; [exact H|]. intros v.
  apply les_push; [exact Hn|exact IH].
Qed.
Lemma les_unlim f (e e' : prog val) n : lesser e e' -> forall l, lesser (p_lim_loop f n e l) (p_seq_loop f e' l).
Proof.
  intros H. induction f as [|f IH]; intros l; cbn [p_lim_loop p_seq_loop]; [apply les_refl|].
  apply les_bind_same. intros rem. destruct (rem =? 0); [apply les_refl|]. apply les_bind; [exact H|]. intros v.
  unfold try_push. destruct (zlen l <? n); [apply IH|apply les_err].
Qed.
Lemma les_fix f (e e' : prog val) n : lesser e e' -> forall l, lesser (p_fix_loop f n e l) (p_fix_loop f n e' l).
Proof.
  intros H. induction f as [|f IH]; intros l; cbn [p_fix_loop]; [apply les_refl|].
  apply les_bind_same. intros rem. destruct (negb (rem =? 0) && (zlen l <? n)); [|apply les_refl].
  apply les_bind; [exact H|]. intros v. apply IH.
Qed.
Lemma les_fields q q' ts ts' : Forall2 (fun t t' => lesser (q t) (q' t')) ts ts' -> lesser (p_fields q ts) (p_fields q' ts').
Proof.
  induction 1 as [|t t' ts ts' H _ IH]; cbn [p_fields]; [apply les_refl|].
  apply les_bind; [exact H|]. intros v. apply les_wrap, IH.
Qed.
Lemma les_tagword {B} k tags tags' (K K' : Z -> prog B) :
  (forall tag, In tag tags -> In tag tags' /\ lesser (K tag) (K' tag)) ->
  lesser (pbind (p_take_tagword k tags) K) (pbind (p_take_tagword k tags') K').
Proof.
  intros H P h s. unfold p_take_tagword. rewrite !run_pbind.
  destruct (run h (p_int k) s) as [[a|e| | |] s1]; try (left; reflexivity).
  destruct (existsb (Z.eqb a) tags) eqn:E.
  - apply existsb_exists in E. destruct E as (x & Hx & E). apply Z.eqb_eq in E. subst x. destruct (H a Hx) as [Hi HK].
    assert (existsb (Z.eqb a) tags' = true) as -> by (apply existsb_exists; exists a; split; [exact Hi|apply Z.eqb_refl]).
    cbn [run]. apply HK.
  - right. destruct tags; cbn [run]; eexists _, _; reflexivity.
Qed.
Lemma find_tag_app tag tags more : In tag tags -> find_tag tag (tags ++ more) = find_tag tag tags.
Proof.
  induction tags as [|x tags IH]; [intros []|]. intros [->|H]; cbn [find_tag app]; [rewrite Z.eqb_refl; reflexivity|].
  destruct (tag =? x); [reflexivity|]. rewrite (IH H). reflexivity.
Qed.
Lemma find_tag_nth tag tags ix : find_tag tag tags = Some ix -> nth_error tags ix = Some tag.
Proof.
  revert ix. induction tags as [|x tags IH]; intros ix; [discriminate|]. cbn [find_tag].
  destruct (tag =? x) eqn:E; [intros H; injection H as <-; cbn; f_equal; lia|].
  destruct (find_tag tag tags) as [j|]; [|discriminate]. intros H. injection H as <-. exact (IH j eq_refl).
Qed.

Lemma restrict_wider x lo hi lo' hi' : lo' = lo \/ lo' <= lo <= 0 -> hi <= hi' ->
  (exists e, restrict x lo hi = RErr e) \/ restrict x lo hi = ROk x /\ restrict x lo' hi' = ROk x.
Proof.
  intros HL HH. unfold restrict.
  destruct (0 <? lo) eqn:E0.
  - assert (lo' = lo) as -> by lia. rewrite E0. destruct (x <? 0); [left; eauto|]. destruct (hi <? lo) eqn:E1; [left; eauto|].
    destruct (hi - lo <? x) eqn:E2; [left; eauto|]. right.
    assert (hi' <? lo = false) as -> by lia. assert (hi' - lo <? x = false) as -> by lia. auto.
  - assert (0 <? lo' = false) as -> by lia. destruct (lo <=? x) eqn:E1.
    + destruct (x <=? hi) eqn:E2; [|destruct (hi <? lo); left; eauto]. right.
      assert (lo' <=? x = true) as -> by lia. assert (x <=? hi' = true) as -> by lia. auto.
    + destruct (hi <? lo); left; eauto.
Qed.

Lemma wf_in D i d : wf_defs D = true -> nth_error D i = Some d -> wf_def D d = true.
Proof. intros W E. unfold wf_defs in W. rewrite forallb_forall in W. apply W. eapply nth_error_In. exact E. Qed.

Section Evolve.
Variables (D D' : list def).
Hypothesis HE : evolves D D'.
Hypothesis W : wf_defs D = true.
Hypothesis W' : wf_defs D' = true.

Lemma les_ranged cf k lo hi lo' hi' : ri_sanity lo hi = true -> ri_sanity lo' hi' = true ->
  lo' = lo \/ lo' <= lo <= 0 -> hi <= hi' -> lesser (p_ranged cf k lo hi) (p_ranged cf k lo' hi').
Proof.
  intros S S' HL HH. unfold p_ranged. apply les_bind_same. intros x.
  unfold ri_try_from_underlying, ri_check. rewrite S, S'.
  assert (rassert true = @ROk bounds_error unit tt) as R by reflexivity. rewrite R.
  replace (if cf_range_check cf then ROk tt else ROk tt) with (@ROk bounds_error unit tt) by (destruct (cf_range_check cf); reflexivity).
  cbn [rbind]. destruct (restrict_wider x lo hi lo' hi' HL HH) as [[e E]|[E E']]; rewrite E.
  - apply les_err.
  - rewrite E'. apply les_refl.
Qed.
Lemma les_restrict_float x lo hi lo' hi' : f64_le lo' lo = true -> f64_le hi hi' = true ->
  (exists e, rf_try_from_f64 lo hi x = RErr e) \/ rf_try_from_f64 lo hi x = ROk x /\ rf_try_from_f64 lo' hi' x = ROk x.
Proof.
  intros HL HH. unfold rf_try_from_f64, restrict_float. destruct (f64_le lo hi) eqn:E; [|left; eauto].
  destruct (f64_le lo x) eqn:E1; [|left; eauto]. destruct (f64_le x hi) eqn:E2; [|left; eauto]. right.
  rewrite (f64_le_trans _ _ _ HL E1), (f64_le_trans _ _ _ E2 HH).
  rewrite (f64_le_trans _ _ _ HL (f64_le_trans _ _ _ E HH)). auto.
Qed.

Lemma les_parse cf f : forall t t', widens t t' -> wf_ty D t = true -> wf_ty D' t' = true ->
  lesser (parse cf D f t) (parse cf D' f t').
Proof.
  induction f as [|f IH]; intros t t' H WT WT'; [apply les_refl|].
  assert (FF : forall ts ts', Forall2 widens ts ts' -> forallb (wf_ty D) ts = true -> forallb (wf_ty D') ts' = true ->
    lesser (p_fields (parse cf D f) ts) (p_fields (parse cf D' f) ts')).
  { intros ts ts' HF. intros A A'. apply les_fields. induction HF as [|t1 t1' ts ts' Ht _ IHF]; constructor;
      cbn [forallb] in A, A'; apply andb_true_iff in A; apply andb_true_iff in A'.
    - apply IH; tauto.
    - apply IHF; tauto. }
  destruct H as [t B|k lo hi lo' hi' HL HH|lo hi lo' hi' HL HH|n n' t t' Hn H|n t t' H|t t' H|t t' H|t t' H|n t t' H|s t t' H|n t t' H|n t t' H|t t' H];
    cbn [wf_ty] in WT, WT'.
  - destruct t; try discriminate B; try (apply les_refl). cbn [parse].
    cbn [wf_ty] in WT. assert (exists d, nth_error D i = Some d) as [d E].
    { destruct (nth_error D i) as [d|] eqn:E; [eauto|]. apply nth_error_None in E. lia. }
    destruct (evolves_nth D D' i d HE E) as (d' & E' & Hd). rewrite E, E'.
    pose proof (wf_in D i d W E) as Wd. pose proof (wf_in D' i d' W' E') as Wd'.
    destruct Hd as [ts ts' HF|k tags more|k alts alts' more HF]; cbn [wf_def] in Wd, Wd'.
    + apply les_wrap, FF; assumption.
    + apply les_tagword. intros tag Hi. split; [apply in_or_app; left; exact Hi|]. rewrite (find_tag_app _ _ _ Hi). apply les_refl.
    + rewrite map_app.
      assert (M : map fst alts' = map fst alts).
      { clear - HF. induction HF as [|a a' l l' [E _] _ IH]; cbn [map]; [reflexivity|]. rewrite E, IH. reflexivity. }
      rewrite M. apply les_tagword. intros tag Hi. split; [apply in_or_app; left; exact Hi|]. rewrite (find_tag_app _ _ _ Hi).
      destruct (find_tag tag (map fst alts)) as [ix|] eqn:F; [|apply les_refl]. apply find_tag_nth in F.
      rewrite nth_error_map in F. destruct (nth_error alts ix) as [[tg ts]|] eqn:EA; [|discriminate F].
      assert (exists ts', nth_error alts' ix = Some (tg, ts') /\ Forall2 widens ts ts') as (ts' & EA' & HT).
      { clear - HF EA. revert ix EA. induction HF as [|a a' l l' [E H] _ IH]; intros [|ix] EA; try discriminate EA.
        - injection EA as ->. destruct a' as [tg' ts']. cbn [fst snd] in E, H. subst tg'. exists ts'. split; [reflexivity|exact H].
        - exact (IH ix EA). }
      rewrite nth_error_app1 by (apply nth_error_Some; rewrite EA'; discriminate). rewrite EA'.
      apply les_wrap, FF; [exact HT| |].
      * rewrite !andb_true_iff in Wd. destruct Wd as [_ Wd]. rewrite forallb_forall in Wd.
        apply (Wd (tg, ts)). eapply nth_error_In. exact EA.
      * rewrite !andb_true_iff in Wd'. destruct Wd' as [_ Wd']. rewrite forallb_forall in Wd'.
        apply (Wd' (tg, ts')). apply in_or_app. left. eapply nth_error_In. exact EA'.
  - cbn [parse]. apply les_wrap, les_ranged; assumption.
  - cbn [parse]. apply les_bind_same. intros x.
    destruct (les_restrict_float x lo hi lo' hi' HL HH) as [[e E]|[E E']]; rewrite E; [apply les_err|]. rewrite E'. apply les_refl.
  - cbn [parse]. apply andb_true_iff in WT. apply andb_true_iff in WT'. apply les_wrap, les_lim; [exact Hn|]. apply IH; tauto.
  - cbn [parse]. apply andb_true_iff in WT. apply les_wrap, les_unlim. apply IH; tauto.
  - cbn [parse]. apply les_tagword. intros tag Hi. split; [exact Hi|].
    destruct (tag =? 255); [apply les_wrap, IH; assumption|]. apply les_refl.
  - cbn [parse]. apply les_bind_same. intros rem. destruct (negb (rem =? 0)); [apply les_wrap, IH; assumption|apply les_refl].
  - cbn [parse]. apply les_wrap, les_seq, IH; assumption.
  - cbn [parse]. apply andb_true_iff in WT. apply andb_true_iff in WT'. apply les_wrap, les_fix. apply IH; tauto.
  - cbn [parse]. apply les_bind_same. intros n. apply les_bind_same. intros _. apply les_bind; [apply IH; assumption|].
    intros v. apply les_refl.
  - cbn [parse]. apply andb_true_iff in WT. apply andb_true_iff in WT'.
    apply les_bind_same. intros r. apply les_bind_same. intros _. apply les_bind_same. intros w. apply les_bind_same. intros _.
    apply les_bind; [apply IH; tauto|]. intros v. apply les_refl.
  - cbn [parse]. apply andb_true_iff in WT. apply andb_true_iff in WT'.
    apply les_bind; [apply IH; tauto|]. intros v. apply les_refl.
  - cbn [parse]. apply les_wrap, IH; assumption.
Qed.

Lemma les_decode w cf f t t' input : widens t t' -> wf_ty D t = true -> wf_ty D' t' = true ->
  decode_with w cf D f t input = decode_with w cf D' f t' input \/ exists e, decode_with w cf D f t input = RErr (DParse e).
Proof.
  intros H WT WT'. pose proof (les_parse cf f t t' H WT WT') as HL.
  destruct w; cbn [decode_with]; unfold byte_decode, memo_decode, slice_decode, try_decode;
    match goal with |- context [run ?h (parse cf D f t) ?s] => destruct (HL _ h s) as [E|(e & s' & E)] end; rewrite E;
    solve [left; reflexivity | right; eexists; reflexivity].
Qed.

Lemma new_reader w cf t t' input v : widens t t' -> wf_ty D t = true -> wf_ty D' t' = true ->
  decodes w cf D t input (ROk v) -> decodes w cf D' t' input (ROk v).
Proof.
  intros H WT WT' [_ [f0 Hf]]. split; [discriminate|]. exists f0. intros f Hle. specialize (Hf f Hle).
  destruct (les_decode w cf f t t' input H WT WT') as [E|[e E]]; congruence.
Qed.
End Evolve.

(** ** The old reader *)
Section OldReader.
Variables (D D' : list def).
Hypothesis HE : evolves D D'.

Lemma nth_alts alts alts' more ix tag ts' :
  Forall2 (fun a a' : Z * list ty => fst a = fst a' /\ Forall2 widens (snd a) (snd a')) alts alts' ->
  nth_error (alts' ++ more) ix = Some (tag, ts') -> forall a, nth_error alts ix = Some a ->
  fst a = tag /\ Forall2 widens (snd a) ts'.
Proof.
  intros HF. revert ix. induction HF as [|a a' l l' [E H] _ IH]; intros [|ix] EA b EB; try discriminate EB; cbn [nth_error app] in EA, EB.
  - injection EB as <-. injection EA as ->. cbn [fst snd] in E, H. auto.
  - exact (IH ix EA b EB).
Qed.

Lemma old_denotes ck :
  (forall t' bs v r, denotes ck D' t' bs v r -> forall t, widens t t' -> well_typed D v t = true -> denotes ck D t bs v r).
Proof.
  unfold well_typed.
  apply (denotes_mut ck D'
    (fun t' bs v r _ => forall t, widens t t' -> valid_gen false D v t = true -> denotes ck D t bs v r)
    (fun t' bs vs r _ => forall t, widens t t' -> forallb (fun v => valid_gen false D v t) vs = true -> many ck D t bs vs r)
    (fun ts' bs vs r _ => forall ts, Forall2 widens ts ts' -> all2 (valid_gen false D) vs ts = true -> in_turn ck D ts bs vs r)).
  all: try (intros; match goal with H : widens ?t _ |- _ => inversion H; subst; clear H end;
            try match goal with H : basic _ = true |- _ => discriminate H end; constructor; assumption).
  all: intros; try match goal with H : widens ?t _ |- denotes _ _ _ _ _ _ => inversion H; subst; clear H end;
    try match goal with H : basic _ = true |- _ => discriminate H || clear H end;
    try match goal with H : valid_gen _ _ _ _ = true |- _ => cbn [valid_gen] in H; rewrite ?andb_true_iff in H end;
    try (constructor; solve [auto | tauto | lia | match goal with IH : forall t, _ -> _ -> _ |- _ => apply IH; tauto end]).
  - unfold ranged_ok in H0. apply andb_true_iff in H0. destruct H0 as [_ H0]. constructor; [assumption|].
    unfold SpecNum.ranged_value. destruct (0 <? lo0); lia.
  - eapply den_pad; eauto.
  - destruct (nth_error D i) as [d|] eqn:E; [|discriminate H1]. destruct (evolves_nth D D' i d HE E) as (d' & E' & Hd).
    rewrite E' in e. injection e as ->. inversion Hd; subst. econstructor; [exact E|]. auto.
  - destruct (nth_error D i) as [d|] eqn:E; [|discriminate H0]. destruct (evolves_nth D D' i d HE E) as (d' & E' & Hd).
    rewrite E' in e. injection e as ->. inversion Hd; subst. econstructor; [exact E|].
    rewrite nth_error_app1 in e0 by lia. exact e0.
  - destruct (nth_error D i) as [d|] eqn:E; [|discriminate H1]. destruct (evolves_nth D D' i d HE E) as (d' & E' & Hd).
    rewrite E' in e. injection e as ->. inversion Hd; subst.
    destruct (nth_error alts0 ix) as [[tg ts0]|] eqn:EA; [|discriminate H1].
    match goal with HF : Forall2 _ alts0 _ |- _ => destruct (nth_alts _ _ _ _ _ _ HF e0 _ EA) as [ET HT] end. cbn [fst snd] in ET, HT. subst tg.
    econstructor; [exact E|exact EA|]. auto.
  - cbn [forallb] in H2. apply andb_true_iff in H2. econstructor; [assumption| |]; [apply H|apply H0]; tauto.
  - inversion H; subst. constructor.
  - inversion H1; subst. cbn [all2] in H2. apply andb_true_iff in H2. econstructor; [apply H|apply H0]; tauto.
Qed.

Lemma old_reader w cf t t' input v :
  widens t t' -> wf_defs D = true -> wf_defs D' = true -> wf_ty D t = true -> wf_ty D' t' = true ->
  bytes_ok input -> zlen input <= isize_max ->
  decodes w cf D' t' input (ROk v) ->
  if well_typed D v t then decodes w cf D t input (ROk v)
  else exists e, decodes w cf D t input (RErr (DParse e)).
Proof.
  intros H W W' WT WT' B L HD. destruct (well_typed D v t) eqn:V.
  - apply grammar_decodes in HD; try assumption. apply grammar_decodes; try assumption.
    destruct HD as (rest & HD & HC). exists rest. split; [|exact HC]. eapply old_denotes; eassumption.
  - assert (N : forall v0, ~ decodes w cf D t input (ROk v0)).
    { intros v0 H0. pose proof (valid_only cf D t input w v0 W WT B L H0) as V0.
      pose proof (new_reader D D' HE W W' w cf t t' input v0 H WT WT' H0) as H1.
      destruct HD as [_ [f1 E1]]. destruct H1 as [_ [f2 E2]].
      pose proof (E1 (f1 + f2)%nat ltac:(lia)) as A1. pose proof (E2 (f1 + f2)%nat ltac:(lia)) as A2. congruence. }
    destruct HD as [_ [f E]]. specialize (E f (Nat.le_refl f)).
    destruct (les_decode D D' HE W W' w cf f t t' input H WT WT') as [E0|[e E0]].
    + exfalso. apply (N v). eapply decodes_at; [rewrite E0; exact E|discriminate].
    + exists e. eapply decodes_at; [exact E0|discriminate].
Qed.
End OldReader.

(** ** Encoding *)
Section Encoding.
Variables (D D' : list def).
Hypothesis HE : evolves D D'.
Hypothesis W : wf_defs D = true.
Hypothesis W' : wf_defs D' = true.

Lemma nth_alts_old alts alts' more ix tag ts :
  Forall2 (fun a a' : Z * list ty => fst a = fst a' /\ Forall2 widens (snd a) (snd a')) alts alts' ->
  nth_error alts ix = Some (tag, ts) -> exists ts', nth_error (alts' ++ more) ix = Some (tag, ts') /\ Forall2 widens ts ts'.
Proof.
  intros HF. revert ix. induction HF as [|a a' l l' [E H] _ IH]; intros [|ix] EA; try discriminate EA; cbn [nth_error app] in EA |- *.
  - injection EA as ->. destruct a' as [tg' ts']. cbn [fst snd] in E, H. subst tg'. eauto.
  - exact (IH ix EA).
Qed.
Lemma wf_alt (E : list def) k alts ix tag ts : wf_def E (DData k alts) = true -> nth_error alts ix = Some (tag, ts) ->
  forallb (wf_ty E) ts = true.
Proof.
  intros H EA. cbn [wf_def] in H. rewrite !andb_true_iff in H. destruct H as [_ H]. rewrite forallb_forall in H.
  apply (H (tag, ts)). eapply nth_error_In. exact EA.
Qed.

Lemma known_sum_same q q' ts ts' : Forall2 (fun t t' => q t = q' t') ts ts' -> known_sum q ts = known_sum q' ts'.
Proof. induction 1 as [|t t' ts ts' H _ IH]; cbn [known_sum]; [reflexivity|]. rewrite H, IH. reflexivity. Qed.
Lemma forall2_wf (P : ty -> ty -> Prop) (E : list def) ts ts' : Forall2 widens ts ts' -> forallb (wf_ty E) ts = true ->
  (forall t t', widens t t' -> wf_ty E t = true -> P t t') -> Forall2 P ts ts'.
Proof.
  intros HF A H. induction HF as [|t t' ts ts' Ht _ IH]; constructor; cbn [forallb] in A; apply andb_true_iff in A; [apply H|apply IH]; tauto.
Qed.
Lemma known_same cf kf : forall t t', widens t t' -> wf_ty D t = true -> known cf D' kf t' = known cf D kf t.
Proof.
  induction kf as [|kf IH]; intros t t' H WT; [reflexivity|].
  destruct H as [t B|k lo hi lo' hi' HL HH|lo hi lo' hi' HL HH|n n' t t' Hn H|n t t' H|t t' H|t t' H|t t' H|n t t' H|s t t' H|n t t' H|n t t' H|t t' H];
    cbn [wf_ty] in WT; rewrite ?andb_true_iff in WT; cbn [known]; try reflexivity;
    try (rewrite (IH t t' H) by tauto; reflexivity).
  destruct t; try discriminate B; try reflexivity. cbn [wf_ty] in WT.
  destruct (nth_error D i) as [d|] eqn:E; [|apply nth_error_None in E; lia].
  destruct (evolves_nth D D' i d HE E) as (d' & E' & Hd). rewrite E'.
  pose proof (wf_in D i d W E) as Wd.
  destruct Hd as [ts ts' HF|k tags more|k alts alts' more HF]; cbn [wf_def] in Wd; try reflexivity.
  symmetry. apply known_sum_same. eapply forall2_wf; [exact HF|exact Wd|]. intros. symmetry. apply IH; assumption.
Qed.

Lemma map2_same {A B C} (f : A -> B -> C) g bad vs ts ts' (p : A -> B -> bool) (R : B -> B -> Prop) :
  Forall (fun v => forall t t', R t t' -> p v t = true -> g v t' = f v t) vs -> Forall2 R ts ts' -> all2 p vs ts = true ->
  map2 g bad vs ts' = map2 f bad vs ts.
Proof.
  intros H. revert ts ts'. induction H as [|v vs Hv _ IH]; intros ts ts' HF HA; destruct HF as [|t t' ts ts' Ht HF]; try discriminate HA;
    [reflexivity|]. cbn [all2] in HA. apply andb_true_iff in HA. cbn [map2]. rewrite (Hv t t'), (IH ts ts') by tauto. reflexivity.
Qed.

Definition wide (t t' : ty) : Prop := widens t t' /\ wf_ty D t = true /\ wf_ty D' t' = true.
Lemma wides ts ts' : Forall2 widens ts ts' -> forallb (wf_ty D) ts = true -> forallb (wf_ty D') ts' = true -> Forall2 wide ts ts'.
Proof.
  intros HF A A'. induction HF as [|t t' ts ts' Ht _ IH]; constructor; cbn [forallb] in A, A'; apply andb_true_iff in A; apply andb_true_iff in A';
    [split|apply IH]; tauto.
Qed.
(** Where the components of a widened type are. *)
Lemma wide_named i (X : Type) : wide (TNamed i) (TNamed i) ->
  exists d d', nth_error D i = Some d /\ nth_error D' i = Some d' /\
  match d with
  | DStruct ts => exists ts', d' = DStruct ts' /\ Forall2 wide ts ts'
  | DCStyle k tags => exists more, d' = DCStyle k (tags ++ more)
  | DData k alts => exists alts', d' = DData k alts' /\ forall ix tag ts, nth_error alts ix = Some (tag, ts) ->
      exists ts', nth_error alts' ix = Some (tag, ts') /\ Forall2 wide ts ts'
  end.
Proof.
  intros (_ & WT & _). cbn [wf_ty] in WT.
  destruct (nth_error D i) as [d|] eqn:E; [|apply nth_error_None in E; lia].
  destruct (evolves_nth D D' i d HE E) as (d' & E' & Hd). exists d, d'. split; [reflexivity|]. split; [exact E'|].
  pose proof (wf_in D i d W E) as Wd. pose proof (wf_in D' i d' W' E') as Wd'.
  destruct Hd as [ts ts' HF|k tags more|k alts alts' more HF].
  - exists ts'. split; [reflexivity|]. apply wides; assumption.
  - exists more. reflexivity.
  - exists (alts' ++ more). split; [reflexivity|]. intros ix tag ts EA.
    destruct (nth_alts_old _ _ more _ _ _ HF EA) as (ts' & EA' & HT). exists ts'. split; [exact EA'|].
    apply wides; [exact HT|eapply wf_alt; eassumption|eapply wf_alt; eassumption].
Qed.

Lemma known_wide cf kf t t' : wide t t' -> known cf D' kf t' = known cf D kf t.
Proof. intros (H & WT & _). apply known_same; assumption. Qed.
Lemma known_sum_wide cf kf ts ts' : Forall2 wide ts ts' -> known_sum (known cf D' kf) ts' = known_sum (known cf D kf) ts.
Proof.
  intros H. symmetry. apply known_sum_same. induction H as [|t t' ts ts' Ht _ IH]; constructor; [|exact IH]. symmetry. apply known_wide, Ht.
Qed.

(** Inversion of [wide] at a composite type. *)
Ltac wide_inv H :=
  let Hw := fresh "Hw" in let A := fresh "A" in let A' := fresh "A'" in
  destruct H as (Hw & A & A'); inversion Hw; subst; clear Hw;
  try match goal with H : basic _ = true |- _ => discriminate H || clear H end;
  cbn [wf_ty] in A, A'; rewrite ?andb_true_iff in A; rewrite ?andb_true_iff in A';
  try match goal with Hx : widens ?a ?b |- _ => assert (HW : wide a b) by (split; [exact Hx|split; tauto]) end.

Lemma unknown_same cf kf v : forall t t', wide t t' -> well_typed D v t = true ->
  unknown cf D' kf v t' = unknown cf D kf v t.
Proof.
  unfold well_typed.
  induction v as [| | | | |v IHv|vs IHvs|vs IHvs|ix vs IHvs|v IHv] using val_ind'; intros t t' H V; pose proof H as H0;
    destruct t; cbn [valid_gen] in V; try discriminate V; wide_inv H0; try reflexivity; cbn [unknown].
  all: rewrite ?andb_true_iff in V.
  all: try (destruct (wide_named i unit H) as (d & d' & E & E' & Hd); rewrite E in *; rewrite E'; destruct d; try discriminate V).
  all: try (rewrite (IHv _ _ HW) by tauto; rewrite ?(known_wide cf kf _ _ HW); reflexivity).
  all: try (f_equal; apply map_ext_Forall; rewrite Forall_forall in IHvs |- *; intros v Hv;
            try match type of V with _ /\ _ => destruct V as [V _] end; rewrite forallb_forall in V;
            rewrite (IHvs v Hv _ _ HW) by auto; rewrite ?(known_wide cf kf _ _ HW); reflexivity).
  - destruct Hd as (ts' & -> & HF). f_equal. eapply map2_same; eassumption.
  - destruct Hd as (more & ->). reflexivity.
  - destruct Hd as (alts' & -> & HA). destruct (nth_error alts ix) as [[tag ts]|] eqn:EA; [|discriminate V].
    destruct (HA _ _ _ EA) as (ts' & -> & HF). rewrite (known_sum_wide cf kf ts ts' HF). do 2 f_equal. f_equal.
    eapply map2_same; eassumption.
Qed.
Lemma estimate_same cf kf v t t' : wide t t' -> well_typed D v t = true -> estimate cf D' kf v t' = estimate cf D kf v t.
Proof. intros H V. unfold estimate. rewrite (unknown_same cf kf v t t' H V), (known_wide cf kf t t' H). reflexivity. Qed.

Definition weq {U} (a b : writer U) : Prop := forall u, a u = b u.
Lemma weq_refl {U} (a : writer U) : weq a a. Proof. intros u. reflexivity. Qed.
Lemma weq_add cf {U} (a a' b b' : writer U) : weq a a' -> weq b b' -> weq (w_add cf a b) (w_add cf a' b').
Proof. intros Ha Hb u. unfold w_add. rewrite Ha. apply rbind_ext. intros r. rewrite Hb. reflexivity. Qed.
Lemma weq_sum cf {U} (ws ws' : list (writer U)) : Forall2 weq ws ws' -> forall acc, weq (w_sum cf acc ws) (w_sum cf acc ws').
Proof.
  induction 1 as [|a b ws ws' H _ IH]; intros acc u; cbn [w_sum]; [reflexivity|]. rewrite H. apply rbind_ext. intros r. apply rbind_ext.
  intros n. apply IH.
Qed.
Lemma weq_map cf {U} (f g : val -> writer U) vs : Forall (fun v => weq (f v) (g v)) vs -> forall acc, weq (w_sum cf acc (map f vs)) (w_sum cf acc (map g vs)).
Proof. intros H. apply weq_sum. induction H; constructor; assumption. Qed.
Lemma weq_map2 cf {U} (f g : val -> ty -> writer U) bad vs ts ts' (p : val -> ty -> bool) (R : ty -> ty -> Prop) :
  Forall (fun v => forall t t', R t t' -> p v t = true -> weq (g v t') (f v t)) vs -> Forall2 R ts ts' -> all2 p vs ts = true ->
  forall acc, weq (w_sum cf acc (map2 g bad vs ts')) (w_sum cf acc (map2 f bad vs ts)).
Proof.
  intros H HF HA. apply weq_sum. revert ts ts' HF HA. induction H as [|v vs Hv _ IH]; intros ts ts' HF HA; destruct HF as [|t t' ts ts' Ht HF];
    try discriminate HA; [constructor|]. cbn [all2] in HA. apply andb_true_iff in HA. cbn [map2]. constructor; [apply Hv|apply IH]; tauto.
Qed.

Lemma write_same cf kf v : forall U (T : target U) t t', wide t t' -> well_typed D v t = true ->
  weq (write_to cf D' kf v U T t') (write_to cf D kf v U T t).
Proof.
  induction v as [| | | | |v IHv|vs IHvs|vs IHvs|ix vs IHvs|v IHv] using val_ind'; intros U T t t' H V; pose proof H as H0; pose proof V as V0;
    unfold well_typed in V; destruct t; cbn [valid_gen] in V; try discriminate V; wide_inv H0; try (intros u; reflexivity); cbn [write_to].
  all: rewrite ?andb_true_iff in V.
  all: try (destruct (wide_named i unit H) as (d & d' & E & E' & Hd); rewrite E in *; rewrite E'; destruct d; try discriminate V).
  all: try (apply weq_add; [apply weq_map|apply weq_refl]; rewrite Forall_forall in IHvs |- *; intros v Hv;
            try match type of V with _ /\ _ => destruct V as [V _] end; rewrite forallb_forall in V;
            apply (IHvs v Hv); [exact HW|apply V, Hv]).
  - intros u. unfold w_ranged, ri_to_underlying, ri_check. rewrite A, A'.
    assert (restrict z lo hi = ROk z) as R.
    { unfold restrict, ranged_ok in *. destruct (0 <? lo) eqn:E0.
      - assert (z <? 0 = false) as -> by lia. assert (hi <? lo = false) as -> by lia. assert (hi - lo <? z = false) as -> by lia. reflexivity.
      - assert (lo <=? z = true) as -> by lia. assert (z <=? hi = true) as -> by lia. reflexivity. }
    destruct (restrict_wider z lo hi lo' hi' H4 H5) as [[e E]|[_ E]]; [congruence|]. rewrite R, E. reflexivity.
  - apply weq_add; [|apply weq_refl]. apply weq_add; [apply weq_refl|]. apply IHv; assumption.
  - apply weq_add; [|apply weq_refl]. apply IHv; assumption.
  - destruct Hd as (ts' & -> & HF). apply weq_add; [|apply weq_refl].
    eapply weq_map2 with (p := well_typed D); [|exact HF|exact V]. eapply Forall_impl; [|exact IHvs]. intros v Hv t t'. apply Hv.
  - destruct Hd as (more & ->). destruct vs as [|? ?]; [|discriminate V]. rewrite nth_error_app1 by lia. apply weq_refl.
  - destruct Hd as (alts' & -> & HA). destruct (nth_error alts ix) as [[tag ts]|] eqn:EA; [|discriminate V].
    destruct (HA _ _ _ EA) as (ts' & -> & HF). apply weq_add; [|apply weq_refl]. apply weq_add; [apply weq_refl|].
    apply weq_add; [|apply weq_refl].
    eapply weq_map2 with (p := well_typed D); [|exact HF|exact V]. eapply Forall_impl; [|exact IHvs]. intros v Hv t t'. apply Hv.
  - destruct V as [V _]. intros u. apply rbind_ext2.
    { destruct (cf_est_override cf); [apply estimate_same; assumption|]. rewrite (IHv unit tg_counter _ _ HW V tt). reflexivity. }
    intros l. apply rbind_ext. intros _. destruct (pref_try_from cf s l) as [lp|]; [|reflexivity].
    apply rbind_ext. intros ll. apply rbind_ext. intros total.
    apply weq_add; [|apply weq_refl]. apply weq_add; [apply weq_refl|]. apply IHv; assumption.
  - apply IHv; assumption.
  - apply weq_add; [|apply weq_refl]. apply weq_add; [|apply weq_refl]. apply IHv; assumption.
  - apply IHv; assumption.
Qed.

Lemma encode_same cf kf {U} (T : target U) v t t' : widens t t' -> wf_ty D t = true -> wf_ty D' t' = true -> well_typed D v t = true ->
  encode cf D' kf T v t' = encode cf D kf T v t /\ enc_len cf D' kf v t' = enc_len cf D kf v t.
Proof.
  intros H WT WT' V. assert (HW : wide t t') by (split; auto). unfold encode, enc_len.
  rewrite (write_same cf kf v U T t t' HW V _), (write_same cf kf v unit tg_counter t t' HW V tt), (estimate_same cf kf v t t' HW V). auto.
Qed.
Lemma all2_wide vs ts ts' : Forall (fun v => forall t t', wide t t' -> well_typed D v t = true -> well_typed D' v t' = true) vs ->
  Forall2 wide ts ts' -> all2 (well_typed D) vs ts = true -> all2 (well_typed D') vs ts' = true.
Proof.
  intros H. revert ts ts'. induction H as [|v vs Hv _ IH]; intros ts ts' HF HA; destruct HF as [|t t' ts ts' Ht HF];
    try discriminate HA; [reflexivity|]. cbn [all2] in HA |- *. apply andb_true_iff in HA. apply andb_true_iff.
  split; [apply (Hv t)|apply (IH ts)]; tauto.
Qed.
Lemma typed_wide v : forall t t', wide t t' -> well_typed D v t = true -> well_typed D' v t' = true.
Proof.
  induction v as [| | | | |v IHv|vs IHvs|vs IHvs|ix vs IHvs|v IHv] using val_ind'; intros t t' H V; pose proof H as H0;
    unfold well_typed in *; destruct t; cbn [valid_gen] in V; try discriminate V; wide_inv H0; cbn [valid_gen]; try exact V; try reflexivity.
  all: rewrite ?andb_true_iff in V; rewrite ?andb_true_iff.
  all: try (destruct (wide_named i unit H) as (d & d' & E & E' & Hd); rewrite E in *; rewrite E'; destruct d; try discriminate V).
  all: try (apply (IHv _ _ HW); tauto).
  all: try (split; [|first [reflexivity | match goal with |- (zlen _ <=? _) = true => lia | |- (zlen _ =? _) = true => lia end]]).
  all: try (apply forallb_forall; rewrite Forall_forall in IHvs; intros v Hv; apply (IHvs v Hv _ _ HW);
            try match type of V with _ /\ _ => destruct V as [V _] end; rewrite forallb_forall in V; apply V, Hv).
  - unfold ranged_ok in *. destruct (0 <? lo) eqn:E0; destruct (0 <? lo') eqn:E1; lia.
  - destruct V as [[V1 V2] V3]. split; [split; [exact V1|]|]; eapply f64_le_trans; eassumption.
  - destruct Hd as (ts' & -> & HF). eapply all2_wide; eassumption.
  - destruct Hd as (more & ->). destruct vs; [|discriminate V]. rewrite app_length. lia.
  - destruct Hd as (alts' & -> & HA). destruct (nth_error alts ix) as [[tag ts]|] eqn:EA; [|discriminate V].
    destruct (HA _ _ _ EA) as (ts' & -> & HF). eapply all2_wide; eassumption.
  - apply (IHv _ _ HW). tauto.
Qed.
Lemma typed_new v t t' : widens t t' -> wf_ty D t = true -> wf_ty D' t' = true -> well_typed D v t = true -> well_typed D' v t' = true.
Proof. intros H WT WT'. apply typed_wide. split; auto. Qed.
End Encoding.
