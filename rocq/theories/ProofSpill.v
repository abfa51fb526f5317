(** When a release build reads out of bounds or panics while decoding (C31). *)
From Verif Require Import Base BaseLemmas ModelErrors ModelSplitVec ModelParser ModelInt ModelFloat ModelZarith
  ModelUtf8 ModelTarget ModelSchema SpecParser SpecCodec SpecNum SpecUtf8 SpecGrammar SpecPanic SpecSpill
  ProofParser ProofParserSim ProofParserProps ProofParserExact ProofInt ProofSafe ProofDec ProofCodec ProofMeta ProofTransfer
  ProofTyped ProofRoundTrip ProofSettle ProofView ProofBroken ProofNum ProofCodecThms ProofHalt ProofCodecProps ProofGrammar ProofPanic.
From Coq Require Import ZifyBool.

Scheme idle_mut := Induction for idle Sort Prop with idle_all_mut := Induction for idle_all Sort Prop.
Scheme wild_mut := Induction for wild Sort Prop with wild_turn_mut := Induction for wild_turn Sort Prop.
Scheme spills_mut := Induction for spills Sort Prop with spills_turn_mut := Induction for spills_turn Sort Prop.

(** ** Inside a window that ends, at [L], before the position, [c] *)
Section Wild.
Context {P : Type} (h : handler P) (B : Z -> Z -> P -> Prop).
Hypothesis HBr : forall L c p, B L c p -> 0 <= L < c /\ c <= isize_max.
Hypothesis Hrem : forall L c p, B L c p -> h Z OpRemainder p = (ROk (L - c + usize_mod), p).
Hypothesis Hbyte : forall L c p, B L c p -> exists e p', h byte OpConsumeByte p = (RErr e, p').
Hypothesis Hcons : forall L c p n, B L c p -> 0 <= n <= isize_max -> exists e p', h (list byte) (OpConsume n) p = (RErr e, p').
Hypothesis Hall : forall L c p, B L c p -> fst (h (list byte) (OpConsume (L - c + usize_mod)) p) = RUB.
Hypothesis Hshift : forall L c p n, B L c p -> 0 <= n <= isize_max ->
  if n <=? L then exists p', h unit (OpSetFit (L - c + usize_mod - n)) p = (ROk tt, p') /\ B (L - n) c p'
  else exists e p', h unit (OpSetFit (L - c + usize_mod - n)) p = (RErr e, p').
Hypothesis Hclose : forall L c p, B L c p -> exists e p', h unit OpEnforceTarget p = (RErr e, p').

Lemma huge L c p : B L c p -> L - c + usize_mod =? 0 = false.
Proof. intros H. pose proof (HBr L c p H) as [H1 H2]. pose proof isize_max_lt. lia. Qed.

Definition fails {A} (pg : prog A) (p : P) : Prop := exists e p', run h pg p = (RErr e, p').
Lemma fails_bind {A C} (pg : prog A) (k : A -> prog C) p : fails pg p -> fails (pbind pg k) p.
Proof. intros (e & p' & E). exists e, p'. rewrite run_pbind, E. reflexivity. Qed.
Lemma fails_op {X : Set} (o : pop X) p : (exists e p', h X o p = (RErr e, p')) -> fails (do_op o) p.
Proof. intros (e & p' & E). exists e, p'. rewrite run_do_op. exact E. Qed.
Lemma run_rem {A} L c (k : Z -> prog A) p : B L c p -> run h (pbind p_remainder k) p = run h (k (L - c + usize_mod)) p.
Proof. intros H. rewrite run_pbind. unfold p_remainder. rewrite run_do_op, (Hrem L c p H). reflexivity. Qed.

Lemma fails_fixed L c p n : B L c p -> 0 <= n <= isize_max -> fails (p_take_fixed n) p.
Proof. intros H Hn. unfold p_take_fixed, p_consume_arr. apply fails_bind, fails_op. eapply Hcons; eassumption. Qed.
Lemma fails_int L c p k : B L c p -> fails (p_int k) p.
Proof. intros H. unfold p_int. apply fails_bind. eapply fails_fixed; [exact H|]. destruct k; vm_compute; split; discriminate. Qed.
Lemma fails_tag L c p k tags : B L c p -> fails (p_take_tagword k tags) p.
Proof. intros H. unfold p_take_tagword. apply fails_bind. eapply fails_int; exact H. Qed.
Lemma fails_pref L c p cf s : B L c p -> fails (p_pref cf s) p.
Proof. intros H. destruct s; cbn [p_pref]; [eapply fails_int; exact H..|]. apply fails_bind. unfold p_ranged. apply fails_bind. eapply fails_int; exact H. Qed.
Lemma panics_st L c p term : B L c p -> fst (run h (p_take_self_terminating term) p) = RPanic.
Proof.
  intros H. unfold p_take_self_terminating. rewrite (run_rem L c _ p H).
  replace (L - c + usize_mod <=? isize_max) with false; [reflexivity|].
  pose proof (HBr L c p H) as [H1 H2]. unfold isize_max, usize_mod in *. lia.
Qed.

(** The two ways to go wrong: [true] is to read out of bounds, [false] to panic. *)
Definition wrong {A} (b : bool) : pres A := if b then RUB else RPanic.
Definition culprit (b : bool) : ty -> bool := if b then all_left else big_number.

(** What a program can do there: nothing, if [I]; go wrong, if [W]; fail. *)
Definition says {A} L c (I : Prop) (W : bool -> Prop) (x : pres A * P) : Prop :=
  match fst x with ROk _ => I /\ B L c (snd x) | RUB => W true | RPanic => W false | _ => True end.
Lemma says_fails {A} L c I W (pg : prog A) p : fails pg p -> says L c I W (run h pg p).
Proof. intros (e & p' & E). rewrite E. exact Logic.I. Qed.
Lemma says_bind {A C} L c (I : Prop) (W : bool -> Prop) (I2 : Prop) (W2 : bool -> Prop) (pg : prog A) (k : A -> prog C) p : says L c I W (run h pg p) -> (forall b, W b -> W2 b) ->
  (forall a p', I -> B L c p' -> says L c I2 W2 (run h (k a) p')) -> says L c I2 W2 (run h (pbind pg k) p).
Proof.
  intros H HW Hk. rewrite run_pbind. unfold says in H. destruct (run h pg p) as [[a|e| | |] p']; cbn [fst snd] in H.
  - destruct H as [HI HB']. apply Hk; assumption.
  - exact Logic.I.
  - apply HW. exact H.
  - apply HW. exact H.
  - exact Logic.I.
Qed.
Lemma says_st L c I (W : bool -> Prop) {C} term (k : list byte -> prog C) p : B L c p -> W false -> says L c I W (run h (pbind (p_take_self_terminating term) k) p).
Proof.
  intros H HW. pose proof (panics_st L c p term H) as E. rewrite run_pbind. destruct (run h (p_take_self_terminating term) p) as [r p'].
  cbn [fst] in E. subst r. exact HW.
Qed.
Lemma says_ret {A} L c (I : Prop) (W : bool -> Prop) (a : A) p : I -> B L c p -> says L c I W (run h (PRet a) p).
Proof. intros. split; assumption. Qed.

Section Types.
Variables (cf : config) (D : list def).
Hypothesis HD : wf_defs D = true.
Hypothesis HM : cf_mode cf = Release.

Lemma says_seq (I : Prop) (W : bool -> Prop) (pe : prog val) L c : (forall p, B L c p -> says L c I W (run h pe p)) ->
  forall fl acc p, B L c p -> says L c False W (run h (p_seq_loop fl pe acc) p).
Proof.
  intros He. induction fl as [|fl IH]; intros acc p H; [exact Logic.I|]. cbn [p_seq_loop]. rewrite (run_rem L c _ p H), (huge L c p H).
  eapply says_bind; [apply He; exact H|auto|]. intros v p' _ H'. apply IH; exact H'.
Qed.
Lemma says_lim (I : Prop) (W : bool -> Prop) n (pe : prog val) L c : (forall p, B L c p -> says L c I W (run h pe p)) ->
  forall fl acc p, B L c p -> says L c False W (run h (p_lim_loop fl n pe acc) p).
Proof.
  intros He. induction fl as [|fl IH]; intros acc p H; [exact Logic.I|]. cbn [p_lim_loop]. rewrite (run_rem L c _ p H), (huge L c p H).
  eapply says_bind; [apply He; exact H|auto|]. intros v p' _ H'. unfold try_push. destruct (_ <? _); cbn [ext_len plift pbind]; [|exact Logic.I].
  apply IH; exact H'.
Qed.
Lemma says_fix (I : Prop) (W : bool -> Prop) n (pe : prog val) L c : 0 <= n -> (forall p, B L c p -> says L c I W (run h pe p)) ->
  forall fl acc p, B L c p -> says L c (n <= zlen acc \/ I) (fun b => 0 < n /\ W b) (run h (p_fix_loop fl n pe acc) p).
Proof.
  intros Hn He. induction fl as [|fl IH]; intros acc p H; [exact Logic.I|]. cbn [p_fix_loop]. rewrite (run_rem L c _ p H), (huge L c p H).
  cbn [negb andb]. destruct (Z.ltb_spec (zlen acc) n) as [Hlt|Hge].
  - pose proof (zlen_nonneg acc). eapply says_bind; [apply He; exact H|intros b HW; split; [lia|exact HW]|]. intros v p' HI H'.
    specialize (IH (acc ++ [v]) p' H'). unfold says in IH |- *. destruct (fst _); try exact IH. destruct IH as [_ IH]. auto.
  - destruct (_ =? _); [apply says_ret; [left; exact Hge|exact H]|exact Logic.I].
Qed.
Lemma says_fields f : (forall t L c p, wf_ty D t = true -> B L c p -> says L c (idle D t) (fun b => wild (culprit b) D L t) (run h (parse cf D f t) p)) ->
  forall ts L c p, forallb (wf_ty D) ts = true -> B L c p ->
  says L c (idle_all D ts) (fun b => wild_turn (culprit b) D L ts) (run h (p_fields (parse cf D f) ts) p).
Proof.
  intros He. induction ts as [|t ts IH]; intros L c p HW H; cbn [p_fields]; [apply says_ret; [constructor|exact H]|].
  cbn [forallb] in HW. apply andb_prop in HW. destruct HW as [HW1 HW2].
  eapply says_bind; [apply He; assumption|intros b; apply wild_here|]. intros v p' HI H'.
  eapply says_bind; [apply IH; assumption|intros b; apply wild_later; exact HI|]. intros vs p'' HIs H''.
  apply says_ret; [constructor; assumption|exact H''].
Qed.

Lemma broken_says f : forall t L c p, wf_ty D t = true -> B L c p -> says L c (idle D t) (fun b => wild (culprit b) D L t) (run h (parse cf D f t) p).
Proof.
  induction f as [|f IH]; intros t L c p HW H; [exact Logic.I|].
  destruct t; cbn [wf_ty] in HW; cbn [parse].
  - apply says_ret; [constructor|exact H].
  - apply says_fails, fails_bind. unfold p_take_bool. apply fails_bind, fails_op. eapply Hbyte; exact H.
  - apply says_fails, fails_bind. eapply fails_int; exact H.
  - apply says_fails, fails_bind. unfold p_ranged. apply fails_bind. eapply fails_int; exact H.
  - apply says_fails, fails_bind. eapply fails_int; exact H.
  - apply says_fails, fails_bind. eapply fails_int; exact H.
  - apply says_st; [exact H|]. apply wild_first; reflexivity.
  - apply says_st; [exact H|]. apply wild_first; reflexivity.
  - rewrite (run_rem L c _ p H), run_pbind. unfold p_take_dynamic, p_consume. rewrite run_do_op.
    pose proof (Hall L c p H) as E. destruct (h _ _ p) as [r p']. cbn [fst] in E. subst r. apply wild_first; reflexivity.
  - rewrite (run_rem L c _ p H), run_pbind. unfold p_take_dynamic, p_consume. rewrite run_do_op.
    pose proof (Hall L c p H) as E. destruct (h _ _ p) as [r p']. cbn [fst] in E. subst r. apply wild_first; reflexivity.
  - unfold sizeb in HW. apply says_fails, fails_bind. eapply fails_fixed; [exact H|lia].
  - unfold sizeb in HW. apply says_fails, fails_bind. eapply fails_fixed; [exact H|lia].
  - apply says_fails, fails_bind. eapply fails_tag; exact H.
  - rewrite (run_rem L c _ p H), (huge L c p H). cbn [negb].
    eapply says_bind; [apply IH; eassumption|intros b; apply wild_nullable|]. intros v p' HI H'. apply says_ret; [constructor; exact HI|exact H'].
  - eapply says_bind; [eapply says_seq; [|exact H]; intros q Hq; apply IH; assumption|intros b; apply wild_seq|]. intros v p' [].
  - apply andb_prop in HW as [Hn HW].
    eapply says_bind; [eapply says_lim; [|exact H]; intros q Hq; apply IH; assumption|intros b; apply wild_lim|]. intros v p' [].
  - apply andb_prop in HW as [Hn HW]. unfold sizeb in Hn.
    eapply says_bind; [eapply says_fix; [lia| |exact H]; intros q Hq; apply IH; assumption|intros b [? ?]; apply wild_fix; assumption|].
    intros v p' HI H'. change (zlen (@nil val)) with 0 in HI. apply says_ret; [|exact H']. destruct HI as [HI|HI]; [|apply idle_fix; exact HI].
    replace n with 0 by lia. apply idle_fix_none.
  - apply says_fails, fails_bind. eapply fails_pref; exact H.
  - apply andb_prop in HW as [Hn HW]. unfold sizeb in Hn. rewrite (run_rem L c _ p H), HM. cbn [debug_assert plift pbind].
    pose proof (HBr L c p H) as [H1 H2]. pose proof isize_max_lt.
    rewrite usub_ok by lia. cbn [plift pbind]. rewrite run_pbind. unfold p_set_fit. rewrite run_do_op.
    assert (Hn' : 0 <= n <= isize_max) by lia. pose proof (Hshift L c p n H Hn') as Hs. destruct (Z.leb_spec n L) as [Hle|Hgt].
    + destruct Hs as (p1 & E & Hb). rewrite E. pose proof (IH t (L - n) c p1 HW Hb) as S1. rewrite run_pbind. unfold says in S1.
      destruct (run h (parse cf D f t) p1) as [[v|e| | |] p2]; cbn [fst snd] in S1; try exact Logic.I; [|apply wild_vpad; assumption..].
      destruct S1 as [_ Hb2]. rewrite run_pbind. unfold p_enforce_target. rewrite run_do_op.
      destruct (Hclose _ _ _ Hb2) as (e & p3 & E3). rewrite E3. exact Logic.I.
    + destruct Hs as (e & p1 & E). rewrite E. exact Logic.I.
  - apply andb_prop in HW as [Hn HW]. unfold sizeb in Hn.
    eapply says_bind; [apply IH; eassumption|intros b; apply wild_padded|]. intros v p' HI H'. apply says_fails, fails_bind, fails_op. eapply Hcons; [exact H'|lia].
  - eapply says_bind; [apply IH; eassumption|intros b; apply wild_box|]. intros v p' HI H'. apply says_ret; [constructor; exact HI|exact H'].
  - destruct (nth_error D i) as [[ts|k tags|k alts]|] eqn:Ei.
    + eapply says_bind; [apply says_fields; [exact IH|eapply wf_struct; eassumption|exact H]|intros b; eapply wild_struct; exact Ei|].
      intros v p' HI H'. apply says_ret; [eapply idle_struct; eassumption|exact H'].
    + apply says_fails, fails_bind. eapply fails_tag; exact H.
    + apply says_fails, fails_bind. eapply fails_tag; exact H.
    + apply nth_error_None in Ei. apply Nat.ltb_lt in HW. lia.
Qed.

(** Conversely. *)
Definition passes (pg : nat -> prog val) : Prop :=
  exists f, forall f' L c p, (f <= f')%nat -> B L c p -> exists v p', run h (pg f') p = (ROk v, p') /\ B L c p'.
Definition passes_all (pg : nat -> prog (list val)) : Prop :=
  exists f, forall f' L c p, (f <= f')%nat -> B L c p -> exists v p', run h (pg f') p = (ROk v, p') /\ B L c p'.

Ltac fuel f' := destruct f' as [|f']; [lia|]; cbn [parse].
Lemma fix_passes (pe : prog val) L c n : (forall p, B L c p -> exists v p', run h pe p = (ROk v, p') /\ B L c p') ->
  forall fl acc p, zlen acc <= n -> (Z.to_nat (n - zlen acc) < fl)%nat -> B L c p ->
  exists v p', run h (p_fix_loop fl n pe acc) p = (ROk v, p') /\ B L c p'.
Proof.
  intros He. induction fl as [|fl IH]; intros acc p Hn Hf H; [lia|]. cbn [p_fix_loop]. rewrite (run_rem L c _ p H), (huge L c p H).
  cbn [negb andb]. destruct (Z.ltb_spec (zlen acc) n) as [Hlt|Hge].
  - destruct (He p H) as (v & p' & E & H'). rewrite run_pbind, E. apply IH; [..|exact H']; rewrite zlen_app; change (zlen [v]) with 1; lia.
  - replace (zlen acc =? n) with true by lia. cbn [run]. eauto.
Qed.
Lemma idle_passes t : idle D t -> wf_ty D t = true -> passes (fun f => parse cf D f t).
Proof.
  intros H.
  induction H using idle_mut with (P0 := fun ts _ => forallb (wf_ty D) ts = true -> passes_all (fun f => p_fields (parse cf D f) ts));
    cbn [wf_ty]; intros HW.
  - exists 1%nat. intros f' L c p Hf Hb. fuel f'. cbn [run]. eauto.
  - destruct (IHidle HW) as [f Hf]. exists (S f). intros f' L c p Hf' Hb. fuel f'.
    destruct (Hf f' L c p ltac:(lia) Hb) as (v & p' & E & H'). rewrite run_pbind, E. cbn [run]. eauto.
  - destruct (IHidle HW) as [f Hf]. exists (S f). intros f' L c p Hf' Hb. fuel f'. rewrite (run_rem L c _ p Hb), (huge L c p Hb). cbn [negb].
    destruct (Hf f' L c p ltac:(lia) Hb) as (v & p' & E & H'). rewrite run_pbind, E. cbn [run]. eauto.
  - apply andb_prop in HW as [Hn HW]. unfold sizeb in Hn. destruct (IHidle HW) as [f Hf].
    exists (S (Nat.max f (S (Z.to_nat n)))). intros f' L c p Hf' Hb. fuel f'.
    destruct (fix_passes (parse cf D f' t) L c n) with (fl := f') (acc := @nil val) (p := p) as (v & p' & E & H').
    + intros q Hq. apply Hf; [lia|exact Hq].
    + change (zlen (@nil val)) with 0. lia.
    + change (zlen (@nil val)) with 0. lia.
    + exact Hb.
    + rewrite run_pbind, E. cbn [run]. eauto.
  - exists 2%nat. intros f' L c p Hf' Hb. fuel f'. destruct f' as [|f']; [lia|]. cbn [p_fix_loop].
    rewrite run_pbind, (run_rem L c _ p Hb), (huge L c p Hb). cbn [negb andb]. change (zlen (@nil val)) with 0. cbn [Z.ltb Z.eqb Z.compare run]. eauto.
  - match goal with E : nth_error D i = Some _ |- _ => rename E into Ei end.
    destruct (IHidle (wf_struct D i ts HD Ei)) as [f Hf]. exists (S f). intros f' L c p Hf' Hb. fuel f'. rewrite Ei.
    destruct (Hf f' L c p ltac:(lia) Hb) as (v & p' & E & H'). rewrite run_pbind, E. cbn [run]. eauto.
  - exists O. intros f' L c p Hf' Hb. cbn [p_fields run]. eauto.
  - cbn [forallb] in HW. apply andb_prop in HW. destruct HW as [HW1 HW2]. destruct (IHidle HW1) as [f Hf]. destruct (IHidle0 HW2) as [g Hg].
    exists (Nat.max f g). intros f' L c p Hf' Hb. cbn [p_fields].
    destruct (Hf f' L c p ltac:(lia) Hb) as (v & p' & E & H'). rewrite run_pbind, E.
    destruct (Hg f' L c p' ltac:(lia) H') as (vs & p'' & E' & H''). rewrite run_pbind, E'. cbn [run]. eauto.
Qed.

Variable b : bool.
Definition strays (L : Z) (pg : nat -> prog val) : Prop :=
  exists f, forall f' c p, (f <= f')%nat -> B L c p -> fst (run h (pg f') p) = wrong b.
Definition strays_turn (L : Z) (pg : nat -> prog (list val)) : Prop :=
  exists f, forall f' c p, (f <= f')%nat -> B L c p -> fst (run h (pg f') p) = wrong b.
Lemma ub_first {A C} (pg : prog A) (k : A -> prog C) p : fst (run h pg p) = wrong b -> fst (run h (pbind pg k) p) = wrong b.
Proof. intros H. rewrite run_pbind. destruct (run h pg p) as [[a|e| | |] p'], b; try discriminate H; reflexivity. Qed.

Lemma wild_strays L t : wild (culprit b) D L t -> wf_ty D t = true -> strays L (fun f => parse cf D f t).
Proof.
  intros H.
  induction H using wild_mut with (P0 := fun L ts _ => forallb (wf_ty D) ts = true -> strays_turn L (fun f => p_fields (parse cf D f) ts));
    cbn [wf_ty]; intros HW.
  - exists 1%nat. intros f' c p Hf Hb. fuel f'. destruct b eqn:Eb, t; try discriminate; rewrite <- Eb; [rewrite (run_rem L c _ p Hb)|rewrite (run_rem L c _ p Hb)| |]; apply ub_first.
    1,2: unfold p_take_dynamic, p_consume; rewrite run_do_op, Eb; exact (Hall L c p Hb).
    1,2: rewrite Eb; exact (panics_st L c p _ Hb).
  - destruct (IHwild HW) as [f Hf]. exists (S f). intros f' c p Hf' Hb. fuel f'. apply ub_first. apply (Hf f' c p); [lia|exact Hb].
  - destruct (IHwild HW) as [f Hf]. exists (S f). intros f' c p Hf' Hb. fuel f'. rewrite (run_rem L c _ p Hb), (huge L c p Hb). cbn [negb].
    apply ub_first. apply (Hf f' c p); [lia|exact Hb].
  - apply andb_prop in HW as [Hn HW].
    destruct (IHwild HW) as [f Hf]. exists (S f). intros f' c p Hf' Hb. fuel f'. apply ub_first. apply (Hf f' c p); [lia|exact Hb].
  - destruct (IHwild HW) as [f Hf]. exists (S (S f)). intros f' c p Hf' Hb. fuel f'. apply ub_first. destruct f' as [|f']; [lia|].
    cbn [p_seq_loop]. rewrite (run_rem L c _ p Hb), (huge L c p Hb). apply ub_first. apply (Hf (S f') c p); [lia|exact Hb].
  - apply andb_prop in HW as [Hn HW].
    destruct (IHwild HW) as [f Hf]. exists (S (S f)). intros f' c p Hf' Hb. fuel f'. apply ub_first. destruct f' as [|f']; [lia|].
    cbn [p_lim_loop]. rewrite (run_rem L c _ p Hb), (huge L c p Hb). apply ub_first. apply (Hf (S f') c p); [lia|exact Hb].
  - apply andb_prop in HW as [Hn HW].
    destruct (IHwild HW) as [f Hf]. exists (S (S f)). intros f' c p Hf' Hb. fuel f'. apply ub_first. destruct f' as [|f']; [lia|].
    cbn [p_fix_loop]. rewrite (run_rem L c _ p Hb), (huge L c p Hb). change (zlen (@nil val)) with 0. replace (0 <? n) with true by lia. cbn [negb andb].
    apply ub_first. apply (Hf (S f') c p); [lia|exact Hb].
  - apply andb_prop in HW as [Hn HW]. unfold sizeb in Hn. destruct (IHwild HW) as [f Hf]. exists (S f). intros f' c p Hf' Hb. fuel f'.
    rewrite (run_rem L c _ p Hb), HM. cbn [debug_assert plift pbind]. pose proof (HBr L c p Hb) as [H1 H2]. pose proof isize_max_lt.
    rewrite usub_ok by lia. cbn [plift pbind]. rewrite run_pbind. unfold p_set_fit. rewrite run_do_op.
    assert (Hn' : 0 <= n <= isize_max) by lia. pose proof (Hshift L c p n Hb Hn') as Hs. replace (n <=? L) with true in Hs by lia.
    destruct Hs as (p1 & E & Hb1). rewrite E. apply ub_first. apply (Hf f' c p1); [lia|exact Hb1].
  - match goal with E : nth_error D i = Some _ |- _ => rename E into Ei end.
    destruct (IHwild (wf_struct D i ts HD Ei)) as [f Hf]. exists (S f). intros f' c p Hf' Hb. fuel f'. rewrite Ei. apply ub_first.
    apply (Hf f' c p); [lia|exact Hb].
  - cbn [forallb] in HW. apply andb_prop in HW. destruct HW as [HW1 HW2]. destruct (IHwild HW1) as [f Hf].
    exists f. intros f' c p Hf' Hb. cbn [p_fields]. apply ub_first. apply (Hf f' c p); assumption.
  - cbn [forallb] in HW. apply andb_prop in HW. destruct HW as [HW1 HW2]. destruct (IHwild HW2) as [f Hf].
    match goal with E : idle D t |- _ => destruct (idle_passes t E HW1) as [g Hg] end.
    exists (Nat.max f g). intros f' c p Hf' Hb. cbn [p_fields].
    destruct (Hg f' L c p ltac:(lia) Hb) as (v & p' & E & H'). rewrite run_pbind, E. apply ub_first. apply (Hf f' c p'); [lia|exact H'].
Qed.
End Types.
End Wild.
