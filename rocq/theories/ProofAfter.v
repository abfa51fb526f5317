(** C81: what a decoder leaves behind. *)
From Verif Require Import Base BaseLemmas ModelErrors ModelSplitVec ModelInt ModelFloat ModelZarith ModelParser ModelSchema SpecCodec SpecParser SpecAfter
  ProofParser ProofParserSim ProofParserProps ProofParserClean ProofDec ProofTransfer ProofSafe ProofView ProofCodecThms.
From Coq Require Import ZifyBool.

(** ** Reasoning about programs on the reference machine *)
Section Wp.
Variable pol : residue_policy.

Fixpoint wp {A} (pg : prog A) (w : wstack) (Q : A -> wstack -> Prop) (E : wstack -> Prop) : Prop :=
  match pg with
  | PRet a => Q a w
  | PErr _ => E w
  | PPanic | PUB | PDiv => True
  | POp o k => match spec_op pol o w with (Some x, w') => wp (k x) w' Q E | (None, w') => E w' end
  | PTry o k f => match spec_op pol o w with (Some x, w') => wp (k x) w' Q E | (None, w') => wp f w' Q E end
  end.

Lemma wp_mono {A} (pg : prog A) : forall w (Q Q' : A -> wstack -> Prop) (E E' : wstack -> Prop),
  (forall a w', Q a w' -> Q' a w') -> (forall w', E w' -> E' w') -> wp pg w Q E -> wp pg w Q' E'.
Proof.
  induction pg as [a|e| | | |X o k IH|X o k IHk f IHf]; intros w Q Q' E E' HQ HE; cbn [wp]; auto.
  - destruct (spec_op pol o w) as [[x|] w']; eauto.
  - destruct (spec_op pol o w) as [[x|] w']; eauto.
Qed.

Lemma wp_bind {A B} (pg : prog A) (k : A -> prog B) : forall w Q E,
  wp pg w (fun a w' => wp (k a) w' Q E) E -> wp (pbind pg k) w Q E.
Proof.
  induction pg as [a|e| | | |X o kk IH|X o kk IHk f IHf]; intros w Q E; cbn [wp pbind]; auto.
  - destruct (spec_op pol o w) as [[x|] w']; auto.
  - destruct (spec_op pol o w) as [[x|] w']; auto.
Qed.

(** What every decoder of the library does. *)
Definition ends (w0 w : wstack) : Prop := w_outer w = w_outer w0 /\ suffix (w_cur w) (w_cur w0).
Definition stays {A} (pg : prog A) : Prop :=
  forall w, wp pg w (fun _ => ends w) (fun w' => inside w' w).

Lemma ends_refl w : ends w w.
Proof. split; [reflexivity|apply suffix_refl]. Qed.
Lemma ends_trans a b c : ends a b -> ends b c -> ends a c.
Proof. intros [H1 H2] [H3 H4]. split; [congruence|eapply suffix_trans; eassumption]. Qed.
Lemma inside_refl w : inside w w.
Proof. exists [], []. cbn [app concat]. rewrite app_nil_r. split; reflexivity. Qed.
Lemma ends_inside a b c : ends a b -> inside c b -> inside c a.
Proof.
  intros [H1 [pre H2]] (opened & used & H3 & H4). exists opened, (pre ++ used). split; [congruence|].
  rewrite H2, H4, app_assoc. reflexivity.
Qed.
Lemma ends_in a b : ends a b -> inside b a.
Proof. intros H. eapply ends_inside; [exact H|apply inside_refl]. Qed.

Lemma stays_bind {A B} (pg : prog A) (k : A -> prog B) :
  stays pg -> (forall a, stays (k a)) -> stays (pbind pg k).
Proof.
  intros H Hk w. apply wp_bind. eapply wp_mono; [| |exact (H w)]; [|auto].
  intros a w' He. cbv beta. eapply wp_mono; [| |exact (Hk a w')].
  - intros b w2 He2. cbv beta in *. eapply ends_trans; eassumption.
  - intros w2 Hi. cbv beta in *. eapply ends_inside; eassumption.
Qed.
Lemma stays_ret {A} (a : A) : stays (PRet a).
Proof. intros w. exact (ends_refl w). Qed.
Lemma stays_err {A} e : stays (@PErr A e).
Proof. intros w. exact (inside_refl w). Qed.
Lemma stays_panic {A} : stays (@PPanic A).
Proof. intros w. exact Logic.I. Qed.
Lemma stays_div {A} : stays (@PDiv A).
Proof. intros w. exact Logic.I. Qed.
Lemma stays_lift {A} (r : pres A) : stays (plift r).
Proof. intros w. destruct r; cbn; auto using ends_refl, inside_refl. Qed.

Lemma stays_rem : stays p_remainder.
Proof. intros w. exact (ends_refl w). Qed.
Lemma stays_byte : stays p_consume_byte.
Proof.
  intros w. unfold p_consume_byte, do_op. cbn [wp spec_op]. destruct (w_cur w) as [|b cur] eqn:E; [apply inside_refl|].
  split; [reflexivity|]. cbn [w_cur]. rewrite E. apply suffix_cons.
Qed.
Lemma stays_consume n : stays (p_consume n).
Proof.
  intros w. unfold p_consume, do_op. cbn [wp spec_op]. destruct (n <=? zlen (w_cur w)); [|apply inside_refl].
  split; [reflexivity|]. apply suffix_zdrop.
Qed.
Lemma stays_st_loop term fuel : forall acc, stays (p_self_terminating_loop fuel term acc).
Proof.
  induction fuel as [|fuel IH]; intros acc; cbn [p_self_terminating_loop]; [apply stays_div|].
  intros w. cbn [wp spec_op]. destruct (w_cur w) as [|b cur] eqn:E; [apply inside_refl|].
  assert (He : ends w (mkW cur (w_outer w))).
  { split; [reflexivity|]. cbn [w_cur]. rewrite E. apply suffix_cons. }
  destruct (term b); [exact He|].
  eapply wp_mono; [| |exact (IH (acc ++ [b]) (mkW cur (w_outer w)))].
  - intros a w2 H. exact (ends_trans _ _ _ He H).
  - intros w2 H. exact (ends_inside _ _ _ He H).
Qed.
Lemma stays_st term : stays (p_take_self_terminating term).
Proof. unfold p_take_self_terminating. apply stays_bind; [exact stays_rem|intros a; destruct (a <=? isize_max); [apply stays_st_loop|apply stays_panic]]. Qed.

Lemma stays_window {A B} n (pg : prog A) (k : A -> prog B) :
  stays pg -> (forall a, stays (k a)) ->
  stays (pbind (p_set_fit n) (fun _ => pbind pg (fun v => pbind p_enforce_target (fun _ => k v)))).
Proof.
  intros H Hk w. apply wp_bind. unfold p_set_fit, do_op. cbn [wp spec_op].
  destruct (n <=? zlen (w_cur w)); [|apply inside_refl].
  set (w1 := mkW (ztake n (w_cur w)) (zdrop n (w_cur w) :: w_outer w)).
  apply wp_bind. eapply wp_mono; [| |exact (H w1)].
  - intros a w2 [H1 [pre H2]]. cbn [w_outer w_cur w1] in H1, H2. apply wp_bind.
    unfold p_enforce_target, do_op. cbn [wp spec_op]. rewrite H1.
    destruct (w_cur w2) as [|b cur] eqn:E.
    + assert (He : ends w (mkW (zdrop n (w_cur w)) (w_outer w))) by (split; [reflexivity|apply suffix_zdrop]).
      eapply wp_mono; [| |exact (Hk a (mkW (zdrop n (w_cur w)) (w_outer w)))].
      * intros v w3 H3. exact (ends_trans _ _ _ He H3).
      * intros w3 H3. exact (ends_inside _ _ _ He H3).
    + assert (Hc : w_cur w = pre ++ (b :: cur) ++ zdrop n (w_cur w)).
      { rewrite app_assoc, <- H2. symmetry. apply ztake_zdrop. }
      destruct pol.
      * exists [zdrop n (w_cur w)], pre. split; [exact H1|]. rewrite E. cbn [concat]. rewrite app_nil_r. exact Hc.
      * exists [], pre. split; [reflexivity|]. cbn [w_cur concat]. rewrite app_nil_r. exact Hc.
      * exists [], (pre ++ b :: cur). split; [reflexivity|]. cbn [w_cur concat]. rewrite app_nil_r, <- app_assoc. exact Hc.
  - intros w2 (opened & used & H1 & H2). cbn [w_outer w_cur w1] in H1, H2.
    exists (opened ++ [zdrop n (w_cur w)]), used. split; [rewrite H1, <- app_assoc; reflexivity|].
    rewrite concat_app. cbn [concat]. rewrite app_nil_r, !app_assoc, <- (app_assoc used), <- H2. symmetry. apply ztake_zdrop.
Qed.

Hint Resolve stays_ret stays_err stays_panic stays_div stays_lift stays_rem stays_byte stays_consume stays_st : after.
Ltac sts :=
  repeat first
    [ solve [auto with after]
    | apply stays_bind; [|intros ?]
    | match goal with
      | |- stays (if ?b then _ else _) => destruct b
      | |- stays (match ?o with _ => _ end) => destruct o
      end ].

Lemma stays_fixed n : stays (p_take_fixed n).
Proof. unfold p_take_fixed, p_consume_arr. sts. Qed.
Hint Resolve stays_fixed : after.
Lemma stays_int k : stays (p_int k).
Proof. unfold p_int. sts. Qed.
Hint Resolve stays_int : after.
Lemma stays_bool : stays p_take_bool.
Proof. unfold p_take_bool. sts. Qed.
Lemma stays_tag k tags : stays (p_take_tagword k tags).
Proof. unfold p_take_tagword. sts. Qed.
Lemma stays_ranged cf k lo hi : stays (p_ranged cf k lo hi).
Proof. unfold p_ranged. sts. Qed.
Hint Resolve stays_bool stays_tag stays_ranged : after.
Lemma stays_pref cf s : stays (p_pref cf s).
Proof. destruct s; unfold p_pref; sts. Qed.
Hint Resolve stays_pref : after.
Lemma stays_seq fuel (elem : prog val) : stays elem -> forall seq, stays (p_seq_loop fuel elem seq).
Proof. intros H. induction fuel as [|fuel IH]; intros seq; cbn [p_seq_loop]; sts. Qed.
Lemma stays_lim fuel n (elem : prog val) : stays elem -> forall seq, stays (p_lim_loop fuel n elem seq).
Proof. intros H. induction fuel as [|fuel IH]; intros seq; cbn [p_lim_loop]; sts. Qed.
Lemma stays_fix fuel n (elem : prog val) : stays elem -> forall seq, stays (p_fix_loop fuel n elem seq).
Proof. intros H. induction fuel as [|fuel IH]; intros seq; cbn [p_fix_loop]; sts. Qed.
Lemma stays_fields (p : ty -> prog val) ts : (forall t, stays (p t)) -> stays (p_fields p ts).
Proof. intros H. induction ts as [|t ts IH]; cbn [p_fields]; sts. Qed.
Hint Resolve stays_seq stays_lim stays_fix stays_fields : after.

Lemma stays_parse cf D fuel : forall t, stays (parse cf D fuel t).
Proof.
  induction fuel as [|f IH]; intros t; cbn [parse]; [apply stays_div|].
  destruct t; unfold p_take_dynamic; try solve [sts].
  - apply stays_bind; [auto with after|intros n]. apply stays_window; [apply IH|intros; apply stays_ret].
  - repeat (apply stays_bind; [solve [auto with after]|intros ?]). apply stays_window; [apply IH|intros; apply stays_ret].
Qed.
End Wp.

(** ** From the reference machine to the parsers *)
Definition follows {P} (m : mode) (h : handler P) (pol : residue_policy) (inv : P -> Prop) (alpha : P -> wstack) : Prop :=
  forall (X : Set) (o : pop X) p x w' r p',
    inv p -> in_contract o (alpha p) = true ->
    spec_op pol o (alpha p) = (x, w') -> h X o p = (r, p') ->
    match r with
    | ROk v => x = Some v /\ inv p' /\ alpha p' = w'
    | RErr _ => x = None /\ inv p' /\ alpha p' = w'
    | RPanic => m = Debug
    | _ => False
    end.

Lemma byte_follows m : follows m (byte_h m) Merge bp_inv bp_alpha.
Proof.
  intros X o p x w' r p' Hi Hc Hs Hb. pose proof (bp_step m o p Hi (in_contract_fits m o _ Hc) _ _ _ _ Hs Hb) as H.
  unfold step_rel in H. destruct r; try contradiction; tauto.
Qed.
Lemma memo_follows m : follows m (memo_h m) Merge mp_inv (fun p => bp_alpha (mp_bp p)).
Proof.
  intros X o p x w' r p' Hi Hc Hs Hb. destruct (mp_step m o p Hi (in_contract_fits m o _ Hc) _ _ Hb) as [Hb' Hi'].
  pose proof (byte_follows m X o (mp_bp p) x w' r (mp_bp p') (proj1 Hi) Hc Hs Hb') as H.
  destruct r; try contradiction; auto.
  - destruct H as (? & _ & ?). split; [assumption|]. split; [apply Hi'; discriminate|assumption].
  - destruct H as (? & _ & ?). split; [assumption|]. split; [apply Hi'; discriminate|assumption].
Qed.
Lemma slice_follows m : follows m slice_h Drop sp_inv sp_alpha.
Proof.
  intros X o p x w' r p' Hi Hc Hs Hb.
  assert (Hw : match o with OpTestTarget | OpEnforceTarget => w_outer (sp_alpha p) <> [] | _ => True end).
  { destruct o; auto; cbn [in_contract] in Hc; destruct (w_outer (sp_alpha p)); congruence. }
  pose proof (sp_step o p Hi Hw _ _ _ _ Hs Hb) as H. destruct r; try contradiction; tauto.
Qed.

Lemma contract_bracket {X : Set} (o : pop X) w : in_contract o w = true ->
  match o with OpTestTarget | OpEnforceTarget => w_outer w <> [] | _ => True end.
Proof. destruct o; cbn [in_contract]; auto; destruct (w_outer w); congruence. Qed.

Section Trace.
Context {P : Type} (m : mode) (h : handler P) (pol : residue_policy) (inv : P -> Prop) (alpha : P -> wstack).
Hypothesis HF : follows m h pol inv alpha.

Definition traced (p : P) (p' : P) : Prop :=
  exists ops, Forall (arg_fits m) ops /\ bracketed pol ops (alpha p) /\
    after h ops p = Some p' /\ after (spec_h pol) ops (alpha p) = Some (alpha p').

Lemma traced_refl p : traced p p.
Proof. exists []. repeat split; constructor. Qed.

Lemma traced_step {X : Set} (o : pop X) p x w' r q p' :
  in_contract o (alpha p) = true -> spec_op pol o (alpha p) = (x, w') ->
  h X o p = (r, q) -> (exists v, r = ROk v) \/ (exists e, r = RErr e) -> alpha q = w' ->
  traced q p' -> traced p p'.
Proof.
  intros Hc Hs Hh Hr <- (ops & H1 & H2 & H3 & H4). exists (AnyOp o :: ops).
  split; [constructor; [exact (in_contract_fits m o _ Hc)|exact H1]|].
  cbn [bracketed after]. rewrite Hs, Hh, (spec_h_eq _ _ _ _ _ Hs). cbn [snd].
  split; [split; [exact (contract_bracket o _ Hc)|exact H2]|].
  split; [destruct Hr as [[? ->]|[? ->]]; exact H3|]. destruct x; exact H4.
Qed.

Lemma run_traced {A} (pg : prog A) : forall p (Q : A -> wstack -> Prop) E, inv p -> try_bytes_only pg ->
  fst (run contract_h pg (alpha p)) <> RUB -> fst (run contract_h pg (alpha p)) <> RPanic \/ m = Debug ->
  wp pol pg (alpha p) Q E ->
  forall r p', run h pg p = (r, p') ->
  match r with
  | ROk a => traced p p' /\ inv p' /\ Q a (alpha p')
  | RErr _ => traced p p' /\ inv p' /\ E (alpha p')
  | RPanic => m = Debug
  | RUB => False
  | RDiv => True
  end.
Proof.
  induction pg as [a|e| | | |X o k IH|X o k IHk f IHf]; intros p Q E Hi Ht HU HP Hw r p' Hr.
  - cbn [run wp] in *. injection Hr as <- <-. auto using traced_refl.
  - cbn [run wp] in *. injection Hr as <- <-. auto using traced_refl.
  - cbn [run] in *. injection Hr as <- <-. destruct HP as [HP|HP]; [destruct HP; reflexivity|exact HP].
  - cbn [run] in *. injection Hr as <- <-. apply HU. reflexivity.
  - cbn [run] in *. injection Hr as <- <-. exact Logic.I.
  - cbn [run wp try_bytes_only] in *. unfold contract_h at 1 in HU. unfold contract_h at 1 in HP.
    destruct (in_contract o (alpha p)) eqn:Ec; [|destruct HU; reflexivity].
    destruct (spec_op Keep o (alpha p)) as [xk wk] eqn:Ek. destruct (spec_op pol o (alpha p)) as [x w'] eqn:Es.
    pose proof (spec_op_policy o pol (alpha p)) as [Hp1 Hp2]. rewrite Ek, Es in Hp1, Hp2. cbn [fst snd] in Hp1, Hp2. subst xk.
    rewrite (spec_h_eq _ _ _ _ _ Ek) in HU, HP.
    destruct (h X o p) as [r1 q] eqn:Eh. pose proof (HF X o p x w' r1 q Hi Ec Es Eh) as Hst.
    destruct r1; try contradiction.
    + destruct Hst as (-> & Hq & Ha). rewrite <- (Hp2 ltac:(discriminate)), <- Ha in HU, HP.
      rewrite <- Ha in Hw. pose proof (IH _ q Q E Hq (Ht _) HU HP Hw r p' Hr) as H.
      destruct r; auto; (destruct H as (H1 & H2); split; [|exact H2]; eapply traced_step; eauto).
    + destruct Hst as (-> & Hq & Ha). injection Hr as <- <-. split; [|split; [exact Hq|congruence]].
      eapply traced_step; eauto using traced_refl.
    + injection Hr as <- <-. exact Hst.
  - destruct Ht as (Hb & Htk & Htf). cbn [run wp] in *. unfold contract_h at 1 in HU. unfold contract_h at 1 in HP.
    destruct (in_contract o (alpha p)) eqn:Ec; [|destruct HU; reflexivity].
    destruct (spec_op Keep o (alpha p)) as [xk wk] eqn:Ek. destruct (spec_op pol o (alpha p)) as [x w'] eqn:Es.
    pose proof (spec_op_policy o pol (alpha p)) as [Hp1 Hp2]. rewrite Ek, Es in Hp1, Hp2. cbn [fst snd] in Hp1, Hp2. subst xk.
    assert (Hww : w' = wk).
    { destruct o; try discriminate Hb. cbn [spec_op] in Ek, Es. congruence. }
    rewrite (spec_h_eq _ _ _ _ _ Ek) in HU, HP.
    destruct (h X o p) as [r1 q] eqn:Eh. pose proof (HF X o p x w' r1 q Hi Ec Es Eh) as Hst.
    destruct r1; try contradiction.
    + destruct Hst as (-> & Hq & Ha). rewrite <- Hww, <- Ha in HU, HP. rewrite <- Ha in Hw.
      pose proof (IHk _ q Q E Hq (Htk _) HU HP Hw r p' Hr) as H.
      destruct r; auto; (destruct H as (H1 & H2); split; [|exact H2]; eapply traced_step; eauto).
    + destruct Hst as (-> & Hq & Ha). rewrite <- Hww, <- Ha in HU, HP. rewrite <- Ha in Hw.
      pose proof (IHf q Q E Hq Htf HU HP Hw r p' Hr) as H.
      destruct r; auto; (destruct H as (H1 & H2); split; [|exact H2]; eapply traced_step; eauto).
    + injection Hr as <- <-. exact Hst.
Qed.
End Trace.

(** ** Decoders *)
Lemma suffix_app a b c : suffix a b -> suffix (a ++ c) (b ++ c).
Proof. intros [p ->]. exists p. symmetry. apply app_assoc. Qed.
Lemma suffix_rest (a b : list byte) : suffix b (a ++ b).
Proof. exists a. reflexivity. Qed.

Lemma spec_rest pol {X : Set} (o : pop X) w : suffix (w_rest (snd (spec_op pol o w))) (w_rest w).
Proof.
  unfold w_rest. destruct o; cbn [spec_op].
  - apply suffix_refl.
  - destruct (w_cur w) as [|b cur] eqn:E; cbn [snd w_cur w_outer]; [rewrite E; apply suffix_refl|apply suffix_cons].
  - destruct (n <=? zlen (w_cur w)); cbn [snd w_cur w_outer]; [apply suffix_app, suffix_zdrop|apply suffix_refl].
  - destruct (n <=? zlen (w_cur w)); cbn [snd w_cur w_outer concat]; [|apply suffix_refl].
    rewrite app_assoc, ztake_zdrop. apply suffix_refl.
  - apply suffix_refl.
  - destruct (w_outer w) as [|next rest] eqn:E; cbn [snd]; [rewrite E; apply suffix_refl|].
    destruct (w_cur w) as [|b cur] eqn:E2; cbn [snd w_cur w_outer concat]; [apply suffix_refl|].
    destruct pol; cbn [w_cur w_outer concat].
    + rewrite E, E2. apply suffix_refl.
    + rewrite <- app_assoc. apply suffix_refl.
    + apply suffix_rest.
  - cbn [snd w_cur w_outer]. apply suffix_app, suffix_zdrop.
  - destruct (n <=? zlen (w_cur w)); cbn [snd w_cur w_outer]; [apply suffix_app, suffix_zdrop|apply suffix_refl].
Qed.

Lemma after_rest pol ops : forall w w', after (spec_h pol) ops w = Some w' -> suffix (w_rest w') (w_rest w).
Proof.
  induction ops as [|[X o] ops IH]; intros w w' H; cbn [after] in H; [injection H as ->; apply suffix_refl|].
  pose proof (spec_rest pol o w) as S. destruct (spec_op pol o w) as [x w1] eqn:Es. rewrite (spec_h_eq _ _ _ _ _ Es) in H.
  cbn [snd] in S. destruct x; (eapply suffix_trans; [exact (IH _ _ H)|exact S]).
Qed.

Lemma after_good pol ops buf w : bytes_ok buf -> zlen buf <= isize_max ->
  after (spec_h pol) ops (w_init buf) = Some w -> bytes_ok (w_cur w) /\ zlen (w_cur w) <= isize_max.
Proof.
  intros Hb Hl H. apply after_rest in H. unfold w_init, w_rest in H. cbn [w_cur w_outer concat] in H. rewrite app_nil_r in H.
  pose proof (suffix_bytes _ _ H Hb) as H1. pose proof (suffix_zlen _ _ H) as H2. apply bytes_ok_app in H1.
  rewrite zlen_app in H2. pose proof (zlen_nonneg (concat (w_outer w))). split; [tauto|unfold byte in *; lia].
Qed.

Lemma sp_after_from ops : forall p p', sp_inv p -> bracketed Drop ops (sp_alpha p) -> after slice_h ops p = Some p' ->
  sp_inv p' /\ after (spec_h Drop) ops (sp_alpha p) = Some (sp_alpha p').
Proof.
  induction ops as [|[X o] ops IH]; intros p p' Hi Hb Ha; cbn [after bracketed] in *.
  - injection Ha as <-. auto.
  - destruct Hb as [Hw Hb]. destruct (spec_op Drop o (sp_alpha p)) as [x w'] eqn:Es. cbn [snd] in Hb.
    rewrite (spec_h_eq _ _ _ _ _ Es). destruct (slice_h X o p) as [r q] eqn:Eh.
    pose proof (sp_step o p Hi Hw _ _ _ _ Es Eh) as Hst.
    destruct r; try discriminate; destruct Hst as (-> & Hq & <-); apply IH; assumption.
Qed.

Section Decoder.
Variables (cf : config) (D : list def) (t : ty) (f : nat).
Hypothesis HD : wf_defs D = true.
Hypothesis HW : wf_ty D t = true.
Hypothesis HP : pads_ok cf D t = true.

Lemma contract_quiet cur outer : bytes_ok cur -> zlen cur <= isize_max ->
  fst (run contract_h (parse cf D f t) (mkW cur outer)) <> RUB /\
  (fst (run contract_h (parse cf D f t) (mkW cur outer)) <> RPanic \/ cf_mode cf = Debug).
Proof.
  intros Hb Hl. pose proof (runs_dec cf D f t cur outer Hl) as Ho. pose proof (dec_no_ub cf D t cur f HD HW HP Hb Hl) as Hu.
  assert (Hp : dec cf D f t cur <> RPanic \/ cf_mode cf = Debug).
  { destruct (cf_mode cf) eqn:Em; [right; reflexivity|left]. unfold pads_ok in HP. rewrite Em in HP. apply andb_prop in HP as [H1 H2].
    pose proof (safe_dec false cf D HD) as S. unfold vpads in S. rewrite Em in S. cbn [orb] in S.
    exact (proj1 (S H2 f t HW H1 cur (conj Hb Hl)) eq_refl). }
  unfold outcome in Ho. destruct (dec cf D f t cur) as [[v rest]| | | |].
  - rewrite Ho. cbn [fst]. split; [discriminate|left; discriminate].
  - destruct Ho as [e1 ->]. split; [discriminate|left; discriminate].
  - rewrite Ho. split; [discriminate|]. destruct Hp as [Hp|Hp]; [destruct Hp; reflexivity|right; exact Hp].
  - destruct Hu; reflexivity.
  - rewrite Ho. split; [discriminate|left; discriminate].
Qed.

Lemma decoder_leaves {P} (h : handler P) pol inv alpha p r p' : follows (cf_mode cf) h pol inv alpha ->
  inv p -> bytes_ok (w_cur (alpha p)) -> zlen (w_cur (alpha p)) <= isize_max ->
  run h (parse cf D f t) p = (r, p') -> leaves (cf_mode cf) h pol p (alpha p) r p'.
Proof.
  intros HF Hi Hb Hl Hr. destruct (contract_quiet (w_cur (alpha p)) (w_outer (alpha p)) Hb Hl) as [H1 H2].
  assert (Ea : mkW (w_cur (alpha p)) (w_outer (alpha p)) = alpha p) by (destruct (alpha p); reflexivity). rewrite Ea in H1, H2.
  pose proof (run_traced (cf_mode cf) h pol inv alpha HF (parse cf D f t) p _ _ Hi (try_parse cf D f t) H1 H2
    (stays_parse pol cf D f t (alpha p)) r p' Hr) as H.
  unfold leaves. destruct r; auto.
  - destruct H as ((ops & T1 & T2 & T3 & T4) & _ & H). exists ops, (alpha p').
    repeat (split; [assumption|]). split; [apply ends_in, H|apply H].
  - destruct H as ((ops & T1 & T2 & T3 & T4) & _ & H). exists ops, (alpha p'). auto.
Qed.

Variables (buf : list byte) (pre : list any_op).
Hypothesis HB : bytes_ok buf.
Hypothesis HL : zlen buf <= isize_max.

Lemma byte_leaves p w r p' : Forall (arg_fits (cf_mode cf)) pre ->
  after (byte_h (cf_mode cf)) pre (bp_from_buffer buf) = Some p -> after (spec_h Merge) pre (w_init buf) = Some w ->
  run (byte_h (cf_mode cf)) (parse cf D f t) p = (r, p') -> leaves (cf_mode cf) (byte_h (cf_mode cf)) Merge p w r p'.
Proof.
  intros Ha H Hs Hr. destruct (bp_after_from _ _ _ _ (bp_init_inv buf HL) Ha H) as [Hi E].
  rewrite bp_init_alpha, Hs in E. injection E as ->. destruct (after_good _ _ _ _ HB HL Hs).
  apply (decoder_leaves _ Merge bp_inv bp_alpha); auto using byte_follows.
Qed.
Lemma memo_leaves p w r p' : Forall (arg_fits (cf_mode cf)) pre ->
  after (memo_h (cf_mode cf)) pre (mp_from_buffer buf) = Some p -> after (spec_h Merge) pre (w_init buf) = Some w ->
  run (memo_h (cf_mode cf)) (parse cf D f t) p = (r, p') -> leaves (cf_mode cf) (memo_h (cf_mode cf)) Merge p w r p'.
Proof.
  intros Ha H Hs Hr. destruct (mp_after_from _ _ _ (mp_init_inv buf HL) Ha) as [H1 H2]. specialize (H2 _ H). rewrite H in H1.
  cbn [option_map] in H1. symmetry in H1. destruct (bp_after_from _ _ _ _ (bp_init_inv buf HL) Ha H1) as [_ E].
  rewrite bp_init_alpha, Hs in E. injection E as ->. destruct (after_good _ _ _ _ HB HL Hs).
  apply (decoder_leaves _ Merge mp_inv (fun p => bp_alpha (mp_bp p))); auto using memo_follows.
Qed.
Lemma slice_leaves p w r p' : bracketed Drop pre (w_init buf) ->
  after slice_h pre (sp_from_buffer buf) = Some p -> after (spec_h Drop) pre (w_init buf) = Some w ->
  run slice_h (parse cf D f t) p = (r, p') -> leaves (cf_mode cf) slice_h Drop p w r p'.
Proof.
  intros Ha H Hs Hr. assert (Hn : sp_inv (sp_from_buffer buf)) by (unfold sp_inv, sp_from_buffer; discriminate).
  destruct (sp_after_from _ _ _ Hn Ha H) as [Hi E].
  change (sp_alpha (sp_from_buffer buf)) with (w_init buf) in E. rewrite Hs in E. injection E as ->.
  destruct (after_good _ _ _ _ HB HL Hs). apply (decoder_leaves _ Drop sp_inv sp_alpha); auto using slice_follows.
Qed.
End Decoder.

(** A failed decoding at the beginning of an input: what is left is the end of it. *)
Lemma byte_leftover cf D t f buf e p' : wf_defs D = true -> wf_ty D t = true -> pads_ok cf D t = true ->
  bytes_ok buf -> zlen buf <= isize_max ->
  run (byte_h (cf_mode cf)) (parse cf D f t) (bp_from_buffer buf) = (RErr e, p') ->
  exists lo used, bp_cleanup (cf_mode cf) p' = ROk lo /\ buf = used ++ lo_bytes lo.
Proof.
  intros HD HW HP HB HL Hr.
  pose proof (byte_leaves cf D t f HD HW HP buf [] HB HL (bp_from_buffer buf) (w_init buf) _ _ (Forall_nil _) eq_refl eq_refl Hr) as H.
  destruct H as (ops & w' & H1 & _ & H2 & H3 & _). destruct (ProofParserClean.bp_cleanup_spec _ _ _ _ _ HL H1 H2 H3) as (lo & E & E2 & _).
  exists lo, (ztake (bp_offset p') buf). split; [exact E|]. rewrite E2. symmetry. apply ztake_zdrop.
Qed.

Lemma left_open : exists D t buf f e p',
  wf_defs D = true /\ wf_ty D t = true /\ bytes_ok buf /\
  run (byte_h Release) (parse (mkConfig Release false false false false false) D f t) (bp_from_buffer buf) = (RErr e, p') /\
  byte_h Release Z OpRemainder p' = (ROk 1, p') /\ zlen buf - bp_offset p' = 3.
Proof.
  exists [], (TDyn PrefU8 TBool), [2; 7; 9; 4; 4], 3%nat. do 2 eexists.
  split; [reflexivity|]. split; [reflexivity|]. split; [apply ProofCodecThms.bytes_ok_check; reflexivity|].
  split; [vm_compute; reflexivity|]. split; vm_compute; reflexivity.
Qed.
