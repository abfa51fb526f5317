(** Proofs for C101. *)
From Verif Require Import Base BaseLemmas ModelErrors ModelInt ModelFloat ModelTarget ModelSchema ModelUtf8.
From Verif Require Import SpecCodec SpecNum SpecGrammar SpecExtent ProofInt ProofDec ProofCodec ProofRoundTrip ProofCanon ProofEstimate ProofEncValid ProofEncBytes
  ProofCodecProps ProofCodecThms ProofSettle ProofTransfer ProofGrammar ProofOver ProofNum ProofZarith ProofPatch.

Lemma some_eq {A} (a b : A) : Some a = Some b -> a = b.
Proof. congruence. Qed.

Lemma marked_one bs : marked bs -> 0 < zlen bs.
Proof. intros H. apply marked_nonempty in H. destruct bs; [congruence|]. rewrite zlen_cons. pose proof (zlen_nonneg bs). unfold byte in *. lia. Qed.

Section Sizes.
Variables (D : list def) (J : list (Z * option Z)).
Hypothesis HD : wf_defs D = true.
Hypothesis HJ : sized D J = true.

Lemma size_nth i d : nth_error D i = Some d -> size_check J d (bound J i) = true.
Proof.
  intros E. unfold sized in HJ. apply andb_prop in HJ. destruct HJ as [L H]. apply Nat.eqb_eq in L. unfold bound.
  destruct (nth_error J i) as [b|] eqn:Eb.
  - rewrite (nth_error_nth _ _ _ Eb). exact (all2_nth _ _ _ _ _ _ H E Eb).
  - apply nth_error_None in Eb. assert (i < length D)%nat by (apply nth_error_Some; congruence). lia.
Qed.
Lemma bound_nonneg i : (i < length D)%nat -> 0 <= fst (bound J i) /\ forall m, snd (bound J i) = Some m -> 0 <= m.
Proof.
  intros H. destruct (nth_error D i) as [d|] eqn:E; [|apply nth_error_None in E; lia]. apply size_nth in E. unfold size_check in E.
  apply andb_prop in E. destruct E as [E _]. apply andb_prop in E. destruct E as [E1 E2]. split; [lia|]. intros m Em. rewrite Em in E2. cbn [no_more] in E2. lia.
Qed.
Lemma ik_pos k : 0 < ik_len k.
Proof. destruct k; reflexivity. Qed.
Lemma pref_pos s : 0 < pref_len s.
Proof. destruct s; reflexivity. Qed.
Lemma pmax_pos s : 0 < pref_max s.
Proof. destruct s; reflexivity. Qed.
Lemma bounds_nonneg t : wf_ty D t = true -> 0 <= least J t /\ forall m, most J t = Some m -> 0 <= m.
Proof.
  induction t; cbn [wf_ty least most]; intros W; try (split; [lia|]; intros m E; try discriminate E; apply some_eq in E; rewrite <- E in *; clear E; lia);
    try (split; [lia|]; apply IHt; exact W);
    try (pose proof (ik_pos k); split; [lia|]; intros m E; apply some_eq in E; rewrite <- E in *; clear E; lia);
    try (unfold sizeb in W; split; [lia|]; intros m E; apply some_eq in E; rewrite <- E in *; clear E; lia).
  - destruct (IHt W) as [A B]. split; [lia|]. intros m E. destruct (most J t) as [h|]; [|discriminate E]. cbn [opt_add] in E. specialize (B h eq_refl). apply some_eq in E; rewrite <- E in *; clear E. lia.
  - split; [lia|]. intros m E. destruct (most J t) as [h|]; [|discriminate E]. destruct (h =? 0); [|discriminate E]. apply some_eq in E; rewrite <- E in *; clear E. lia.
  - apply andb_prop in W. destruct W as [W0 W]. unfold sizeb in W0. destruct (IHt W) as [A B]. split; [lia|]. intros m E. destruct (most J t) as [h|]; [|discriminate E].
    specialize (B h eq_refl). apply some_eq in E; rewrite <- E in *; clear E. apply Z.mul_nonneg_nonneg; lia.
  - apply andb_prop in W. destruct W as [W0 W]. unfold sizeb in W0. destruct (IHt W) as [A B]. split; [apply Z.mul_nonneg_nonneg; lia|]. intros m E. destruct (most J t) as [h|]; [|discriminate E].
    specialize (B h eq_refl). apply some_eq in E; rewrite <- E in *; clear E. apply Z.mul_nonneg_nonneg; lia.
  - destruct (IHt W) as [A B]. pose proof (pref_pos s). pose proof (pmax_pos s). split; [lia|]. intros m E. apply some_eq in E; rewrite <- E in *; clear E.
    destruct (most J t) as [h|]; [specialize (B h eq_refl)|]; lia.
  - apply andb_prop in W. destruct W as [W0 W]. apply IHt, W.
  - apply andb_prop in W. destruct W as [W0 W]. unfold sizeb in W0. destruct (IHt W) as [A B]. split; [lia|]. intros m E. destruct (most J t) as [h|]; [|discriminate E].
    cbn [opt_add] in E. specialize (B h eq_refl). apply some_eq in E; rewrite <- E in *; clear E. lia.
  - apply bound_nonneg. apply Nat.ltb_lt. exact W.
Qed.

(** ** What a decoder takes *)
Definition within_all (ts : list ty) (n : Z) : Prop := least_fields J ts <= n /\ forall m, most_fields J ts = Some m -> n <= m.

Lemma named_struct i ts n : nth_error D i = Some (DStruct ts) -> within_all ts n -> within J (TNamed i) n.
Proof.
  intros E [A B]. apply size_nth in E. cbn [size_check] in E. apply andb_prop in E. destruct E as [_ E]. apply andb_prop in E. destruct E as [E1 E2].
  unfold within. cbn [least most]. split; [lia|]. intros m Em. rewrite Em in E2. cbn [no_more] in E2. destruct (most_fields J ts) as [h|]; [|discriminate E2]. specialize (B h eq_refl). lia.
Qed.
Lemma named_data i k alts ix tag ts n : nth_error D i = Some (DData k alts) -> nth_error alts ix = Some (tag, ts) -> within_all ts n -> within J (TNamed i) (ik_len k + n).
Proof.
  intros E Ea [A B]. apply size_nth in E. cbn [size_check] in E. apply andb_prop in E. destruct E as [_ E]. rewrite forallb_forall in E. apply nth_error_In in Ea. apply E in Ea.
  cbn [snd] in Ea. apply andb_prop in Ea. destruct Ea as [E1 E2].
  unfold within. cbn [least most]. split; [lia|]. intros m Em. rewrite Em in E2. cbn [no_more] in E2. destruct (most_fields J ts) as [h|]; [|discriminate E2]. cbn [opt_add] in E2. specialize (B h eq_refl). lia.
Qed.
Lemma named_cstyle i k tags : nth_error D i = Some (DCStyle k tags) -> within J (TNamed i) (ik_len k).
Proof.
  intros E. apply size_nth in E. cbn [size_check] in E. apply andb_prop in E. destruct E as [_ E]. apply andb_prop in E. destruct E as [E1 E2].
  unfold within. cbn [least most]. split; [lia|]. intros m Em. rewrite Em in E2. cbn [no_more] in E2. lia.
Qed.
Lemma within_cons t ts n m : within J t n -> within_all ts m -> within_all (t :: ts) (n + m).
Proof.
  intros [A B] [A' B']. unfold within_all, least_fields, most_fields. cbn [fold_right]. fold (least_fields J ts). fold (most_fields J ts). split; [lia|].
  intros h E. destruct (most J t) as [a|]; [|discriminate E]. destruct (most_fields J ts) as [b|]; [|discriminate E]. cbn [opt_add] in E. apply some_eq in E; rewrite <- E in *; clear E.
  specialize (B a eq_refl). specialize (B' b eq_refl). lia.
Qed.
Definition within_many (t : ty) (c n : Z) : Prop := c * least J t <= n /\ forall m, most J t = Some m -> n <= c * m.
Lemma many_seq t c n : 0 <= c -> wf_ty D t = true -> within_many t c n -> within J (TSeq t) n.
Proof.
  intros Hc W [A B]. destruct (bounds_nonneg t W) as [N _]. unfold within. cbn [least most]. split; [pose proof (Z.mul_nonneg_nonneg _ _ Hc N); lia|].
  intros m E. destruct (most J t) as [h|]; [|discriminate E]. destruct (Z.eqb_spec h 0); [|discriminate E]. apply some_eq in E; rewrite <- E in *; clear E. specialize (B h eq_refl). lia.
Qed.
Lemma many_lim t c k n : 0 <= c <= k -> wf_ty D t = true -> within_many t c n -> within J (TLim k t) n.
Proof.
  intros Hc W [A B]. destruct (bounds_nonneg t W) as [N M]. unfold within. cbn [least most]. split; [pose proof (Z.mul_nonneg_nonneg _ _ (proj1 Hc) N); lia|].
  intros m E. destruct (most J t) as [h|]; [|discriminate E]. apply some_eq in E; rewrite <- E in *; clear E. specialize (B h eq_refl). specialize (M h eq_refl).
  transitivity (c * h); [exact B|]. apply Z.mul_le_mono_nonneg_r; lia.
Qed.
Lemma many_fix t c n : within_many t c n -> within J (TFix c t) n.
Proof.
  intros [A B]. unfold within. cbn [least most]. split; [lia|]. intros m E. destruct (most J t) as [h|]; [|discriminate E]. apply some_eq in E; rewrite <- E in *; clear E. apply B. reflexivity.
Qed.
Lemma many_cons t c n m : within J t n -> within_many t c m -> within_many t (1 + c) (n + m).
Proof. intros [A B] [A' B']. split; [lia|]. intros h E. specialize (B h E). specialize (B' h E). lia. Qed.
Lemma within_dyn s t n : n <= pref_max s -> within J t n -> within J (TDyn s t) (pref_len s + n).
Proof.
  intros H [A B]. unfold within. cbn [least most]. split; [lia|]. intros m E. apply some_eq in E; rewrite <- E in *; clear E. destruct (most J t) as [h|]; [specialize (B h eq_refl)|]; lia.
Qed.
Lemma within_pad k t n : within J t n -> within J (TPad k t) (n + k).
Proof.
  intros [A B]. unfold within. cbn [least most]. split; [lia|]. intros m E. destruct (most J t) as [h|]; [|discriminate E]. cbn [opt_add] in E. apply some_eq in E; rewrite <- E in *; clear E. specialize (B h eq_refl). lia.
Qed.
Lemma within_none t : wf_ty D t = true -> within J (TOption t) 1.
Proof.
  intros W. destruct (bounds_nonneg t W) as [_ M]. unfold within. cbn [least most]. split; [lia|]. intros m E. destruct (most J t) as [h|]; [|discriminate E]. cbn [opt_add] in E. apply some_eq in E; rewrite <- E in *; clear E. specialize (M h eq_refl). lia.
Qed.
Lemma within_some t n : wf_ty D t = true -> within J t n -> within J (TOption t) (1 + n).
Proof.
  intros W [A B]. destruct (bounds_nonneg t W) as [N _]. unfold within. cbn [least most]. split; [lia|]. intros m E. destruct (most J t) as [h|]; [|discriminate E]. cbn [opt_add] in E. apply some_eq in E; rewrite <- E in *; clear E. specialize (B h eq_refl). lia.
Qed.
Lemma within_null t : wf_ty D t = true -> within J (TNullable t) 0.
Proof. intros W. destruct (bounds_nonneg t W) as [_ M]. unfold within. cbn [least most]. split; [lia|]. intros m E. specialize (M m E). lia. Qed.
Lemma within_nonnull t n : wf_ty D t = true -> within J t n -> within J (TNullable t) n.
Proof. intros W [A B]. destruct (bounds_nonneg t W) as [N _]. unfold within. cbn [least most]. split; [lia|exact B]. Qed.
Lemma within_exact t n : least J t = n -> most J t = Some n -> within J t n.
Proof. intros A B. split; [lia|]. intros m E. rewrite B in E. apply some_eq in E; rewrite <- E in *; clear E. lia. Qed.
Lemma within_free t n : least J t <= n -> most J t = None -> within J t n.
Proof. intros A B. split; [lia|]. intros m E. congruence. Qed.

Section Taken.
Variable checked : bool.
Notation den := (denotes checked D).

Lemma taken t bs v rest : den t bs v rest -> wf_ty D t = true -> exists p, bs = p ++ rest /\ within J t (zlen p).
Proof.
  pose (P := fun t bs (v : val) rest => wf_ty D t = true -> exists p : list byte, bs = p ++ rest /\ within J t (zlen p)).
  pose (Q1 := fun t bs (vs : list val) rest => wf_ty D t = true -> exists p : list byte, bs = p ++ rest /\ within_many t (zlen vs) (zlen p)).
  pose (R1 := fun ts bs (vs : list val) rest => forallb (wf_ty D) ts = true -> exists p : list byte, bs = p ++ rest /\ within_all ts (zlen p)).
  intros H. change (P t bs v rest).
  induction H using denotes_mut with (P0 := fun t bs vs r _ => Q1 t bs vs r) (P1 := fun ts bs vs r _ => R1 ts bs vs r);
    unfold P, Q1, R1 in *; cbn [wf_ty]; intros HW.
  - exists []. split; [reflexivity|]. apply within_exact; reflexivity.
  - exists [255]. split; [reflexivity|]. apply within_exact; reflexivity.
  - exists [0]. split; [reflexivity|]. apply within_exact; reflexivity.
  - exists (int_format k z). split; [reflexivity|]. rewrite int_format_length. apply within_exact; reflexivity.
  - exists (int_format k z). split; [reflexivity|]. rewrite int_format_length. apply within_exact; reflexivity.
  - exists (big_endian 8 z). split; [reflexivity|]. apply within_exact; reflexivity.
  - exists (big_endian 8 z). split; [reflexivity|]. apply within_exact; reflexivity.
  - exists bs. split; [reflexivity|]. apply within_free; [|reflexivity]. cbn [least]. assert (0 < zlen bs) by (apply marked_one; assumption). unfold byte in *. lia.
  - exists bs. split; [reflexivity|]. apply within_free; [|reflexivity]. cbn [least]. assert (0 < zlen bs) by (apply marked_one; assumption). unfold byte in *. lia.
  - exists bs. rewrite app_nil_r. split; [reflexivity|]. apply within_free; [apply zlen_nonneg|reflexivity].
  - exists bs. rewrite app_nil_r. split; [reflexivity|]. apply within_free; [apply zlen_nonneg|reflexivity].
  - exists bs. split; [reflexivity|]. apply within_exact; cbn [least most]; congruence.
  - exists bs. split; [reflexivity|]. apply within_exact; cbn [least most]; congruence.
  - exists [0]. split; [reflexivity|]. apply within_none, HW.
  - destruct (IHdenotes HW) as (p & -> & B). exists (255 :: p). split; [reflexivity|]. rewrite zlen_cons. replace (zlen p + 1) with (1 + zlen p) by lia. apply within_some; assumption.
  - exists []. split; [reflexivity|]. apply within_null, HW.
  - destruct (IHdenotes HW) as (p & -> & B). exists p. split; [reflexivity|]. apply within_nonnull; assumption.
  - destruct (IHdenotes HW) as (p & -> & B). exists p. split; [reflexivity|]. apply (many_seq t (zlen vs)); try assumption. apply zlen_nonneg.
  - apply andb_prop in HW. destruct HW as [_ HW]. destruct (IHdenotes HW) as (p & -> & B). exists p. split; [reflexivity|]. apply (many_lim t (zlen vs)); try assumption. pose proof (zlen_nonneg vs). lia.
  - apply andb_prop in HW. destruct HW as [_ HW]. destruct (IHdenotes HW) as (p & -> & B). exists p. split; [reflexivity|]. apply many_fix. replace n with (zlen vs) by assumption. exact B.
  - destruct (IHdenotes HW) as (p & E & B). rewrite app_nil_r in E. subst p. exists (pref_format s (zlen payload) ++ payload). split; [rewrite <- app_assoc; reflexivity|].
    rewrite zlen_app, pref_format_len. apply within_dyn; assumption.
  - apply andb_prop in HW. destruct HW as [_ HW]. destruct (IHdenotes HW) as (p & E & B). rewrite app_nil_r in E. subst p. exists body. split; [reflexivity|]. exact B.
  - apply andb_prop in HW. destruct HW as [_ HW]. destruct (IHdenotes HW) as (p & -> & B). exists (p ++ padding). split; [apply app_assoc|]. rewrite zlen_app. replace (zlen padding) with n by (symmetry; assumption). apply within_pad, B.
  - destruct (IHdenotes HW) as (p & -> & B). exists p. split; [reflexivity|]. exact B.
  - match goal with E : nth_error D i = Some _ |- _ => rename E into Ei end.
    destruct (IHdenotes ltac:(pose proof (wf_nth D _ _ HD Ei) as X; exact X)) as (p & -> & B). exists p. split; [reflexivity|]. eapply named_struct; eassumption.
  - match goal with E : nth_error D i = Some _ |- _ => rename E into Ei end. exists (int_format k tag). split; [reflexivity|]. rewrite int_format_length. eapply named_cstyle; eassumption.
  - match goal with E : nth_error D i = Some _ |- _ => rename E into Ei end. match goal with E : nth_error alts ix = Some _ |- _ => rename E into Ea end.
    assert (Wts : forallb (wf_ty D) ts = true).
    { pose proof (wf_nth D _ _ HD Ei) as X. cbn [wf_def] in X. apply andb_prop in X. destruct X as [_ X]. rewrite forallb_forall in X. apply (X (tag, ts)). eapply nth_error_In. exact Ea. }
    destruct (IHdenotes Wts) as (p & -> & B). exists (int_format k tag ++ p). split; [apply app_assoc|]. rewrite zlen_app, int_format_length. eapply named_data; eassumption.
  - exists []. split; [reflexivity|]. split; [reflexivity|]. intros; reflexivity || (cbn; lia).
  - destruct (IHdenotes HW) as (p & -> & B). destruct (IHdenotes0 HW) as (q & -> & B'). exists (p ++ q). split; [apply app_assoc|]. rewrite zlen_app, zlen_cons. replace (zlen vs + 1) with (1 + zlen vs) by lia. apply many_cons; assumption.
  - exists []. split; [reflexivity|]. split; [reflexivity|]. intros m E. apply some_eq in E; rewrite <- E in *; clear E. reflexivity.
  - cbn [forallb] in HW. apply andb_prop in HW. destruct HW as [W1 W2]. destruct (IHdenotes W1) as (p & -> & B). destruct (IHdenotes0 W2) as (q & -> & B').
    exists (p ++ q). split; [apply app_assoc|]. rewrite zlen_app. apply within_cons; assumption.
Qed.
End Taken.

(** ** Encodings *)
Lemma natural_one z : 0 <= z -> 1 <= zlen (natural_format z).
Proof.
  intros H. destruct (natural_format_props z H) as (_ & _ & _ & [E|E]); [rewrite E; lia|].
  destruct (natural_format z) as [|b l]; [cbn [last] in E; congruence|]. rewrite zlen_cons. pose proof (zlen_nonneg l). unfold byte in *. lia.
Qed.
Lemma integer_one z : 1 <= zlen (integer_format z).
Proof.
  unfold integer_format. cbv zeta. destruct (Z.abs z <? 64); [reflexivity|]. rewrite zlen_cons. pose proof (zlen_nonneg (natural_format (Z.abs z / 64))). unfold byte in *. lia.
Qed.
Lemma fields_within vs : Forall (fun v => forall t, wf_ty D t = true -> valid D v t = true -> within J t (zlen (format D v t))) vs ->
  forall ts, forallb (wf_ty D) ts = true -> all2 (valid D) vs ts = true -> within_all ts (zlen (concat2 (format D) vs ts)).
Proof.
  induction 1 as [|v vs H _ IH]; intros [|t ts] W V; try discriminate V.
  - split; [reflexivity|]. intros m E. apply some_eq in E. subst m. reflexivity.
  - cbn [forallb] in W. cbn [all2] in V. apply andb_prop in W, V. destruct W as [W1 W2], V as [V1 V2].
    rewrite concat2_cons, zlen_app. apply within_cons; auto.
Qed.
Lemma elements_within vs t : Forall (fun v => forall t, wf_ty D t = true -> valid D v t = true -> within J t (zlen (format D v t))) vs ->
  wf_ty D t = true -> forallb (fun v => valid D v t) vs = true -> within_many t (zlen vs) (zlen (concat (map (fun v => format D v t) vs))).
Proof.
  intros H W. induction H as [|v vs H _ IH]; intros V.
  - split; [reflexivity|]. intros m E. reflexivity.
  - cbn [forallb] in V. apply andb_prop in V. destruct V as [V1 V2]. cbn [map concat]. rewrite zlen_app, zlen_cons. replace (zlen vs + 1) with (1 + zlen vs) by lia. apply many_cons; auto.
Qed.

Lemma format_within v : forall t, wf_ty D t = true -> valid D v t = true -> within J t (zlen (format D v t)).
Proof.
  induction v as [| | | | |v IHv|vs IHvs|vs IHvs|ix vs IHvs|v IHv] using val_ind';
    intros t W V; destruct t; unfold valid in V; cbn [valid_gen] in V; cbn [wf_ty] in W; try discriminate V;
    try (destruct (nth_error D i) as [[?|?|?]|] eqn:Ei; discriminate V); cbn [format].
  all: try (apply within_exact; cbn [least most]; rewrite ?int_format_length; reflexivity).
  all: try (apply within_exact; cbn [least most]; [|f_equal]; lia).
  all: try (apply within_free; [apply zlen_nonneg|reflexivity]).
  - apply within_free; [apply natural_one; lia|reflexivity].
  - apply within_free; [apply integer_one|reflexivity].
  - apply within_none, W.
  - apply within_null, W.
  - rewrite zlen_cons. replace (zlen (format D v t) + 1) with (1 + zlen (format D v t)) by lia. apply within_some; auto.
  - apply within_nonnull; auto.
  - apply (many_seq t (zlen vs)); [apply zlen_nonneg|exact W|]. apply elements_within; assumption.
  - apply andb_prop in W, V. destruct W as [_ W], V as [V L]. apply (many_lim t (zlen vs)); [pose proof (zlen_nonneg vs); lia|exact W|]. apply elements_within; assumption.
  - apply andb_prop in W, V. destruct W as [_ W], V as [V L]. apply many_fix. replace n with (zlen vs) by lia. apply elements_within; assumption.
  - destruct (nth_error D i) as [[ts|?|?]|] eqn:Ei; try discriminate V. eapply named_struct; [exact Ei|]. apply fields_within; try assumption.
    pose proof (wf_nth D _ _ HD Ei) as X. exact X.
  - destruct (nth_error D i) as [[ts|k tags|k alts]|] eqn:Ei; try discriminate V.
    + rewrite int_format_length. eapply named_cstyle; eassumption.
    + destruct (nth_error alts ix) as [[tag ts]|] eqn:Ea; [|discriminate V]. rewrite (nth_error_nth _ _ _ Ea). cbn [fst snd]. rewrite zlen_app, int_format_length.
      eapply named_data; try eassumption. apply fields_within; try assumption.
      pose proof (wf_nth D _ _ HD Ei) as X. cbn [wf_def] in X. apply andb_prop in X. destruct X as [_ X]. rewrite forallb_forall in X. apply (X (tag, ts)). eapply nth_error_In. exact Ea.
  - apply andb_prop in V. destruct V as [V L]. cbn [implb] in L. rewrite zlen_app, pref_format_len. apply within_dyn; [lia|]. auto.
  - apply andb_prop in W. destruct W as [_ W]. apply (IHv t W V).
  - apply andb_prop in W. destruct W as [W0 W]. unfold sizeb in W0. rewrite zlen_app, zlen_repeat, Z2Nat.id by lia. apply within_pad. auto.
  - apply (IHv t W V).
Qed.

(** ** Where the bounds are met *)
Variable WT : list (val * val).
Hypothesis HR : reached D J WT.
Definition of_size (t : ty) (n : Z) : Prop := exists v, valid D v t = true /\ zlen (format D v t) = n.

Lemma copies v t c : valid D v t = true -> 0 <= c -> forallb (fun v => valid D v t) (repeat v (Z.to_nat c)) = true /\
  zlen (repeat v (Z.to_nat c)) = c /\ zlen (concat (map (fun v => format D v t) (repeat v (Z.to_nat c)))) = c * zlen (format D v t).
Proof.
  intros V Hc. rewrite zlen_repeat, Z2Nat.id by lia. split; [|split; [reflexivity|]].
  - clear Hc. induction (Z.to_nat c); [reflexivity|]. cbn [repeat forallb]. rewrite V. assumption.
  - rewrite <- (Z2Nat.id c Hc) at 2. clear Hc. induction (Z.to_nat c) as [|k IH]; [reflexivity|]. cbn [repeat map concat]. rewrite zlen_app, IH. lia.
Qed.
Lemma ranged_meets k lo hi : ranged_ok k lo hi (if 0 <? lo then 0 else lo) = true -> of_size (TRanged k lo hi) (ik_len k).
Proof. intros H. eexists (VInt _). split; [exact H|]. cbn [format]. apply int_format_length. Qed.
Lemma ranged_f_meets lo hi : is_u64 lo && is_u64 hi = true -> f64_le lo lo && f64_le lo hi = true -> of_size (TRangedF lo hi) 8.
Proof.
  intros W H. apply andb_prop in W, H. destruct W as [W _], H as [H1 H2]. exists (VInt lo). split; [|reflexivity]. unfold valid. cbn [valid_gen]. rewrite W, H1, H2. reflexivity.
Qed.
Lemma bytes_0 n : forallb byteb (repeat 0 n) = true.
Proof. induction n; [reflexivity|]. cbn [repeat forallb]. rewrite IHn. reflexivity. Qed.
Lemma utf8_0 n : utf8_valid (repeat 0 n) = true.
Proof. unfold utf8_valid. rewrite repeat_length. induction n; [reflexivity|]. cbn [repeat utf8_valid_loop utf8_next]. exact IHn. Qed.
Lemma blank_meets n : 0 <= n -> of_size (TFixedBytes n) n /\ of_size (TFixedString n) n /\ of_size TBytes n /\ of_size TString n.
Proof.
  intros H. assert (L : zlen (repeat 0 (Z.to_nat n)) = n) by (rewrite zlen_repeat; lia).
  repeat split; exists (VBytes (repeat 0 (Z.to_nat n))); (split; [|exact L]); unfold valid; cbn [valid_gen]; rewrite bytes_0; cbn [andb]; try reflexivity; try (apply Z.eqb_eq; exact L).
  apply utf8_0.
Qed.

Lemma smallest t : wf_ty D t = true -> least_met J t = true -> of_size t (least J t).
Proof.
  induction t; cbn [wf_ty least_met least]; intros W M.
  - exists VUnit. split; reflexivity.
  - exists (VBool true). split; reflexivity.
  - exists (VInt 0). split; [destruct k; reflexivity|]. cbn [format]. apply int_format_length.
  - apply ranged_meets, M.
  - exists (VInt 0). split; reflexivity.
  - apply ranged_f_meets; assumption.
  - exists (VInt 0). split; reflexivity.
  - exists (VInt 0). split; reflexivity.
  - exists (VBytes []). split; reflexivity.
  - exists (VBytes []). split; reflexivity.
  - unfold sizeb in W. apply (blank_meets n). lia.
  - unfold sizeb in W. apply (blank_meets n). lia.
  - exists VNone. split; reflexivity.
  - exists VNone. split; reflexivity.
  - exists (VSeq []). split; reflexivity.
  - apply andb_prop in W. destruct W as [W0 W]. unfold sizeb in W0. exists (VSeq []). split; [|reflexivity]. unfold valid. cbn [valid_gen forallb andb]. change (zlen (@nil val)) with 0. lia.
  - apply andb_prop in W. destruct W as [W0 W]. unfold sizeb in W0. destruct (IHt W M) as (v & V & L). destruct (copies v t n V ltac:(lia)) as (A & B & C).
    exists (VSeq (repeat v (Z.to_nat n))). unfold valid in *. cbn [valid_gen format]. rewrite A, B, C, L. split; [|reflexivity]. cbn [andb]. apply Z.eqb_refl.
  - apply andb_prop in M. destruct M as [M B]. destruct (IHt W M) as (v & V & L). exists (VWrap v). unfold valid in *. cbn [valid_gen format]. rewrite V, zlen_app, pref_format_len, L. cbn [andb implb]. split; [exact B|reflexivity].
  - apply andb_prop in W. destruct W as [W0 W]. destruct (IHt W M) as (v & V & L). exists (VWrap v). split; assumption.
  - apply andb_prop in W. destruct W as [W0 W]. unfold sizeb in W0. destruct (IHt W M) as (v & V & L). exists (VWrap v). split; [exact V|]. cbn [format]. rewrite zlen_app, L, zlen_repeat. lia.
  - destruct (IHt W M) as (v & V & L). exists (VWrap v). split; assumption.
  - apply Nat.ltb_lt in W. destruct (HR i W) as (lo & hi & _ & V & L & _). exists lo. split; assumption.
Qed.

Lemma largest t : forall m, wf_ty D t = true -> most_met J t = true -> most J t = Some m -> of_size t m.
Proof.
  induction t; cbn [wf_ty most]; intros mm W M E; try discriminate E; try (apply some_eq in E; rewrite <- E in *; clear E).
  - exists VUnit. split; reflexivity.
  - exists (VBool true). split; reflexivity.
  - exists (VInt 0). split; [destruct k; reflexivity|]. cbn [format]. apply int_format_length.
  - apply ranged_meets, M.
  - exists (VInt 0). split; reflexivity.
  - apply ranged_f_meets; assumption.
  - unfold sizeb in W. apply (blank_meets n). lia.
  - unfold sizeb in W. apply (blank_meets n). lia.
  - cbn [most_met] in M. destruct (most J t) as [h|]; [|discriminate E]. cbn [opt_add] in E. apply some_eq in E. destruct (IHt h W M eq_refl) as (v & V & L). exists (VSome v).
    unfold valid in *. cbn [valid_gen format]. split; [exact V|]. rewrite zlen_cons, L. lia.
  - cbn [most_met] in M. destruct (IHt mm W M E) as (v & V & L). exists (VSome v). split; assumption.
  - destruct (most J t) as [h|]; [|discriminate E]. destruct (h =? 0); [|discriminate E]. apply some_eq in E. exists (VSeq []). split; [reflexivity|exact E].
  - cbn [most_met] in M. apply andb_prop in W. destruct W as [W0 W]. unfold sizeb in W0. destruct (most J t) as [h|]; [|discriminate E]. apply some_eq in E.
    destruct (IHt h W M eq_refl) as (v & V & L). destruct (copies v t n V ltac:(lia)) as (A & B & C).
    exists (VSeq (repeat v (Z.to_nat n))). unfold valid in *. cbn [valid_gen format]. rewrite A, B, C, L. split; [|exact E]. cbn [andb]. apply Z.leb_refl.
  - cbn [most_met] in M. apply andb_prop in W. destruct W as [W0 W]. unfold sizeb in W0. destruct (most J t) as [h|]; [|discriminate E]. apply some_eq in E.
    destruct (IHt h W M eq_refl) as (v & V & L). destruct (copies v t n V ltac:(lia)) as (A & B & C).
    exists (VSeq (repeat v (Z.to_nat n))). unfold valid in *. cbn [valid_gen format]. rewrite A, B, C, L. split; [|exact E]. cbn [andb]. apply Z.eqb_refl.
  - pose proof (pmax_pos s).
    assert (X : exists v, valid D v t = true /\ zlen (format D v t) = match most J t with Some m => Z.min m (pref_max s) | None => pref_max s end).
    { destruct (blank_meets (pref_max s) ltac:(lia)) as (_ & _ & BB & BS).
      destruct t; cbn [most_met] in M; try exact BB; try exact BS;
        (destruct (most J _) as [h|] eqn:Eh; [|discriminate M]); apply andb_prop in M; destruct M as [M B]; destruct (IHt h W M eq_refl) as (v & V & L);
        exists v; (split; [exact V|]); rewrite L; lia. }
    destruct X as (v & V & L). exists (VWrap v). unfold valid in *. cbn [valid_gen format]. rewrite V, zlen_app, pref_format_len, L. cbn [andb implb]. split; [|reflexivity].
    destruct (most J t); lia.
  - cbn [most_met] in M. apply andb_prop in W. destruct W as [W0 W]. destruct (IHt mm W M E) as (v & V & L). exists (VWrap v). split; assumption.
  - cbn [most_met] in M. apply andb_prop in W. destruct W as [W0 W]. unfold sizeb in W0. destruct (most J t) as [h|]; [|discriminate E]. cbn [opt_add] in E. apply some_eq in E. destruct (IHt h W M eq_refl) as (v & V & L).
    exists (VWrap v). split; [exact V|]. cbn [format]. rewrite zlen_app, L, zlen_repeat. lia.
  - cbn [most_met] in M. destruct (IHt mm W M E) as (v & V & L). exists (VWrap v). split; assumption.
  - apply Nat.ltb_lt in W. destruct (HR i W) as (lo & hi & _ & _ & _ & H). destruct (H mm E) as [V L]. exists hi. split; assumption.
Qed.
End Sizes.

(** ** The theorems *)
Lemma encoding_within cf D J kf t v bs : wf_defs D = true -> sized D J = true -> wf_ty D t = true -> well_typed D v t = true ->
  (cf_est_override cf = true -> zeros D v t = 0) -> to_bytes cf D kf v t = ROk bs -> zlen bs <= isize_max -> within J t (zlen bs).
Proof.
  intros HD HJ W T EO H L. destruct (to_bytes_format cf D kf HD v t bs W T H L EO) as [-> V]. apply format_within; assumption.
Qed.
Lemma reading_within w cf D J t input v rest : wf_defs D = true -> sized D J = true -> wf_ty D t = true -> bytes_ok input -> zlen input <= isize_max ->
  reads w cf D t input (ROk (v, rest)) -> within J t (zlen input - zlen rest).
Proof.
  intros HD HJ W B L H. apply (grammar_exact cf D HD w t input v rest W B L) in H. destruct (taken D J HD HJ _ t _ _ _ H W) as (p & -> & S).
  rewrite zlen_app. replace (zlen p + zlen rest - zlen rest) with (zlen p) by lia. exact S.
Qed.
Lemma decoding_within w cf D J t input v : wf_defs D = true -> sized D J = true -> wf_ty D t = true -> bytes_ok input -> zlen input <= isize_max ->
  decodes w cf D t input (ROk v) -> least J t <= zlen input /\ (cf_complete cf = true -> within J t (zlen input)).
Proof.
  intros HD HJ W B L H. apply (grammar_decodes cf D t input HD W B L) in H. destruct H as (rest & H & C). destruct (taken D J HD HJ _ t _ _ _ H W) as (p & -> & S).
  rewrite zlen_app. pose proof (zlen_nonneg rest). split; [destruct S as [S _]; unfold byte in *; lia|]. intros Hc. destruct (C Hc) as [_ ->].
  change (zlen (@nil byte)) with 0. rewrite Z.add_0_r. exact S.
Qed.
Lemma bounds_met cf D J WT kf t : wf_defs D = true -> sized D J = true -> reached D J WT -> wf_ty D t = true -> cf_est_override cf = false ->
  (least_met J t = true -> least J t <= isize_max -> exists v bs, well_typed D v t = true /\ to_bytes cf D kf v t = ROk bs /\ zlen bs = least J t) /\
  (forall m, most_met J t = true -> most J t = Some m -> m <= isize_max -> exists v bs, well_typed D v t = true /\ to_bytes cf D kf v t = ROk bs /\ zlen bs = m).
Proof.
  intros HD HJ HR W EO. split.
  - intros M L. destruct (smallest D J WT HR t W M) as (v & V & E). exists v, (format D v t). split; [apply valid_typed, V|]. split; [|exact E].
    apply to_bytes_valid; try assumption. unfold byte in *. lia.
  - intros m M Em L. destruct (largest D J WT HR t m W M Em) as (v & V & E). exists v, (format D v t). split; [apply valid_typed, V|]. split; [|exact E].
    apply to_bytes_valid; try assumption. unfold byte in *. lia.
Qed.
