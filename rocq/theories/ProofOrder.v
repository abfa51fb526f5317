(** The order computed is the order specified. *)
From Verif Require Import Base BaseLemmas ModelErrors ModelInt ModelFloat ModelSchema ModelHexString ModelCompare.
From Verif Require Import SpecCodec SpecNum SpecHexString SpecCompare ProofCodec ProofNum ProofHexString ProofFloat ProofCompare.

Section Order.
Variable D : list def.
Hypothesis W : wf_defs D = true.

Lemma cmp2_text t x y : is_text t = true -> cmp2 (Some (slice_cmp x y)) (less D t (VBytes x) (VBytes y)) (same D t (VBytes x) (VBytes y)).
Proof.
  intros T. destruct (slice_cmp_spec x y) as (H1 & H2 & _).
  apply cmp2_iff with (before x y) (x = y).
  - unfold cmp2. rewrite <- H1, <- H2. split; split; congruence.
  - split; [intros; constructor; assumption|intros H; inversion H; assumption].
  - split; [intros ->; constructor; assumption|intros H; inversion H; reflexivity].
Qed.
Lemma cmp2_float t x y : is_float t = true -> is_u64 x = true -> is_u64 y = true ->
  cmp2 (f64_cmp x y) (less D t (VInt x) (VInt y)) (same D t (VInt x) (VInt y)).
Proof.
  unfold is_u64. intros T Hx Hy. rewrite f64_cmp_value by lia.
  apply cmp2_iff with (f64_number x = true /\ f64_number y = true /\ f64_value x < f64_value y)
    (f64_number x = true /\ f64_number y = true /\ f64_value x = f64_value y).
  - destruct (f64_number x), (f64_number y); cbn [andb]; try (unfold cmp2; intuition congruence).
    eapply cmp2_iff; [apply cmp2_z|tauto|tauto].
  - split; [intros (? & ? & ?); constructor; assumption|intros H; inversion H; subst; try discriminate T; auto].
  - split; [intros (? & ? & ?); apply same_float; assumption|intros H; inversion H; subst; auto].
    destruct t; discriminate.
Qed.
Lemma cmp2_number t x y : is_number t = true -> (less D t (VInt x) (VInt y) <-> x < y) ->
  cmp2 (Some (x ?= y)) (less D t (VInt x) (VInt y)) (same D t (VInt x) (VInt y)).
Proof.
  intros T H. eapply cmp2_iff; [apply cmp2_z|symmetry; exact H|].
  split; [intros ->; constructor; assumption|intros K; inversion K; subst; [reflexivity|destruct t; discriminate]].
Qed.
Lemma less_some_iff t t' v w : optional_of t = Some t' -> (less D t' v w <-> less D t (VSome v) (VSome w)) /\ (same D t' v w <-> same D t (VSome v) (VSome w)).
Proof.
  intros T. split; (split; [intros; econstructor; eauto|intros H; inversion H; subst; congruence]).
Qed.
Lemma less_wrap_iff t t' v w : payload_of t = Some t' -> (less D t' v w <-> less D t (VWrap v) (VWrap w)) /\ (same D t' v w <-> same D t (VWrap v) (VWrap w)).
Proof.
  intros T. split; (split; [intros; econstructor; eauto|intros H; inversion H; subst; congruence]).
Qed.
Lemma cmp2_optional t t' v : optional_of t = Some t' ->
  (forall w, well_typed D w t' = true -> cmp2 (val_cmp D v w t') (less D t' v w) (same D t' v w)) ->
  forall w, (w = VNone \/ exists w', w = VSome w' /\ well_typed D w' t' = true) ->
  cmp2 (match w with VNone => Some Gt | VSome w => val_cmp D v w t' | _ => None end) (less D t (VSome v) w) (same D t (VSome v) w).
Proof.
  intros T H w [->|(w' & -> & Hw)].
  - split; split; try congruence; intros K; inversion K.
  - destruct (less_some_iff t t' v w' T) as [L1 L2]. eapply cmp2_iff; [apply H, Hw|exact L1|exact L2].
Qed.

Lemma cmp2_seq t t' vs ws : element_of t = Some t' ->
  Forall (fun v => forall w t, well_typed D v t = true -> well_typed D w t = true -> cmp2 (val_cmp D v w t) (less D t v w) (same D t v w)) vs ->
  forallb (fun v => well_typed D v t') vs = true -> forallb (fun v => well_typed D v t') ws = true ->
  cmp2 (lex_seq (fun v w => val_cmp D v w t') vs ws) (less D t (VSeq vs) (VSeq ws)) (same D t (VSeq vs) (VSeq ws)).
Proof.
  intros T F H1 H2. rewrite forallb_forall in H1, H2. rewrite Forall_forall in F.
  eapply cmp2_iff; [|symmetry; apply less_seq_iff, T|symmetry; apply same_seq_iff, T].
  apply lex_seq_cmp2. intros v w Hv Hw. apply F; auto.
Qed.
Lemma cmp2_members ts vs ws :
  Forall (fun v => forall w t, well_typed D v t = true -> well_typed D w t = true -> cmp2 (val_cmp D v w t) (less D t v w) (same D t v w)) vs ->
  all2 (well_typed D) vs ts = true -> all2 (well_typed D) ws ts = true ->
  cmp2 (lex_fields (val_cmp D) vs ws ts) (less_members D ts vs ws) (same_members D ts vs ws).
Proof.
  intros F H1 H2. apply lex_fields_cmp2; [exact (all2_length _ _ _ H1)|exact (all2_length _ _ _ H2)|].
  intros i v w t Hv Hw Ht. rewrite Forall_forall in F. apply F; [exact (nth_error_In _ _ Hv)|exact (all2_nth _ _ _ _ _ _ H1 Hv Ht)|exact (all2_nth _ _ _ _ _ _ H2 Hw Ht)].
Qed.

Lemma val_cmp_spec : forall v w t, well_typed D v t = true -> well_typed D w t = true ->
  cmp2 (val_cmp D v w t) (less D t v w) (same D t v w).
Proof.
  assert (N0 : forall t t', optional_of t = Some t' -> cmp2 (Some Eq) (less D t VNone VNone) (same D t VNone VNone)).
  { intros t t' T. split; split; try congruence; [intros K; inversion K|intros _; econstructor; eauto]. }
  assert (N1 : forall t t' w, optional_of t = Some t' -> cmp2 (Some Lt) (less D t VNone (VSome w)) (same D t VNone (VSome w))).
  { intros t t' w T. split; split; try congruence; [intros _; econstructor; eauto|intros K; inversion K]. }
  induction v as [|b|z|bs| |v IHv|vs IHvs|vs IHvs|ix vs IHvs|v IHv] using val_ind'; intros w t Hv Hw;
    destruct t; try discriminate Hv; destruct w; try discriminate Hw; cbn [val_cmp];
    unfold well_typed in Hv, Hw; cbn [valid_gen] in Hv, Hw; fold (well_typed D) in Hv, Hw;
    try (apply cmp2_text; reflexivity);
    try (apply cmp2_number; [reflexivity|split; [intros K; inversion K; subst; try discriminate; assumption|intros; constructor; assumption]]).
  all: try (eapply N0; reflexivity). all: try (eapply N1; reflexivity).
  all: try (destruct (nth_error D i) as [[ts|k tags|k alts]|] eqn:EN; try discriminate Hv; try discriminate Hw).
  all: repeat (match goal with H : _ && _ = true |- _ => apply andb_prop in H; destruct H end).
  all: try (apply cmp2_float; [reflexivity|assumption..]).
  all: try (eapply cmp2_seq; [reflexivity|assumption|assumption..]).
  all: try (match goal with |- cmp2 _ (less D ?t (VWrap ?v) (VWrap ?w)) _ =>
              destruct (less_wrap_iff t _ v w eq_refl) as [L1 L2]; eapply cmp2_iff; [|exact L1|exact L2]; apply IHv; assumption end).
  all: try (match goal with |- cmp2 _ (less D ?t (VSome ?v) (VSome ?w)) _ =>
              destruct (less_some_iff t _ v w eq_refl) as [L1 L2]; eapply cmp2_iff; [|exact L1|exact L2]; apply IHv; assumption end).
  all: try (split; split; try congruence; intros K; inversion K; fail).
  - split; split; try congruence; [intros K; inversion K|intros _; constructor].
  - match goal with |- context [bool_cmp b ?b'] => rename b' into b2 end.
    split; [destruct b, b2; cbn; split; try congruence; intros K; inversion K; constructor|].
    destruct b, b2; cbn; split; try congruence; intros K; inversion K; constructor.
  - apply cmp2_number; [reflexivity|]. match goal with |- less _ _ (VInt z) (VInt ?z') <-> _ => rename z' into z2 end.
    assert (R : ranged_value lo z < ranged_value lo z2 <-> z < z2) by (unfold ranged_value; destruct (0 <? lo); lia).
    rewrite <- R. split; [intros K; inversion K; subst; [assumption|discriminate]|intros; constructor; assumption].
  - match goal with |- cmp2 _ (less _ _ _ (VStruct ?l)) _ => rename l into ws end.
    eapply cmp2_iff; [apply cmp2_members; eassumption| |].
    + split; [intros; econstructor; eassumption|intros K; inversion K; subst; congruence].
    + split; [intros; econstructor; eassumption|intros K; inversion K; subst; congruence].
  - match goal with |- cmp2 _ (less _ _ _ (VEnum ?j ?l)) _ => rename l into ws; rename j into jx end.
    destruct vs; [|discriminate Hv]. destruct ws; [|discriminate Hw].
    assert (Wd := wf_nth D i _ W EN). cbn [wf_def] in Wd. apply andb_prop in Wd. destruct Wd as [Wd _]. apply andb_prop in Wd. destruct Wd as [_ Wd].
    eapply cmp2_iff; [apply cmp2_z| |].
    + split; [intros; eapply less_tag; eassumption|intros K; inversion K; subst; try congruence].
    + split; [|intros K; inversion K; reflexivity]. intros E. assert (ix = jx) by (apply (nodupb_nth tags Wd); [lia|lia|exact E]).
      subst jx. eapply same_cstyle; eassumption.
  - match goal with |- cmp2 _ (less _ _ _ (VEnum ?j ?l)) _ => rename l into ws; rename j into jx end.
    destruct (nth_error alts ix) as [[n ts]|] eqn:EA; [|discriminate Hv].
    destruct (Nat.compare_spec ix jx) as [<-|L|L].
    + rewrite EA in Hw. replace (nth ix alts (0, [])) with (n, ts) by (symmetry; apply nth_error_nth; exact EA). cbn [snd].
      eapply cmp2_iff; [apply cmp2_members; eassumption| |].
      * split; [intros; eapply less_data; eassumption|intros K; inversion K; subst; try congruence; try lia].
      * split; [intros; eapply same_data; eassumption|intros K; inversion K; subst; congruence].
    + split; split; try congruence.
      * intros _. eapply less_variant; eassumption.
      * intros K; inversion K; subst; lia.
    + split; split; try congruence.
      * intros K; inversion K; subst; try lia. congruence.
      * intros K; inversion K; subst; lia.
Qed.
End Order.

(** ** Without floating-point numbers *)
Section Exact.
Variable D : list def.
Hypothesis NF : forallb no_float_def D = true.

Lemma no_float_members i ts : nth_error D i = Some (DStruct ts) -> forallb no_float ts = true.
Proof. intros E. rewrite forallb_forall in NF. exact (NF _ (nth_error_In _ _ E)). Qed.
Lemma no_float_alts i k alts ix n ts : nth_error D i = Some (DData k alts) -> nth_error alts ix = Some (n, ts) -> forallb no_float ts = true.
Proof.
  intros E E'. rewrite forallb_forall in NF. pose proof (NF _ (nth_error_In _ _ E)) as H. cbn [no_float_def] in H.
  rewrite forallb_forall in H. exact (H _ (nth_error_In _ _ E')).
Qed.
Lemma no_float_parts t t' : no_float t = true -> optional_of t = Some t' \/ element_of t = Some t' \/ payload_of t = Some t' -> no_float t' = true.
Proof. intros H [E|[E|E]]; destruct t; cbn in *; congruence. Qed.

Lemma same_exact : forall v w t, no_float t = true -> same D t v w -> v = w.
Proof.
  assert (Q : forall vs, Forall (fun v => forall w t, no_float t = true -> same D t v w -> v = w) vs ->
    (forall ws t, no_float t = true -> Forall2 (same D t) vs ws -> vs = ws) /\
    (forall ws ts, forallb no_float ts = true -> same_members D ts vs ws -> vs = ws)).
  { induction 1 as [|v vs Hv Hvs [IH1 IH2]]; split.
    - intros ws t _ H; inversion H; reflexivity.
    - intros ws ts _ H; inversion H; reflexivity.
    - intros ws t N H; inversion H; subst; f_equal; eauto.
    - intros ws ts N H; inversion H; subst. cbn [forallb] in N. apply andb_prop in N. destruct N. f_equal; eauto. }
  induction v as [|b|z|bs| |v IHv|vs IHvs|vs IHvs|ix vs IHvs|v IHv] using val_ind'; intros w t N H; inversion H; subst; try reflexivity.
  - destruct t; discriminate.
  - f_equal. eapply IHv; [|eassumption]. eapply no_float_parts; eauto.
  - f_equal. eapply (proj1 (Q vs IHvs)); [|eassumption]. eapply no_float_parts; eauto.
  - f_equal. eapply (proj2 (Q vs IHvs)); [|eassumption]. eapply no_float_members; eauto.
  - f_equal. eapply (proj2 (Q vs IHvs)); [|eassumption]. eapply no_float_alts; eauto.
  - f_equal. eapply IHv; [|eassumption]. eapply no_float_parts; eauto.
Qed.
End Exact.

(** ** Without NaN *)
Lemma f64_nan_number b : 0 <= b < 2 ^ 64 -> f64_number b = negb (f64_is_nan b).
Proof.
  intros Hb. unfold f64_is_nan. destruct (f64_number_cases b Hb) as [(N & _ & X & _)|[(s & N & X & _)|[N X]]]; rewrite N.
  - destruct (f64_of_bits b); try reflexivity; congruence.
  - rewrite X. reflexivity.
  - rewrite X. reflexivity.
Qed.
Section Total.
Variable D : list def.
Hypothesis ND : forallb no_nan_def D = true.

Lemma val_cmp_some : forall v w t, no_nan t = true -> well_typed D v t = true -> well_typed D w t = true -> val_cmp D v w t <> None.
Proof.
  assert (Q : forall vs, Forall (fun v => forall w t, no_nan t = true -> well_typed D v t = true -> well_typed D w t = true -> val_cmp D v w t <> None) vs ->
    (forall ws t, no_nan t = true -> forallb (fun v => well_typed D v t) vs = true -> forallb (fun v => well_typed D v t) ws = true ->
       lex_seq (fun v w => val_cmp D v w t) vs ws <> None) /\
    (forall ws ts, forallb no_nan ts = true -> all2 (well_typed D) vs ts = true -> all2 (well_typed D) ws ts = true ->
       lex_fields (val_cmp D) vs ws ts <> None)).
  { induction 1 as [|v vs Hv Hvs [IH1 IH2]]; (split; [intros [|w ws] t|intros [|w ws] [|t ts]]); intros N H1 H2; try discriminate.
    - cbn [lex_seq forallb] in *. apply andb_prop in H1, H2. destruct H1, H2. specialize (Hv w t N). specialize (IH1 ws t N).
      destruct (val_cmp D v w t) as [[]|]; try discriminate; auto.
    - cbn [lex_fields all2 forallb] in *. apply andb_prop in H1, H2, N. destruct H1, H2, N. specialize (Hv w t). specialize (IH2 ws ts).
      destruct (val_cmp D v w t) as [[]|]; try discriminate; auto. }
  induction v as [|b|z|bs| |v IHv|vs IHvs|vs IHvs|ix vs IHvs|v IHv] using val_ind'; intros w t N Hv Hw;
    destruct t; try discriminate Hv; destruct w; try discriminate Hw; cbn [val_cmp]; try discriminate; try discriminate N;
    unfold well_typed in Hv, Hw; cbn [valid_gen] in Hv, Hw;
    try (destruct (nth_error D i) as [[ts|k tags|k alts]|] eqn:EN; try discriminate Hv; try discriminate Hw; try discriminate);
    repeat (match goal with H : _ && _ = true |- _ => apply andb_prop in H; destruct H end);
    try (apply IHv; assumption); try (apply (Q vs IHvs); assumption).
  - match goal with |- f64_cmp z ?y <> None => rename y into z2 end.
    pose proof (f64_le_not_nan lo z ltac:(assumption)) as [_ N1]. pose proof (f64_le_not_nan lo z2 ltac:(assumption)) as [_ N2].
    rewrite f64_cmp_value by (unfold is_u64 in *; lia).
    rewrite !f64_nan_number, N1, N2 by (unfold is_u64 in *; lia). discriminate.
  - apply (Q vs IHvs); try assumption. rewrite forallb_forall in ND. exact (ND _ (nth_error_In _ _ EN)).
  - match goal with |- context [Nat.compare ix ?j] => rename j into jx end.
    destruct (nth_error alts ix) as [[n ts]|] eqn:EA; [|discriminate Hv].
    destruct (Nat.compare_spec ix jx) as [<-|L|L]; try discriminate.
    rewrite EA in Hw. replace (nth ix alts (0, [])) with (n, ts) by (symmetry; apply nth_error_nth; exact EA). cbn [snd].
    apply (Q vs IHvs); try assumption. rewrite forallb_forall in ND. pose proof (ND _ (nth_error_In _ _ EN)) as H. cbn [no_nan_def] in H.
    rewrite forallb_forall in H. exact (H _ (nth_error_In _ _ EA)).
Qed.
End Total.

Lemma val_cmp_three D v w t : wf_defs D = true -> well_typed D v t = true -> well_typed D w t = true ->
  (val_cmp D v w t = Some Lt <-> less D t v w) /\ (val_cmp D v w t = Some Eq <-> same D t v w) /\ (val_cmp D v w t = Some Gt <-> less D t w v).
Proof.
  intros W Hv Hw. destruct (val_cmp_spec D W v w t Hv Hw) as [H1 H2]. destruct (val_cmp_spec D W w v t Hw Hv) as [H3 _].
  split; [exact H1|]. split; [exact H2|]. rewrite <- H3, (val_cmp_dual D v w t). destruct (val_cmp D v w t) as [[]|]; cbn; split; congruence.
Qed.
Lemma val_cmp_trans D u v w t c : val_cmp D u v t = Some c -> val_cmp D v w t = Some c -> val_cmp D u w t = Some c.
Proof. intros H1 H2. apply (val_cmp_join D u v w t c). rewrite H1, H2. destruct c; reflexivity. Qed.
Lemma val_eq_substitutes D u v w t c : val_eq D u v t = true ->
  (val_cmp D v w t = Some c -> val_cmp D u w t = Some c) /\ (val_cmp D w v t = Some c -> val_cmp D w u t = Some c).
Proof.
  intros E. apply val_eq_cmp in E. split; intros H.
  - apply (val_cmp_join D u v w t c). rewrite E, H. destruct c; reflexivity.
  - apply (val_cmp_join D w v u t c). rewrite (val_cmp_dual D u v t), E, H. destruct c; reflexivity.
Qed.
Lemma less_total D v w t : wf_defs D = true -> forallb no_nan_def D = true -> no_nan t = true ->
  well_typed D v t = true -> well_typed D w t = true -> less D t v w \/ same D t v w \/ less D t w v.
Proof.
  intros W N Nt Hv Hw. destruct (val_cmp_three D v w t W Hv Hw) as (H1 & H2 & H3). pose proof (val_cmp_some D N v w t Nt Hv Hw) as H.
  destruct (val_cmp D v w t) as [[]|]; [right; left; tauto|left; tauto|right; right; tauto|congruence].
Qed.
Lemma float_equality :
  (forall cf D kf, forall t, t = TF64 \/ t = TRangedF 0xbff0000000000000 0x3ff0000000000000 -> exists v w bs bs',
    well_typed D v t = true /\ well_typed D w t = true /\ val_eq D v w t = true /\
    to_bytes cf D kf v t = ROk bs /\ to_bytes cf D kf w t = ROk bs' /\ bs <> bs') /\
  (forall cf D kf, exists v bs, well_typed D v TF64 = true /\ to_bytes cf D kf v TF64 = ROk bs /\ val_eq D v v TF64 = false).
Proof.
  split; intros cf D kf.
  - intros t Ht. destruct Ht as [->| ->]; exists (VInt 0), (VInt (2 ^ 63)); do 2 eexists;
      do 3 (split; [reflexivity|]); (split; [vm_compute; reflexivity|]); (split; [vm_compute; reflexivity|]); discriminate.
  - exists (VInt 0x7ff8000000000000). eexists. split; [reflexivity|]. split; vm_compute; reflexivity.
Qed.
