(** Types that share a wire format (C92). *)
From Verif Require Import Base ModelErrors ModelParser ModelInt ModelFloat ModelUtf8 ModelTarget ModelSchema SpecCodec SpecNum SpecUtf8 SpecGrammar SpecPlain
  BaseLemmas ProofInt ProofCodec ProofEnc ProofCodecThms ProofCodecProps ProofSettle ProofGrammar.
From Coq Require Import ZifyBool.

Section Plain.
Variables (checked : bool) (D : list def).
Notation den := (denotes checked D).
Notation denp := (denotes checked (plain_defs D)).
Notation manyp := (many checked (plain_defs D)).

Lemma plain_nth i : nth_error (plain_defs D) i = option_map plain_def (nth_error D i).
Proof. apply nth_error_map. Qed.
Lemma u8_format z : 0 <= z <= 255 -> int_format U8 z = [z].
Proof. intros H. unfold int_format. change (256 ^ ik_len U8) with 256. change (Z.to_nat (ik_len U8)) with 1%nat. cbn [big_endian app]. rewrite Z.mod_mod, Z.mod_small by lia. reflexivity. Qed.
Lemma u64_format z : 0 <= z < 2 ^ 64 -> int_format U64 z = big_endian 8 z.
Proof. intros H. unfold int_format. rewrite Z.mod_small; [reflexivity|exact H]. Qed.
Lemma full_spec k lo hi z : full_range k lo hi = true -> ik_min k <= z <= ik_max k -> lo <= ranged_value lo z <= hi.
Proof. unfold full_range, ranged_value. intros F H. destruct (Z.ltb_spec 0 lo); lia. Qed.

Lemma many_of_bytes E bs r : bytes_ok bs -> many checked E (TInt U8) (bs ++ r) (map VInt bs) r.
Proof.
  induction bs as [|b bs IH]; intros H; cbn [map app]; [constructor|]. inversion H as [|? ? Hb Ho]; subst.
  econstructor; [discriminate| |apply IH; exact Ho]. unfold is_byte in Hb.
  pose proof (den_int checked E U8 b (bs ++ r)) as X. rewrite u8_format in X by lia. apply X. cbn. lia.
Qed.
Lemma bytes_of_many E bs us r : many checked E (TInt U8) bs us r -> exists cs, bs = cs ++ r /\ us = map VInt cs.
Proof.
  remember (TInt U8) as t eqn:Et. induction 1 as [|t bs v mid vs r Hne Hd Hm IH]; [exists []; auto|]. subst t.
  destruct (IH eq_refl) as (cs & -> & ->). inversion Hd; subst. rewrite u8_format by (cbn in *; lia). exists (z :: cs). auto.
Qed.

(** ** There *)
Lemma ok_app (a b : list byte) : bytes_ok (a ++ b) -> bytes_ok a /\ bytes_ok b.
Proof. apply Forall_app. Qed.
Lemma there t bs v r : den t bs v r -> bytes_ok bs -> denp (plain t) bs (plain_val D v t) r /\ bytes_ok r.
Proof.
  intros H. induction H using denotes_mut with
    (P0 := fun t bs vs r _ => bytes_ok bs -> manyp (plain t) bs (map (fun v => plain_val D v t) vs) r /\ bytes_ok r)
    (P1 := fun ts bs vs r _ => bytes_ok bs -> in_turn checked (plain_defs D) (map plain ts) bs (map_fields (plain_val D) vs ts) r /\ bytes_ok r);
    intros HB; cbn [plain plain_val map map_fields].
  - split; [constructor|exact HB].
  - inversion HB; split; [constructor|assumption].
  - inversion HB; split; [constructor|assumption].
  - split; [constructor; assumption|apply ok_app in HB; tauto].
  - split; [|apply ok_app in HB; tauto]. destruct (full_range k lo hi); constructor; assumption.
  - split; [|apply ok_app in HB; tauto]. rewrite <- u64_format by assumption. constructor. cbn in *. lia.
  - split; [constructor; assumption|apply ok_app in HB; tauto].
  - split; [constructor; assumption|apply ok_app in HB; tauto].
  - split; [constructor; assumption|apply ok_app in HB; tauto].
  - split; [|constructor]. constructor. pose proof (many_of_bytes (plain_defs D) bs [] HB) as M. rewrite app_nil_r in M. exact M.
  - split; [constructor; assumption|constructor].
  - apply ok_app in HB. split; [|tauto]. constructor; [apply many_of_bytes; tauto|]. unfold zlen in *. rewrite map_length. assumption.
  - apply ok_app in HB. split; [|tauto]. constructor; [apply many_of_bytes; tauto|]. unfold zlen in *. rewrite map_length. assumption.
  - inversion HB; split; [constructor|assumption].
  - inversion HB; subst. destruct IHdenotes; [assumption|]. split; [constructor; assumption|assumption].
  - split; [constructor|constructor].
  - destruct IHdenotes; [assumption|]. split; [constructor; assumption|assumption].
  - destruct IHdenotes; [assumption|]. split; [constructor; assumption|assumption].
  - destruct IHdenotes; [assumption|]. split; [constructor; [assumption|unfold zlen in *; rewrite map_length; assumption]|assumption].
  - destruct IHdenotes; [assumption|]. split; [constructor; [assumption|unfold zlen in *; rewrite map_length; assumption]|assumption].
  - apply ok_app in HB. destruct HB as [_ HB]. apply ok_app in HB. destruct HB as [H1 H2]. destruct (IHdenotes H1). split; [constructor; assumption|assumption].
  - apply ok_app in HB. destruct HB as [H1 H2]. destruct (IHdenotes H1). split; [constructor; assumption|assumption].
  - destruct (IHdenotes HB) as [H1 H2]. apply ok_app in H2. split; [econstructor; eassumption|tauto].
  - exact (IHdenotes HB).
  - rewrite e. destruct (IHdenotes HB) as [H1 H2]. split; [|exact H2]. econstructor; [rewrite plain_nth, e; reflexivity|exact H1].
  - rewrite e. split; [|apply ok_app in HB; tauto]. econstructor; [rewrite plain_nth, e; reflexivity|exact e0].
  - rewrite e. apply ok_app in HB. destruct HB as [_ HB]. destruct (IHdenotes HB) as [H1 H2]. split; [|exact H2].
    rewrite (nth_error_nth alts ix (0, []) e0). cbn [snd]. destruct (forallb no_fields alts) eqn:EF.
    + pose proof EF as EF'. rewrite forallb_forall in EF. specialize (EF _ (nth_error_In _ _ e0)). unfold no_fields in EF. cbn [snd] in EF. destruct ts; [|discriminate].
      match goal with X : in_turn _ _ [] _ _ _ |- _ => inversion X; subst end. cbn [map_fields]. apply (den_cstyle checked (plain_defs D) i k (map fst alts)).
      * rewrite plain_nth, e. cbn [option_map plain_def]. rewrite EF'. reflexivity.
      * rewrite nth_error_map, e0. reflexivity.
    + eapply den_data; [rewrite plain_nth, e; cbn [option_map plain_def]; rewrite EF; reflexivity|rewrite nth_error_map, e0; reflexivity|exact H1].
  - split; [constructor|exact HB].
  - destruct (IHdenotes HB) as [H1 H2]. destruct (IHdenotes0 H2). split; [econstructor; eassumption|assumption].
  - split; [constructor|exact HB].
  - destruct (IHdenotes HB) as [H1 H2]. destruct (IHdenotes0 H2). split; [econstructor; eassumption|assumption].
Qed.

(** ** And back *)
Ltac unbox :=
  let x := fresh "x" in intros x; induction x; cbn [plain]; intros Ep;
  try (match type of Ep with context [full_range ?a ?b ?c] => destruct (full_range a b c) eqn:EF end); try discriminate Ep;
  try (match goal with IH : ?X = _ -> _, Ep' : ?X = _ |- _ => destruct (IH Ep') as (vb & Hb1 & Hb2); exists (VWrap vb); split; [constructor; exact Hb1|exact Hb2] end);
  try (injection Ep; clear Ep; intros; subst).
Lemma back t' bs u r : denp t' bs u r -> bytes_ok bs -> forall t, plain t = t' -> exists v, den t bs v r /\ plain_val D v t = u.
Proof.
  assert (OK : forall t bs v r, denp t bs v r -> bytes_ok bs -> bytes_ok r).
  { intros t bs0 v r0 H. induction H using denotes_mut with (P0 := fun t bs vs r _ => bytes_ok bs -> bytes_ok r) (P1 := fun ts bs vs r _ => bytes_ok bs -> bytes_ok r);
      intros HB; try exact HB; try (constructor; fail); try (apply ok_app in HB; destruct HB as [HB1 HB2]; auto; fail); try (inversion HB; auto; fail); auto.
    - apply ok_app in HB. destruct HB as [_ HB]. apply ok_app in HB. tauto.
    - specialize (IHdenotes HB). apply ok_app in IHdenotes. tauto. }
  intros H. induction H using denotes_mut with
    (P0 := fun t' bs us r _ => bytes_ok bs -> forall t, plain t = t' -> exists vs, many checked D t bs vs r /\ map (fun v => plain_val D v t) vs = us)
    (P1 := fun ts' bs us r _ => bytes_ok bs -> forall ts, map plain ts = ts' -> exists vs, in_turn checked D ts bs vs r /\ map_fields (plain_val D) vs ts = us);
    intros HB.
  - unbox. exists VUnit. split; [constructor|reflexivity].
  - unbox. exists (VBool true). split; [constructor|reflexivity].
  - unbox. exists (VBool false). split; [constructor|reflexivity].
  - unbox; exists (VInt z); (split; [|reflexivity]).
    + constructor; assumption.
    + constructor; [assumption|]. apply (full_spec k); assumption.
    + rewrite u64_format by (cbn in *; lia). constructor. cbn in *; lia.
  - unbox. exists (VInt z). split; [constructor; assumption|reflexivity].
  - unbox.
  - unbox. exists (VInt z). split; [constructor; assumption|reflexivity].
  - unbox. eexists (VInt _). split; [constructor; assumption|reflexivity].
  - unbox. eexists (VInt _). split; [constructor; assumption|reflexivity].
  - unbox.
  - unbox. eexists (VBytes _). split; [constructor; eassumption|reflexivity].
  - unbox.
  - unbox.
  - unbox. exists VNone. split; [constructor|reflexivity].
  - inversion HB; subst. unbox. destruct (IHdenotes ltac:(assumption) _ eq_refl) as (w & H1 & <-). exists (VSome w). split; [constructor; assumption|reflexivity].
  - unbox. exists VNone. split; [constructor|reflexivity].
  - unbox. destruct (IHdenotes HB _ eq_refl) as (w & H1 & <-). exists (VSome w). split; [constructor; assumption|reflexivity].
  - unbox.
    + destruct (bytes_of_many _ _ _ _ m) as (cs & -> & ->). rewrite app_nil_r. exists (VBytes cs). split; [constructor|reflexivity].
    + destruct (IHdenotes HB _ eq_refl) as (w & H1 & <-). exists (VSeq w). split; [constructor; assumption|reflexivity].
  - unbox. destruct (IHdenotes HB _ eq_refl) as (w & H1 & <-). exists (VSeq w). split; [constructor; [assumption|unfold zlen in *; rewrite map_length in *; assumption]|reflexivity].
  - unbox.
    + destruct (bytes_of_many _ _ _ _ m) as (cs & -> & ->). exists (VBytes cs). unfold zlen in *. rewrite map_length. split; [constructor; reflexivity|reflexivity].
    + destruct (bytes_of_many _ _ _ _ m) as (cs & -> & ->). exists (VBytes cs). unfold zlen in *. rewrite map_length. split; [constructor; reflexivity|reflexivity].
    + destruct (IHdenotes HB _ eq_refl) as (w & H1 & <-). exists (VSeq w). unfold zlen in *. rewrite map_length. split; [constructor; [assumption|reflexivity]|reflexivity].
  - apply ok_app in HB. destruct HB as [_ HB]. apply ok_app in HB. destruct HB as [HB _].
    unbox. destruct (IHdenotes HB _ eq_refl) as (w & H1 & <-). exists (VWrap w). split; [constructor; assumption|reflexivity].
  - apply ok_app in HB. destruct HB as [HB _].
    unbox. destruct (IHdenotes HB _ eq_refl) as (w & H1 & <-). exists (VWrap w). split; [constructor; [reflexivity|assumption]|reflexivity].
  - unbox. destruct (IHdenotes HB _ eq_refl) as (w & H1 & <-). exists (VWrap w). split; [econstructor; [eassumption|reflexivity|assumption]|reflexivity].
  - unbox.
  - rewrite plain_nth in e. destruct (nth_error D i) as [d|] eqn:EN; [|discriminate]. cbn [option_map] in e. injection e as e.
    destruct d as [ts0|k tags|k alts]; cbn [plain_def] in e; [|discriminate|destruct (forallb no_fields alts); discriminate]. injection e as <-.
    unbox. destruct (IHdenotes HB _ eq_refl) as (w & H1 & <-). exists (VStruct w). cbn [plain_val]. rewrite EN. split; [econstructor; eassumption|reflexivity].
  - rewrite plain_nth in e. destruct (nth_error D i) as [d|] eqn:EN; [|discriminate]. cbn [option_map] in e. injection e as e.
    destruct d as [ts0|k0 tags0|k0 alts]; cbn [plain_def] in e; [discriminate| |].
    + injection e as <- <-. unbox. exists (VEnum ix []). cbn [plain_val]. rewrite EN. split; [econstructor; eassumption|reflexivity].
    + destruct (forallb no_fields alts) eqn:EF0; [|discriminate]. injection e as <- <-. rewrite nth_error_map in e0.
      destruct (nth_error alts ix) as [[tag0 ts]|] eqn:EA; [|discriminate]. cbn in e0. injection e0 as <-.
      rewrite forallb_forall in EF0. specialize (EF0 _ (nth_error_In _ _ EA)). unfold no_fields in EF0. cbn [snd] in EF0. destruct ts; [|discriminate].
      unbox. exists (VEnum ix []). cbn [plain_val]. rewrite EN. split; [|reflexivity].
      eapply den_data; [exact EN|exact EA|constructor].
  - rewrite plain_nth in e. destruct (nth_error D i) as [d|] eqn:EN; [|discriminate]. cbn [option_map] in e. injection e as e.
    destruct d as [ts0|k0 tags0|k0 alts0]; cbn [plain_def] in e; [discriminate|discriminate|].
    destruct (forallb no_fields alts0) eqn:EF0; [discriminate|]. injection e as <- <-. rewrite nth_error_map in e0.
    destruct (nth_error alts0 ix) as [[tag0 ts0]|] eqn:EA; [|discriminate]. cbn in e0. injection e0 as <- <-.
    apply ok_app in HB. destruct HB as [_ HB].
    unbox. destruct (IHdenotes HB _ eq_refl) as (w & H1 & <-). exists (VEnum ix w). cbn [plain_val]. rewrite EN, (nth_error_nth alts0 ix (0, []) EA).
    split; [econstructor; eassumption|reflexivity].
  - intros x _. exists []. split; [constructor|reflexivity].
  - intros x Ex. destruct (IHdenotes HB x Ex) as (w & H1 & <-).
    match goal with X : denp _ bs _ _ |- _ => pose proof (OK _ _ _ _ X HB) as HM end.
    destruct (IHdenotes0 HM x Ex) as (ws & H2 & <-). exists (w :: ws). split; [econstructor; eassumption|reflexivity].
  - intros x Ex. destruct x; [|discriminate]. exists []. split; [constructor|reflexivity].
  - intros x Ex. destruct x as [|x xs]; [discriminate|]. injection Ex as Ex1 Ex2. destruct (IHdenotes HB x Ex1) as (w & H1 & <-).
    match goal with X : denp _ bs _ _ |- _ => pose proof (OK _ _ _ _ X HB) as HM end.
    destruct (IHdenotes0 HM xs Ex2) as (ws & H2 & <-). exists (w :: ws). split; [econstructor; eassumption|reflexivity].
Qed.
End Plain.

(** ** Well-formedness *)
Lemma wf_plain D t : wf_ty D t = true -> wf_ty (plain_defs D) (plain t) = true.
Proof.
  induction t; cbn [plain wf_ty]; intros H; try exact H; try reflexivity; try (apply IHt; exact H);
    try (apply andb_prop in H; destruct H as [H1 H2]; rewrite H1, IHt by exact H2; reflexivity).
  - destruct (full_range k lo hi); [reflexivity|exact H].
  - rewrite H. reflexivity.
  - rewrite H. reflexivity.
  - unfold plain_defs. rewrite map_length. exact H.
Qed.
Lemma wf_plain_list D ts : forallb (wf_ty D) ts = true -> forallb (wf_ty (plain_defs D)) (map plain ts) = true.
Proof. induction ts as [|t ts IH]; cbn [map forallb]; intros H; [reflexivity|]. apply andb_prop in H. destruct H as [H1 H2]. rewrite wf_plain, IH; auto. Qed.
Lemma wf_plain_defs D : wf_defs D = true -> wf_defs (plain_defs D) = true.
Proof.
  unfold wf_defs. rewrite !forallb_forall. intros H d' Hd. unfold plain_defs in Hd at 1. apply in_map_iff in Hd. destruct Hd as (d & <- & Hd).
  specialize (H d Hd). destruct d as [ts|k tags|k alts]; cbn [plain_def wf_def] in *.
  - apply wf_plain_list, H.
  - exact H.
  - apply andb_prop in H. destruct H as [H1 H2]. destruct (forallb no_fields alts); cbn [wf_def]; [exact H1|].
    assert (E : map fst (map (fun a => (fst a, map plain (snd a))) alts) = map fst alts) by (rewrite map_map; reflexivity).
    unfold byte in *. rewrite E, H1. cbn [andb]. rewrite forallb_forall in *. intros a' Ha. apply in_map_iff in Ha. destruct Ha as (a & <- & Ha).
    apply wf_plain_list. exact (H2 a Ha).
Qed.

(** ** Encoding *)
Section Format.
Variable D : list def.
Notation D' := (plain_defs D).
Definition plain_ok (v : val) : Prop := forall t, well_typed D v t = true ->
  format D' (plain_val D v t) (plain t) = format D v t /\
  forall fits, valid_gen fits D' (plain_val D v t) (plain t) = valid_gen fits D v t.
Lemma bytes_format bs : forallb byteb bs = true -> concat (map (fun v => format D' v (TInt U8)) (map VInt bs)) = bs.
Proof.
  induction bs as [|b bs IH]; cbn [forallb map concat]; intros H; [reflexivity|]. apply andb_prop in H. destruct H as [H1 H2].
  rewrite IH by exact H2. unfold byteb in H1. cbn [format]. rewrite u8_format by lia. reflexivity.
Qed.
Lemma bytes_valid bs fits : forallb (fun v => valid_gen fits D' v (TInt U8)) (map VInt bs) = forallb byteb bs.
Proof.
  induction bs as [|b bs IH]; cbn [forallb map]; [reflexivity|]. rewrite IH. f_equal. cbn [valid_gen]. unfold ik_in, byteb. cbn. lia.
Qed.
Lemma plain_list vs t : Forall plain_ok vs -> forallb (fun v => well_typed D v t) vs = true ->
  concat (map (fun v => format D' v (plain t)) (map (fun v => plain_val D v t) vs)) = concat (map (fun v => format D v t) vs) /\
  forall fits, forallb (fun v => valid_gen fits D' v (plain t)) (map (fun v => plain_val D v t) vs) = forallb (fun v => valid_gen fits D v t) vs.
Proof.
  induction 1 as [|v vs Hv _ IH]; cbn [map concat forallb]; intros W; [auto|]. apply andb_prop in W. destruct W as [W1 W2].
  destruct (Hv t W1) as [F V]. destruct (IH W2) as [F2 V2]. rewrite F, F2. split; [reflexivity|]. intros fits. rewrite V, V2. reflexivity.
Qed.
Lemma plain_fields vs : Forall plain_ok vs -> forall ts, all2 (well_typed D) vs ts = true ->
  concat2 (format D') (map_fields (plain_val D) vs ts) (map plain ts) = concat2 (format D) vs ts /\
  forall fits, all2 (valid_gen fits D') (map_fields (plain_val D) vs ts) (map plain ts) = all2 (valid_gen fits D) vs ts.
Proof.
  induction 1 as [|v vs Hv _ IH]; intros [|t ts]; cbn [map map_fields all2 concat2]; intros W; try discriminate; [auto|]. apply andb_prop in W. destruct W as [W1 W2].
  destruct (Hv t W1) as [F V]. destruct (IH ts W2) as [F2 V2]. rewrite F, F2. split; [reflexivity|]. intros fits. rewrite V, V2. reflexivity.
Qed.
Lemma plain_vals v : plain_ok v.
Proof.
  induction v as [| | | | |v IHv|vs IHvs|vs IHvs|ix vs IHvs|v IHv] using val_ind'; intros t; unfold well_typed; destruct t; cbn [valid_gen]; intros W; try discriminate W;
    cbn [plain plain_val]; try (split; reflexivity).
  - destruct (nth_error D i) as [[| |]|]; discriminate W.
  - destruct (nth_error D i) as [[| |]|]; discriminate W.
  - destruct (full_range k lo hi) eqn:E; split; try reflexivity. intros fits. cbn [valid_gen]. unfold ranged_ok, full_range in *.
    destruct (ik_in k z) eqn:EI; [|reflexivity]. unfold ik_in in EI. destruct (Z.ltb_spec 0 lo); lia.
  - unfold is_u64 in W. split; cbn [format]; [apply u64_format; lia|]. intros fits. cbn [valid_gen]. unfold ik_in, is_u64. cbn. lia.
  - destruct (nth_error D i) as [[| |]|]; discriminate W.
  - split; cbn [format]; [apply bytes_format; exact W|]. intros fits. cbn [valid_gen]. apply bytes_valid.
  - apply andb_prop in W. destruct W as [W1 W2]. split; cbn [format]; [apply bytes_format; exact W1|]. intros fits. cbn [valid_gen]. rewrite bytes_valid. unfold zlen. rewrite map_length. reflexivity.
  - apply andb_prop in W. destruct W as [W1 W2]. split; cbn [format]; [apply bytes_format; exact W1|]. intros fits. cbn [valid_gen]. rewrite bytes_valid. unfold zlen. rewrite map_length. reflexivity.
  - destruct (nth_error D i) as [[| |]|]; discriminate W.
  - destruct (nth_error D i) as [[| |]|]; discriminate W.
  - destruct (IHv t W) as [F V]. cbn [format valid_gen]. rewrite F. auto.
  - destruct (IHv t W) as [F V]. cbn [format valid_gen]. rewrite F. auto.
  - destruct (nth_error D i) as [[| |]|]; discriminate W.
  - destruct (plain_list vs t IHvs W) as [F V]. cbn [format valid_gen]. auto.
  - apply andb_prop in W. destruct W as [W _]. destruct (plain_list vs t IHvs W) as [F V]. cbn [format valid_gen]. split; [exact F|]. intros fits. rewrite V. unfold zlen. rewrite map_length. reflexivity.
  - apply andb_prop in W. destruct W as [W _]. destruct (plain_list vs t IHvs W) as [F V]. cbn [format valid_gen]. split; [exact F|]. intros fits. rewrite V. unfold zlen. rewrite map_length. reflexivity.
  - destruct (nth_error D i) as [[| |]|]; discriminate W.
  - destruct (nth_error D i) as [[ts| |]|] eqn:EN; try discriminate W. destruct (plain_fields vs IHvs ts W) as [F V].
    cbn [format valid_gen]. rewrite plain_nth, EN. cbn [option_map plain_def]. auto.
  - destruct (nth_error D i) as [[ts|k tags|k alts]|] eqn:EN; try discriminate W.
    + cbn [format valid_gen]. rewrite plain_nth, EN. cbn [option_map plain_def]. auto.
    + destruct (nth_error alts ix) as [[tag ts]|] eqn:EA; [|discriminate W]. destruct (plain_fields vs IHvs ts W) as [F V].
      cbn [format valid_gen]. rewrite plain_nth, EN. rewrite (nth_error_nth alts ix (0, []) EA). cbn [option_map plain_def snd fst].
      destruct (forallb no_fields alts) eqn:EF.
      * rewrite forallb_forall in EF. specialize (EF _ (nth_error_In _ _ EA)). unfold no_fields in EF. cbn [snd] in EF. destruct ts; [|discriminate].
        destruct vs; [|discriminate W]. cbn [map_fields concat2 all2]. rewrite app_nil_r.
        assert (E : nth_error (map fst alts) ix = Some tag) by (rewrite nth_error_map, EA; reflexivity).
        rewrite (nth_error_nth _ ix 0 E). split; [reflexivity|]. intros fits.
        apply Nat.ltb_lt. apply nth_error_Some. rewrite E. discriminate.
      * assert (E : nth_error (map (fun a => (fst a, map plain (snd a))) alts) ix = Some (tag, map plain ts)) by (rewrite nth_error_map, EA; reflexivity).
        rewrite (nth_error_nth _ ix (0, []) E). cbn [fst snd]. rewrite F. split; [reflexivity|]. intros fits. unfold byte in *. rewrite E. cbn [fst snd]. rewrite V. try rewrite EA. reflexivity.
  - destruct (IHv t (proj1 (andb_prop _ _ W))) as [F V]. cbn [format valid_gen]. rewrite F. split; [reflexivity|]. intros fits. rewrite V. reflexivity.
  - destruct (IHv t W) as [F V]. cbn [format valid_gen]. auto.
  - destruct (IHv t W) as [F V]. cbn [format valid_gen]. rewrite F. auto.
  - exact (IHv t W).
  - destruct (nth_error D i) as [[| |]|]; discriminate W.
Qed.

(** ** Nothing is lost *)
Lemma map_vint_inj a : forall b, map VInt a = map VInt b -> a = b.
Proof. induction a as [|x a IH]; intros [|y b]; cbn [map]; intros E; try discriminate; [reflexivity|]. injection E as -> E. f_equal. auto. Qed.
Definition plain_inj (v : val) : Prop := forall v' t, well_typed D v t = true -> well_typed D v' t = true -> plain_val D v t = plain_val D v' t -> v = v'.
Lemma inj_list vs t : Forall plain_inj vs -> forall vs', forallb (fun v => well_typed D v t) vs = true -> forallb (fun v => well_typed D v t) vs' = true ->
  map (fun v => plain_val D v t) vs = map (fun v => plain_val D v t) vs' -> vs = vs'.
Proof.
  induction 1 as [|v vs Hv _ IH]; intros [|v' vs']; cbn [map forallb]; intros W W' E; try discriminate; [reflexivity|].
  apply andb_prop in W. apply andb_prop in W'. destruct W, W'. injection E as E1 E2. f_equal; eauto.
Qed.
Lemma inj_fields vs : Forall plain_inj vs -> forall ts vs', all2 (well_typed D) vs ts = true -> all2 (well_typed D) vs' ts = true ->
  map_fields (plain_val D) vs ts = map_fields (plain_val D) vs' ts -> vs = vs'.
Proof.
  induction 1 as [|v vs Hv _ IH]; intros [|t ts] [|v' vs']; cbn [map_fields all2]; intros W W' E; try discriminate; [reflexivity|].
  apply andb_prop in W. apply andb_prop in W'. destruct W, W'. injection E as E1 E2. f_equal; eauto.
Qed.
Lemma plain_injective v : plain_inj v.
Proof.
  induction v as [| | | | |v IHv|vs IHvs|vs IHvs|ix vs IHvs|v IHv] using val_ind'; intros v' t; unfold well_typed; destruct t; cbn [valid_gen]; intros W W' E; try discriminate W;
    try (destruct v'; try discriminate W'; cbn [plain_val] in E; exact E);
    try (destruct (nth_error D i) as [[| |]|]; discriminate W).
  - destruct v'; try discriminate W'. cbn [plain_val] in E. injection E as E. apply map_vint_inj in E. subst. reflexivity.
  - destruct v'; try discriminate W'. cbn [plain_val] in E. injection E as E. apply map_vint_inj in E. subst. reflexivity.
  - destruct v'; try discriminate W'. cbn [plain_val] in E. injection E as E. apply map_vint_inj in E. subst. reflexivity.
  - destruct v'; try discriminate W'; cbn [plain_val] in E; [reflexivity|discriminate E].
  - destruct v'; try discriminate W'; cbn [plain_val] in E; [reflexivity|discriminate E].
  - destruct v'; try discriminate W'; cbn [plain_val] in E; try discriminate E. injection E as E. f_equal. exact (IHv _ _ W W' E).
  - destruct v'; try discriminate W'; cbn [plain_val] in E; try discriminate E. injection E as E. f_equal. exact (IHv _ _ W W' E).
  - destruct v'; try discriminate W'. cbn [plain_val] in E. injection E as E. f_equal. exact (inj_list _ _ IHvs _ W W' E).
  - destruct v'; try discriminate W'. apply andb_prop in W. apply andb_prop in W'. destruct W as [W _], W' as [W' _]. cbn [plain_val] in E. injection E as E. f_equal. exact (inj_list _ _ IHvs _ W W' E).
  - destruct v'; try discriminate W'. apply andb_prop in W. apply andb_prop in W'. destruct W as [W _], W' as [W' _]. cbn [plain_val] in E. injection E as E. f_equal. exact (inj_list _ _ IHvs _ W W' E).
  - destruct (nth_error D i) as [[ts| |]|] eqn:EN; try discriminate W. destruct v'; cbn [valid_gen] in W'; rewrite EN in W'; try discriminate W'. cbn [plain_val] in E. rewrite EN in E; cbv iota in E. injection E as E. f_equal. exact (inj_fields _ IHvs _ _ W W' E).
  - destruct (nth_error D i) as [[ts|k tags|k alts]|] eqn:EN; try discriminate W; destruct v'; cbn [valid_gen] in W'; rewrite EN in W'; try discriminate W'; cbn [plain_val] in E; rewrite EN in E; cbv iota in E.
    + exact E.
    + injection E as -> E. destruct (nth_error alts ix0) as [[tag ts]|] eqn:EA; [|discriminate W]. rewrite (nth_error_nth alts ix0 (0, []) EA) in E. cbn [snd] in E.
      f_equal. exact (inj_fields _ IHvs _ _ W W' E).
  - apply andb_prop in W. destruct W as [W _]. destruct v'; try discriminate W'. apply andb_prop in W'. destruct W' as [W' _]. cbn [plain_val] in E. injection E as E. f_equal. exact (IHv _ _ W W' E).
  - destruct v'; try discriminate W'. cbn [plain_val] in E. injection E as E. f_equal. exact (IHv _ _ W W' E).
  - destruct v'; try discriminate W'. cbn [plain_val] in E. injection E as E. f_equal. exact (IHv _ _ W W' E).
  - destruct v'; try discriminate W'. cbn [plain_val] in E. f_equal. exact (IHv _ _ W W' E).
Qed.
End Format.

(** ** The operations of the API *)
Section Exchange.
Variables (D : list def) (cf : config) (t : ty) (input : list byte).
Hypotheses (HD : wf_defs D = true) (HT : wf_ty D t = true) (HB : bytes_ok input) (HL : zlen input <= isize_max).
Lemma plain_decode w v : decodes w cf D t input (ROk v) -> decodes w cf (plain_defs D) (plain t) input (ROk (plain_val D v t)).
Proof.
  intros H. apply grammar_decodes in H; try assumption. destruct H as (rest & Hd & Hc).
  apply grammar_decodes; try assumption; [apply wf_plain_defs, HD|apply wf_plain, HT|]. exists rest. split; [|exact Hc]. apply there; assumption.
Qed.
Lemma plain_decode_back w u : decodes w cf (plain_defs D) (plain t) input (ROk u) -> exists v, decodes w cf D t input (ROk v) /\ plain_val D v t = u.
Proof.
  intros H. apply grammar_decodes in H; [|apply wf_plain_defs, HD|apply wf_plain, HT|assumption|assumption]. destruct H as (rest & Hd & Hc).
  destruct (back _ _ _ _ _ _ Hd HB t eq_refl) as (v & Hv & E). exists v. split; [|exact E]. apply grammar_decodes; try assumption. exists rest. auto.
Qed.
End Exchange.
Lemma plain_encode cf D kf kf' t v : wf_defs D = true -> wf_ty D t = true -> well_typed D v t = true -> cf_est_override cf = false -> zlen (format D v t) <= isize_max ->
  to_bytes cf (plain_defs D) kf' (plain_val D v t) (plain t) = to_bytes cf D kf v t.
Proof.
  intros HD HT HW HO HL. destruct (plain_vals D v t HW) as [F V]. rewrite !encode_is_format; try assumption.
  - rewrite F. unfold valid. rewrite V. reflexivity.
  - apply wf_plain_defs, HD.
  - apply wf_plain, HT.
  - unfold well_typed. rewrite V. exact HW.
  - rewrite F. exact HL.
Qed.
Lemma exchange_decode cf D1 D2 t1 t2 input : wf_defs D1 = true -> wf_defs D2 = true -> wf_ty D1 t1 = true -> wf_ty D2 t2 = true ->
  bytes_ok input -> zlen input <= isize_max -> plain_defs D1 = plain_defs D2 -> plain t1 = plain t2 ->
  forall w v1, decodes w cf D1 t1 input (ROk v1) -> exists v2, decodes w cf D2 t2 input (ROk v2) /\ plain_val D1 v1 t1 = plain_val D2 v2 t2.
Proof.
  intros H1 H2 T1 T2 HB HL ED ET w v1 H. apply plain_decode in H; try assumption. rewrite ED, ET in H. apply plain_decode_back in H; try assumption.
  destruct H as (v2 & H & E). exists v2. auto.
Qed.
Lemma exchange_encode cf D1 D2 t1 t2 kf1 kf2 v1 v2 : wf_defs D1 = true -> wf_defs D2 = true -> wf_ty D1 t1 = true -> wf_ty D2 t2 = true ->
  well_typed D1 v1 t1 = true -> well_typed D2 v2 t2 = true -> cf_est_override cf = false -> zlen (format D1 v1 t1) <= isize_max ->
  plain_defs D1 = plain_defs D2 -> plain t1 = plain t2 -> plain_val D1 v1 t1 = plain_val D2 v2 t2 ->
  to_bytes cf D1 kf1 v1 t1 = to_bytes cf D2 kf2 v2 t2.
Proof.
  intros H1 H2 T1 T2 W1 W2 HO HL ED ET EV.
  assert (L2 : zlen (format D2 v2 t2) <= isize_max).
  { destruct (plain_vals D1 v1 t1 W1) as [F1 _], (plain_vals D2 v2 t2 W2) as [F2 _]. rewrite <- F2, <- ED, <- ET, <- EV, F1. exact HL. }
  rewrite <- (plain_encode cf D1 kf1 kf1 t1 v1) by assumption. rewrite <- (plain_encode cf D2 kf2 kf1 t2 v2) by assumption. rewrite ED, ET, EV. reflexivity.
Qed.
(** The doc comment of [Bytes]. *)
Lemma bytes_sequence cf D input w bs : wf_defs D = true -> bytes_ok input -> zlen input <= isize_max ->
  decodes w cf D TBytes input (ROk (VBytes bs)) <-> decodes w cf D (TSeq (TInt U8)) input (ROk (VSeq (map VInt bs))).
Proof.
  intros HD HB HL. split; intros H.
  - destruct (exchange_decode cf D D TBytes (TSeq (TInt U8)) input) with (w := w) (v1 := VBytes bs) as (v2 & H2 & E); try assumption; try reflexivity.
    cbn [plain_val] in E. destruct v2; try discriminate E. injection E as E.
    rewrite (map_ext _ (fun v => v)) in E by (intros []; reflexivity). rewrite map_id in E. rewrite E. exact H2.
  - destruct (exchange_decode cf D D (TSeq (TInt U8)) TBytes input) with (w := w) (v1 := VSeq (map VInt bs)) as (v2 & H2 & E); try assumption; try reflexivity.
    cbn [plain_val] in E. rewrite (map_ext _ (fun v => v)) in E by (intros []; reflexivity). rewrite map_id in E.
    destruct v2; try discriminate E.
    + injection E as E. apply map_vint_inj in E. subst. exact H2.
    + apply grammar_decodes in H2; try assumption; [|reflexivity]. destruct H2 as (rest & Hd & _). inversion Hd.
Qed.
Lemma box_invisible cf D t input w v : wf_defs D = true -> wf_ty D t = true -> bytes_ok input -> zlen input <= isize_max ->
  decodes w cf D (TBox t) input (ROk (VWrap v)) <-> decodes w cf D t input (ROk v).
Proof.
  intros HD HT HB HL. split; intros H; apply grammar_decodes in H; try assumption; destruct H as (rest & Hd & Hc); apply grammar_decodes; try assumption; exists rest; (split; [|exact Hc]).
  - inversion Hd; subst; assumption.
  - constructor. exact Hd.
Qed.
