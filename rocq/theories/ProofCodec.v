(** Facts about formats and valid values: structural induction, lengths,
    non-emptiness. *)
From Verif Require Import Base BaseLemmas ModelErrors ModelParser ModelInt ModelFloat ModelZarith
  ModelUtf8 ModelTarget ModelSchema SpecParser SpecCodec ProofInt ProofZarith.
From Coq Require Import ZifyBool.

(** ** Induction on values *)
Section ValInd.
Variable P : val -> Prop.
Hypotheses
  (Hunit : P VUnit) (Hbool : forall b, P (VBool b)) (Hint : forall z, P (VInt z))
  (Hbytes : forall bs, P (VBytes bs)) (Hnone : P VNone) (Hsome : forall v, P v -> P (VSome v))
  (Hseq : forall vs, Forall P vs -> P (VSeq vs)) (Hstruct : forall vs, Forall P vs -> P (VStruct vs))
  (Henum : forall ix vs, Forall P vs -> P (VEnum ix vs)) (Hwrap : forall v, P v -> P (VWrap v)).
Fixpoint val_ind' (v : val) : P v :=
  let fix go (vs : list val) : Forall P vs :=
    match vs with
    | [] => Forall_nil _
    | v :: vs => Forall_cons _ (val_ind' v) (go vs)
    end in
  match v with
  | VUnit => Hunit
  | VBool b => Hbool b
  | VInt z => Hint z
  | VBytes bs => Hbytes bs
  | VNone => Hnone
  | VSome v => Hsome v (val_ind' v)
  | VSeq vs => Hseq vs (go vs)
  | VStruct vs => Hstruct vs (go vs)
  | VEnum ix vs => Henum ix vs (go vs)
  | VWrap v => Hwrap v (val_ind' v)
  end.
End ValInd.

(** ** Generic list facts *)
Lemma all2_length {A B} (f : A -> B -> bool) l l' : all2 f l l' = true -> length l = length l'.
Proof.
  revert l'; induction l as [|a l IH]; intros [|b l']; cbn [all2 length]; try discriminate; auto.
  intros H; apply andb_prop in H. f_equal; apply IH; tauto.
Qed.

Lemma all2_nth {A B} (f : A -> B -> bool) l l' i a b :
  all2 f l l' = true -> nth_error l i = Some a -> nth_error l' i = Some b -> f a b = true.
Proof.
  revert l' i; induction l as [|x l IH]; intros [|y l'] i; cbn [all2]; try discriminate.
  - destruct i; discriminate.
  - intros H; apply andb_prop in H. destruct i; cbn [nth_error].
    + intros E1 E2; injection E1 as <-; injection E2 as <-; tauto.
    + apply IH; tauto.
Qed.

Lemma concat2_cons {A B} (f : A -> B -> list byte) a l b l' :
  concat2 f (a :: l) (b :: l') = f a b ++ concat2 f l l'.
Proof. reflexivity. Qed.

Lemma forallb_byteb l : forallb byteb l = true <-> bytes_ok l.
Proof.
  unfold bytes_ok. rewrite forallb_forall, Forall_forall. unfold byteb, is_byte.
  split; intros H x Hx; specialize (H x Hx); lia.
Qed.

(** ** Environments *)
Section Env.
Variables (D : list def) (I : list tinfo).

Lemma wf_nth i d : wf_defs D = true -> nth_error D i = Some d -> wf_def D d = true.
Proof. intros H E. unfold wf_defs in H. rewrite forallb_forall in H. apply H. eapply nth_error_In; eauto. Qed.

Lemma disciplined_nth i d : disciplined D I = true -> nth_error D i = Some d -> check_def I d (info I i) = true.
Proof.
  unfold disciplined. intros H E. apply andb_prop in H. destruct H as [Hl H].
  apply Nat.eqb_eq in Hl.
  destruct (nth_error I i) as [t|] eqn:Ei.
  - assert (Hinfo : info I i = t) by (unfold info; apply nth_error_nth; exact Ei).
    rewrite Hinfo. exact (all2_nth _ _ _ _ _ _ H E Ei).
  - apply nth_error_None in Ei. assert (i < length D)%nat by (apply nth_error_Some; congruence). lia.
Qed.

Hypothesis HI : disciplined D I = true.
Hypothesis HD : wf_defs D = true.

Lemma struct_nth i ts : nth_error D i = Some (DStruct ts) ->
  kind_check (kind_fields I ts) (ti_kind (info I i)) = true /\
  implb (ti_nonempty (info I i)) (existsb (nonempty I) ts) = true /\
  len_check (len_fields I ts) (ti_len (info I i)) = true /\ forallb (wf_ty D) ts = true.
Proof.
  intros E. pose proof (disciplined_nth _ _ HI E) as H. pose proof (wf_nth _ _ HD E) as W.
  cbn [check_def] in H. cbn [wf_def] in W. apply andb_prop in H; destruct H as [H H3].
  apply andb_prop in H; destruct H as [H1 H2]. repeat split; assumption.
Qed.

Lemma cstyle_nth i k tags : nth_error D i = Some (DCStyle k tags) ->
  len_check (Some (ik_len k)) (ti_len (info I i)) = true /\
  nodupb tags = true /\ forallb (ik_in k) tags = true.
Proof.
  intros E. pose proof (disciplined_nth _ _ HI E) as H. pose proof (wf_nth _ _ HD E) as W.
  cbn [check_def] in H. cbn [wf_def] in W. apply andb_prop in W; destruct W as [W W2].
  apply andb_prop in W; destruct W as [W0 W1]. repeat split; assumption.
Qed.

Lemma data_nth i k alts : nth_error D i = Some (DData k alts) ->
  nodupb (map fst alts) = true /\ forallb (ik_in k) (map fst alts) = true /\
  (forall ix tag ts, nth_error alts ix = Some (tag, ts) ->
     kind_check (kind_fields I ts) (ti_kind (info I i)) = true /\
     len_check (opt_add (Some (ik_len k)) (len_fields I ts)) (ti_len (info I i)) = true /\
     forallb (wf_ty D) ts = true /\ ik_in k tag = true).
Proof.
  intros E. pose proof (disciplined_nth _ _ HI E) as H. pose proof (wf_nth _ _ HD E) as W.
  cbn [check_def] in H. cbn [wf_def] in W. apply andb_prop in W; destruct W as [W W3].
  apply andb_prop in W; destruct W as [W W2]. apply andb_prop in W; destruct W as [W0 W1].
  split; [assumption|]. split; [assumption|].
  intros ix tag ts En. pose proof (nth_error_In _ _ En) as Hin.
  rewrite forallb_forall in H, W3. specialize (H _ Hin). specialize (W3 _ Hin). cbn [snd] in *.
  apply andb_prop in H; destruct H as [H1 H2]. repeat split; try assumption.
  rewrite forallb_forall in W2. apply W2. apply in_map_iff. exists (tag, ts); split; [reflexivity|assumption].
Qed.

(** ** Lengths *)
Lemma len_fields_concat2 vs ts n :
  Forall (fun v => forall t n, wf_ty D t = true -> len_of I t = Some n -> valid D v t = true -> zlen (format D v t) = n) vs ->
  forallb (wf_ty D) ts = true -> len_fields I ts = Some n -> all2 (valid D) vs ts = true ->
  zlen (concat2 (format D) vs ts) = n.
Proof.
  intros HF. revert ts n; induction HF as [|v vs Hv _ IH]; intros [|t ts] n Hw Hn Ha;
    cbn [all2] in Ha; try discriminate.
  - injection Hn as <-. reflexivity.
  - rewrite concat2_cons, zlen_app. apply andb_prop in Ha; destruct Ha as [Ha1 Ha2].
    cbn [forallb] in Hw; apply andb_prop in Hw; destruct Hw as [Hw1 Hw2].
    unfold len_fields in Hn; cbn [fold_right] in Hn. fold (len_fields I ts) in Hn.
    destruct (len_of I t) as [a|] eqn:Ea; [|discriminate].
    destruct (len_fields I ts) as [b|] eqn:Eb; [|discriminate]. cbn [opt_add] in Hn. injection Hn as <-.
    rewrite (Hv t a Hw1 Ea Ha1), (IH ts b Hw2 Eb Ha2). reflexivity.
Qed.

Lemma concat_map_len (f : val -> list byte) m vs :
  Forall (fun v => zlen (f v) = m) vs -> zlen (concat (map f vs)) = zlen vs * m.
Proof.
  induction 1; cbn [map concat]; [reflexivity|]. rewrite zlen_app, zlen_cons. lia.
Qed.

Lemma valid_eq v t : valid D v t = valid_gen true D v t.
Proof. reflexivity. Qed.

Lemma len_of_format v : forall t n,
  wf_ty D t = true -> len_of I t = Some n -> valid D v t = true -> zlen (format D v t) = n.
Proof.
  induction v as [| | | | |v IHv|vs IHvs|vs IHvs|ix vs IHvs|v IHv] using val_ind';
    intros t n W L V; destruct t; try discriminate V; try discriminate L;
    cbn [len_of] in L; cbn [format]; unfold valid in V; cbn [valid_gen] in V; cbn [wf_ty] in W.
  all: try (injection L as <-).
  all: try reflexivity.
  all: try apply int_format_length.
  all: try (destruct (nth_error D i) as [[?|?|?]|] eqn:Ei; discriminate V).
  (* fixed bytes *)
  - lia.
  - lia.
  (* option none *)
  - destruct (len_of I t) as [m|]; [|discriminate]. destruct (m =? 0); [|discriminate]. injection L as <-. reflexivity.
  - destruct (len_of I t) as [m|]; [|discriminate]. destruct (m =? 0); [|discriminate]. injection L as <-. reflexivity.
  (* some *)
  - destruct (len_of I t) as [m|] eqn:Em; [|discriminate]. destruct (Z.eqb_spec m 0); [|discriminate]. injection L as <-.
    rewrite zlen_cons, (IHv _ _ W Em V). lia.
  - destruct (len_of I t) as [m|] eqn:Em; [|discriminate]. destruct (Z.eqb_spec m 0); [|discriminate]. injection L as <-.
    rewrite (IHv _ _ W Em V). lia.
  (* fixseq *)
  - apply andb_prop in W; destruct W as [W1 W]. apply andb_prop in V; destruct V as [V1 V2].
    destruct (len_of I t) as [m|] eqn:Em; [|discriminate]. injection L as <-.
    rewrite (concat_map_len _ m); [lia|].
    rewrite forallb_forall in V1. rewrite Forall_forall in IHvs |- *. intros v Hv.
    apply (IHvs v Hv _ _ W Em (V1 v Hv)).
  (* struct *)
  - destruct (nth_error D i) as [[ts|?|?]|] eqn:Ei; try discriminate V.
    destruct (struct_nth _ _ Ei) as (_ & _ & Hl & Hw). unfold len_check in Hl. rewrite L in Hl.
    destruct (len_fields I ts) as [m|] eqn:El; [|discriminate]. replace n with m by lia.
    apply len_fields_concat2; assumption.
  (* enum *)
  - destruct (nth_error D i) as [[ts|k tags|k alts]|] eqn:Ei; try discriminate V.
    + destruct (cstyle_nth _ _ _ Ei) as (Hl & _ & _). rewrite L in Hl. cbn [len_check] in Hl.
      rewrite int_format_length. lia.
    + destruct (nth_error alts ix) as [[tag ts]|] eqn:Ea; [|discriminate V].
      destruct (data_nth _ _ _ Ei) as (_ & _ & H). destruct (H _ _ _ Ea) as (_ & Hl & Hw & _).
      rewrite L in Hl. rewrite (nth_error_nth _ _ _ Ea). cbn [fst snd].
      rewrite zlen_app, int_format_length.
      destruct (len_fields I ts) as [m|] eqn:El; [|discriminate]. cbn [opt_add len_check] in Hl.
      rewrite (len_fields_concat2 vs ts m IHvs Hw El V). lia.
  (* dyn *)
  - apply andb_prop in V; destruct V as [V1 V2].
    destruct (len_of I t) as [m|] eqn:Em; [|discriminate]. cbn [opt_add] in L. injection L as <-.
    rewrite zlen_app, (IHv _ _ W Em V1). f_equal. unfold pref_format, zlen. rewrite big_endian_length.
    destruct s; reflexivity.
  - apply andb_prop in W; destruct W as [W1 W]. eapply IHv; eassumption.
  (* pad *)
  - apply andb_prop in W; destruct W as [W1 W].
    destruct (len_of I t) as [m|] eqn:Em; [|discriminate]. cbn [opt_add] in L. injection L as <-.
    rewrite zlen_app, (IHv _ _ W Em V), zlen_repeat. unfold sizeb in W1. lia.
  - eapply IHv; eassumption.
Qed.

(** ** Non-emptiness *)
Lemma ik_len_pos k : 0 < ik_len k.
Proof. destruct k; reflexivity. Qed.

Lemma nonempty_fields vs ts :
  Forall (fun v => forall t, wf_ty D t = true -> nonempty I t = true -> valid D v t = true -> 0 < zlen (format D v t)) vs ->
  forallb (wf_ty D) ts = true -> existsb (nonempty I) ts = true -> all2 (valid D) vs ts = true ->
  0 < zlen (concat2 (format D) vs ts).
Proof.
  intros HF. revert ts; induction HF as [|v vs Hv _ IH]; intros [|t ts] Hw He Ha;
    cbn [all2] in Ha; try discriminate.
  rewrite concat2_cons, zlen_app. apply andb_prop in Ha; destruct Ha as [Ha1 Ha2].
  cbn [forallb] in Hw; apply andb_prop in Hw; destruct Hw as [Hw1 Hw2].
  cbn [existsb] in He. apply orb_prop in He.
  pose proof (zlen_nonneg (format D v t)). pose proof (zlen_nonneg (concat2 (format D) vs ts)).
  destruct He as [He|He].
  - specialize (Hv t Hw1 He Ha1). lia.
  - specialize (IH ts Hw2 He Ha2). lia.
Qed.

Lemma nonempty_format v : forall t,
  wf_ty D t = true -> nonempty I t = true -> valid D v t = true -> 0 < zlen (format D v t).
Proof.
  induction v as [| | | | |v IHv|vs IHvs|vs IHvs|ix vs IHvs|v IHv] using val_ind';
    intros t W N V; destruct t; try discriminate V; try discriminate N;
    cbn [nonempty] in N; cbn [format]; unfold valid in V; cbn [valid_gen] in V; cbn [wf_ty] in W;
    try (destruct (nth_error D i) as [[?|?|?]|] eqn:Ei; discriminate V).
  all: try reflexivity.
  all: try (rewrite int_format_length; apply ik_len_pos).
  - destruct (natural_format_props z ltac:(lia)) as (_ & Ht & _). destruct (natural_format z); [discriminate|].
    rewrite zlen_cons. pose proof (zlen_nonneg l). lia.
  - destruct (integer_format_props z) as (_ & Ht & _). destruct (integer_format z); [discriminate|].
    rewrite zlen_cons. pose proof (zlen_nonneg l). lia.
  - lia.
  - lia.
  - apply andb_prop in W; destruct W as [W1 W]. apply andb_prop in V; destruct V as [V1 V2].
    apply andb_prop in N; destruct N as [N1 N2].
    destruct vs as [|v vs]; [change (zlen []) with 0 in V2; lia|].
    inversion IHvs as [|? ? Hv _]; subst. cbn [forallb] in V1. apply andb_prop in V1; destruct V1 as [V1 _].
    cbn [map concat]. rewrite zlen_app. specialize (Hv t W N2 V1).
    pose proof (zlen_nonneg (concat (map (fun v0 => format D v0 t) vs))). lia.
  - destruct (nth_error D i) as [[ts|?|?]|] eqn:Ei; try discriminate V.
    destruct (struct_nth _ _ Ei) as (_ & Hn & _ & Hw). rewrite N in Hn. cbn [implb] in Hn.
    apply nonempty_fields; assumption.
  - destruct (nth_error D i) as [[ts|k tags|k alts]|] eqn:Ei; try discriminate V.
    + rewrite int_format_length. apply ik_len_pos.
    + rewrite zlen_app, int_format_length. pose proof (ik_len_pos k).
      pose proof (zlen_nonneg (concat2 (format D) vs (snd (nth ix alts (0, []))))). lia.
  - rewrite zlen_app. assert (0 < zlen (pref_format s (zlen (format D v t)))).
    { unfold pref_format, zlen. rewrite big_endian_length. destruct s; reflexivity. }
    pose proof (zlen_nonneg (format D v t)). lia.
  - apply andb_prop in W; destruct W as [W1 W]. eapply IHv; eassumption.
  - apply andb_prop in W; destruct W as [W1 W]. rewrite zlen_app, zlen_repeat.
    pose proof (zlen_nonneg (format D v t)). destruct (nonempty I t) eqn:En.
    + specialize (IHv t W En V). lia.
    + cbn [orb] in N. lia.
  - eapply IHv; eassumption.
Qed.
End Env.
