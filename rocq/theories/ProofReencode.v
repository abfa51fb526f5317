(** Encoding again what was decoded (C61). *)
From Verif Require Import Base BaseLemmas ModelErrors ModelSplitVec ModelParser ModelInt ModelFloat ModelZarith
  ModelUtf8 ModelTarget ModelSchema SpecParser SpecCodec SpecNum SpecUtf8 SpecGrammar SpecReencode
  ProofInt ProofZarith ProofUtf8 ProofFloat ProofDec ProofCodec ProofMeta ProofNum ProofSettle ProofCodecProps ProofCodecThms ProofEncBytes ProofEncValid
  ProofLossy ProofGrammar.
From Coq Require Import ZifyBool.

Lemma utf8_encode_short c : zlen (utf8_encode c) <= 4 /\ 1 <= zlen (utf8_encode c).
Proof. unfold utf8_encode. destruct (c <? 128), (c <? 2048), (c <? 65536); vm_compute; split; discriminate. Qed.
Lemma substituted_scalar bs cs : substituted bs cs -> Forall scalar cs.
Proof. induction 1; constructor; try assumption. unfold scalar; lia. Qed.
Lemma utf8_string_cons c cs : utf8_string (c :: cs) = utf8_encode c ++ utf8_string cs.
Proof. reflexivity. Qed.
Lemma substituted_length bs cs : substituted bs cs -> zlen (utf8_string cs) <= 3 * zlen bs.
Proof.
  induction 1 as [|c rest cs Hc _ IH|bad rest cs N _ _ _ _ IH]; [reflexivity| |]; rewrite utf8_string_cons, !zlen_app in *.
  - pose proof (utf8_encode_short c). lia.
  - change (zlen (utf8_encode 65533)) with 3. destruct bad as [|b bad]; [congruence|]. rewrite zlen_cons. pose proof (zlen_nonneg bad). lia.
Qed.

Lemma zlen_be n z : zlen (big_endian n z) = Z.of_nat n.
Proof. unfold zlen. rewrite big_endian_length. reflexivity. Qed.

(** One measure for both theorems: the factor [k] is 1 without strings, 3 with. *)
Section Measure.
Variables (k lim : Z).
Hypothesis Hk : k = 1 \/ k = 3.
Fixpoint fine (t : ty) : bool :=
  match t with
  | TString => k =? 3
  | TDyn s t => ((k =? 1) || (lim <=? pref_max s)) && fine t
  | TPad _ t | TVPad _ t | TOption t | TNullable t | TSeq t | TBox t | TLim _ t | TFix _ t => fine t
  | _ => true
  end.
Variables (checked : bool) (D : list def).
Hypothesis HF : forallb (fun d => forallb (forallb fine) (field_types d)) D = true.

Lemma fine_struct i ts : nth_error D i = Some (DStruct ts) -> forallb fine ts = true.
Proof.
  intros E. rewrite forallb_forall in HF. specialize (HF _ (nth_error_In _ _ E)). cbn [field_types forallb] in HF.
  rewrite andb_true_r in HF. exact HF.
Qed.
Lemma fine_data i kd alts ix tag ts : nth_error D i = Some (DData kd alts) -> nth_error alts ix = Some (tag, ts) -> forallb fine ts = true.
Proof.
  intros E Ea. rewrite forallb_forall in HF. specialize (HF _ (nth_error_In _ _ E)). cbn [field_types] in HF.
  rewrite forallb_forall in HF. apply HF. apply nth_error_In in Ea. apply (in_map snd) in Ea. exact Ea.
Qed.

Definition again (t : ty) (bs : list byte) (v : val) (r : list byte) : Prop :=
  exists u, bs = u ++ r /\ valid_gen true D v t = true /\ zlen (format D v t) <= k * zlen u.
Definition bounded (bs : list byte) : Prop := bytes_ok bs /\ (k = 1 \/ k * zlen bs <= lim).
Lemma kmul a : 0 <= a -> a <= k * a.
Proof. destruct Hk as [E|E]; rewrite E; lia. Qed.
Lemma bounded_app a b : bounded (a ++ b) -> bounded a /\ bounded b.
Proof.
  intros [Hb Hl]. apply bytes_ok_app in Hb. rewrite zlen_app in Hl. pose proof (zlen_nonneg a). pose proof (zlen_nonneg b).
  rewrite Z.mul_add_distr_l in Hl. pose proof (kmul _ (zlen_nonneg a)). pose proof (kmul _ (zlen_nonneg b)).
  repeat split; try tauto; destruct Hl; try (left; assumption); right; lia.
Qed.

Lemma size_le (a : Z) (u : list byte) : a <= zlen u -> a <= k * zlen u.
Proof. pose proof (kmul _ (zlen_nonneg u)). lia. Qed.

Lemma fixed_again t bs v r : valid_gen true D v t = true -> format D v t = bs -> again t (bs ++ r) v r.
Proof. intros HV HE. exists bs. split; [reflexivity|]. split; [exact HV|]. rewrite HE. apply size_le. lia. Qed.

Lemma byteb_ok l : bytes_ok l -> forallb byteb l = true.
Proof. unfold bytes_ok. rewrite forallb_forall, Forall_forall. intros H x Hx. apply H in Hx. unfold is_byte in Hx. unfold byteb. lia. Qed.

Lemma denotes_again t bs v r : denotes checked D t bs v r -> fine t = true -> bounded bs -> again t bs v r.
Proof.
  pose (P := fun t bs v r => fine t = true -> bounded bs -> again t bs v r).
  pose (Q := fun t bs vs r => fine t = true -> bounded bs -> exists u, bs = u ++ r /\
    forallb (fun v => valid_gen true D v t) vs = true /\ zlen (concat (map (fun v => format D v t) vs)) <= k * zlen u).
  pose (R := fun ts bs vs r => forallb fine ts = true -> bounded bs -> exists u, bs = u ++ r /\
    all2 (valid_gen true D) vs ts = true /\ zlen (concat2 (format D) vs ts) <= k * zlen u).
  intros H. change (P t bs v r).
  induction H using denotes_mut with (P0 := fun t bs vs r _ => Q t bs vs r) (P1 := fun ts bs vs r _ => R ts bs vs r);
    unfold P, Q, R in *; intros HW HS; pose proof HS as [HB HL]; cbn [fine] in HW.
  - apply (fixed_again TUnit [] VUnit r); reflexivity.
  - apply (fixed_again TBool [255]); reflexivity.
  - apply (fixed_again TBool [0]); reflexivity.
  - apply fixed_again; [|reflexivity]. cbn [valid_gen]. apply ik_bounds; assumption.
  - apply fixed_again; [|reflexivity]. cbn [valid_gen]. apply ranged_ok_value. split; [apply ik_bounds|]; assumption.
  - apply fixed_again; [|reflexivity]. cbn [valid_gen]. unfold is_u64. lia.
  - apply fixed_again; [|reflexivity]. cbn [valid_gen]. rewrite e, e0. unfold is_u64. lia.
  - exists bs. split; [reflexivity|]. rewrite groups_value_eq. cbn [valid_gen format].
    split; [pose proof (nat_value_nonneg bs); lia|]. apply size_le. apply natural_shortest. apply marked_nonempty; assumption.
  - exists bs. split; [reflexivity|]. rewrite signed_groups_value_eq. cbn [valid_gen format].
    split; [reflexivity|]. apply size_le. apply integer_shortest. apply marked_nonempty; assumption.
  - exists bs. rewrite app_nil_r. split; [reflexivity|]. cbn [valid_gen format]. split; [apply byteb_ok; exact HB|apply size_le; lia].
  - exists bs. rewrite app_nil_r. split; [reflexivity|]. cbn [valid_gen format].
    match goal with E : substituted _ _ |- _ => rename E into Es end.
    assert (HU : bytes_ok (utf8_string cs)) by (apply utf8_string_bytes; eapply substituted_scalar; exact Es).
    split.
    + rewrite (byteb_ok _ HU). apply utf8_valid_iff; [exact HU|]. exists cs. split; [eapply substituted_scalar; exact Es|reflexivity].
    + pose proof (substituted_length _ _ Es). replace k with 3 by lia. lia.
  - apply fixed_again; [|reflexivity]. cbn [valid_gen]. apply bounded_app in HS. destruct HS as [[HS _] _]. rewrite (byteb_ok _ HS). lia.
  - apply fixed_again; [|reflexivity]. cbn [valid_gen]. apply bounded_app in HS. destruct HS as [[HS _] _]. rewrite (byteb_ok _ HS). lia.
  - apply (fixed_again (TOption t) [0]); reflexivity.
  - destruct (IHdenotes HW (proj2 (bounded_app [255] bs HS))) as (u & -> & HV & HZ). exists (255 :: u). split; [reflexivity|].
    split; [exact HV|]. cbn [format]. rewrite !zlen_cons, Z.mul_add_distr_l. pose proof (kmul 1). lia.
  - exists []. split; [reflexivity|]. split; [reflexivity|]. cbn. lia.
  - destruct (IHdenotes HW HS) as (u & -> & HV & HZ). exists u. auto.
  - destruct (IHdenotes HW HS) as (u & -> & HV & HZ). exists u. auto.
  - destruct (IHdenotes HW HS) as (u & -> & HV & HZ). exists u. split; [reflexivity|]. split; [|exact HZ]. cbn [valid_gen]. rewrite HV. lia.
  - destruct (IHdenotes HW HS) as (u & -> & HV & HZ). exists u. split; [reflexivity|]. split; [|exact HZ]. cbn [valid_gen]. rewrite HV. lia.
  - apply andb_prop in HW. destruct HW as [HP HW]. apply bounded_app in HS. destruct HS as [_ HS]. apply bounded_app in HS. destruct HS as [HS _].
    destruct (IHdenotes HW HS) as (u & E & HV & HZ). rewrite app_nil_r in E. subst u.
    exists (pref_format s (zlen payload) ++ payload). rewrite <- app_assoc. split; [reflexivity|]. destruct HS as [_ HS].
    split.
    + cbn [valid_gen]. rewrite HV. cbn [implb andb]. apply Z.leb_le. destruct (Z.eqb_spec k 1) as [->|E]; [lia|].
      cbn [orb] in HP. destruct HS; [congruence|]. lia.
    + cbn [format]. rewrite !zlen_app. unfold pref_format. rewrite !(zlen_be (Z.to_nat (pref_len s))).
      pose proof (kmul (Z.of_nat (Z.to_nat (pref_len s)))). rewrite Z.mul_add_distr_l. lia.
  - apply bounded_app in HS. destruct HS as [HS _]. destruct (IHdenotes HW HS) as (u & E & HV & HZ). rewrite app_nil_r in E. subst u.
    exists body. auto.
  - destruct (IHdenotes HW HS) as (u & -> & HV & HZ). exists (u ++ padding). rewrite <- app_assoc. split; [reflexivity|]. split; [exact HV|].
    cbn [format]. rewrite !zlen_app, zlen_repeat. pose proof (zlen_nonneg padding). pose proof (kmul _ (zlen_nonneg padding)). rewrite Z.mul_add_distr_l. lia.
  - destruct (IHdenotes HW HS) as (u & -> & HV & HZ). exists u. auto.
  - match goal with E : nth_error D i = Some _ |- _ => rename E into Ei end.
    destruct (IHdenotes (fine_struct _ _ Ei) HS) as (u & -> & HV & HZ). exists u. split; [reflexivity|]. cbn [valid_gen format]. rewrite Ei. auto.
  - match goal with E : nth_error D i = Some _ |- _ => rename E into Ei end.
    match goal with E : nth_error tags ix = Some _ |- _ => rename E into Et end.
    apply fixed_again; cbn [valid_gen format]; rewrite Ei; [|rewrite (nth_error_nth _ _ _ Et); reflexivity].
    apply Nat.ltb_lt. apply nth_error_Some. congruence.
  - match goal with E : nth_error D i = Some _ |- _ => rename E into Ei end.
    match goal with E : nth_error alts ix = Some _ |- _ => rename E into Ea end.
    apply bounded_app in HS. destruct HS as [_ HS].
    destruct (IHdenotes (fine_data _ _ _ _ _ _ Ei Ea) HS) as (u & -> & HV & HZ). exists (int_format k0 tag ++ u). rewrite <- app_assoc.
    split; [reflexivity|]. cbn [valid_gen format]. rewrite Ei, Ea, (nth_error_nth _ _ _ Ea). cbn [fst snd]. split; [exact HV|].
    rewrite !zlen_app. pose proof (kmul _ (zlen_nonneg (int_format k0 tag))). rewrite Z.mul_add_distr_l. lia.
  - exists []. split; [reflexivity|]. split; [reflexivity|]. cbn. lia.
  - destruct (IHdenotes HW HS) as (u & -> & HV & HZ). apply bounded_app in HS. destruct (IHdenotes0 HW (proj2 HS)) as (u' & -> & HV' & HZ').
    exists (u ++ u'). rewrite <- app_assoc. split; [reflexivity|]. cbn [forallb map concat]. rewrite HV, HV'. split; [reflexivity|].
    rewrite !zlen_app, Z.mul_add_distr_l. lia.
  - exists []. split; [reflexivity|]. split; [reflexivity|]. cbn. lia.
  - cbn [forallb] in HW. apply andb_prop in HW. destruct HW as [HW1 HW2].
    destruct (IHdenotes HW1 HS) as (u & -> & HV & HZ). apply bounded_app in HS. destruct (IHdenotes0 HW2 (proj2 HS)) as (u' & -> & HV' & HZ').
    exists (u ++ u'). rewrite <- app_assoc. split; [reflexivity|]. cbn [all2 concat2]. fold (all2 (valid_gen true D)). rewrite HV.
    split; [exact HV'|]. rewrite !zlen_app, Z.mul_add_distr_l. change (zlen (concat2 (format D) vs ts) <= k * zlen u') in HZ'. unfold concat2 in *. cbn in *. lia.
Qed.
End Measure.

Lemma fine_one t : string_free t = true -> fine 1 0 t = true.
Proof. induction t; cbn; auto. Qed.
Lemma fine_three n t : roomy n t = true -> fine 3 n t = true.
Proof. induction t; cbn; auto. intros H. apply andb_prop in H. destruct H as [H1 H2]. rewrite H1. auto. Qed.
Lemma types_imp (p q : ty -> bool) D : (forall t, p t = true -> q t = true) ->
  forallb (fun d => forallb (forallb p) (field_types d)) D = true -> forallb (fun d => forallb (forallb q) (field_types d)) D = true.
Proof.
  intros H. rewrite !forallb_forall. intros HD d Hd. specialize (HD d Hd). rewrite forallb_forall in *. intros ts Hts. specialize (HD ts Hts).
  rewrite forallb_forall in *. auto.
Qed.

Section Thms.
Variables (w : which_parser) (cf : config) (D : list def) (kf : nat) (t : ty) (input : list byte) (v : val) (rest : list byte).
Hypothesis HD : wf_defs D = true.
Hypothesis HW : wf_ty D t = true.
Hypothesis HB : bytes_ok input.
Hypothesis HL : zlen input <= isize_max.
Hypothesis HR : reads w cf D t input (ROk (v, rest)).
Hypothesis HO : cf_est_override cf = true -> zeros D v t = 0 /\ to_bytes cf D kf v t <> RDiv.

Lemma valid_encodes : valid D v t = true -> zlen (format D v t) <= isize_max -> to_bytes cf D kf v t = ROk (format D v t).
Proof.
  intros HV HZ. destruct (puts_wr cf D kf HD v t HW HV HZ (fun E => proj1 (HO E))) as [P|[EO P]].
  - rewrite to_bytes_wr, P. reflexivity.
  - exfalso. apply (proj2 (HO EO)). rewrite to_bytes_wr, P. reflexivity.
Qed.
Lemma reencodes : string_free t = true -> string_free_defs D = true ->
  exists used bs, input = used ++ rest /\ to_bytes cf D kf v t = ROk bs /\ zlen bs <= zlen used.
Proof.
  intros HS HSD. apply grammar_exact in HR; try assumption.
  destruct (denotes_again 1 0 (or_introl eq_refl) (cf_check_padding cf) D) with (t := t) (bs := input) (v := v) (r := rest) as (u & E & HV & HZ).
  - eapply types_imp; [|exact HSD]. exact fine_one.
  - exact HR.
  - apply fine_one; exact HS.
  - split; [exact HB|left; reflexivity].
  - exists u, (format D v t). split; [exact E|]. split; [|lia]. apply valid_encodes; try assumption.
    rewrite E, zlen_app in HL. pose proof (zlen_nonneg rest). lia.
Qed.
Lemma reencodes_short : 3 * zlen input <= isize_max -> roomy (3 * zlen input) t = true -> roomy_defs (3 * zlen input) D = true ->
  exists used bs, input = used ++ rest /\ to_bytes cf D kf v t = ROk bs /\ zlen bs <= 3 * zlen used.
Proof.
  intros HM HS HSD. apply grammar_exact in HR; try assumption.
  destruct (denotes_again 3 (3 * zlen input) (or_intror eq_refl) (cf_check_padding cf) D) with (t := t) (bs := input) (v := v) (r := rest) as (u & E & HV & HZ).
  - eapply types_imp; [|exact HSD]. exact (fine_three _).
  - exact HR.
  - apply fine_three; exact HS.
  - split; [exact HB|right; reflexivity].
  - exists u, (format D v t). split; [exact E|]. split; [|lia]. apply valid_encodes; try assumption.
    rewrite E, zlen_app in HM. pose proof (zlen_nonneg rest). lia.
Qed.
(** However it was encoded, encoding again is stable. *)
Lemma reencoding_stable I w' bs : disciplined D I = true -> decodable I t = true -> (w' = WSlice -> cf_complete cf = false) ->
  to_bytes cf D kf v t = ROk bs -> zlen bs <= isize_max ->
  decodes w' cf D t bs (ROk v).
Proof.
  intros HI Hd Hw He Hz. eapply round_trip_thm; try eassumption; [|intros E; apply HO; exact E].
  eapply parse_valid_only; eassumption.
Qed.
End Thms.

Lemma reencoding_panics : exists cf D t input v rest,
  wf_defs D = true /\ wf_ty D t = true /\ bytes_ok input /\ cf_est_override cf = false /\
  reads WByte cf D t input (ROk (v, rest)) /\ forall kf, to_bytes cf D kf v t = RPanic.
Proof.
  exists (mkConfig Release false false false false false), [], (TDyn PrefU8 TString), (86 :: repeat 128 86),
    (VWrap (VBytes (utf8_string (repeat 65533 86)))), [].
  split; [reflexivity|]. split; [reflexivity|]. split; [apply bytes_ok_check; reflexivity|]. split; [reflexivity|]. split.
  - eapply (reads_at WByte) with (f := 9%nat); [vm_compute; reflexivity|discriminate].
  - intros kf. rewrite (encode_is_format _ [] kf); try reflexivity. vm_compute. discriminate.
Qed.
