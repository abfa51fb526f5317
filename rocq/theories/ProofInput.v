(** Inputs of [try_decode], [decode], [decode_memo]. *)
From Verif Require Import Base BaseLemmas ModelErrors ModelParser ModelInt ModelFloat ModelZarith ModelUtf8 ModelTarget ModelSchema
  ModelHex ModelInput SpecParser SpecCodec SpecHex SpecInput ProofHex ProofSettle ProofCodecThms.
Local Open Scope list_scope.

Definition lift_in (r : res decode_error val) : res input_error val :=
  match r with RErr e => RErr (IDecode e) | ROk v => ROk v | RPanic => RPanic | RUB => RUB | RDiv => RDiv end.

Lemma settles_ext {E A} (r r' : nat -> res E A) out : (forall f, r f = r' f) -> settles r out <-> settles r' out.
Proof.
  intros H. split; intros [Ho [f0 Hf]]; (split; [exact Ho|]); exists f0; intros f Hle; specialize (Hf f Hle); rewrite ?H in *; rewrite <- ?H in *; auto.
  all: congruence.
Qed.

Lemma stands_buffer implicit src bs : stands_for implicit src bs <-> into_vec_buffer implicit src = ROk bs.
Proof.
  destruct src; cbn [stands_for into_vec_buffer]; unfold vb_of_text; try (split; [intros ->; reflexivity|intros H; injection H as <-; reflexivity]);
    (destruct implicit; [symmetry; apply from_hex_exact|split; [intros ->; reflexivity|intros H; injection H as <-; reflexivity]]).
Qed.

Lemma parse_unit w cf D f bs : cf_complete cf = false -> decode_with w cf D (S f) TUnit bs = ROk VUnit.
Proof. intros H. destruct w; unfold decode_with, byte_decode, memo_decode, slice_decode, try_decode; cbn [parse run]; rewrite H; reflexivity. Qed.
Lemma ignores_inv cf t : ignores_input cf t = true -> t = TUnit /\ cf_complete cf = false.
Proof. destruct t; try discriminate. cbn [ignores_input]. destruct (cf_complete cf); [discriminate|auto]. Qed.
Lemma ignores_not cf t : (t = TUnit -> cf_complete cf = true) -> ignores_input cf t = false.
Proof. intros H. destruct (ignores_input cf t) eqn:E; [|reflexivity]. apply ignores_inv in E. destruct E as [Et E]. rewrite (H Et) in E. discriminate E. Qed.
Lemma tries_unit implicit w cf D src out : cf_complete cf = false -> tries implicit w cf D TUnit src out <-> out = ROk VUnit.
Proof.
  intros H. unfold tries, try_decode_from. cbn [ignores_input]. rewrite H. cbn [negb]. split.
  - intros [_ [f0 Hf]]. symmetry. exact (Hf f0 (Nat.le_refl _)).
  - intros ->. split; [discriminate|]. exists 0%nat. reflexivity.
Qed.
Lemma decodes_unit w cf D bs out : cf_complete cf = false -> decodes w cf D TUnit bs out <-> out = ROk VUnit.
Proof.
  intros H. unfold decodes. split.
  - intros [_ [f0 Hf]]. rewrite <- (Hf (S f0)) by lia. apply parse_unit. exact H.
  - intros ->. split; [discriminate|]. exists 1%nat. intros [|f] Hf; [lia|]. apply parse_unit. exact H.
Qed.
Lemma tries_bytes implicit w cf D t src bs out : stands_for implicit src bs ->
  tries implicit w cf D t src out <-> exists r, out = lift_in r /\ decodes w cf D t bs r.
Proof.
  intros Hs. apply stands_buffer in Hs. destruct (ignores_input cf t) eqn:Ei.
  { apply ignores_inv in Ei. destruct Ei as [-> Ec]. rewrite (tries_unit implicit w cf D src out Ec). split.
    - intros ->. exists (ROk VUnit). split; [reflexivity|]. apply decodes_unit; auto.
    - intros (r & -> & Hr). apply (decodes_unit w cf D bs r Ec) in Hr. subst r. reflexivity. }
  unfold tries, decodes.
  assert (E : forall f, try_decode_from implicit cf t (decode_with w cf D f t) src = lift_in (decode_with w cf D f t bs)).
  { intros f. unfold try_decode_from. rewrite Ei, Hs. reflexivity. }
  rewrite (settles_ext _ _ out E). split.
  - intros [Ho [f0 Hf]]. exists (decode_with w cf D f0 t bs). split; [symmetry; apply Hf; lia|].
    pose proof (Hf f0 (Nat.le_refl _)) as H0.
    assert (Hd : decode_with w cf D f0 t bs <> RDiv) by (intros Hd; rewrite Hd in H0; apply Ho; symmetry; exact H0).
    exact (decodes_at w cf D t bs f0 _ eq_refl Hd).
  - intros (r & -> & Hr & f0 & Hf). split; [destruct r; cbn [lift_in]; congruence|]. exists f0. intros f Hle. rewrite (Hf f Hle). reflexivity.
Qed.
Lemma tries_value implicit w cf D t src bs : stands_for implicit src bs ->
  (forall v, tries implicit w cf D t src (ROk v) <-> decodes w cf D t bs (ROk v)) /\
  (forall e, tries implicit w cf D t src (RErr e) <-> exists e', e = IDecode e' /\ decodes w cf D t bs (RErr e')) /\
  (tries implicit w cf D t src RPanic <-> decodes w cf D t bs RPanic).
Proof.
  intros Hs. split; [|split].
  - intros v; rewrite (tries_bytes _ w cf D t _ _ _ Hs). split.
    + intros (r & E & H). destruct r; try discriminate E. injection E as <-. exact H.
    + intros H; eexists; split; [|exact H]; reflexivity.
  - intros e; rewrite (tries_bytes _ w cf D t _ _ _ Hs). split.
    + intros (r & E & H). destruct r; try discriminate E. injection E as ->. eauto.
    + intros (e' & -> & H). eexists; split; [|exact H]; reflexivity.
  - rewrite (tries_bytes _ w cf D t _ _ _ Hs). split.
    + intros (r & E & H). destruct r; try discriminate E. exact H.
    + intros H; eexists; split; [|exact H]; reflexivity.
Qed.

Lemma tries_conv implicit w cf D t src e : tries implicit w cf D t src (RErr (IConv e)) ->
  implicit = true /\ (t = TUnit -> cf_complete cf = true) /\ (forall bs, ~ stands_for implicit src bs) /\
  exists s, text_of src = Some s /\ (e = OddParity s /\ zlen s mod 2 <> 0 \/ e = NonHex s /\ zlen s mod 2 = 0).
Proof.
  intros [_ [f0 Hf]]. specialize (Hf f0 (Nat.le_refl _)). unfold try_decode_from in Hf.
  destruct (ignores_input cf t) eqn:Ei; [discriminate Hf|].
  assert (Hb : into_vec_buffer implicit src = RErr e).
  { destruct (into_vec_buffer implicit src) as [b|e'| | |]; try discriminate Hf.
    - destruct (decode_with w cf D f0 t b); discriminate Hf.
    - injection Hf as ->. reflexivity. }
  assert (Hx : forall s, bytes_of_hex s = RErr e -> e = OddParity s /\ zlen s mod 2 <> 0 \/ e = NonHex s /\ zlen s mod 2 = 0).
  { intros s. unfold bytes_of_hex. destruct (zlen s =? 0); [discriminate|]. destruct (zlen s mod 2 =? 0) eqn:Em; cbn [negb].
    - apply Z.eqb_eq in Em. intros H. right. split; [|exact Em]. revert H. generalize 0 at 1. generalize (@nil byte).
      induction (Z.to_nat (zlen s / 2)) as [|n IH]; intros dst ix; cbn [bytes_of_hex_loop]; [discriminate|].
      unfold str_slice. destruct ((_ <=? _) && _ && _); cbn [rbind]; [|discriminate].
      destruct (u8_from_str_radix16 _); [apply IH|]. intros H; injection H as <-. reflexivity.
    - apply Z.eqb_neq in Em. intros H. injection H as <-. left. auto. }
  assert (Hi : implicit = true /\ exists s, text_of src = Some s /\ bytes_of_hex s = RErr e).
  { destruct src; cbn [into_vec_buffer text_of] in *; try discriminate Hb; unfold vb_of_text in Hb;
      (destruct implicit; [split; [reflexivity|eauto]|discriminate Hb]). }
  destruct Hi as [Hi (s & Ht & He)]. split; [exact Hi|]. split; [|split].
  - intros ->. cbn [ignores_input] in Ei. destruct (cf_complete cf); [reflexivity|discriminate Ei].
  - intros bs Hs. apply stands_buffer in Hs. congruence.
  - exists s. auto.
Qed.

Lemma tries_refused w cf D t src s : text_of src = Some s -> (t = TUnit -> cf_complete cf = true) ->
  (forall e, tries true w cf D t src (RErr (IConv e)) <->
     zlen s mod 2 <> 0 /\ e = OddParity s \/
     zlen s mod 2 = 0 /\ e = NonHex s /\ (forall bs, ~ stands_for true src bs) /\ (forall b, ~ straddles s b)) /\
  (tries true w cf D t src RPanic <->
     zlen s mod 2 = 0 /\ (exists b, straddles s b) \/ (exists bs, stands_for true src bs /\ decodes w cf D t bs RPanic)).
Proof.
  intros Ht Hu. apply ignores_not in Hu.
  assert (B : into_vec_buffer true src = bytes_of_hex s).
  { destruct src; cbn [text_of] in Ht; try discriminate Ht; injection Ht as ->; reflexivity. }
  assert (L : forall b, stands_for true src b <-> loose_denotes s b).
  { intros b. rewrite stands_buffer, B. apply from_hex_exact. }
  assert (S0 : forall out, into_vec_buffer true src = RErr out -> forall f, try_decode_from true cf t (decode_with w cf D f t) src = RErr (IConv out)).
  { intros out H f. unfold try_decode_from. rewrite Hu, H. reflexivity. }
  assert (Ok : forall b, bytes_of_hex s = ROk b -> stands_for true src b) by (intros b H; apply stands_buffer; congruence).
  assert (Hc : forall e, tries true w cf D t src (RErr (IConv e)) <-> bytes_of_hex s = RErr e).
  { intros e. split.
    - intros [_ [f0 Hf]]. specialize (Hf f0 (Nat.le_refl _)). unfold try_decode_from in Hf. rewrite Hu, B in Hf.
      destruct (bytes_of_hex s) as [b|e'| | |]; try discriminate Hf.
      + destruct (decode_with w cf D f0 t b); discriminate Hf.
      + injection Hf as ->. reflexivity.
    - intros H. split; [discriminate|]. exists 0%nat. intros f _. apply S0. congruence. }
  assert (Hp : tries true w cf D t src RPanic <->
    bytes_of_hex s = RPanic \/ (exists bs, stands_for true src bs /\ decodes w cf D t bs RPanic)).
  { split.
    - intros H. destruct (bytes_of_hex s) as [b|e| | |] eqn:E.
      + right. exists b. split; [apply Ok; reflexivity|]. apply (proj2 (proj2 (tries_value _ w cf D t _ _ (Ok b eq_refl)))). exact H.
      + destruct H as [_ [f0 Hf]]. specialize (Hf f0 (Nat.le_refl _)). unfold try_decode_from in Hf. rewrite Hu, B in Hf. discriminate Hf.
      + left; reflexivity.
      + destruct H as [_ [f0 Hf]]. specialize (Hf f0 (Nat.le_refl _)). unfold try_decode_from in Hf. rewrite Hu, B in Hf. discriminate Hf.
      + destruct H as [_ [f0 Hf]]. specialize (Hf f0 (Nat.le_refl _)). unfold try_decode_from in Hf. rewrite Hu, B in Hf. discriminate Hf.
    - intros [H|(bs & Hs & Hd)].
      + split; [discriminate|]. exists 0%nat. intros f _. unfold try_decode_from. rewrite Hu, B, H. reflexivity.
      + apply (proj2 (proj2 (tries_value _ w cf D t _ _ Hs))). exact Hd. }
  destruct (Z.eq_dec (zlen s mod 2) 0) as [Em|Em].
  - destruct (from_hex_even s Em) as [P R]. split.
    + intros e. rewrite Hc, R. split.
      * intros (-> & H1 & H2). right. split; [exact Em|]. split; [reflexivity|]. split; [|exact H2]. intros b Hb. apply (H1 b), L, Hb.
      * intros [[H _]|(_ & -> & H1 & H2)]; [contradiction|]. split; [reflexivity|]. split; [|exact H2]. intros b Hb. apply (H1 b), L, Hb.
    + rewrite Hp, P. split; (intros [H|H]; [left|right; exact H]); [auto|apply H].
  - pose proof (from_hex_odd s Em) as O. split.
    + intros e. rewrite Hc, O. split.
      * intros H. injection H as <-. left. auto.
      * intros [[_ ->]|[H _]]; [reflexivity|contradiction].
    + rewrite Hp, O. split; (intros [H|H]; [|right; exact H]); [discriminate H|destruct H; contradiction].
Qed.

Lemma try_from_div_mono implicit w cf D t src f f' : (f <= f')%nat ->
  try_decode_from implicit cf t (decode_with w cf D f t) src <> RDiv ->
  try_decode_from implicit cf t (decode_with w cf D f' t) src = try_decode_from implicit cf t (decode_with w cf D f t) src.
Proof.
  intros Hle. unfold try_decode_from. destruct (ignores_input cf t); [reflexivity|]. destruct (into_vec_buffer implicit src) as [b| | | |]; try reflexivity. intros Hn.
  assert (Hd : decode_with w cf D f t b <> RDiv) by (intros Hd; rewrite Hd in Hn; apply Hn; reflexivity).
  rewrite (decode_with_mono w cf D f f' t b _ Hle eq_refl Hd). reflexivity.
Qed.
Definition gives (w : which_parser) implicit cf D t src out :=
  settles (fun f => or_panic (try_decode_from implicit cf t (decode_with w cf D f t) src)) out.
Lemma gives_spec w implicit cf D t src :
  (forall v, gives w implicit cf D t src (ROk v) <-> tries implicit w cf D t src (ROk v)) /\
  (gives w implicit cf D t src RPanic <-> (exists e, tries implicit w cf D t src (RErr e)) \/ tries implicit w cf D t src RPanic) /\
  (forall e, ~ gives w implicit cf D t src (RErr e)).
Proof.
  unfold gives, tries. split; [|split; [split|]].
  - intros v. split.
    + intros [_ [f0 Hf]]. split; [discriminate|]. exists f0. intros f Hle. specialize (Hf f Hle).
      destruct (try_decode_from implicit cf t (decode_with w cf D f t) src); cbn [or_panic] in Hf; congruence.
    + intros [_ [f0 Hf]]. split; [discriminate|]. exists f0. intros f Hle. rewrite (Hf f Hle). reflexivity.
  - intros [_ [f0 Hf]]. pose proof (Hf f0 (Nat.le_refl _)) as H0.
    assert (Hn : try_decode_from implicit cf t (decode_with w cf D f0 t) src <> RDiv) by (intros Hn; rewrite Hn in H0; discriminate H0).
    pose proof (fun f Hle => try_from_div_mono implicit w cf D t src f0 f Hle Hn) as Hm.
    destruct (try_decode_from implicit cf t (decode_with w cf D f0 t) src) as [v|e| | |]; try discriminate H0.
    + left. exists e. split; [discriminate|]. exists f0. exact Hm.
    + right. split; [discriminate|]. exists f0. exact Hm.
  - intros [(e & _ & f0 & Hf)|[_ [f0 Hf]]]; (split; [discriminate|]); exists f0; intros f Hle; rewrite (Hf f Hle); reflexivity.
  - intros e [_ [f0 Hf]]. specialize (Hf f0 (Nat.le_refl _)).
    destruct (try_decode_from implicit cf t (decode_with w cf D f0 t) src); discriminate Hf.
Qed.
Lemma decode_spec implicit cf D t src :
  (forall v, decode_gives implicit cf D t src (ROk v) <-> tries implicit WByte cf D t src (ROk v)) /\
  (decode_gives implicit cf D t src RPanic <-> (exists e, tries implicit WByte cf D t src (RErr e)) \/ tries implicit WByte cf D t src RPanic) /\
  (forall e, ~ decode_gives implicit cf D t src (RErr e)).
Proof. exact (gives_spec WByte implicit cf D t src). Qed.
Lemma decode_memo_spec implicit cf D t src :
  (forall v, decode_memo_gives implicit cf D t src (ROk v) <-> tries implicit WMemo cf D t src (ROk v)) /\
  (decode_memo_gives implicit cf D t src RPanic <-> (exists e, tries implicit WMemo cf D t src (RErr e)) \/ tries implicit WMemo cf D t src RPanic) /\
  (forall e, ~ decode_memo_gives implicit cf D t src (RErr e)).
Proof. exact (gives_spec WMemo implicit cf D t src). Qed.

Lemma unit_any implicit w cf D src : cf_complete cf = false ->
  (forall out, tries implicit w cf D TUnit src out <-> out = ROk VUnit) /\
  decode_gives implicit cf D TUnit src (ROk VUnit) /\ decode_memo_gives implicit cf D TUnit src (ROk VUnit).
Proof.
  intros H. split; [intros out; apply tries_unit; exact H|]. split; [apply decode_spec|apply decode_memo_spec]; apply tries_unit; auto.
Qed.
Lemma decode_round_trip cf D I kf t v bs implicit src :
  wf_defs D = true -> disciplined D I = true -> wf_ty D t = true -> decodable I t = true ->
  well_typed D v t = true -> to_bytes cf D kf v t = ROk bs -> zlen bs <= isize_max ->
  (cf_est_override cf = true -> zeros D v t = 0) -> stands_for implicit src bs ->
  decode_gives implicit cf D t src (ROk v) /\ decode_memo_gives implicit cf D t src (ROk v).
Proof.
  intros HD HI HW Hd Ht Hb HL Ho Hs. split.
  - apply decode_spec. apply (proj1 (tries_value implicit WByte cf D t src bs Hs)). eapply round_trip_thm; eauto. discriminate.
  - apply decode_memo_spec. apply (proj1 (tries_value implicit WMemo cf D t src bs Hs)). eapply round_trip_thm; eauto. discriminate.
Qed.
Lemma hex_stands bs : bytes_ok bs -> forall src, text_of src = Some (hex_of_bytes bs) -> stands_for true src bs.
Proof.
  intros HB src Ht. apply stands_buffer. pose proof (hex_round_trip bs HB) as H.
  destruct src; try discriminate Ht; cbn [text_of into_vec_buffer] in *; injection Ht as ->; exact H.
Qed.

(** ** hex! *)
Lemma hex_loop_ends n : forall ix src dst r, bytes_of_hex_loop n ix src dst = r -> (exists b, r = ROk b) \/ (exists e, r = RErr e) \/ r = RPanic.
Proof.
  induction n as [|n IH]; cbn [bytes_of_hex_loop]; intros ix src dst r <-; [eauto|].
  unfold str_slice. destruct (_ && _ && _); cbn [rbind]; [|auto]. destruct (u8_from_str_radix16 _); [eapply IH; reflexivity|eauto].
Qed.
Lemma hex_macro_exact s :
  (forall bs, hex_macro s = ROk bs <-> loose_denotes s bs) /\
  ((forall bs, ~ loose_denotes s bs) -> hex_macro s = RPanic).
Proof.
  assert (H : (exists b, bytes_of_hex s = ROk b) \/ (exists e, bytes_of_hex s = RErr e) \/ bytes_of_hex s = RPanic).
  { unfold bytes_of_hex. destruct (_ =? 0); [eauto|]. destruct (negb _); [eauto|]. eapply hex_loop_ends. reflexivity. }
  unfold hex_macro. split.
  - intros bs. rewrite <- from_hex_exact. destruct H as [[b E]|[[e E]|E]]; rewrite E; cbn [or_panic]; split; congruence.
  - intros Hn. destruct H as [[b E]|[[e E]|E]]; [|rewrite E; reflexivity..]. exfalso. apply (Hn b). apply from_hex_exact. exact E.
Qed.
