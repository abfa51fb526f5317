(** Proofs about [check] and [main]. *)
From Verif Require Import Base BaseLemmas ModelErrors ModelInt ModelTarget ModelBuilder ModelSchema ModelHex ModelInput ModelCompare ModelCheck.
From Verif Require Import SpecCodec SpecHex SpecInput SpecCompare SpecCheck ProofCodec ProofInt ProofNum ProofHex ProofHexString ProofSettle ProofCodecProps ProofCodecThms
  ProofEncBytes ProofEncValid ProofGrammar ProofInput ProofCompare ProofOrder.

Lemma eq_seq_eq a b : eq_seq Z.eqb a b = true <-> a = b.
Proof. rewrite eq_seq_slice. apply slice_cmp_spec. Qed.
Lemma val_eq_same D v w t : wf_defs D = true -> well_typed D v t = true -> well_typed D w t = true -> val_eq D v w t = true <-> same D t v w.
Proof. intros W Hv Hw. rewrite val_eq_cmp. apply (val_cmp_spec D W v w t Hv Hw). Qed.
Lemma no_float_nan t : no_float t = true -> no_nan t = true.
Proof. induction t; cbn; auto; discriminate. Qed.
Lemma forallb_impl {A} (p q : A -> bool) l : (forall a, p a = true -> q a = true) -> forallb p l = true -> forallb q l = true.
Proof. intros H. rewrite !forallb_forall. auto. Qed.
Lemma no_float_nan_def d : no_float_def d = true -> no_nan_def d = true.
Proof.
  destruct d; cbn [no_float_def no_nan_def]; auto; apply forallb_impl; [exact no_float_nan|].
  intros a. apply forallb_impl, no_float_nan.
Qed.
Lemma val_eq_refl D v t : forallb no_nan_def D = true -> no_nan t = true -> well_typed D v t = true -> val_eq D v v t = true.
Proof.
  intros N Nt Hv. apply val_eq_cmp. pose proof (val_cmp_some D N v v t Nt Hv Hv) as H. pose proof (val_cmp_dual D v v t) as E.
  destruct (val_cmp D v v t) as [[]|]; cbn in E; congruence.
Qed.
Lemma val_eq_exact D v w t : wf_defs D = true -> forallb no_float_def D = true -> no_float t = true ->
  well_typed D v t = true -> well_typed D w t = true -> val_eq D v w t = true <-> v = w.
Proof.
  intros W N Nt Hv Hw. split.
  - intros H. apply (val_eq_same D v w t W Hv Hw) in H. exact (same_exact D N v w t Nt H).
  - intros <-. apply val_eq_refl; auto using no_float_nan. revert N. apply forallb_impl. exact no_float_nan_def.
Qed.
Lemma val_eq_encoding cf D I kf v w t bs bs' :
  wf_defs D = true -> disciplined D I = true -> wf_ty D t = true -> decodable I t = true ->
  forallb no_float_def D = true -> no_float t = true -> well_typed D v t = true -> well_typed D w t = true ->
  to_bytes cf D kf v t = ROk bs -> to_bytes cf D kf w t = ROk bs' -> zlen bs <= isize_max ->
  (cf_est_override cf = true -> zeros D v t = 0 /\ zeros D w t = 0) ->
  val_eq D v w t = true <-> bs = bs'.
Proof.
  intros W HI Ht Hd N Nt Hv Hw E1 E2 L Z. rewrite val_eq_exact by assumption. split.
  - intros <-. congruence.
  - intros <-. exact (encode_injective cf D I kf t v w bs W HI Ht Hd Hv Hw E1 E2 L Z).
Qed.

Lemma strict_bytes cf D kf v t u : strict_encode cf D kf v t = ROk u -> to_bytes cf D kf v t = ROk (bd_into_vec bd_strict u).
Proof.
  unfold strict_encode. pose proof (encode_same cf D kf v t ToStrict) as E. cbn [tg_of] in E. change (tg_state ToStrict) with strict_builder in E.
  rewrite <- E. clear E. intros H. destruct (encode cf D kf tg_strict v t); try discriminate H. injection H as ->. reflexivity.
Qed.
Lemma strict_of_bytes cf D kf v t bs : to_bytes cf D kf v t = ROk bs -> exists u, strict_encode cf D kf v t = ROk u /\ bd_into_vec bd_strict u = bs.
Proof.
  pose proof (encode_same cf D kf v t ToStrict) as E. cbn [tg_of] in E. change (tg_state ToStrict) with strict_builder in E.
  rewrite <- E. clear E. unfold strict_encode. intros H.
  destruct (encode cf D kf tg_strict v t) as [u| | | |]; try discriminate H. injection H as <-. exists u. split; reflexivity.
Qed.

Lemma hex_length bs : zlen (hex_of_bytes bs) = 2 * zlen bs.
Proof.
  induction bs as [|b bs IH]; cbn [hex_of_bytes]; [reflexivity|]. rewrite zlen_app, IH, zlen_cons. unfold fmt_02x.
  destruct (b <? 16); cbn [length Nat.sub repeat app]; rewrite !zlen_cons, zlen_nil; lia.
Qed.
Lemma decode_at implicit cf D f t src v : decode_from implicit cf D f t src = ROk v -> (exists buf, stands_for implicit src buf) ->
  exists buf, stands_for implicit src buf /\ decodes WByte cf D t buf (ROk v).
Proof.
  unfold decode_from, try_decode_from. intros H Hs. revert H. destruct (ignores_input cf t) eqn:Ei.
  { apply ignores_inv in Ei. destruct Ei as [-> Ec]. intros H. injection H as <-. destruct Hs as [buf Hs]. exists buf.
    split; [exact Hs|]. apply decodes_unit; auto. }
  destruct (into_vec_buffer implicit src) as [buf|e| | |] eqn:E; try discriminate.
  intros H. exists buf. split; [apply stands_buffer; exact E|]. apply (decodes_at WByte) with (f := f); [|discriminate]. cbn [decode_with].
  destruct (byte_decode cf D f t buf); try discriminate H. injection H as ->. reflexivity.
Qed.
Lemma decode_gives_at implicit cf D f t src v : decode_from implicit cf D f t src = ROk v -> decode_gives implicit cf D t src (ROk v).
Proof.
  intros H. apply decode_spec. unfold decode_from in H. unfold tries. assert (H' : try_decode_from implicit cf t (decode_with WByte cf D f t) src = ROk v).
  { cbn [decode_with]. destruct (try_decode_from implicit cf t (byte_decode cf D f t) src); cbn [or_panic] in H; congruence. }
  split; [discriminate|]. exists f. intros f' Hf. rewrite (try_from_div_mono implicit WByte cf D t src f f' Hf) by (rewrite H'; discriminate). exact H'.
Qed.
Lemma stands_unique implicit src b b' : stands_for implicit src b -> stands_for implicit src b' -> b = b'.
Proof. intros H H'. apply stands_buffer in H, H'. congruence. Qed.
