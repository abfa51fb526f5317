(** Proofs about integers: big-endian bytes (C13), RangedInt (C15, C16),
    BoundsError::restrict (C46). *)
From Verif Require Import Base BaseLemmas ModelErrors ModelInt ModelSchema SpecCodec.
From Coq Require Import ZifyBool.

(** ** Big-endian bytes *)
Lemma be_bytes_length n z : length (be_bytes n z) = n.
Proof. induction n; cbn [be_bytes length]; congruence. Qed.

Lemma big_endian_length n z : length (big_endian n z) = n.
Proof.
  revert z; induction n; intros; cbn [big_endian length]; [reflexivity|].
  rewrite app_length, IHn; cbn; lia.
Qed.

Lemma be_bytes_app n z : be_bytes (S n) z = be_bytes n (z / 256) ++ [z mod 256].
Proof.
  revert z; induction n as [|n IH]; intros z.
  - cbn [be_bytes Z.of_nat app Z.pow]. rewrite Z.div_1_r. reflexivity.
  - change (be_bytes (S (S n)) z) with ((z / 256 ^ Z.of_nat (S n)) mod 256 :: be_bytes (S n) z).
    rewrite IH.
    change (be_bytes (S n) (z / 256)) with
      ((z / 256 / 256 ^ Z.of_nat n) mod 256 :: be_bytes n (z / 256)).
    cbn [app]. f_equal. f_equal.
    rewrite Z.div_div by (try apply Z.pow_pos_nonneg; lia).
    f_equal. rewrite Nat2Z.inj_succ, Z.pow_succ_r by lia. reflexivity.
Qed.

Lemma be_bytes_big_endian n z : be_bytes n z = big_endian n z.
Proof.
  revert z; induction n as [|n IH]; intros z; [reflexivity|].
  rewrite be_bytes_app, IH. reflexivity.
Qed.

Lemma big_endian_bytes n z : bytes_ok (big_endian n z).
Proof.
  revert z; induction n as [|n IH]; intros z; cbn [big_endian]; [constructor|].
  apply bytes_ok_app; split; [apply IH|].
  constructor; [|constructor]. unfold is_byte. apply Z.mod_pos_bound; lia.
Qed.

Lemma be_value_snoc l b : be_value (l ++ [b]) = be_value l * 256 + b.
Proof. unfold be_value; rewrite fold_left_app; reflexivity. Qed.

Lemma be_value_big_endian n z : be_value (big_endian n z) = z mod 256 ^ Z.of_nat n.
Proof.
  revert z; induction n as [|n IH]; intros z.
  - cbn [big_endian Z.of_nat Z.pow]. rewrite Z.mod_1_r. reflexivity.
  - cbn [big_endian]. rewrite be_value_snoc, IH, Nat2Z.inj_succ, Z.pow_succ_r by lia.
    rewrite (Z.rem_mul_r z 256 (256 ^ Z.of_nat n)) by (try apply Z.pow_nonzero; lia).
    lia.
Qed.

Lemma be_value_bound l : bytes_ok l -> 0 <= be_value l < 256 ^ zlen l.
Proof.
  induction l as [|b l IH] using rev_ind; intros H.
  - cbn; lia.
  - apply bytes_ok_app in H; destruct H as [H1 H2]. specialize (IH H1).
    inversion H2 as [|? ? Hb _]; unfold is_byte in Hb.
    rewrite be_value_snoc, zlen_app. change (zlen [b]) with 1.
    rewrite Z.pow_add_r by (try apply zlen_nonneg; lia). change (256 ^ 1) with 256. lia.
Qed.

Lemma big_endian_be_value l : bytes_ok l -> big_endian (length l) (be_value l) = l.
Proof.
  induction l as [|b l IH] using rev_ind; intros H; [reflexivity|].
  apply bytes_ok_app in H; destruct H as [H1 H2].
  inversion H2 as [|? ? Hb _]; unfold is_byte in Hb.
  rewrite app_length, Nat.add_1_r. cbn [big_endian].
  rewrite be_value_snoc.
  rewrite Z.div_add_l, (Z.div_small b 256), Z.add_0_r by lia. rewrite IH by assumption.
  rewrite Z.add_comm, Z.mod_add, Z.mod_small by lia. reflexivity.
Qed.

Lemma ik_len_cases k : ik_len k = 1 \/ ik_len k = 2 \/ ik_len k = 4 \/ ik_len k = 8.
Proof. destruct k; cbn; auto. Qed.

Lemma ik_mod_pos k : 0 < ik_mod k.
Proof. destruct k; reflexivity. Qed.

Lemma ik_mod_even k : ik_mod k = 2 * (ik_mod k / 2).
Proof. destruct k; reflexivity. Qed.

Lemma ik_in_spec k z : ik_in k z = true <-> ik_min k <= z <= ik_max k.
Proof. unfold ik_in; lia. Qed.

Lemma ik_wrap_in k z : ik_in k (ik_wrap k z) = true.
Proof.
  apply ik_in_spec. unfold ik_min, ik_max, ik_wrap.
  pose proof (Z.mod_pos_bound z _ (ik_mod_pos k)). pose proof (ik_mod_even k).
  destruct (ik_signed k); cbn [andb]; [|lia].
  destruct (Z.leb_spec (ik_mod k / 2) (z mod ik_mod k)); lia.
Qed.

Lemma ik_wrap_mod k z : ik_wrap k z mod ik_mod k = z mod ik_mod k.
Proof.
  unfold ik_wrap. pose proof (ik_mod_pos k).
  destruct (ik_signed k && _).
  - replace (z mod ik_mod k - ik_mod k) with (z mod ik_mod k + (-1) * ik_mod k) by lia.
    rewrite Z.mod_add, Z.mod_mod by lia. reflexivity.
  - apply Z.mod_mod; lia.
Qed.

Lemma ik_wrap_id k z : ik_in k z = true -> ik_wrap k z = z.
Proof.
  intros H; apply ik_in_spec in H. unfold ik_min, ik_max in H. unfold ik_wrap.
  pose proof (ik_mod_even k). pose proof (ik_mod_pos k).
  destruct (ik_signed k); cbn [andb].
  - destruct (Z.leb_spec 0 z).
    + rewrite Z.mod_small by lia. destruct (Z.leb_spec (ik_mod k / 2) z); lia.
    + replace (z mod ik_mod k) with (z + ik_mod k).
      2:{ apply Z.mod_unique with (-1); lia. }
      destruct (Z.leb_spec (ik_mod k / 2) (z + ik_mod k)); lia.
  - apply Z.mod_small; lia.
Qed.

Lemma ik_wrap_of_mod k a : ik_wrap k (a mod ik_mod k) = ik_wrap k a.
Proof. unfold ik_wrap. pose proof (ik_mod_pos k). rewrite Z.mod_mod by lia. reflexivity. Qed.

Lemma to_be_bytes_format k z : to_be_bytes k z = int_format k z.
Proof. unfold to_be_bytes, int_format. apply be_bytes_big_endian. Qed.

Lemma ik_mod_pow k : 256 ^ Z.of_nat (Z.to_nat (ik_len k)) = ik_mod k.
Proof. destruct k; reflexivity. Qed.

Lemma from_to_be_bytes k z : ik_in k z = true -> from_be_bytes k (int_format k z) = z.
Proof.
  intros H. unfold from_be_bytes, int_format.
  rewrite be_value_big_endian, ik_mod_pow. fold (ik_mod k). pose proof (ik_mod_pos k).
  rewrite Z.mod_mod, ik_wrap_of_mod by lia. apply ik_wrap_id; assumption.
Qed.

Lemma int_format_length k z : zlen (int_format k z) = ik_len k.
Proof. unfold int_format, zlen; rewrite big_endian_length. destruct k; reflexivity. Qed.

Lemma int_format_bytes k z : bytes_ok (int_format k z).
Proof. apply big_endian_bytes. Qed.

Lemma from_be_bytes_in k l : ik_in k (from_be_bytes k l) = true.
Proof. apply ik_wrap_in. Qed.

Lemma to_from_be_bytes k l :
  bytes_ok l -> zlen l = ik_len k -> int_format k (from_be_bytes k l) = l.
Proof.
  intros Hb Hl. unfold int_format, from_be_bytes. fold (ik_mod k).
  rewrite ik_wrap_mod. pose proof (be_value_bound l Hb) as Hv. rewrite Hl in Hv. fold (ik_mod k) in Hv.
  rewrite Z.mod_small by assumption.
  replace (Z.to_nat (ik_len k)) with (length l) by (unfold zlen in Hl; lia).
  apply big_endian_be_value; assumption.
Qed.

(** ** BoundsError::restrict *)
Lemma restrict_spec val min max :
  (restrict val min max = ROk val <->
     if 0 <? min then 0 <= val <= max - min else min <= val <= max) /\
  (forall v, restrict val min max = ROk v -> v = val) /\
  (forall e, restrict val min max = RErr e ->
     (e = BInvalidBounds min max /\ max < min) \/
     (e = BUnderflow min val /\ min <= 0 /\ min <= max /\ val < min) \/
     (e = BOverflow max val /\ min <= 0 /\ min <= max /\ max < val) \/
     (e = BOverflow (max - min) val /\ 0 < min <= max /\ max - min < val) \/
     (e = BIllegalNegative min val /\ 0 < min /\ val < 0)) /\
  restrict val min max <> RPanic /\ restrict val min max <> RUB /\ restrict val min max <> RDiv.
Proof.
  unfold restrict.
  destruct (Z.ltb_spec 0 min), (Z.ltb_spec val 0), (Z.ltb_spec max min),
    (Z.ltb_spec (max - min) val), (Z.leb_spec min val), (Z.leb_spec val max);
  (split; [split; [first [lia | intros E; try discriminate E; lia] | intros; first [reflexivity | lia]]
          |split; [intros v E; inversion E; reflexivity
                  |split; [intros e E; inversion E; subst e; tauto
                          |repeat split; discriminate]]]).
Qed.

Lemma restrict_cases val min max :
  (exists e, restrict val min max = RErr e) \/ restrict val min max = ROk val.
Proof.
  destruct (restrict_spec val min max) as (_ & H1 & _ & H2 & H3 & H4).
  destruct (restrict val min max) eqn:E; try congruence; eauto.
  right. rewrite (H1 a eq_refl). reflexivity.
Qed.

Lemma restrict_ok val min max :
  restrict val min max = ROk val <->
  if 0 <? min then 0 <= val <= max - min else min <= val <= max.
Proof. apply restrict_spec. Qed.
