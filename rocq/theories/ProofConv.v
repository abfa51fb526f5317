(** Proofs about conversions (C57-C59). *)
From Coq Require Import Floats.SpecFloat.
From Verif Require Import Base BaseLemmas ModelErrors ModelParser ModelInt ModelFloat ModelZarith ModelSchema ModelConv
  SpecCodec SpecNum SpecConv ProofFloat ProofCodecProps ProofNum.
From Verif Require Import ProofInt ProofEnc ProofEncBytes ProofEncValid.
From Coq Require Import ZifyBool.

Lemma f64_make_parts s e f : 0 <= e < 2048 -> 0 <= f < 2 ^ 52 ->
  let w := f64_make s e f in
  0 <= w < 2 ^ 64 /\ (w / 2 ^ 52) mod 2048 = e /\ w mod 2 ^ 52 = f /\ (w <? 2 ^ 63) = negb s.
Proof.
  intros He Hf. cbv zeta. unfold f64_make.
  assert (E : (if s then 2 ^ 63 else 0) + e * 2 ^ 52 + f = ((if s then 2048 else 0) + e) * 2 ^ 52 + f) by (destruct s; lia).
  rewrite E.
  assert (D : (((if s then 2048 else 0) + e) * 2 ^ 52 + f) / 2 ^ 52 = (if s then 2048 else 0) + e)
    by (symmetry; apply Z.div_unique with f; lia).
  assert (M : (((if s then 2048 else 0) + e) * 2 ^ 52 + f) mod 2 ^ 52 = f)
    by (symmetry; apply Z.mod_unique with ((if s then 2048 else 0) + e); lia).
  split; [destruct s; lia|]. split; [|split; [exact M|destruct s; lia]]. rewrite D.
  destruct s; [|apply Z.mod_small; lia]. symmetry. apply Z.mod_unique with 1; lia.
Qed.

Lemma f32_widens b : 0 <= b < 2 ^ 32 ->
  0 <= f64_from_f32 b < 2 ^ 64 /\ f64_finite (f64_from_f32 b) = f32_finite b /\
  (f32_finite b = true -> f64_value (f64_from_f32 b) = 2 ^ 925 * f32_value b) /\
  f64_is_nan (f64_from_f32 b) = f32_is_nan b /\ (f64_from_f32 b <? 2 ^ 63) = (b <? 2 ^ 31).
Proof.
  intros Hb. unfold f64_from_f32, f32_finite, f32_value, f32_is_nan, f32_exp, f32_frac. change (2 ^ 8) with 256.
  pose proof (Z.mod_pos_bound (b / 2 ^ 23) 256 ltac:(lia)) as He. pose proof (Z.mod_pos_bound b (2 ^ 23) ltac:(lia)) as Hf.
  set (e := (b / 2 ^ 23) mod 256) in *. set (f := b mod 2 ^ 23) in *. cbv zeta.
  replace (b <? 2 ^ 31) with (negb (2 ^ 31 <=? b)) by lia. set (s := 2 ^ 31 <=? b).
  assert (W : forall e' f', 0 <= e' < 2048 -> 0 <= f' < 2 ^ 52 ->
    0 <= f64_make s e' f' < 2 ^ 64 /\ f64_finite (f64_make s e' f') = negb (e' =? 2047) /\
    f64_value (f64_make s e' f') = (if negb s then 1 else -1) * (if e' =? 0 then f' else (2 ^ 52 + f') * 2 ^ (e' - 1)) /\
    f64_is_nan (f64_make s e' f') = (e' =? 2047) && negb (f' =? 0) /\ (f64_make s e' f' <? 2 ^ 63) = negb s).
  { intros e' f' He' Hf'. destruct (f64_make_parts s e' f' He' Hf') as (B & X & M & S). split; [exact B|].
    unfold f64_finite, f64_value, f64_is_nan, f64_of_bits, f64_exp, f64_frac. change (2 ^ 11) with 2048. rewrite X, M, S.
    split; [reflexivity|]. split; [reflexivity|]. split; [|reflexivity].
    destruct (e' =? 2047); [destruct (f' =? 0); reflexivity|]. destruct (e' =? 0); [destruct f'; reflexivity|].
    destruct (f' + 2 ^ 52) eqn:E; [lia|reflexivity|lia]. }
  destruct (Z.eqb_spec e 255) as [E1|E1].
  - destruct (W 2047 (f * 2 ^ 29) ltac:(lia) ltac:(lia)) as (B & F & V & N & S).
    rewrite F, N, S. split; [exact B|]. split; [reflexivity|]. split; [discriminate|]. split; [|reflexivity]. cbn [Z.eqb Pos.eqb andb]. f_equal. lia.
  - destruct (Z.eqb_spec e 0) as [E0|E0].
    + destruct (Z.eqb_spec f 0) as [Ef|Ef].
      * destruct (W 0 0 ltac:(lia) ltac:(lia)) as (B & F & V & N & S). rewrite F, N, V, S. split; [exact B|].
        split; [reflexivity|]. split; [intros _; cbn [Z.eqb]; rewrite Ef; lia|]. split; reflexivity.
      * assert (Hk := Z.log2_spec f ltac:(lia)). assert (K0 := Z.log2_nonneg f).
        assert (K1 : Z.log2 f < 23) by (apply Z.log2_lt_pow2; lia). rewrite Z.pow_succ_r in Hk by lia.
        set (k := Z.log2 f) in *.
        assert (P : 2 ^ k * 2 ^ (52 - k) = 2 ^ 52) by (rewrite <- Z.pow_add_r by lia; f_equal; lia).
        assert (Q : 0 < 2 ^ (52 - k)) by (apply Z.pow_pos_nonneg; lia).
        destruct (W (k + 874) ((f - 2 ^ k) * 2 ^ (52 - k)) ltac:(lia) ltac:(nia)) as (B & F & V & N & S).
        rewrite F, N, V, S. split; [exact B|]. replace (k + 874 =? 2047) with false by lia. split; [reflexivity|].
        split; [|split; reflexivity]. intros _. replace (k + 874 =? 0) with false by lia.
        replace (2 ^ 52 + (f - 2 ^ k) * 2 ^ (52 - k)) with (f * 2 ^ (52 - k)) by nia.
        rewrite <- (Z.mul_assoc f), <- Z.pow_add_r by lia. replace (52 - k + (k + 874 - 1)) with 925 by lia. lia.
    + destruct (W (e + 896) (f * 2 ^ 29) ltac:(lia) ltac:(lia)) as (B & F & V & N & S).
      rewrite F, N, V, S. split; [exact B|]. replace (e + 896 =? 2047) with false by lia. split; [reflexivity|].
      split; [|split; reflexivity]. intros _. replace (e + 896 =? 0) with false by lia.
      replace (2 ^ 52 + f * 2 ^ 29) with ((2 ^ 23 + f) * 2 ^ 29) by lia.
      rewrite <- (Z.mul_assoc (2 ^ 23 + f)), <- Z.pow_add_r by lia.
      replace (29 + (e + 896 - 1)) with (925 + (e - 1)) by lia. rewrite Z.pow_add_r by lia. lia.
Qed.

(** A single-precision number is accepted exactly when it lies between the bounds. *)
Lemma f32_accepted lo hi b y :
  rf_try_from_f32 lo hi b = ROk y <->
  y = f64_from_f32 b /\ f64_le lo (f64_from_f32 b) = true /\ f64_le (f64_from_f32 b) hi = true.
Proof.
  unfold rf_try_from_f32. destruct (restrict_float_spec (f64_from_f32 b) lo hi) as (H1 & H2 & _). split.
  - intros H. pose proof (H2 _ H) as ->. split; [reflexivity|]. apply H1. exact H.
  - intros (-> & H). apply H1. exact H.
Qed.
Lemma f32_accepted_value lo hi b : 0 <= b < 2 ^ 32 -> 0 <= lo < 2 ^ 64 -> 0 <= hi < 2 ^ 64 ->
  f64_finite lo = true -> f64_finite hi = true -> f32_finite b = true ->
  (rf_try_from_f32 lo hi b = ROk (f64_from_f32 b) <-> f64_value lo <= 2 ^ 925 * f32_value b <= f64_value hi).
Proof.
  intros Hb Hl Hh Fl Fh Fb. destruct (f32_widens b Hb) as (B & F & V & _). rewrite f32_accepted.
  rewrite !f64_le_value by (auto; rewrite F; auto). rewrite (V Fb). split; [intros (_ & ? & ?); lia|intros ?; split; [reflexivity|split; lia]].
Qed.
Lemma f32_refused lo hi b : f32_is_nan b = true -> 0 <= b < 2 ^ 32 ->
  rf_try_from_f32 lo hi b = RErr (if f64_le lo hi then BUnderflow lo (f64_from_f32 b) else BInvalidBounds lo hi).
Proof.
  intros HN Hb. destruct (f32_widens b Hb) as (_ & _ & _ & N & _). rewrite HN in N. unfold rf_try_from_f32, restrict_float.
  destruct (f64_le lo hi); [|reflexivity]. destruct (f64_le lo (f64_from_f32 b)) eqn:E; [|reflexivity].
  destruct (f64_le_not_nan _ _ E) as [_ C]. congruence.
Qed.
Lemma get_validated_spec lo hi b y :
  rf_get_validated lo hi b = ROk y <-> y = b /\ f64_le lo b = true /\ f64_le b hi = true.
Proof.
  unfold rf_get_validated. destruct (restrict_float_spec b lo hi) as (H1 & H2 & _). split.
  - intros H. pose proof (H2 _ H) as ->. split; [reflexivity|]. apply H1. exact H.
  - intros (-> & H). apply H1. exact H.
Qed.

(** N and Z to machine integers. *)
Lemma big_into_spec k z : big_try_into k z = if (ik_min k <=? z) && (z <=? ik_max k) then Some z else None.
Proof. reflexivity. Qed.

(** [length_prefix] and encoding. *)
Lemma pref_try_from_spec cf s l : 0 <= l ->
  pref_try_from cf s l = if l <=? pref_max s then Some l else None.
Proof.
  intros H. destruct s; unfold pref_try_from, pref_max, ik_try_from, ik_in.
  - change (ik_min U8) with 0. change (ik_max U8) with 255. replace (0 <=? l) with true by lia. reflexivity.
  - change (ik_min U16) with 0. change (ik_max U16) with 65535. replace (0 <=? l) with true by lia. reflexivity.
  - assert (M : u30_max = 2 ^ 30 - 1) by reflexivity.
    unfold ri_try_from, restrict. cbn [Z.ltb Z.compare]. replace (0 <=? l) with true by lia.
    destruct (Z.leb_spec l u30_max).
    + unfold ri_from_numeric_unchecked, ik_try_from. cbn [Z.leb Z.compare].
      replace (ik_in U32 l) with true by (symmetry; apply ik_in_spec; change (ik_min U32) with 0; change (ik_max U32) with (2 ^ 32 - 1); lia).
      reflexivity.
    + replace (u30_max <? 0) with false by lia. reflexivity.
Qed.

Lemma length_prefix_exact cf D kf s v t bs : cf_est_override cf = false -> to_bytes cf D kf v t = ROk bs -> zlen bs <= isize_max ->
  length_prefix cf D kf s v t =
    if zlen bs <=? pref_max s then ROk (zlen bs) else RErr (Some (TooWide (pref_max s) (zlen bs))).
Proof.
  intros EO HE HL. destruct (enc_len_exact _ _ _ _ _ _ EO HE HL) as [E _]. unfold length_prefix. rewrite E.
  rewrite pref_try_from_spec by apply zlen_nonneg. destruct (Z.leb_spec (zlen bs) (pref_max s)); [reflexivity|].
  replace (pref_max s <? zlen bs) with true by lia. unfold debug_assert. destruct (cf_mode cf); reflexivity.
Qed.

Lemma enc_len_wr cf D kf v t :
  enc_len cf D kf v t = if cf_est_override cf then estimate cf D kf v t else rmap fst (wr cf D kf v t).
Proof. unfold enc_len. rewrite (count_wr cf D kf v t (sim_all_vals cf D kf v)). reflexivity. Qed.

Lemma pref_try_from_range cf s l x : pref_try_from cf s l = Some x -> x = l /\ 0 <= l <= pref_max s.
Proof.
  destruct s; unfold pref_try_from.
  - unfold ik_try_from. destruct (ik_in U8 l) eqn:E; [|discriminate]. apply ik_in_spec in E. cbn in E. cbn [pref_max]. intros H; injection H as <-; lia.
  - unfold ik_try_from. destruct (ik_in U16 l) eqn:E; [|discriminate]. apply ik_in_spec in E. cbn in E. cbn [pref_max]. intros H; injection H as <-; lia.
  - destruct (Z.ltb_spec l 0).
    + unfold ri_try_from, restrict. cbn [Z.ltb Z.compare]. replace (0 <=? l) with false by lia. change (u30_max <? 0) with false. discriminate.
    + pose proof (pref_try_from_spec cf PrefU30 l ltac:(lia)) as E. unfold pref_try_from in E. rewrite E.
      destruct (Z.leb_spec l (pref_max PrefU30)); [|discriminate]. intros X; injection X as <-. lia.
Qed.

(** Whatever [enc_len] is, the encoder writes the prefix [length_prefix] returns. *)
Lemma length_prefix_written cf D kf s v t out : to_bytes cf D kf (VWrap v) (TDyn s t) = ROk out ->
  exists p payload, length_prefix cf D kf s v t = ROk p /\ to_bytes cf D kf v t = ROk payload /\ out = pref_format s p ++ payload.
Proof.
  rewrite !to_bytes_wr. cbn [wr]. unfold length_prefix. rewrite enc_len_wr.
  destruct (if cf_est_override cf then _ else _) as [l| | | |]; unfold rmap at 1; cbn [rbind]; try discriminate.
  unfold rassert. destruct (l <=? pref_max s); cbn [rbind]; [|discriminate].
  destruct (pref_try_from cf s l) as [x|] eqn:E; [|discriminate]. destruct (pref_try_from_range _ _ _ _ E) as [-> HR].
  destruct (puts_pref cf [] eq_refl s l HR) as [EP|[_ EP]]; rewrite EP.
  2:{ match goal with |- context [rbind (if ?c then _ else _)] => destruct c end; cbn [rmap rbind]; try discriminate.
      destruct (uadd _ _ _); cbn [rbind]; unfold r_end, r_add; cbn [rbind]; discriminate. }
  match goal with |- context [rbind (if ?c then ?a else ?b) _] => destruct (if c then a else b) end; cbn [rbind]; try discriminate.
  destruct (uadd _ l _); cbn [rbind]; try discriminate. unfold r_end, r_add. cbn [rbind fst snd].
  destruct (wr cf D kf v t) as [[n b]| | | |] eqn:W; cbn [rbind fst snd]; try discriminate.
  destruct (uadd _ _ n); cbn [rbind fst snd]; try discriminate. destruct (uadd _ _ 0); unfold rmap; cbn [rbind snd]; try discriminate.
  intros H. injection H as <-. exists l, b. rewrite app_nil_r. auto.
Qed.
Lemma length_prefix_refused cf D kf s v t e : length_prefix cf D kf s v t = RErr (Some e) ->
  to_bytes cf D kf (VWrap v) (TDyn s t) = RPanic.
Proof.
  unfold length_prefix. rewrite enc_len_wr, to_bytes_wr. cbn [wr].
  destruct (if cf_est_override cf then _ else _) as [l| | | |]; cbn [rbind]; try discriminate.
  destruct (pref_try_from cf s l); [discriminate|]. intros _.
  unfold rassert. destruct (l <=? pref_max s); reflexivity.
Qed.

(** N and Z decoded, then converted. *)
Lemma natural_into w cf D input v rest : bytes_ok input -> zlen input <= isize_max ->
  reads w cf D TN input (ROk (v, rest)) ->
  exists bs z, input = bs ++ rest /\ marked bs /\ v = VInt z /\ z = groups_value bs /\
    forall k, In k nat_targets -> (z < 256 ^ ik_len k -> big_try_into k z = Some z) /\ (256 ^ ik_len k <= z -> big_try_into k z = None).
Proof.
  intros HB HL H. destruct (proj1 (n_decode w cf D input v rest HB HL) H) as (bs & E & HM & ->). exists bs, (groups_value bs).
  repeat (split; [assumption || reflexivity|]).
  assert (P : 0 <= groups_value bs).
  { clear. induction bs as [|b bs IH]; cbn [groups_value]; [lia|]. pose proof (Z.mod_pos_bound b 128 ltac:(lia)). lia. }
  intros k Hk. rewrite big_into_spec.
  assert (Q : ik_min k = 0 /\ ik_max k = 256 ^ ik_len k - 1) by (destruct Hk as [<-|[<-|[<-|[<-|[]]]]]; split; reflexivity).
  destruct Q as [-> ->]. split; intros L; [|].
  - replace ((0 <=? groups_value bs) && (groups_value bs <=? 256 ^ ik_len k - 1)) with true by lia. reflexivity.
  - replace ((0 <=? groups_value bs) && (groups_value bs <=? 256 ^ ik_len k - 1)) with false by lia. reflexivity.
Qed.
Lemma integer_into w cf D input v rest : bytes_ok input -> zlen input <= isize_max ->
  reads w cf D TZ input (ROk (v, rest)) ->
  exists bs z, input = bs ++ rest /\ marked bs /\ v = VInt z /\ z = signed_groups_value bs /\
    forall k, In k int_targets ->
      (ik_min k <= z <= ik_max k -> big_try_into k z = Some z) /\ (~ ik_min k <= z <= ik_max k -> big_try_into k z = None).
Proof.
  intros HB HL H. destruct (proj1 (z_decode w cf D input v rest HB HL) H) as (bs & E & HM & ->). exists bs, (signed_groups_value bs).
  repeat (split; [assumption || reflexivity|]). intros k _. rewrite big_into_spec. set (z := signed_groups_value bs).
  destruct (Z.leb_spec (ik_min k) z), (Z.leb_spec z (ik_max k)); cbn [andb]; split; intros; first [reflexivity|lia].
Qed.
Lemma conversion_targets : (forall k, In k int_targets) /\ (forall k, In k nat_targets <-> ik_min k = 0).
Proof.
  split.
  - intros k. unfold int_targets. destruct k; cbn [In]; tauto.
  - intros k. split.
    + intros [<-|[<-|[<-|[<-|[]]]]]; reflexivity.
    + unfold nat_targets. destruct k; intros H; try discriminate H; cbn [In]; tauto.
Qed.
Lemma integer_machine_round_trip w cf D k x rest : In k int_targets -> ik_in k x = true ->
  bytes_ok rest -> zlen (integer_format x ++ rest) <= isize_max ->
  exists out z, to_bytes cf D 0 (VInt x) TZ = ROk out /\ reads w cf D TZ (out ++ rest) (ROk (VInt z, rest)) /\ big_try_into k z = Some x.
Proof.
  intros _ HI HB HL. destruct (z_round_trip w cf D x rest HB HL) as (out & HE & HR). exists out, x.
  split; [exact HE|]. split; [exact HR|]. unfold big_try_into, ik_try_from. rewrite HI. reflexivity.
Qed.

(** The constants [MIN] and [MAX] of a ranged float. *)
Lemma ranged_float_extremes lo hi :
  (f64_le lo hi = true ->
     rf_try_from_f64 lo hi (rf_min lo hi) = ROk (rf_min lo hi) /\ rf_try_from_f64 lo hi (rf_max lo hi) = ROk (rf_max lo hi)) /\
  (forall x y, rf_try_from_f64 lo hi x = ROk y -> f64_le (rf_min lo hi) y = true /\ f64_le y (rf_max lo hi) = true) /\
  (f64_le lo hi = false ->
     forall x, rf_try_from_f64 lo hi x = RErr (BInvalidBounds (rf_min lo hi) (rf_max lo hi))).
Proof.
  unfold rf_min, rf_max. split; [|split].
  - intros H. destruct (f64_le_not_nan _ _ H) as [N1 N2].
    split; apply (ranged_float_constructor lo hi); split; auto using f64_le_refl.
  - intros x y H. destruct (ranged_float_constructor lo hi x) as (C1 & C2 & _). pose proof (C2 y H) as ->. apply C1. exact H.
  - intros H x. unfold rf_try_from_f64, restrict_float. rewrite H. reflexivity.
Qed.
Lemma ranged_float_extremes_wire w cf D kf lo hi rest :
  is_u64 lo = true -> is_u64 hi = true -> bytes_ok rest -> zlen rest <= isize_max - 8 ->
  let t := TRangedF lo hi in
  to_bytes cf D kf (VInt (rf_min lo hi)) t = ROk (big_endian 8 lo) /\
  to_bytes cf D kf (VInt (rf_max lo hi)) t = ROk (big_endian 8 hi) /\
  (f64_le lo hi = true ->
     reads w cf D t (big_endian 8 lo ++ rest) (ROk (VInt (rf_min lo hi), rest)) /\
     reads w cf D t (big_endian 8 hi ++ rest) (ROk (VInt (rf_max lo hi), rest))) /\
  (f64_le lo hi = false -> forall input v r, bytes_ok input -> zlen input <= isize_max -> ~ reads w cf D t input (ROk (v, r))).
Proof.
  intros L H HB HL. cbv zeta. unfold rf_min, rf_max.
  assert (L' : 0 <= lo < 2 ^ 64) by (unfold is_u64 in L; lia). assert (H' : 0 <= hi < 2 ^ 64) by (unfold is_u64 in H; lia).
  destruct (float_round_trip w cf D kf lo rest L' HB HL) as [E1 _].
  destruct (float_round_trip w cf D kf hi rest H' HB HL) as [E2 _].
  split; [exact E1|]. split; [exact E2|]. split.
  - intros LE. destruct (f64_le_not_nan _ _ LE) as [N1 N2].
    split; (apply ranged_float_decode; [apply bytes_ok_app; split; [apply big_endian_bytes|exact HB]
      |rewrite zlen_app; unfold zlen at 1; rewrite big_endian_length; change (Z.of_nat 8) with 8; unfold byte in *; lia|exact L|exact H|]);
    [exists lo|exists hi]; repeat (split; [first [reflexivity|lia|assumption|apply f64_le_refl; assumption]|]);
      first [assumption|apply f64_le_refl; assumption].
  - intros LE input v r HI HZ R. apply ranged_float_decode in R; [|assumption..].
    destruct R as (b & _ & _ & _ & A & B). rewrite (f64_le_trans _ _ _ A B) in LE. discriminate.
Qed.
