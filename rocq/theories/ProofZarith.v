(** Proofs about zarith.rs: N and Z write the formats of SpecCodec and read
    them back (C17, C18, C19). *)
From Verif Require Import Base BaseLemmas ModelErrors ModelParser ModelInt ModelZarith ModelSchema SpecCodec.
From Coq Require Import ZifyBool.

(** All bytes but the last marked with the high bit. *)
Fixpoint mark (l : list byte) : list byte :=
  match l with
  | [] => []
  | [x] => [x]
  | x :: l => x + 128 :: mark l
  end.

Definition digit (d : Z) : Prop := 0 <= d < 128.

Definition zrange (n : nat) : list Z := map Z.of_nat (seq 0 n).
Lemma zrange_in n z : 0 <= z < Z.of_nat n -> In z (zrange n).
Proof.
  intros H. unfold zrange. apply in_map_iff. exists (Z.to_nat z).
  split; [lia|]. apply in_seq; lia.
Qed.

Lemma flip_high_digit d : digit d -> flip_high d = d + 128 /\ flip_high (d + 128) = d.
Proof.
  assert (H : forallb (fun d => (flip_high d =? d + 128) && (flip_high (d + 128) =? d)) (zrange 128) = true)
    by (vm_compute; reflexivity).
  intros Hd. rewrite forallb_forall in H. specialize (H d (zrange_in 128 d Hd)).
  lia.
Qed.

Lemma land127 d : is_byte d -> Z.land d 127 = d mod 128.
Proof. intros _. change 127 with (Z.ones 7). rewrite Z.land_ones by lia. reflexivity. Qed.

Lemma land63 d : Z.land d 63 = d mod 64.
Proof. change 63 with (Z.ones 6). rewrite Z.land_ones by lia. reflexivity. Qed.

Lemma terminal_spec b : is_byte b -> zarith_terminal b = (b <? 128).
Proof.
  assert (H : forallb (fun b => Bool.eqb (zarith_terminal b) (b <? 128)) (zrange 256) = true)
    by (vm_compute; reflexivity).
  intros Hd. rewrite forallb_forall in H. specialize (H b (zrange_in 256 b Hd)).
  apply Bool.eqb_prop in H. exact H.
Qed.

Lemma sign_bit b : is_byte b -> negb (Z.land b 64 =? 0) = (64 <=? b mod 128).
Proof.
  assert (H : forallb (fun b => Bool.eqb (negb (Z.land b 64 =? 0)) (64 <=? b mod 128)) (zrange 256) = true)
    by (vm_compute; reflexivity).
  intros Hd. rewrite forallb_forall in H. specialize (H b (zrange_in 256 b Hd)).
  apply Bool.eqb_prop in H. exact H.
Qed.

Lemma lor64 b : 0 <= b < 64 -> Z.lor b 64 = b + 64.
Proof.
  assert (H : forallb (fun b => Z.lor b 64 =? b + 64) (zrange 64) = true) by (vm_compute; reflexivity).
  intros Hd. rewrite forallb_forall in H. specialize (H b (zrange_in 64 b Hd)). lia.
Qed.

Lemma flips_mark l : Forall digit l -> map flip_high (map_last flip_high l) = mark l.
Proof.
  induction l as [|x l IH]; [reflexivity|]. intros H. inversion H as [|? ? Hx Hl]; subst.
  destruct l as [|y l].
  - cbn [map_last map mark]. destruct (flip_high_digit x Hx) as [E1 E2]. rewrite E1, E2. reflexivity.
  - change (map_last flip_high (x :: y :: l)) with (x :: map_last flip_high (y :: l)).
    cbn [map]. rewrite (IH Hl). destruct (flip_high_digit x Hx) as [E1 _]. rewrite E1. reflexivity.
Qed.

Lemma radix_digits fuel z : Forall digit (radix_le_digits fuel z).
Proof.
  revert z; induction fuel as [|fuel IH]; intros z; cbn [radix_le_digits]; [constructor|].
  destruct (z =? 0); constructor; [|apply IH]. unfold digit. apply Z.mod_pos_bound; lia.
Qed.

Lemma to_radix_digits z : Forall digit (to_radix_le_128 z).
Proof.
  unfold to_radix_le_128. destruct (z =? 0); [constructor; [unfold digit; lia|constructor]|].
  apply radix_digits.
Qed.

Lemma pow128_succ f : 128 ^ Z.of_nat (S f) = 128 * 128 ^ Z.of_nat f.
Proof. rewrite Nat2Z.inj_succ, Z.pow_succ_r by lia. reflexivity. Qed.

Lemma fuel7_ok z : 0 <= z -> z < 128 ^ Z.of_nat (fuel7 z).
Proof.
  intros Hz. unfold fuel7. destruct (Z.eq_dec z 0) as [->|].
  - vm_compute. reflexivity.
  - pose proof (Z.log2_spec z ltac:(lia)) as [_ H].
    pose proof (Z.log2_nonneg z).
    rewrite Nat2Z.inj_succ, Z2Nat.id by lia.
    eapply Z.lt_le_trans; [exact H|]. apply Z.pow_le_mono_l; lia.
Qed.

Lemma mark_radix fuel z :
  0 < z -> z < 128 ^ Z.of_nat fuel ->
  radix_le_digits fuel z <> [] /\ mark (radix_le_digits fuel z) = groups7 fuel z.
Proof.
  revert z; induction fuel as [|fuel IH]; intros z H0 H.
  - cbn in H. lia.
  - cbn [radix_le_digits groups7]. destruct (Z.eqb_spec z 0); [lia|].
    split; [discriminate|].
    destruct (Z.ltb_spec z 128).
    + rewrite Z.div_small by lia. replace (radix_le_digits fuel 0) with (@nil byte)
        by (destruct fuel; reflexivity).
      cbn [mark]. rewrite Z.mod_small by lia. reflexivity.
    + rewrite pow128_succ in H.
      assert (Hq : 0 < z / 128) by (apply Z.div_str_pos; lia).
      assert (Hq' : z / 128 < 128 ^ Z.of_nat fuel) by (apply Z.div_lt_upper_bound; lia).
      destruct (IH _ Hq Hq') as [Hn E].
      destruct (radix_le_digits fuel (z / 128)) as [|d ds] eqn:Ed; [congruence|].
      change (mark (z mod 128 :: d :: ds)) with (z mod 128 + 128 :: mark (d :: ds)).
      rewrite E. reflexivity.
Qed.

Lemma to_radix_mark z : 0 <= z ->
  to_radix_le_128 z <> [] /\ mark (to_radix_le_128 z) = natural_format z.
Proof.
  intros Hz. unfold to_radix_le_128. destruct (Z.eqb_spec z 0) as [->|].
  - split; [discriminate|reflexivity].
  - apply mark_radix; [lia|]. apply (fuel7_ok z Hz).
Qed.

(** N::serialize writes the format. *)
Lemma n_serialize_format {E} z : 0 <= z -> @n_serialize E z = ROk (natural_format z).
Proof.
  intros Hz. unfold n_serialize. destruct (to_radix_mark z Hz) as [Hn Em].
  rewrite <- Em. rewrite <- flips_mark by apply to_radix_digits.
  destruct (to_radix_le_128 z); [congruence|reflexivity].
Qed.

Lemma groups7_ext f g z : 0 <= z -> z < 128 ^ Z.of_nat f -> z < 128 ^ Z.of_nat g -> f <> O -> g <> O ->
  groups7 f z = groups7 g z.
Proof.
  revert g z; induction f as [|f IH]; intros g z H0 Hf Hg Nf Ng; [congruence|].
  destruct g as [|g]; [congruence|]. cbn [groups7].
  destruct (Z.ltb_spec z 128); [reflexivity|]. f_equal.
  rewrite pow128_succ in Hf, Hg.
  assert (Hq' : z / 128 < 128 ^ Z.of_nat f) by (apply Z.div_lt_upper_bound; lia).
  assert (Hq'' : z / 128 < 128 ^ Z.of_nat g) by (apply Z.div_lt_upper_bound; lia).
  assert (0 < z / 128) by (apply Z.div_str_pos; lia).
  apply IH; try lia.
  - intros ->; cbn in Hq'; lia.
  - intros ->; cbn in Hq''; lia.
Qed.

(** The defining equation of the format. *)
Lemma natural_format_eq z : 0 <= z ->
  natural_format z = if z <? 128 then [z] else z mod 128 + 128 :: natural_format (z / 128).
Proof.
  intros Hz. unfold natural_format at 1. unfold fuel7. cbn [groups7].
  destruct (Z.ltb_spec z 128); [reflexivity|]. f_equal.
  assert (0 < z / 128) by (apply Z.div_str_pos; lia).
  unfold natural_format.
  pose proof (fuel7_ok z Hz) as Hf. unfold fuel7 in Hf. rewrite pow128_succ in Hf.
  assert (Hq' : z / 128 < 128 ^ Z.of_nat (Z.to_nat (Z.log2 z))) by (apply Z.div_lt_upper_bound; lia).
  apply groups7_ext; try lia.
  - apply fuel7_ok; lia.
  - intros E; rewrite E in Hq'; cbn in Hq'; lia.
  - unfold fuel7; discriminate.
Qed.

Lemma natural_ind (P : Z -> Prop) :
  (forall z, 0 <= z < 128 -> P z) ->
  (forall z, 128 <= z -> P (z / 128) -> P z) ->
  forall z, 0 <= z -> P z.
Proof.
  intros H1 H2 z Hz.
  refine (Z_lt_induction (fun z => 0 <= z -> P z) _ z Hz Hz).
  intros x IH Hx. destruct (Z.ltb_spec x 128); [apply H1; lia|].
  apply H2; [lia|]. assert (0 <= x / 128 < x) by (split; [apply Z.div_pos; lia|apply Z.div_lt; lia]).
  apply IH; lia.
Qed.

(** ** Reading *)
(** Bytes ending with the first byte below 128. *)
Fixpoint terminated (l : list byte) : bool :=
  match l with
  | [] => false
  | [b] => b <? 128
  | b :: l => (128 <=? b) && terminated l
  end.

(** The number held by the low seven bits, least significant first. *)
Definition nat_value (l : list byte) : Z := digits_value (map (fun b => b mod 128) l).

Lemma natural_format_props z : 0 <= z ->
  bytes_ok (natural_format z) /\ terminated (natural_format z) = true /\
  nat_value (natural_format z) = z /\ (zlen (natural_format z) = 1 \/ last (natural_format z) 0 <> 0).
Proof.
  revert z; apply natural_ind.
  - intros z Hz. rewrite natural_format_eq by lia. destruct (Z.ltb_spec z 128); [|lia].
    split; [constructor; [unfold is_byte; lia|constructor]|]. split; [cbn; lia|].
    split; [|left; reflexivity].
    unfold nat_value; cbn [map digits_value]. rewrite Z.mod_small by lia. lia.
  - intros z Hz (Hb & Ht & Hv & Hl). rewrite natural_format_eq by lia.
    destruct (Z.ltb_spec z 128); [lia|].
    assert (0 < z / 128) by (apply Z.div_str_pos; lia).
    pose proof (Z.mod_pos_bound z 128 ltac:(lia)).
    destruct (natural_format (z / 128)) as [|c l] eqn:El; [discriminate Ht|].
    split; [constructor; [unfold is_byte; lia|assumption]|].
    split.
    { change (terminated (z mod 128 + 128 :: c :: l)) with
        ((128 <=? z mod 128 + 128) && terminated (c :: l)). rewrite Ht. lia. }
    split.
    { unfold nat_value in *. cbn [map digits_value] in *. rewrite Hv.
      rewrite Zplus_mod, Z_mod_same_full, Z.add_0_r, !Z.mod_mod by lia.
      pose proof (Z.div_mod z 128). lia. }
    right. change (last (z mod 128 + 128 :: c :: l) 0) with (last (c :: l) 0).
    destruct Hl as [Hl|Hl]; [|exact Hl].
    destruct l; [|unfold zlen in Hl; cbn in Hl; lia].
    cbn [last]. unfold nat_value in Hv; cbn [map digits_value] in Hv.
    intros ->. change (0 mod 128) with 0 in Hv. lia.
Qed.

Lemma from_radix_low7 l : bytes_ok l ->
  from_radix_le_128 (map (fun b => Z.land b 127) l) = Some (nat_value l).
Proof.
  intros Hb. unfold from_radix_le_128, nat_value.
  replace (map (fun b => Z.land b 127) l) with (map (fun b => b mod 128) l).
  2:{ apply map_ext_in. intros b Hi. symmetry; apply land127.
      unfold bytes_ok in Hb; rewrite Forall_forall in Hb; auto. }
  replace (forallb _ _) with true; [reflexivity|]. symmetry. apply forallb_forall.
  intros d Hd. apply in_map_iff in Hd. destruct Hd as (b & <- & _).
  pose proof (Z.mod_pos_bound b 128 ltac:(lia)). lia.
Qed.

Lemma n_deserialize_value {E} l : bytes_ok l -> @n_deserialize E l = ROk (nat_value l).
Proof. intros H. unfold n_deserialize. rewrite from_radix_low7 by assumption. reflexivity. Qed.

Lemma nat_value_nonneg l : 0 <= nat_value l.
Proof.
  unfold nat_value; induction l as [|b l IH]; cbn [map digits_value]; [lia|].
  pose proof (Z.mod_pos_bound b 128 ltac:(lia)). lia.
Qed.

Lemma nat_value_cons b l : nat_value (b :: l) = b mod 128 + 128 * nat_value l.
Proof. reflexivity. Qed.

(** A terminated representation without a redundant last group is the format. *)
Lemma natural_unique l : bytes_ok l -> terminated l = true -> zlen l = 1 \/ last l 0 <> 0 ->
  natural_format (nat_value l) = l.
Proof.
  induction l as [|b l IH]; [discriminate|]. intros Hb Ht Hl.
  inversion Hb as [|? ? Hbb Hbl]; subst. unfold is_byte in Hbb.
  destruct l as [|c l].
  - cbn [terminated] in Ht. rewrite nat_value_cons.
    change (nat_value []) with 0. rewrite Z.mod_small by lia.
    rewrite natural_format_eq by lia. destruct (Z.ltb_spec (b + 128 * 0) 128); [|lia].
    f_equal; lia.
  - change (terminated (b :: c :: l)) with ((128 <=? b) && terminated (c :: l)) in Ht.
    apply andb_prop in Ht; destruct Ht as [Ht1 Ht2].
    destruct Hl as [Hl|Hl]; [unfold zlen in Hl; cbn in Hl; lia|].
    change (last (b :: c :: l) 0) with (last (c :: l) 0) in Hl.
    specialize (IH Hbl Ht2 (or_intror Hl)).
    assert (Hpos : 0 < nat_value (c :: l)).
    { pose proof (nat_value_nonneg (c :: l)).
      destruct (Z.eq_dec (nat_value (c :: l)) 0) as [E|]; [|lia]. exfalso.
      rewrite E in IH. change (natural_format 0) with [0] in IH. rewrite <- IH in Hl. apply Hl; reflexivity. }
    rewrite nat_value_cons. set (q := nat_value (c :: l)) in *.
    assert (Eb : b mod 128 = b - 128) by (symmetry; apply Z.mod_unique with 1; lia).
    rewrite Eb. rewrite natural_format_eq by lia.
    destruct (Z.ltb_spec (b - 128 + 128 * q) 128); [lia|].
    replace ((b - 128 + 128 * q) / 128) with q by (apply Z.div_unique with (b - 128); lia).
    replace ((b - 128 + 128 * q) mod 128) with (b - 128) by (apply Z.mod_unique with q; lia).
    rewrite IH. f_equal; lia.
Qed.

(** Any representation is at least as long as the format. *)
Lemma natural_shortest l : l <> [] -> zlen (natural_format (nat_value l)) <= zlen l.
Proof.
  induction l as [|b l IH]; [congruence|]. intros _.
  rewrite nat_value_cons. pose proof (Z.mod_pos_bound b 128 ltac:(lia)). pose proof (nat_value_nonneg l).
  rewrite natural_format_eq by lia.
  destruct (Z.ltb_spec (b mod 128 + 128 * nat_value l) 128).
  - rewrite !zlen_cons. pose proof (zlen_nonneg l). change (zlen []) with 0. lia.
  - replace ((b mod 128 + 128 * nat_value l) / 128) with (nat_value l)
      by (apply Z.div_unique with (b mod 128); lia).
    rewrite !zlen_cons. destruct l as [|c l]; [change (nat_value []) with 0 in *; lia|].
    specialize (IH ltac:(discriminate)). lia.
Qed.

(** ** Z *)
(** The integer held by a terminated byte string. *)
Definition int_value (l : list byte) : Z :=
  match l with
  | [] => 0
  | b :: l =>
      let a := b mod 64 + 64 * nat_value l in
      if 64 <=? b mod 128 then - a else a
  end.

Lemma z_deserialize_value {E} l : bytes_ok l -> l <> [] -> @z_deserialize E l = ROk (int_value l).
Proof.
  intros Hb Hn. destruct l as [|b l]; [congruence|]. inversion Hb as [|? ? Hbb Hbl]; subst.
  unfold z_deserialize, int_value. rewrite from_radix_low7, sign_bit, land63 by assumption.
  replace (Z.lor (Z.shiftl (nat_value l) 6) (b mod 64)) with (b mod 64 + 64 * nat_value l); [reflexivity|].
  symmetry. rewrite Z.shiftl_mul_pow2 by lia. change (2 ^ 6) with 64.
  assert (Hz : Z.land (nat_value l * 64) (b mod 64) = 0).
  { apply Z.bits_inj'. intros i Hi. rewrite Z.land_spec, Z.bits_0.
    destruct (Z.ltb_spec i 6).
    - change 64 with (2 ^ 6) at 1. rewrite Z.mul_pow2_bits_low by lia. reflexivity.
    - change 64 with (2 ^ 6). rewrite Z.mod_pow2_bits_high by lia. apply andb_false_r. }
  rewrite <- Z.lxor_lor, <- Z.add_nocarry_lxor by exact Hz. lia.
Qed.

Lemma radix_double a : 64 <= a ->
  map_first (fun b => Z.shiftr b 1) (to_radix_le_128 (Z.shiftl a 1)) = a mod 64 :: to_radix_le_128 (a / 64).
Proof.
  intros Ha. rewrite Z.shiftl_mul_pow2 by lia. change (2 ^ 1) with 2.
  assert (0 < a / 64) by (apply Z.div_str_pos; lia).
  unfold to_radix_le_128. destruct (Z.eqb_spec (a * 2) 0); [lia|].
  destruct (Z.eqb_spec (a / 64) 0); [lia|].
  cbn [radix_le_digits]. destruct (Z.eqb_spec (a * 2) 0); [lia|]. destruct (Z.eqb_spec (a / 64) 0); [lia|].
  cbn [map_first]. f_equal.
  - rewrite Z.shiftr_div_pow2 by lia. change (2 ^ 1) with 2.
    change 128 with (64 * 2). rewrite Z.mul_mod_distr_r by lia. rewrite Z.div_mul by lia. reflexivity.
  - replace (a * 2 / 128) with (a / 64)
      by (change 128 with (64 * 2); rewrite Z.div_mul_cancel_r by lia; reflexivity).
    set (q := a / 64) in *.
    assert (El : Z.log2 (a * 2) = Z.log2 a + 1) by (replace (a * 2) with (2 * a) by lia; rewrite Z.log2_double by lia; lia).
    assert (Eq : Z.log2 a = Z.log2 q + 6).
    { subst q. change 64 with (2 ^ 6). rewrite <- Z.shiftr_div_pow2, Z.log2_shiftr by lia.
      assert (6 <= Z.log2 a) by (change 6 with (Z.log2 64); apply Z.log2_le_mono; lia). lia. }
    pose proof (Z.log2_nonneg q).
    assert (Hext : forall f g z, 0 <= z -> z < 128 ^ Z.of_nat f -> z < 128 ^ Z.of_nat g ->
              radix_le_digits f z = radix_le_digits g z).
    { clear. induction f as [|f IH]; intros g z H0 Hf Hg.
      - cbn in Hf. replace z with 0 by lia. destruct g; reflexivity.
      - destruct g as [|g].
        + cbn in Hg. replace z with 0 by lia. reflexivity.
        + cbn [radix_le_digits]. destruct (Z.eqb_spec z 0); [reflexivity|]. f_equal.
          rewrite pow128_succ in Hf, Hg.
          apply IH; [apply Z.div_pos; lia| |]; apply Z.div_lt_upper_bound; lia. }
    rewrite (Hext (Z.to_nat (Z.log2 (a * 2))) (S (Z.to_nat (Z.log2 q))) q).
    + cbn [radix_le_digits]. destruct (Z.eqb_spec q 0); [lia|]. reflexivity.
    + lia.
    + eapply Z.lt_le_trans; [apply (fuel7_ok q); lia|].
      apply Z.pow_le_mono_r; [lia|]. unfold fuel7. lia.
    + apply (fuel7_ok q); lia.
Qed.

Lemma to_radix_small a : 0 <= a < 128 -> to_radix_le_128 a = [a].
Proof.
  intros Ha. unfold to_radix_le_128. destruct (Z.eqb_spec a 0) as [->|]; [reflexivity|].
  cbn [radix_le_digits]. destruct (Z.eqb_spec a 0); [lia|].
  rewrite Z.mod_small, Z.div_small by lia.
  destruct (Z.to_nat (Z.log2 a)); reflexivity.
Qed.

Lemma map_first_map_first {A} (f g : A -> A) l : map_first f (map_first g l) = map_first (fun x => f (g x)) l.
Proof. destruct l; reflexivity. Qed.

Lemma mark_cons x l : l <> [] -> mark (x :: l) = x + 128 :: mark l.
Proof. destruct l; [congruence|reflexivity]. Qed.

Lemma z_serialize_format {E} z : @z_serialize E z = ROk (integer_format z).
Proof.
  unfold z_serialize, integer_format. set (a := Z.abs z).
  assert (Ha : 0 <= a) by (subst a; lia).
  set (f := fun b => let b := Z.shiftr b 1 in if z <? 0 then Z.lor b 64 else b).
  set (g := fun b => if z <? 0 then Z.lor b 64 else b).
  set (sign := if z <? 0 then 64 else 0).
  assert (Hg : forall b, 0 <= b < 64 -> g b = sign + b).
  { intros b Hb. subst g sign. cbv beta. destruct (z <? 0); [rewrite lor64 by lia; lia|lia]. }
  assert (Hs : 0 <= sign <= 64) by (subst sign; destruct (z <? 0); lia).
  change (match to_radix_le_128 (Z.shiftl a 1) with
          | [] => RUB
          | ret => ROk (map flip_high (map_last flip_high (map_first f ret)))
          end = @ROk E _ (if a <? 64 then [sign + a] else 128 + sign + a mod 64 :: natural_format (a / 64))).
  destruct (Z.ltb_spec a 64).
  - assert (E1 : to_radix_le_128 (Z.shiftl a 1) = [a * 2]).
    { rewrite Z.shiftl_mul_pow2 by lia. apply to_radix_small. lia. }
    rewrite E1. cbn [map_first].
    assert (E2 : f (a * 2) = sign + a).
    { subst f; cbv beta zeta. rewrite Z.shiftr_div_pow2 by lia. change (2 ^ 1) with 2.
      rewrite Z.div_mul by lia. apply (Hg a); lia. }
    rewrite E2, flips_mark by (constructor; [unfold digit; lia|constructor]). reflexivity.
  - assert (E1 : map_first f (to_radix_le_128 (Z.shiftl a 1)) = sign + a mod 64 :: to_radix_le_128 (a / 64)).
    { change f with (fun b => g (Z.shiftr b 1)).
      rewrite <- map_first_map_first, radix_double by lia. cbn [map_first].
      pose proof (Z.mod_pos_bound a 64 ltac:(lia)). rewrite Hg by lia. reflexivity. }
    destruct (to_radix_le_128 (Z.shiftl a 1)) as [|d ds] eqn:Ed; [discriminate E1|].
    rewrite E1. pose proof (Z.mod_pos_bound a 64 ltac:(lia)).
    rewrite flips_mark by (constructor; [unfold digit; lia|apply to_radix_digits]).
    assert (Hq : 0 <= a / 64) by (apply Z.div_pos; lia).
    destruct (to_radix_mark _ Hq) as [Hn Em].
    rewrite mark_cons by exact Hn. rewrite Em. f_equal. f_equal. lia.
Qed.

Lemma terminated_cons b l : l <> [] -> terminated (b :: l) = (128 <=? b) && terminated l.
Proof. destruct l; [congruence|reflexivity]. Qed.

Lemma last_cons {A} (b : A) l d : l <> [] -> last (b :: l) d = last l d.
Proof. destruct l; [congruence|reflexivity]. Qed.

(** Neither a redundant last group nor a minus sign on zero. *)
Definition int_minimal (l : list byte) : Prop :=
  match l with
  | [b] => b <> 64
  | _ => last l 0 <> 0
  end.

Lemma integer_format_props z :
  bytes_ok (integer_format z) /\ terminated (integer_format z) = true /\
  int_value (integer_format z) = z /\ int_minimal (integer_format z).
Proof.
  unfold integer_format. set (sign := if z <? 0 then 64 else 0). set (a := Z.abs z).
  assert (Ha : 0 <= a) by (subst a; lia).
  assert (Hsg : (z < 0 /\ sign = 64) \/ (0 <= z /\ sign = 0)) by (subst sign; destruct (Z.ltb_spec z 0); lia).
  destruct (Z.ltb_spec a 64).
  - split; [constructor; [unfold is_byte; lia|constructor]|]. split; [cbn; lia|].
    split.
    + cbn [int_value]. change (nat_value []) with 0.
      rewrite (Z.mod_small (sign + a) 128) by lia.
      assert (E : (sign + a) mod 64 = a).
      { symmetry; apply Z.mod_unique with (sign / 64); [lia|].
        destruct Hsg as [[_ ->]|[_ ->]]; change (64 / 64) with 1; change (0 / 64) with 0; lia. }
      rewrite E. destruct (Z.leb_spec 64 (sign + a)); lia.
    + cbn [int_minimal]. lia.
  - assert (Hq : 0 < a / 64) by (apply Z.div_str_pos; lia).
    pose proof (Z.mod_pos_bound a 64 ltac:(lia)).
    destruct (natural_format_props (a / 64) ltac:(lia)) as (Hb & Ht & Hv & Hl).
    set (nf := natural_format (a / 64)) in *.
    assert (Hn : nf <> []) by (intros E; rewrite E in Ht; discriminate).
    split; [constructor; [unfold is_byte; lia|assumption]|].
    split; [rewrite terminated_cons, Ht by exact Hn; lia|].
    split.
    + cbn [int_value]. rewrite Hv.
      assert (E1 : (128 + sign + a mod 64) mod 128 = sign + a mod 64)
        by (symmetry; apply Z.mod_unique with 1; lia).
      assert (E2 : (128 + sign + a mod 64) mod 64 = a mod 64).
      { symmetry; apply Z.mod_unique with (2 + sign / 64); [lia|].
        destruct Hsg as [[_ ->]|[_ ->]]; change (64 / 64) with 1; change (0 / 64) with 0; lia. }
      rewrite E1, E2. pose proof (Z.div_mod a 64 ltac:(lia)).
      destruct (Z.leb_spec 64 (sign + a mod 64)); lia.
    + assert (Hne : last nf 0 <> 0).
      { destruct Hl as [Hl|Hl]; [|exact Hl].
        destruct nf as [|c [|]]; [congruence| |unfold zlen in Hl; cbn in Hl; lia].
        cbn [last]. intros ->. unfold nat_value in Hv; cbn in Hv. lia. }
      destruct nf as [|c l]; [congruence|].
      change (last (128 + sign + a mod 64 :: c :: l) 0 <> 0). rewrite last_cons by exact Hn. exact Hne.
Qed.

Lemma integer_unique l : bytes_ok l -> terminated l = true -> int_minimal l ->
  integer_format (int_value l) = l.
Proof.
  intros Hb Ht Hm. destruct l as [|b l]; [discriminate|].
  inversion Hb as [|? ? Hbb Hbl]; subst. unfold is_byte in Hbb.
  pose proof (Z.mod_pos_bound b 64 ltac:(lia)). pose proof (Z.mod_pos_bound b 128 ltac:(lia)).
  pose proof (nat_value_nonneg l).
  assert (E2 : b mod 64 = if 64 <=? b mod 128 then b mod 128 - 64 else b mod 128).
  { pose proof (Z.div_mod b 128 ltac:(lia)).
    destruct (Z.leb_spec 64 (b mod 128)).
    - symmetry; apply Z.mod_unique with (2 * (b / 128) + 1); lia.
    - symmetry; apply Z.mod_unique with (2 * (b / 128)); lia. }
  assert (Hcase : integer_format (int_value (b :: l)) =
    let sign := if 64 <=? b mod 128 then 64 else 0 in
    let a := b mod 64 + 64 * nat_value l in
    if a <? 64 then (if (a =? 0) then [0] else [sign + a])
    else (128 + sign + a mod 64) :: natural_format (a / 64)).
  { cbn [int_value]. cbv zeta. set (a := b mod 64 + 64 * nat_value l). unfold integer_format.
    destruct (Z.leb_spec 64 (b mod 128)).
    - replace (Z.abs (- a)) with a by lia. destruct (Z.eqb_spec a 0) as [E|].
      + rewrite E. reflexivity.
      + replace (- a <? 0) with true by lia. reflexivity.
    - replace (Z.abs a) with a by lia. replace (a <? 0) with false by lia.
      destruct (Z.eqb_spec a 0) as [E|]; [rewrite E|]; reflexivity. }
  rewrite Hcase; clear Hcase. cbv zeta.
  destruct l as [|c l].
  - cbn [terminated] in Ht. cbn [int_minimal] in Hm. change (nat_value []) with 0.
    rewrite (Z.mod_small b 128) in * by lia.
    destruct (Z.ltb_spec (b mod 64 + 64 * 0) 64); [|lia].
    rewrite E2. destruct (Z.leb_spec 64 b).
    + destruct (Z.eqb_spec (b - 64 + 64 * 0) 0); [lia|]. f_equal; lia.
    + destruct (Z.eqb_spec (b + 64 * 0) 0); [|]; f_equal; lia.
  - rewrite terminated_cons in Ht by discriminate. apply andb_prop in Ht; destruct Ht as [Ht1 Ht2].
    assert (Hm' : last (c :: l) 0 <> 0) by exact Hm.
    pose proof (natural_unique (c :: l) Hbl Ht2 (or_intror Hm')) as HU.
    assert (Hpos : 0 < nat_value (c :: l)).
    { destruct (Z.eq_dec (nat_value (c :: l)) 0) as [E|]; [|lia]. exfalso.
      rewrite E in HU. change (natural_format 0) with [0] in HU. rewrite <- HU in Hm'. apply Hm'; reflexivity. }
    set (q := nat_value (c :: l)) in *.
    destruct (Z.ltb_spec (b mod 64 + 64 * q) 64); [lia|].
    replace ((b mod 64 + 64 * q) / 64) with q by (apply Z.div_unique with (b mod 64); lia).
    replace ((b mod 64 + 64 * q) mod 64) with (b mod 64) by (apply Z.mod_unique with q; lia).
    rewrite HU. f_equal.
    assert (Eb : b mod 128 = b - 128) by (symmetry; apply Z.mod_unique with 1; lia).
    rewrite E2, Eb. destruct (Z.leb_spec 64 (b - 128)); lia.
Qed.

Lemma integer_shortest l : l <> [] -> zlen (integer_format (int_value l)) <= zlen l.
Proof.
  destruct l as [|b l]; [congruence|]. intros _. cbn [int_value].
  pose proof (Z.mod_pos_bound b 64 ltac:(lia)). pose proof (nat_value_nonneg l).
  set (a := b mod 64 + 64 * nat_value l).
  assert (Hz : Z.abs (if 64 <=? b mod 128 then - a else a) = a) by (destruct (64 <=? b mod 128); lia).
  unfold integer_format. rewrite Hz.
  destruct (Z.ltb_spec a 64).
  - rewrite !zlen_cons. pose proof (zlen_nonneg l). change (zlen []) with 0. lia.
  - rewrite !zlen_cons. subst a.
    replace ((b mod 64 + 64 * nat_value l) / 64) with (nat_value l)
      by (apply Z.div_unique with (b mod 64); lia).
    destruct l as [|c l]; [change (nat_value []) with 0 in *; lia|].
    pose proof (natural_shortest (c :: l) ltac:(discriminate)). lia.
Qed.
