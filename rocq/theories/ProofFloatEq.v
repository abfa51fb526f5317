(** Equality of values with floating-point numbers in them. *)
From Verif Require Import Base BaseLemmas ModelErrors ModelInt ModelFloat ModelSchema ModelHexString ModelTarget ModelBuilder ModelHex ModelInput ModelCompare ModelCheck.
From Verif Require Import SpecCodec SpecNum SpecHex SpecInput SpecHexString SpecCompare SpecCheck ProofCodec ProofInt ProofNum ProofHex ProofHexString ProofFloat ProofSettle
  ProofCodecProps ProofCodecThms ProofEncBytes ProofEncValid ProofGrammar ProofInput ProofCompare ProofOrder ProofCheck.

(** The magnitude of a pattern without its sign. *)
Definition magn (m : Z) : Z := let e := m / 2 ^ 52 in let f := m mod 2 ^ 52 in if e =? 0 then f else (2 ^ 52 + f) * 2 ^ (e - 1).
Lemma magn_lt m m' : 0 <= m < m' -> magn m < magn m'.
Proof.
  intros H. unfold magn. cbv zeta.
  pose proof (Z.div_mod m (2 ^ 52) ltac:(lia)) as D1. pose proof (Z.div_mod m' (2 ^ 52) ltac:(lia)) as D2.
  pose proof (Z.mod_pos_bound m (2 ^ 52) ltac:(lia)) as B1. pose proof (Z.mod_pos_bound m' (2 ^ 52) ltac:(lia)) as B2.
  assert (E1 : 0 <= m / 2 ^ 52) by (apply Z.div_pos; lia).
  assert (E2 : m / 2 ^ 52 <= m' / 2 ^ 52) by (apply Z.div_le_mono; lia).
  set (e := m / 2 ^ 52) in *. set (e' := m' / 2 ^ 52) in *. set (f := m mod 2 ^ 52) in *. set (f' := m' mod 2 ^ 52) in *. clearbody e e' f f'.
  destruct (Z.eqb_spec e 0) as [->|N]; destruct (Z.eqb_spec e' 0) as [->|N'].
  - lia.
  - assert (P : 0 < 2 ^ (e' - 1)) by (apply Z.pow_pos_nonneg; lia). nia.
  - lia.
  - destruct (Z.eq_dec e e') as [<-|Ne].
    + assert (P : 0 < 2 ^ (e - 1)) by (apply Z.pow_pos_nonneg; lia). apply Z.mul_lt_mono_pos_r; lia.
    + assert (P : 0 < 2 ^ (e - 1)) by (apply Z.pow_pos_nonneg; lia).
      assert (L : 2 * 2 ^ (e - 1) <= 2 ^ (e' - 1)).
      { change 2 with (2 ^ 1) at 1. rewrite <- Z.pow_add_r by lia. apply Z.pow_le_mono_r; lia. }
      set (X := 2 ^ (e - 1)) in *. set (Y := 2 ^ (e' - 1)) in *. clearbody X Y. nia.
Qed.
Lemma f64_value_magn b : 0 <= b < 2 ^ 64 -> f64_value b = if b <? 2 ^ 63 then magn b else - magn (b - 2 ^ 63).
Proof.
  intros H. unfold f64_value, magn. cbv zeta. destruct (Z.ltb_spec b (2 ^ 63)).
  - rewrite (Z.mod_small (b / 2 ^ 52)) by (split; [apply Z.div_pos; lia|apply Z.div_lt_upper_bound; lia]). lia.
  - assert (E : b / 2 ^ 52 = (b - 2 ^ 63) / 2 ^ 52 + 1 * 2048).
    { replace b with (b - 2 ^ 63 + 2048 * 2 ^ 52) at 1 by lia. rewrite Z.div_add by lia. lia. }
    assert (M : b mod 2 ^ 52 = (b - 2 ^ 63) mod 2 ^ 52).
    { replace b with (b - 2 ^ 63 + 2048 * 2 ^ 52) at 1 by lia. rewrite Z.mod_add by lia. reflexivity. }
    rewrite E, Z.mod_add, M by lia.
    rewrite (Z.mod_small ((b - 2 ^ 63) / 2 ^ 52)) by (split; [apply Z.div_pos; lia|apply Z.div_lt_upper_bound; lia]). lia.
Qed.
Lemma f64_value_eq a b : 0 <= a < 2 ^ 64 -> 0 <= b < 2 ^ 64 -> f64_value a = f64_value b <-> positive_zero a = positive_zero b.
Proof.
  intros Ha Hb. rewrite !f64_value_magn by assumption. unfold positive_zero.
  assert (M0 : magn 0 = 0) by reflexivity.
  assert (P : forall m, 0 < m -> 0 < magn m) by (intros m Hm; rewrite <- M0 at 1; apply magn_lt; lia).
  assert (I : forall m m', 0 <= m -> 0 <= m' -> magn m = magn m' -> m = m').
  { intros m m' Hm Hm' E. destruct (Z.lt_trichotomy m m') as [L|[L|L]]; [|exact L|].
    - pose proof (magn_lt m m' ltac:(lia)). lia.
    - pose proof (magn_lt m' m ltac:(lia)). lia. }
  assert (N : forall m, 0 <= m -> 0 <= magn m) by (intros m Hm; destruct (Z.eq_dec m 0) as [->|]; [rewrite M0; lia|pose proof (P m ltac:(lia)); lia]).
  destruct (Z.ltb_spec a (2 ^ 63)); destruct (Z.ltb_spec b (2 ^ 63)).
  - replace (a =? 2 ^ 63) with false by lia. replace (b =? 2 ^ 63) with false by lia. split; [apply I; lia|intros ->; reflexivity].
  - replace (a =? 2 ^ 63) with false by lia. destruct (Z.eqb_spec b (2 ^ 63)) as [->|].
    + rewrite Z.sub_diag, M0. split; [intros E; apply I; lia|intros ->; rewrite M0; reflexivity].
    + pose proof (P (b - 2 ^ 63) ltac:(lia)). pose proof (N a ltac:(lia)). split; intros; lia.
  - replace (b =? 2 ^ 63) with false by lia. destruct (Z.eqb_spec a (2 ^ 63)) as [->|].
    + rewrite Z.sub_diag, M0. split; [intros E; symmetry; apply I; lia|intros <-; rewrite M0; reflexivity].
    + pose proof (P (a - 2 ^ 63) ltac:(lia)). pose proof (N b ltac:(lia)). split; intros; lia.
  - transitivity (a = b).
    + split; [intros E; pose proof (I (a - 2 ^ 63) (b - 2 ^ 63) ltac:(lia) ltac:(lia) ltac:(lia)); lia|intros ->; reflexivity].
    + split; [intros ->; reflexivity|]. destruct (Z.eqb_spec a (2 ^ 63)); destruct (Z.eqb_spec b (2 ^ 63)); lia.
Qed.

Section Floats.
Variable D : list def.
Definition alike (t : ty) (v w : val) : Prop :=
  every_float D f64_number v t = true /\ every_float D f64_number w t = true /\ on_floats D positive_zero v t = on_floats D positive_zero w t.

Lemma alike_seq t vs ws : 
  Forall (fun v => forall w t, well_typed D v t = true -> well_typed D w t = true -> same D t v w <-> alike t v w) vs ->
  forallb (fun v => well_typed D v t) vs = true -> forallb (fun v => well_typed D v t) ws = true ->
  Forall2 (same D t) vs ws <->
  forallb (fun v => every_float D f64_number v t) vs = true /\ forallb (fun v => every_float D f64_number v t) ws = true /\
  map (fun v => on_floats D positive_zero v t) vs = map (fun v => on_floats D positive_zero v t) ws.
Proof.
  intros F. revert ws. induction F as [|v vs Hv F IH]; intros [|w ws] H1 H2; cbn [forallb map] in *.
  - split; auto.
  - split; [intros K; inversion K|intros (_ & _ & K); discriminate].
  - split; [intros K; inversion K|intros (_ & _ & K); discriminate].
  - apply andb_prop in H1, H2. destruct H1 as [A1 B1], H2 as [A2 B2]. specialize (IH ws B1 B2). specialize (Hv w t A1 A2). unfold alike in Hv.
    rewrite !andb_true_iff. split.
    + intros K; inversion K; subst. apply Hv in H2. apply IH in H4. destruct H2 as (? & ? & ->), H4 as (? & ? & ->). auto.
    + intros ((? & ?) & (? & ?) & E). injection E as E1 E2. constructor; [apply Hv; auto|apply IH; auto].
Qed.
Lemma alike_members ts vs ws : 
  Forall (fun v => forall w t, well_typed D v t = true -> well_typed D w t = true -> same D t v w <-> alike t v w) vs ->
  all2 (well_typed D) vs ts = true -> all2 (well_typed D) ws ts = true ->
  same_members D ts vs ws <->
  all_members (every_float D f64_number) vs ts = true /\ all_members (every_float D f64_number) ws ts = true /\
  map_members (on_floats D positive_zero) vs ts = map_members (on_floats D positive_zero) ws ts.
Proof.
  intros F. revert ws ts. induction F as [|v vs Hv F IH]; intros [|w ws] [|t ts] H1 H2; cbn [all2 all_members map_members] in *; try discriminate.
  - split; auto. intros _. constructor.
  - apply andb_prop in H1, H2. destruct H1 as [A1 B1], H2 as [A2 B2]. specialize (IH ws ts B1 B2). specialize (Hv w t A1 A2). unfold alike in Hv.
    rewrite !andb_true_iff. split.
    + intros K; inversion K as [|? ? ? ? ? ? K1 K2]; subst. apply Hv in K1. apply IH in K2. destruct K1 as (? & ? & ->), K2 as (? & ? & ->). auto.
    + intros ((? & ?) & (? & ?) & E). injection E as E1 E2. constructor; [apply Hv; auto|apply IH; auto].
Qed.

Lemma alike_same : forall v w t, well_typed D v t = true -> well_typed D w t = true -> same D t v w <-> alike t v w.
Proof.
  induction v as [|b|z|bs| |v IHv|vs IHvs|vs IHvs|ix vs IHvs|v IHv] using val_ind'; intros w t Hv Hw;
    destruct t; try discriminate Hv; destruct w; try discriminate Hw;
    unfold well_typed in Hv, Hw; cbn [valid_gen] in Hv, Hw; fold (well_typed D) in Hv, Hw.
  all: try (destruct (nth_error D i) as [[ts|k tags|k alts]|] eqn:EN; try discriminate Hv; try discriminate Hw).
  all: repeat (match goal with H : _ && _ = true |- _ => apply andb_prop in H; destruct H end).
  all: unfold alike; cbn [every_float on_floats optional_of element_of payload_of is_float].
  all: try (split; [intros K; inversion K; subst; try discriminate; auto|intros (_ & _ & K); try discriminate; injection K as <-; constructor; reflexivity]; fail).
  all: try (split; [intros K; inversion K|intros (_ & _ & K); discriminate]; fail).
  all: try (split; [intros K; inversion K; subst; try discriminate; auto|intros (_ & _ & K); econstructor; reflexivity]; fail).
  all: try (match goal with |- same D ?t (VInt ?a) (VInt ?b) <-> _ =>
     split; [intros K; inversion K; subst; try discriminate|intros (K1 & K2 & K); apply same_float; auto];
     [split; [assumption|]; split; [assumption|]; f_equal; apply f64_value_eq; unfold is_u64 in *; lia
     |injection K as K; apply f64_value_eq; unfold is_u64 in *; lia] end).
  all: try (match goal with |- same D ?t (VSome ?a) (VSome ?b) <-> _ => 
     destruct (less_some_iff D t _ a b eq_refl) as [_ L]; rewrite <- L, IHv by assumption; unfold alike; split; intros (K1 & K2 & K); (split; [exact K1|split; [exact K2|]]); congruence end).
  all: try (match goal with |- same D ?t (VWrap ?a) (VWrap ?b) <-> _ => 
     destruct (less_wrap_iff D t _ a b eq_refl) as [_ L]; rewrite <- L, IHv by assumption; unfold alike; split; intros (K1 & K2 & K); (split; [exact K1|split; [exact K2|]]); congruence end).
  all: try (match goal with |- same D ?t (VSeq ?a) (VSeq ?b) <-> _ => 
     rewrite (same_seq_iff D t _ a b eq_refl), alike_seq by assumption; split; intros (K1 & K2 & K); (split; [exact K1|split; [exact K2|]]); congruence end).
  - rewrite EN. match goal with |- same D _ _ (VStruct ?l) <-> _ => rename l into ws end.
    transitivity (same_members D ts vs ws).
    + split; [intros K; inversion K; subst; congruence|intros; econstructor; eassumption].
    + rewrite alike_members by assumption. split; intros (K1 & K2 & K); (split; [exact K1|split; [exact K2|]]); congruence.
  - rewrite EN. match goal with |- same D _ _ (VEnum ?j ?l) <-> _ => rename l into ws; rename j into jx end.
    destruct vs; [|discriminate Hv]. destruct ws; [|discriminate Hw]. split.
    + intros K; inversion K; subst; auto.
    + intros (_ & _ & K). injection K as <-. eapply same_cstyle; eassumption.
  - rewrite EN. match goal with |- same D _ _ (VEnum ?j ?l) <-> _ => rename l into ws; rename j into jx end.
    destruct (nth_error alts ix) as [[n ts]|] eqn:EA; [|discriminate Hv].
    replace (nth ix alts (0, [])) with (n, ts) by (symmetry; apply nth_error_nth; exact EA). cbn [snd]. split.
    + intros K; inversion K; subst; [congruence|].
      assert (ts0 = ts) by congruence. subst ts0. rewrite EA in Hw.
      replace (nth jx alts (0, [])) with (n, ts) by (symmetry; apply nth_error_nth; exact EA). cbn [snd].
      match goal with M : same_members D ts vs ws |- _ => apply alike_members in M; [|assumption..]; destruct M as (K1 & K2 & K3) end.
      split; [exact K1|]. split; [exact K2|]. f_equal. exact K3.
    + intros (K1 & K2 & K). injection K as <- K. rewrite EA in Hw.
      replace (nth ix alts (0, [])) with (n, ts) in * by (symmetry; apply nth_error_nth; exact EA). cbn [snd] in *.
      eapply same_data; [eassumption|eassumption|]. apply alike_members; auto.
Qed.
End Floats.

Lemma val_eq_floats D v w t : wf_defs D = true -> well_typed D v t = true -> well_typed D w t = true ->
  val_eq D v w t = true <->
  every_float D f64_number v t = true /\ every_float D f64_number w t = true /\
  on_floats D positive_zero v t = on_floats D positive_zero w t.
Proof. intros W Hv Hw. rewrite (val_eq_same D v w t W Hv Hw). apply alike_same; assumption. Qed.

Lemma zeros_floats D f : forall v t, zeros D (on_floats D f v t) t = zeros D v t.
Proof.
  assert (Q : forall vs, Forall (fun v => forall t, zeros D (on_floats D f v t) t = zeros D v t) vs ->
    (forall t, fold_right Z.add 0 (map (fun v => zeros D v t) (map (fun v => on_floats D f v t) vs)) = fold_right Z.add 0 (map (fun v => zeros D v t) vs)) /\
    (forall ts, sum2 (zeros D) (map_members (on_floats D f) vs ts) ts = sum2 (zeros D) vs ts)).
  { induction 1 as [|v vs Hv Hvs [IH1 IH2]]; split; [reflexivity|reflexivity| |].
    - intros t. cbn [map fold_right]. rewrite Hv, IH1. reflexivity.
    - intros [|t ts]; [reflexivity|]. cbn [map_members sum2]. rewrite Hv, IH2. reflexivity. }
  induction v as [|b|z|bs| |v IHv|vs IHvs|vs IHvs|ix vs IHvs|v IHv] using val_ind'; intros t; destruct t; try reflexivity;
    cbn [on_floats optional_of element_of payload_of zeros]; try apply IHv; try apply (Q vs IHvs);
    destruct (nth_error D i) as [[ts|k tags|k alts]|] eqn:EN; cbn [zeros]; rewrite ?EN; try reflexivity; apply (Q vs IHvs).
Qed.
Lemma val_eq_zeros D v w t : wf_defs D = true -> well_typed D v t = true -> well_typed D w t = true -> val_eq D v w t = true ->
  zeros D v t = zeros D w t.
Proof.
  intros W Hv Hw E. apply val_eq_floats in E; [|assumption..]. destruct E as (_ & _ & E).
  rewrite <- (zeros_floats D positive_zero v t), <- (zeros_floats D positive_zero w t), E. reflexivity.
Qed.
Lemma hex_inj a b : bytes_ok a -> bytes_ok b -> hex_of_bytes a = hex_of_bytes b -> a = b.
Proof. intros Ha Hb E. apply hex_round_trip in Ha, Hb. congruence. Qed.

Lemma check_passes implicit cf D I kf t s v :
  wf_defs D = true -> disciplined D I = true -> wf_ty D t = true -> decodable I t = true -> well_typed D v t = true -> zlen s <= isize_max ->
  (cf_est_override cf = true -> zeros D v t = 0) ->
  check_gives implicit cf D kf t s v (ROk tt) <->
  exists bs, to_bytes cf D kf v t = ROk bs /\ s = hex_of_bytes bs /\ decode_gives implicit cf D t (SrcStr s) (ROk v) /\
    every_float D f64_number v t = true.
Proof.
  intros W HI Ht Hd Hv L Z.
  assert (NN : every_float D f64_number v t = true <-> val_eq D v v t = true) by (rewrite val_eq_floats by assumption; tauto).
  split.
  - intros [_ [f0 H]]. pose proof (H f0 (le_n _)) as H0. clear H. unfold check in H0.
    destruct (decode_from implicit cf D f0 t (SrcStr s)) as [v1| | | |] eqn:E1; cbn [rbind] in H0; try discriminate H0.
    unfold rassert in H0. destruct (val_eq D v1 v t) eqn:V1; cbn [rbind] in H0; try discriminate H0.
    destruct (strict_encode cf D kf v t) as [u| | | |] eqn:U; cbn [rbind] in H0; try discriminate H0.
    destruct (eq_seq Z.eqb (bd_into_hex bd_strict u) s) eqn:Es; cbn [rbind] in H0; try discriminate H0.
    destruct (decode_from implicit cf D f0 t (SrcVec (bd_into_vec bd_strict u))) as [v2| | | |] eqn:E2; cbn [rbind] in H0; try discriminate H0.
    destruct (val_eq D v2 v t) eqn:V2; cbn [rbind] in H0; try discriminate H0.
    destruct (strict_encode cf D kf v1 t) as [u1| | | |] eqn:U1; cbn [rbind] in H0; try discriminate H0.
    destruct (eq_seq Z.eqb (bd_into_hex bd_strict u1) s) eqn:Es1; cbn [rbind] in H0; try discriminate H0. clear H0.
    apply eq_seq_eq in Es, Es1. apply strict_bytes in U, U1. unfold bd_into_hex in Es, Es1. set (bs := bd_into_vec bd_strict u) in *. set (bs1 := bd_into_vec bd_strict u1) in *.
    assert (Lb : zlen bs <= isize_max) by (rewrite <- Es, hex_length in L; pose proof (zlen_nonneg bs); lia).
    assert (Lb1 : zlen bs1 <= isize_max) by (rewrite <- Es1, hex_length in L; pose proof (zlen_nonneg bs1); lia).
    assert (Hb : bytes_ok bs) by (destruct (to_bytes_format cf D kf W v t bs Ht Hv U Lb Z) as [-> _]; apply format_bytes; exact Hv).
    exists bs. split; [exact U|]. split; [symmetry; exact Es|].
    pose proof (decode_gives_at _ _ _ _ _ _ _ E1) as G. apply decode_at in E1.
    2: { destruct implicit; [exists bs; apply hex_stands; [exact Hb|cbn [text_of]; f_equal; symmetry; exact Es]|exists s; reflexivity]. }
    destruct E1 as (buf & Sb & Db).
    assert (K : bytes_ok buf /\ zlen buf <= isize_max).
    { destruct implicit.
      - assert (buf = bs) by (eapply stands_unique; [exact Sb|]; apply hex_stands; [exact Hb|cbn [text_of]; f_equal; symmetry; exact Es]).
        subst buf. auto.
      - cbn [stands_for] in Sb. subst buf. split; [|exact L]. rewrite <- Es. destruct (to_hex_spec bs Hb) as (_ & K & _). unfold bytes_ok. eapply Forall_impl; [|exact K]. unfold lower_hex, is_byte. intros; lia. }
    destruct K as [K1 K2]. pose proof (valid_only cf D t buf WByte v1 W Ht K1 K2 Db) as T1.
    assert (Z1 : cf_est_override cf = true -> zeros D v1 t = 0) by (rewrite (val_eq_zeros D v1 v t) by assumption; exact Z).
    assert (Hb1 : bytes_ok bs1) by (destruct (to_bytes_format cf D kf W v1 t bs1 Ht T1 U1 Lb1 Z1) as [-> _]; apply format_bytes; exact T1).
    assert (bs1 = bs) by (apply hex_inj; congruence).
    assert (v1 = v) by (eapply (encode_injective cf D I kf t v1 v bs); auto; congruence). subst v1.
    split; [exact G|]. apply NN. exact V1.
  - intros (bs & U & -> & G & V). apply NN in V. destruct (strict_of_bytes _ _ _ _ _ _ U) as (u & Eu & Ub).
    assert (Lb : zlen bs <= isize_max) by (rewrite hex_length in L; pose proof (zlen_nonneg bs); lia).
    destruct (decode_round_trip cf D I kf t v bs implicit (SrcVec bs) W HI Ht Hd Hv U Lb Z eq_refl) as [[_ [f1 G1]] _].
    destruct G as [_ [f2 G2]]. split; [discriminate|]. exists (Nat.max f1 f2). intros f Hf. unfold check.
    assert (S' : eq_seq Z.eqb (bd_into_hex bd_strict u) (hex_of_bytes bs) = true) by (apply eq_seq_eq; unfold bd_into_hex; rewrite Ub; reflexivity).
    rewrite G2 by lia. cbn [rbind]. rewrite V. cbn [rassert rbind]. rewrite Eu. cbn [rbind]. rewrite S'. cbn [rassert rbind].
    rewrite Ub, G1 by lia. cbn [rbind]. rewrite V. cbn [rassert rbind]. rewrite ?Eu. cbn [rbind]. rewrite ?S'. reflexivity.
Qed.
Lemma check_passes_hex cf D I kf t s v :
  wf_defs D = true -> disciplined D I = true -> wf_ty D t = true -> decodable I t = true -> well_typed D v t = true -> zlen s <= isize_max ->
  (cf_est_override cf = true -> zeros D v t = 0) ->
  check_gives true cf D kf t s v (ROk tt) <->
  every_float D f64_number v t = true /\ exists bs, to_bytes cf D kf v t = ROk bs /\ s = hex_of_bytes bs.
Proof.
  intros W HI Ht Hd Hv L Z. rewrite (check_passes true cf D I kf t s v W HI Ht Hd Hv L Z).
  split; [intros (bs & H1 & H2 & _ & H3); eauto|]. intros (F & bs & U & ->). exists bs. split; [exact U|]. split; [reflexivity|]. split; [|exact F].
  assert (Lb : zlen bs <= isize_max) by (rewrite hex_length in L; pose proof (zlen_nonneg bs); lia).
  assert (Hb : bytes_ok bs) by (destruct (to_bytes_format cf D kf W v t bs Ht Hv U Lb Z) as [-> _]; apply format_bytes; exact Hv).
  apply (decode_round_trip cf D I kf t v bs true (SrcStr (hex_of_bytes bs)) W HI Ht Hd Hv U Lb Z).
  apply hex_stands; [exact Hb|reflexivity].
Qed.
Lemma main_passes cf : main_gives true cf (ROk tt).
Proof.
  assert (K : forall s z, 0 <= z < 256 -> int_format U8 z = [z] -> s = hex_of_bytes [z] -> check_gives true cf [] 0 (TInt U8) s (VInt z) (ROk tt)).
  { intros s z Hz Hf ->. assert (Hk : ik_in U8 z = true) by (apply ProofInt.ik_in_spec; change (ik_min U8) with 0; change (ik_max U8) with 255; lia).
    apply (check_passes_hex cf [] [] 0 (TInt U8)); try reflexivity.
    - exact Hk.
    - rewrite hex_length. discriminate.
    - split; [reflexivity|]. exists [z]. split; [|reflexivity]. destruct (int_encode cf [] 0 U8 z Hk) as (E & _ & _). rewrite E, Hf. reflexivity. }
  destruct (K [102; 102] 255 ltac:(lia) eq_refl eq_refl) as [_ [f1 H1]]. destruct (K [52; 50] 66 ltac:(lia) eq_refl eq_refl) as [_ [f2 H2]].
  split; [discriminate|]. exists (Nat.max f1 f2). intros f Hf. unfold main. rewrite H1, H2 by lia. reflexivity.
Qed.
Lemma main_panics cf : main_gives false cf RPanic.
Proof.
  split; [discriminate|]. exists 3%nat. intros f Hf. do 3 (destruct f as [|f]; [lia|]).
  destruct cf as [[] [] [] [] [] []]; vm_compute; reflexivity.
Qed.

(** Encodings tell all values apart; equality does not tell apart the two zeros, and
    tells NaN apart from itself. *)
Lemma floats_kept D f p : (forall b, p b = true -> f b = b) -> forall v t, every_float D p v t = true -> on_floats D f v t = v.
Proof.
  intros P.
  assert (Q : forall vs, Forall (fun v => forall t, every_float D p v t = true -> on_floats D f v t = v) vs ->
    (forall t, forallb (fun v => every_float D p v t) vs = true -> map (fun v => on_floats D f v t) vs = vs) /\
    (forall ts, all_members (every_float D p) vs ts = true -> map_members (on_floats D f) vs ts = vs)).
  { induction 1 as [|v vs Hv Hvs [IH1 IH2]]; split; [reflexivity|reflexivity| |].
    - intros t H. cbn [forallb map] in *. apply andb_prop in H. destruct H. rewrite Hv, IH1 by assumption. reflexivity.
    - intros [|t ts] H; [reflexivity|]. cbn [map_members all_members] in *. apply andb_prop in H. destruct H. rewrite Hv, IH2 by assumption. reflexivity. }
  induction v as [|b|z|bs| |v IHv|vs IHvs|vs IHvs|ix vs IHvs|v IHv] using val_ind'; intros t; cbn [on_floats every_float]; try reflexivity.
  - destruct (is_float t); [intros H; f_equal; auto|reflexivity].
  - destruct (optional_of t); [intros H; f_equal; auto|reflexivity].
  - destruct (element_of t); [intros H; f_equal; apply (Q vs IHvs); auto|reflexivity].
  - destruct t; try reflexivity. destruct (nth_error D i) as [[ts|k tags|k alts]|]; try reflexivity. intros H; f_equal; apply (Q vs IHvs); auto.
  - destruct t; try reflexivity. destruct (nth_error D i) as [[ts|k tags|k alts]|]; try reflexivity. intros H; f_equal; apply (Q vs IHvs); auto.
  - destruct (payload_of t); [intros H; f_equal; auto|reflexivity].
Qed.
Lemma floats_weaken D (p q : Z -> bool) : (forall b, p b = true -> q b = true) -> forall v t, every_float D p v t = true -> every_float D q v t = true.
Proof.
  intros P.
  assert (Q : forall vs, Forall (fun v => forall t, every_float D p v t = true -> every_float D q v t = true) vs ->
    (forall t, forallb (fun v => every_float D p v t) vs = true -> forallb (fun v => every_float D q v t) vs = true) /\
    (forall ts, all_members (every_float D p) vs ts = true -> all_members (every_float D q) vs ts = true)).
  { induction 1 as [|v vs Hv Hvs [IH1 IH2]]; split; [reflexivity|reflexivity| |].
    - intros t H. cbn [forallb] in *. apply andb_prop in H. destruct H. rewrite Hv, IH1 by assumption. reflexivity.
    - intros [|t ts] H; [reflexivity|]. cbn [all_members] in *. apply andb_prop in H. destruct H. rewrite Hv, IH2 by assumption. reflexivity. }
  induction v as [|b|z|bs| |v IHv|vs IHvs|vs IHvs|ix vs IHvs|v IHv] using val_ind'; intros t; cbn [every_float]; try reflexivity.
  - destruct (is_float t); auto.
  - destruct (optional_of t); auto.
  - destruct (element_of t); auto. apply (Q vs IHvs).
  - destruct t; try reflexivity. destruct (nth_error D i) as [[ts|k tags|k alts]|]; try reflexivity. apply (Q vs IHvs).
  - destruct t; try reflexivity. destruct (nth_error D i) as [[ts|k tags|k alts]|]; try reflexivity. apply (Q vs IHvs).
  - destruct (payload_of t); auto.
Qed.
Lemma encoding_floats cf D I kf v w t bs bs' :
  wf_defs D = true -> disciplined D I = true -> wf_ty D t = true -> decodable I t = true ->
  well_typed D v t = true -> well_typed D w t = true ->
  to_bytes cf D kf v t = ROk bs -> to_bytes cf D kf w t = ROk bs' -> zlen bs <= isize_max ->
  (cf_est_override cf = true -> zeros D v t = 0 /\ zeros D w t = 0) ->
  (bs = bs' <-> v = w) /\
  (every_float D (fun b => f64_number b && negb (b =? 2 ^ 63)) v t = true ->
   every_float D (fun b => f64_number b && negb (b =? 2 ^ 63)) w t = true -> val_eq D v w t = true <-> bs = bs').
Proof.
  intros W HI Ht Hd Hv Hw E1 E2 L Z.
  assert (A : bs = bs' <-> v = w).
  { split; [|intros <-; congruence]. intros <-. exact (encode_injective cf D I kf t v w bs W HI Ht Hd Hv Hw E1 E2 L Z). }
  split; [exact A|]. intros F1 F2. rewrite A, val_eq_floats by assumption.
  assert (P : forall u, every_float D (fun b => f64_number b && negb (b =? 2 ^ 63)) u t = true -> on_floats D positive_zero u t = u).
  { intros u. apply floats_kept. intros b Hb. unfold positive_zero. destruct (b =? 2 ^ 63); [rewrite andb_false_r in Hb; discriminate|reflexivity]. }
  rewrite !P by assumption. split; [tauto|]. intros <-. split; [|split; [|reflexivity]];
    (eapply floats_weaken; [|exact F1]); intros b Hb; apply andb_prop in Hb; apply Hb.
Qed.
