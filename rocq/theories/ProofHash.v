(** Proofs about hashing (C73). *)
From Verif Require Import Base BaseLemmas ModelErrors ModelInt ModelSchema ModelUtf8 ModelCompare ModelHash.
From Verif Require Import SpecCodec SpecUtf8 SpecCompare SpecHash ProofCodec ProofInt ProofUtf8 ProofCompare ProofOrder ProofCheck.

(** [a] fed first and [b] fed first can only give the same bytes if they are the same. *)
Lemma app_same_len {A} (a b r r' : list A) : length a = length b -> a ++ r = b ++ r' -> a = b /\ r = r'.
Proof.
  revert b. induction a as [|x a IH]; intros [|y b] L E; try discriminate L; [auto|].
  cbn [app] in E. injection E as -> E. injection L as L. destruct (IH _ L E) as [-> ->]. auto.
Qed.

Lemma feed_int_cut k a b r r' : ik_in k a = true -> ik_in k b = true ->
  feed_int k a ++ r = feed_int k b ++ r' -> a = b /\ r = r'.
Proof.
  intros Ha Hb E. apply app_same_len in E.
  - destruct E as [E ->]. split; [|reflexivity]. unfold feed_int in E.
    apply (f_equal (@rev byte)) in E. rewrite !rev_involutive, !to_be_bytes_format in E.
    apply (f_equal (from_be_bytes k)) in E. rewrite !from_to_be_bytes in E by assumption. exact E.
  - unfold feed_int, to_be_bytes. rewrite !rev_length, !be_bytes_length. reflexivity.
Qed.
Lemma word_ok n : 0 <= n < usize_mod -> ik_in U64 n = true.
Proof. intros H. unfold ik_in. cbn. unfold usize_mod in H. lia. Qed.
Lemma feed_word_cut a b r r' : 0 <= a < usize_mod -> 0 <= b < usize_mod ->
  feed_word a ++ r = feed_word b ++ r' -> a = b /\ r = r'.
Proof. intros Ha Hb. apply feed_int_cut; apply word_ok; assumption. Qed.

(** Elements that can be cut off make lists of the same length that can. *)
Lemma elements_cut {A} (f : A -> list byte) : forall l l' r r',
  (forall a b r r', In a l -> In b l' -> f a ++ r = f b ++ r' -> a = b /\ r = r') -> length l = length l' ->
  concat (map f l) ++ r = concat (map f l') ++ r' -> l = l' /\ r = r'.
Proof.
  induction l as [|a l IH]; intros [|b l'] r r' H L E; try discriminate L; [auto|].
  cbn [map concat] in E. rewrite <- !app_assoc in E.
  apply H in E; [|left; reflexivity|left; reflexivity]. destruct E as [-> E].
  injection L as L. apply IH in E; [destruct E as [-> ->]; auto| |exact L].
  intros; apply H; [right; assumption|right; assumption|assumption].
Qed.
Lemma slice_cut {A} (f : A -> list byte) l l' r r' : zlen l < usize_mod -> zlen l' < usize_mod ->
  (forall a b r r', In a l -> In b l' -> f a ++ r = f b ++ r' -> a = b /\ r = r') ->
  feed_slice f l ++ r = feed_slice f l' ++ r' -> l = l' /\ r = r'.
Proof.
  intros Hl Hl' H E. unfold feed_slice in E. rewrite <- !app_assoc in E.
  pose proof (zlen_nonneg l). pose proof (zlen_nonneg l').
  apply feed_word_cut in E; [|lia|lia]. destruct E as [L E].
  apply elements_cut in E; [exact E|exact H|]. unfold zlen in L. lia.
Qed.

(** Digits. *)
Fixpoint digits_value (l : list Z) : Z := match l with [] => 0 | d :: l => d + 2 ^ 64 * digits_value l end.
Lemma big_digits_ok fuel : forall n, 0 <= n < 2 ^ (64 * Z.of_nat fuel) ->
  digits_value (big_digits fuel n) = n /\ Forall (fun d => 0 <= d < usize_mod) (big_digits fuel n) /\
  (length (big_digits fuel n) <= fuel)%nat.
Proof.
  induction fuel as [|fuel IH]; intros n Hn.
  - cbn in Hn. assert (n = 0) by lia. subst n. cbn. split; [reflexivity|]. split; [constructor|lia].
  - cbn [big_digits]. destruct (Z.leb_spec n 0) as [H|H].
    + assert (n = 0) by lia. subst n. split; [reflexivity|]. split; [constructor|cbn; lia].
    + destruct (IH (n / 2 ^ 64)) as (H1 & H2 & H3).
      { split; [apply Z.div_pos; lia|]. apply Z.div_lt_upper_bound; [lia|]. rewrite <- Z.pow_add_r by lia.
        replace (64 + 64 * Z.of_nat fuel) with (64 * Z.of_nat (S fuel)) by lia. lia. }
      cbn [digits_value length]. rewrite H1. split; [|split; [|lia]].
      * pose proof (Z.div_mod n (2 ^ 64)). lia.
      * constructor; [|exact H2]. change usize_mod with (2 ^ 64). apply Z.mod_pos_bound. lia.
Qed.
Lemma digits64_ok n : 0 <= n -> Z.log2 n / 64 + 1 < usize_mod ->
  digits_value (digits64 n) = n /\ Forall (fun d => 0 <= d < usize_mod) (digits64 n) /\ zlen (digits64 n) < usize_mod.
Proof.
  intros Hn Hd. unfold digits64. pose proof (Z.log2_nonneg n) as L.
  assert (Hq : 0 <= Z.log2 n / 64) by (apply Z.div_pos; lia).
  destruct (big_digits_ok (Z.to_nat (Z.log2 n / 64 + 1)) n) as (H1 & H2 & H3).
  - rewrite Z2Nat.id by lia. split; [lia|]. destruct (Z.eq_dec n 0) as [->|Hn0]; [apply Z.pow_pos_nonneg; lia|].
    pose proof (Z.log2_spec n ltac:(lia)) as [_ Hu]. eapply Z.lt_le_trans; [exact Hu|].
    apply Z.pow_le_mono_r; [lia|]. pose proof (Z.div_mod (Z.log2 n) 64). pose proof (Z.mod_pos_bound (Z.log2 n) 64). lia.
  - split; [exact H1|]. split; [exact H2|]. unfold zlen. lia.
Qed.
Lemma feed_nat_cut a b r r' : 0 <= a -> 0 <= b -> Z.log2 a / 64 + 1 < usize_mod -> Z.log2 b / 64 + 1 < usize_mod ->
  feed_nat a ++ r = feed_nat b ++ r' -> a = b /\ r = r'.
Proof.
  intros Ha Hb La Lb E. destruct (digits64_ok a Ha La) as (V & F & Z1), (digits64_ok b Hb Lb) as (V' & F' & Z2).
  unfold feed_nat in E. rewrite Forall_forall in F, F'.
  assert (C : forall d d' s s', In d (digits64 a) -> In d' (digits64 b) ->
    feed_word d ++ s = feed_word d' ++ s' -> d = d' /\ s = s')
    by (intros d d' s s' Hd Hd'; exact (feed_word_cut d d' s s' (F d Hd) (F' d' Hd'))).
  destruct (slice_cut feed_word _ _ r r' Z1 Z2 C E) as [E1 E2]. split; [|exact E2]. rewrite <- V, <- V', E1. reflexivity.
Qed.
Lemma feed_big_cut a b r r' : Z.log2 (Z.abs a) / 64 + 1 < usize_mod -> Z.log2 (Z.abs b) / 64 + 1 < usize_mod ->
  feed_big a ++ r = feed_big b ++ r' -> a = b /\ r = r'.
Proof.
  intros La Lb E. unfold feed_big in E.
  assert (U : 2 < usize_mod) by reflexivity.
  destruct (Z.ltb_spec a 0) as [Ha|Ha], (Z.ltb_spec b 0) as [Hb|Hb];
    try (destruct (Z.eqb_spec a 0) as [Ha0|Ha0]); try (destruct (Z.eqb_spec b 0) as [Hb0|Hb0]);
    rewrite <- ?app_assoc in E; apply feed_word_cut in E; try lia; destruct E as [E E']; try lia.
  - rewrite Z.abs_neq in La, Lb by lia. apply feed_nat_cut in E'; try lia; try assumption.
    destruct E' as [E1 E2]. split; [lia|exact E2].
  - split; [lia|exact E'].
  - rewrite Z.abs_eq in La, Lb by lia. apply feed_nat_cut in E'; try lia; try assumption.
Qed.

(** A string of characters has no byte 0xff. *)
Lemma encode_no_ff c : scalar c -> ~ In 255 (utf8_encode c).
Proof.
  unfold scalar, utf8_encode. intros H.
  repeat match goal with |- context [if ?b then _ else _] => destruct b eqn:? end; cbn [In];
    pose proof (Z.mod_pos_bound c 64); pose proof (Z.mod_pos_bound (c / 64) 64); pose proof (Z.mod_pos_bound (c / 4096) 64);
    intros K; repeat destruct K as [K|K]; try contradiction; try lia;
    match type of K with
    | 192 + _ = _ => assert (c / 64 < 32) by (apply Z.div_lt_upper_bound; lia); lia
    | 224 + _ = _ => assert (c / 4096 < 16) by (apply Z.div_lt_upper_bound; lia); lia
    | 240 + _ = _ => assert (c / 262144 < 8) by (apply Z.div_lt_upper_bound; lia); lia
    end.
Qed.
Lemma string_no_ff l : bytes_ok l -> utf8_valid l = true -> ~ In 255 l.
Proof.
  intros B H. apply utf8_valid_iff in H; [|exact B]. destruct H as (cs & F & ->). clear B.
  unfold utf8_string. induction F as [|c cs Hc F IH]; cbn [map concat]; [exact (fun K => K)|].
  rewrite in_app_iff. intros [K|K]; [exact (encode_no_ff c Hc K)|exact (IH K)].
Qed.
Lemma string_cut a : forall b r r', ~ In 255 a -> ~ In 255 b -> a ++ 255 :: r = b ++ 255 :: r' -> a = b /\ r = r'.
Proof.
  induction a as [|x a IH]; intros [|y b] r r' Ha Hb E; cbn [app] in E.
  - injection E as ->. auto.
  - injection E as E _. exfalso. apply Hb. left. auto.
  - injection E as E _. exfalso. apply Ha. left. auto.
  - injection E as E1 E2. subst y. apply IH in E2; [destruct E2 as [-> ->]; auto| |]; intros K; [apply Ha|apply Hb]; right; exact K.
Qed.

Section Feed.
Variable D : list def.
Hypothesis W : wf_defs D = true.
Hypothesis NF : forallb no_float_def D = true.

Definition cuts (v : val) : Prop := forall w t r r', no_float t = true ->
  well_typed D v t = true -> well_typed D w t = true -> holdable v = true -> holdable w = true ->
  feed D v t ++ r = feed D w t ++ r' -> v = w /\ r = r'.

Lemma fields_cut vs : Forall cuts vs -> forall ws ts r r', forallb no_float ts = true ->
  all2 (well_typed D) vs ts = true -> all2 (well_typed D) ws ts = true ->
  forallb holdable vs = true -> forallb holdable ws = true ->
  feed_fields (feed D) vs ts ++ r = feed_fields (feed D) ws ts ++ r' -> vs = ws /\ r = r'.
Proof.
  induction 1 as [|v vs Hv F IH]; intros [|w ws] [|t ts] r r' N T T' K K' E; try discriminate T; try discriminate T'.
  - cbn in E. auto.
  - cbn [feed_fields] in E. rewrite <- !app_assoc in E. cbn [forallb all2] in *.
    apply andb_prop in N, T, T', K, K'. destruct N, T, T', K, K'.
    apply Hv in E; try assumption. destruct E as [-> E]. apply IH in E; try assumption. destruct E as [-> ->]. auto.
Qed.
Lemma seq_cut vs : Forall cuts vs -> forall ws t r r', no_float t = true ->
  forallb (fun v => well_typed D v t) vs = true -> forallb (fun v => well_typed D v t) ws = true ->
  (zlen vs <? usize_mod) && forallb holdable vs = true -> (zlen ws <? usize_mod) && forallb holdable ws = true ->
  feed_slice (fun v => feed D v t) vs ++ r = feed_slice (fun v => feed D v t) ws ++ r' -> vs = ws /\ r = r'.
Proof.
  intros F ws t r r' N T T' K K' E. apply andb_prop in K, K'. destruct K as [K1 K2], K' as [K1' K2'].
  rewrite forallb_forall in T, T', K2, K2'. rewrite Forall_forall in F.
  apply slice_cut in E; [exact E|lia|lia|]. intros a b s s' Ha Hb. apply F; auto.
Qed.
Lemma bytes_cut a b r r' : forallb byteb a = true -> forallb byteb b = true -> zlen a < usize_mod -> zlen b < usize_mod ->
  feed_slice (feed_int U8) a ++ r = feed_slice (feed_int U8) b ++ r' -> a = b /\ r = r'.
Proof.
  intros Ha Hb La Lb E. rewrite forallb_forall in Ha, Hb. apply slice_cut in E; [exact E|exact La|exact Lb|].
  intros x y s s' Hx Hy. apply feed_int_cut; unfold ik_in; [apply Ha in Hx|apply Hb in Hy]; unfold byteb in *; cbn; lia.
Qed.

Lemma cstyle_tags i k tags : nth_error D i = Some (DCStyle k tags) -> nodupb tags = true /\ forallb (ik_in k) tags = true.
Proof.
  intros E. unfold wf_defs in W. rewrite forallb_forall in W. pose proof (W _ (nth_error_In _ _ E)) as H. cbn [wf_def] in H.
  apply andb_prop in H; destruct H as [H H2]. apply andb_prop in H; destruct H as [_ H1]. auto.
Qed.
Lemma data_tags i k alts : nth_error D i = Some (DData k alts) ->
  nodupb (map fst alts) = true /\ forallb (ik_in k) (map fst alts) = true.
Proof.
  intros E. unfold wf_defs in W. rewrite forallb_forall in W. pose proof (W _ (nth_error_In _ _ E)) as H. cbn [wf_def] in H.
  apply andb_prop in H; destruct H as [H _]. apply andb_prop in H; destruct H as [H H2]. apply andb_prop in H; destruct H as [_ H1]. auto.
Qed.

Lemma option_cut v : cuts v -> forall w t r r', no_float t = true -> well_typed D v t = true ->
  well_typed D w t = true -> holdable v = true -> holdable w = true ->
  (feed_word 1 ++ feed D v t) ++ r = (feed_word 1 ++ feed D w t) ++ r' -> VSome v = VSome w /\ r = r'.
Proof.
  intros C w t r r' N T T' K K' E. rewrite <- !app_assoc in E. apply app_inv_head in E.
  apply C in E; try assumption. destruct E as [-> ->]. auto.
Qed.
Lemma zero_one r r' : feed_word 0 ++ r <> feed_word 1 ++ r'.
Proof. intros E. discriminate E. Qed.

Lemma feed_cut : forall v, cuts v.
Proof.
  unfold cuts.
  induction v as [|b|z|bs| |v IHv|vs IHvs|vs IHvs|ix vs IHvs|v IHv] using val_ind'; intros w t r r' N T T' K K' E;
    destruct t; try discriminate N; try discriminate T; destruct w; try discriminate T';
    unfold well_typed in T, T'; cbn [valid_gen feed no_float holdable] in *;
    try (destruct (nth_error D i) as [[ts|k tags|k alts]|] eqn:EN; try discriminate T; try discriminate T').
  - cbn [app] in E. auto.
  - apply feed_int_cut in E; [|destruct b; reflexivity|destruct b0; reflexivity].
    destruct E as [E ->]. split; [|reflexivity]. destruct b, b0; try discriminate E; reflexivity.
  - apply feed_int_cut in E; try assumption. destruct E as [-> ->]. auto.
  - unfold ranged_ok in T, T'. apply andb_prop in T, T'. destruct T as [T _], T' as [T' _].
    apply feed_int_cut in E; try assumption. destruct E as [-> ->]. auto.
  - rewrite Z.abs_eq in K, K' by lia. apply feed_nat_cut in E; try lia. destruct E as [-> ->]. auto.
  - apply feed_big_cut in E; try lia. destruct E as [-> ->]. auto.
  - apply bytes_cut in E; try assumption; try (apply Z.ltb_lt; assumption). destruct E as [-> ->]. auto.
  - apply andb_prop in T, T'. destruct T as [T U], T' as [T' U'].
    rewrite <- !app_assoc in E. cbn [app] in E.
    apply string_cut in E; [destruct E as [-> ->]; auto|apply string_no_ff|apply string_no_ff]; try assumption;
      apply forallb_byteb; assumption.
  - apply andb_prop in T, T'. destruct T as [T _], T' as [T' _].
    apply bytes_cut in E; try assumption; try (apply Z.ltb_lt; assumption). destruct E as [-> ->]. auto.
  - apply andb_prop in T, T'. destruct T as [T _], T' as [T' _].
    apply bytes_cut in E; try assumption; try (apply Z.ltb_lt; assumption). destruct E as [-> ->]. auto.
  - apply app_inv_head in E. auto.
  - rewrite <- app_assoc in E. exfalso. exact (zero_one _ _ E).
  - apply app_inv_head in E. auto.
  - rewrite <- app_assoc in E. exfalso. exact (zero_one _ _ E).
  - rewrite <- app_assoc in E. exfalso. exact (zero_one _ _ (eq_sym E)).
  - apply option_cut in E; assumption.
  - rewrite <- app_assoc in E. exfalso. exact (zero_one _ _ (eq_sym E)).
  - apply option_cut in E; assumption.
  - apply (seq_cut _ IHvs) in E; try assumption. destruct E as [-> ->]. auto.
  - apply andb_prop in T, T'. destruct T as [T _], T' as [T' _].
    apply (seq_cut _ IHvs) in E; try assumption. destruct E as [-> ->]. auto.
  - apply andb_prop in T, T'. destruct T as [T _], T' as [T' _].
    apply (seq_cut _ IHvs) in E; try assumption. destruct E as [-> ->]. auto.
  - apply (fields_cut _ IHvs) in E; try assumption; [destruct E as [-> ->]; auto|].
    exact (no_float_members D NF _ _ EN).
  - destruct (cstyle_tags _ _ _ EN) as [U V]. destruct vs as [|? ?]; [|discriminate T].
    destruct vs0 as [|? ?]; [|discriminate T']. rewrite forallb_forall in V.
    apply Nat.ltb_lt in T, T'. apply feed_int_cut in E; [|apply V, nth_In, T|apply V, nth_In, T'].
    destruct E as [E ->]. apply nodupb_nth in E; [|exact U|exact T|exact T']. rewrite E. auto.
  - destruct (data_tags _ _ _ EN) as [U V]. rewrite forallb_forall in V.
    destruct (nth_error alts ix) as [[n ts]|] eqn:EA; [|discriminate T].
    destruct (nth_error alts ix0) as [[n' ts']|] eqn:EA'; [|discriminate T'].
    rewrite (nth_error_nth _ _ (0, []) EA), (nth_error_nth _ _ (0, []) EA'), <- !app_assoc in E.
    assert (I1 : nth_error (map fst alts) ix = Some n) by (rewrite nth_error_map, EA; reflexivity).
    assert (I2 : nth_error (map fst alts) ix0 = Some n') by (rewrite nth_error_map, EA'; reflexivity).
    apply feed_int_cut in E; [|apply V; eapply nth_error_In; exact I1|apply V; eapply nth_error_In; exact I2].
    destruct E as [<- E]. assert (X : ix = ix0).
    { apply (nodupb_nth _ U).
      - apply nth_error_Some. rewrite I1. discriminate.
      - apply nth_error_Some. rewrite I2. discriminate.
      - rewrite (nth_error_nth _ _ 0 I1), (nth_error_nth _ _ 0 I2). reflexivity. }
    subst ix0. rewrite EA in EA'. injection EA' as <-.
    apply (fields_cut _ IHvs) in E; try assumption; [destruct E as [-> ->]; auto|].
    exact (no_float_alts D NF _ _ _ _ _ _ EN EA).
  - apply andb_prop in T, T'. destruct T as [T _], T' as [T' _].
    apply IHv in E; try assumption. destruct E as [-> ->]. auto.
  - apply IHv in E; try assumption. destruct E as [-> ->]. auto.
  - apply IHv in E; try assumption. destruct E as [-> ->]. auto.
  - apply IHv in E; try assumption. destruct E as [-> ->]. auto.
Qed.

Lemma feed_prefix v w t r r' : no_float t = true -> well_typed D v t = true -> well_typed D w t = true ->
  holdable v = true -> holdable w = true -> feed D v t ++ r = feed D w t ++ r' -> v = w /\ r = r'.
Proof. intros N T T' K K'. exact (feed_cut v w t r r' N T T' K K'). Qed.

Lemma feed_equal v w t : no_float t = true -> well_typed D v t = true -> well_typed D w t = true ->
  val_eq D v w t = true -> feed D v t = feed D w t.
Proof.
  intros N T T' E. apply (val_eq_exact D v w t W NF N T T') in E. rewrite E. reflexivity.
Qed.
Lemma feed_only_equal v w t : no_float t = true -> well_typed D v t = true -> well_typed D w t = true ->
  holdable v = true -> holdable w = true -> feed D v t = feed D w t -> val_eq D v w t = true.
Proof.
  intros N T T' K K' E. apply (val_eq_exact D v w t W NF N T T').
  apply (feed_prefix v w t [] [] N T T' K K'). rewrite E. reflexivity.
Qed.
End Feed.

Lemma wrappers_transparent D t t' v w : payload_of t = Some t' ->
  feed D (VWrap v) t = feed D v t' /\ val_eq D (VWrap v) (VWrap w) t = val_eq D v w t' /\
  val_cmp D (VWrap v) (VWrap w) t = val_cmp D v w t'.
Proof. intros E. destruct t; try discriminate E; injection E as <-; repeat split. Qed.
