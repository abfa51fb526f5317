(** Counts are right for every value; encodable values produce the format. *)
From Verif Require Import Base BaseLemmas ModelErrors ModelSplitVec ModelParser ModelInt ModelFloat ModelZarith
  ModelUtf8 ModelTarget ModelSchema SpecCodec ProofInt ProofZarith ProofCodec ProofMeta ProofRoundTrip
  ProofEnc ProofEstimate.
From Coq Require Import ZifyBool.

Lemma lawful_memo : lawful tg_memo (fun u bs => sv_buffer u = bs).
Proof. split; cbn; intros; subst; auto. Qed.

(** Encodable values are values. *)
Lemma valid_typed D v : forall t, valid D v t = true -> well_typed D v t = true.
Proof.
  unfold valid, well_typed.
  assert (HA : forall vs, Forall (fun v => forall t, valid_gen true D v t = true -> valid_gen false D v t = true) vs ->
    forall ts, all2 (valid_gen true D) vs ts = true -> all2 (valid_gen false D) vs ts = true).
  { intros vs H. induction H as [|u vs Hu _ IH]; intros [|t ts] E; try discriminate E; [reflexivity|].
    cbn [all2] in *. apply andb_prop in E; destruct E as [E1 E2]. rewrite (Hu t E1). apply IH; exact E2. }
  assert (HB : forall t vs, Forall (fun v => forall t, valid_gen true D v t = true -> valid_gen false D v t = true) vs ->
    forallb (fun v => valid_gen true D v t) vs = true -> forallb (fun v => valid_gen false D v t) vs = true).
  { intros t vs H. induction H as [|u vs Hu _ IH]; intros E; [reflexivity|].
    cbn [forallb] in *. apply andb_prop in E; destruct E as [E1 E2]. rewrite (Hu t E1). apply IH; exact E2. }
  induction v as [| | | | |v IHv|vs IHvs|vs IHvs|ix vs IHvs|v IHv] using val_ind';
    intros t V; destruct t; try discriminate V; cbn [valid_gen] in *; auto.
  - apply andb_prop in V; destruct V as [V1 V2]. rewrite (HB t vs IHvs V1). exact V2.
  - apply andb_prop in V; destruct V as [V1 V2]. rewrite (HB t vs IHvs V1). exact V2.
  - destruct (nth_error D i) as [[ts|?|?]|]; auto.
  - destruct (nth_error D i) as [[ts|?|k alts]|]; auto. destruct (nth_error alts ix) as [[tag ts]|]; auto.
  - apply andb_prop in V; destruct V as [V1 V2]. rewrite (IHv t V1). reflexivity.
Qed.

Section EncV.
Variables (cf : config) (D : list def) (kf : nat).
Local Notation m := (cf_mode cf).

(** ** Counts *)
Definition cnt (r : pw) : Prop := forall n bs, r = ROk (n, bs) -> zlen bs < usize_mod -> n = zlen bs.

Lemma cnt_ok n bs : n = zlen bs -> cnt (ROk (n, bs)).
Proof. intros E n' bs' H _. injection H as <- <-. exact E. Qed.
Lemma cnt_err e : cnt (RErr e). Proof. intros n bs H; discriminate H. Qed.
Lemma cnt_panic : cnt RPanic. Proof. intros n bs H; discriminate H. Qed.
Lemma cnt_add a b : cnt a -> cnt b -> cnt (r_add cf a b).
Proof.
  intros Ha Hb n bs H L. unfold r_add in H.
  destruct a as [[n1 b1]| | | |]; try discriminate H. cbn [rbind] in H.
  destruct b as [[n2 b2]| | | |]; try discriminate H. cbn [rbind fst snd] in H.
  assert (L' : zlen b1 + zlen b2 < usize_mod).
  { destruct (uadd m n1 n2); try discriminate H. cbn [rbind] in H. injection H as <- <-. rewrite zlen_app in L. exact L. }
  pose proof (zlen_nonneg b1). pose proof (zlen_nonneg b2).
  rewrite (Ha n1 b1 eq_refl ltac:(lia)), (Hb n2 b2 eq_refl ltac:(lia)) in H.
  rewrite uadd_ok in H by lia. cbn [rbind] in H. injection H as <- <-. rewrite zlen_app. reflexivity.
Qed.
Lemma cnt_end a : cnt a -> cnt (r_end cf a).
Proof. intros H. apply cnt_add; [exact H|apply cnt_ok; reflexivity]. Qed.
Lemma cnt_put bs : cnt (r_put bs). Proof. apply cnt_ok; reflexivity. Qed.
Lemma cnt_bind {A} (r : wres A) f : (forall a, cnt (f a)) -> cnt (rbind r f).
Proof. intros H. destruct r; cbn [rbind]; try (intros ? ? E; discriminate E). apply H. Qed.
Lemma cnt_sum l : Forall cnt l -> forall acc n bs, r_sum cf acc l = ROk (n, bs) -> 0 <= acc ->
  acc + zlen bs < usize_mod -> n = acc + zlen bs.
Proof.
  induction 1 as [|w l Hw _ IH]; intros acc n bs H Ha L; cbn [r_sum] in H.
  - injection H as <- <-. change (zlen []) with 0. lia.
  - destruct w as [[n1 b1]| | | |]; try discriminate H. cbn [rbind fst snd] in H.
    destruct (uadd m acc n1) as [s| | | |] eqn:Eu; try discriminate H. cbn [rbind] in H.
    destruct (r_sum cf s l) as [[n2 b2]| | | |] eqn:Es; try discriminate H. cbn [rbind fst snd] in H.
    injection H as <- <-. rewrite zlen_app in *. pose proof (zlen_nonneg b1). pose proof (zlen_nonneg b2).
    rewrite (Hw n1 b1 eq_refl ltac:(lia)) in Eu. rewrite uadd_ok in Eu by lia. injection Eu as <-.
    rewrite (IH _ _ _ Es ltac:(lia) ltac:(lia)). lia.
Qed.
Lemma cnt_sum0 l : Forall cnt l -> cnt (r_sum cf 0 l).
Proof. intros H n bs E L. rewrite (cnt_sum l H 0 n bs E ltac:(lia) ltac:(lia)). reflexivity. Qed.
Lemma cnt_ranged k lo hi z : cnt (r_ranged cf k lo hi z).
Proof. apply cnt_bind. intros; apply cnt_end, cnt_end, cnt_put. Qed.
Lemma cnt_pref s lp : cnt (r_pref cf s lp).
Proof. destruct s; [apply cnt_end, cnt_put|apply cnt_end, cnt_put|apply cnt_ranged]. Qed.

Lemma map2_forall {A B C} (P : C -> Prop) (f : A -> B -> C) bad l :
  P bad -> Forall (fun a => forall b, P (f a b)) l -> forall l', Forall P (map2 f bad l l').
Proof. intros Hb H. induction H as [|a l Ha _ IH]; intros [|b l']; cbn [map2]; repeat constructor; auto. Qed.

Lemma cnt_wr v : forall t, cnt (wr cf D kf v t).
Proof.
  induction v as [| | | | |v IHv|vs IHvs|vs IHvs|ix vs IHvs|v IHv] using val_ind'; intros t;
    destruct t; cbn [wr]; try apply cnt_err;
    try (apply cnt_ok; reflexivity); try (apply cnt_end, cnt_put); try apply cnt_ranged;
    try (apply cnt_bind; intros; apply cnt_end, cnt_put); try apply IHv;
    try (destruct (nth_error D i) as [[| |]|]; apply cnt_err);
    try (apply cnt_end, cnt_sum0; apply Forall_map; eapply Forall_impl; [|exact IHvs]; intros; auto; fail).
  - apply cnt_end, cnt_add; [apply cnt_put|apply IHv].
  - apply cnt_end, IHv.
  - destruct (nth_error D i) as [[ts| |]|]; try apply cnt_err.
    apply cnt_end, cnt_sum0, map2_forall; [apply cnt_err|exact IHvs].
  - destruct (nth_error D i) as [[ts|k tags|k alts]|]; try apply cnt_err.
    + destruct vs; [|apply cnt_err]. destruct (nth_error tags ix); [apply cnt_end, cnt_put|apply cnt_err].
    + destruct (nth_error alts ix) as [[tag ts]|]; [|apply cnt_err].
      apply cnt_end, cnt_add; [apply cnt_end, cnt_put|].
      apply cnt_end, cnt_sum0, map2_forall; [apply cnt_err|exact IHvs].
  - apply cnt_bind; intros l. apply cnt_bind; intros _.
    destruct (pref_try_from cf s l); [|apply cnt_panic].
    apply cnt_bind; intros ll. apply cnt_bind; intros _.
    apply cnt_end, cnt_add; [apply cnt_pref|apply IHv].
  - apply cnt_end, cnt_add; [apply IHv|apply cnt_put].
Qed.

(** ** Encodable values *)
Hypothesis HD : wf_defs D = true.

(** The write succeeds with exactly [bs]; the alternative is an estimate that
    the compiler could not have evaluated ([RDiv], only with the override). *)
Definition puts (r : pw) (bs : list byte) : Prop :=
  r = ROk (zlen bs, bs) \/ (cf_est_override cf = true /\ r = RDiv).

Lemma puts_put bs : puts (r_put bs) bs. Proof. left; reflexivity. Qed.
Lemma puts_add a b x y : puts a x -> puts b y -> zlen (x ++ y) <= isize_max -> puts (r_add cf a b) (x ++ y).
Proof.
  intros [->|[E ->]] Hb L; [|right; auto]. destruct Hb as [->|[E ->]]; [|right; auto]. left.
  unfold r_add; cbn [rbind fst snd]. rewrite zlen_app in *. assert (isize_max < usize_mod) by reflexivity.
  rewrite uadd_ok by lia. reflexivity.
Qed.
Lemma puts_end a x : puts a x -> zlen x <= isize_max -> puts (r_end cf a) x.
Proof.
  intros H L. rewrite <- (app_nil_r x). apply puts_add; [exact H|left; reflexivity|]. rewrite app_nil_r; exact L.
Qed.
Lemma puts_sum l xs : Forall2 puts l xs -> forall acc, 0 <= acc -> acc + zlen (concat xs) <= isize_max ->
  r_sum cf acc l = ROk (acc + zlen (concat xs), concat xs) \/ (cf_est_override cf = true /\ r_sum cf acc l = RDiv).
Proof.
  induction 1 as [|w x l xs Hw _ IH]; intros acc Ha L; cbn [r_sum concat] in *.
  - left. change (zlen []) with 0. f_equal. f_equal. lia.
  - rewrite zlen_app in *. pose proof (zlen_nonneg x). pose proof (zlen_nonneg (concat xs)).
    assert (isize_max < usize_mod) by reflexivity.
    destruct Hw as [->|[E ->]]; [|right; auto]. cbn [rbind fst snd]. rewrite uadd_ok by lia. cbn [rbind].
    destruct (IH (acc + zlen x) ltac:(lia) ltac:(lia)) as [->|[E ->]]; [|right; auto].
    left. cbn [rbind fst snd]. f_equal. f_equal. lia.
Qed.
Lemma puts_sum0 l xs : Forall2 puts l xs -> zlen (concat xs) <= isize_max -> puts (r_sum cf 0 l) (concat xs).
Proof. intros H L. apply (puts_sum l xs H 0 ltac:(lia) L). Qed.
Lemma ik_len_isize k z : zlen (int_format k z) <= isize_max.
Proof. rewrite int_format_length. destruct k; discriminate. Qed.
Lemma puts_int k z : puts (r_end cf (r_put (to_be_bytes k z))) (int_format k z).
Proof. rewrite to_be_bytes_format. apply puts_end; [apply puts_put|apply ik_len_isize]. Qed.
Lemma puts_f64 z : is_u64 z = true -> puts (r_end cf (r_put (to_be_bytes U64 z))) (big_endian 8 z).
Proof.
  intros Hz. replace (big_endian 8 z) with (int_format U64 z); [apply puts_int|].
  unfold int_format. rewrite Z.mod_small; [reflexivity|]. unfold is_u64 in Hz. change (256 ^ ik_len U64) with (2 ^ 64). lia.
Qed.
Lemma puts_ranged k lo hi z : ri_sanity lo hi = true -> ranged_ok k lo hi z = true ->
  puts (r_ranged cf k lo hi z) (int_format k z).
Proof.
  intros Hs Hz. unfold r_ranged.
  assert (E : ri_to_underlying (cf_range_check cf) lo hi z = @ROk unit Z z).
  { unfold ri_to_underlying, ri_check. rewrite Hs. unfold ranged_ok in Hz. apply andb_prop in Hz; destruct Hz as [_ Hz].
    assert (R : restrict z lo hi = ROk z). { apply restrict_ok. destruct (0 <? lo); lia. }
    rewrite R. destruct (cf_range_check cf); reflexivity. }
  rewrite E; cbn [rbind]. apply puts_end; [apply puts_int|apply ik_len_isize].
Qed.
Lemma pref_ranged_ok n : 0 <= n <= u30_max -> ranged_ok U32 0 u30_max n = true.
Proof.
  intros Hn. unfold ranged_ok. apply andb_true_intro; split; [|cbn [Z.ltb Z.compare]; lia].
  apply ik_in_spec. change (ik_min U32) with 0. change (ik_max U32) with (2 ^ 32 - 1). unfold u30_max in Hn; lia.
Qed.
Lemma puts_pref s n : 0 <= n <= pref_max s -> puts (r_pref cf s n) (pref_format s n).
Proof.
  intros Hn. rewrite pref_format_int by assumption. destruct s; cbn [r_pref]; try apply puts_int.
  apply puts_ranged; [reflexivity|]. apply pref_ranged_ok; exact Hn.
Qed.
Lemma pref_len_ok s n : 0 <= n <= pref_max s -> pref_try_from cf s n = Some n.
Proof.
  intros Hn. destruct s; cbn [pref_try_from pref_max] in *.
  - unfold ik_try_from, ik_in. cbn [ik_min ik_max ik_signed ik_len]. destruct (_ && _) eqn:E; [reflexivity|].
    cbn in E. lia.
  - unfold ik_try_from, ik_in. destruct (_ && _) eqn:E; [reflexivity|]. cbn in E. lia.
  - unfold ri_try_from. assert (R : restrict n 0 u30_max = ROk n). { apply restrict_ok. cbn [Z.ltb Z.compare]. exact Hn. }
    rewrite R. unfold ri_from_numeric_unchecked. cbn [Z.leb Z.compare]. unfold ik_try_from.
    assert (Hi : ik_in U32 n = true). { pose proof (pref_ranged_ok n Hn) as H. unfold ranged_ok in H. apply andb_prop in H. apply H. }
    rewrite Hi. reflexivity.
Qed.

Definition puts_val (v : val) : Prop := forall t, wf_ty D t = true -> valid D v t = true ->
  zlen (format D v t) <= isize_max -> (cf_est_override cf = true -> zeros D v t = 0) ->
  puts (wr cf D kf v t) (format D v t).

Lemma puts_fields vs : Forall puts_val vs -> forall ts, forallb (wf_ty D) ts = true -> all2 (valid D) vs ts = true ->
  zlen (concat2 (format D) vs ts) <= isize_max -> (cf_est_override cf = true -> sum2 (zeros D) vs ts = 0) ->
  puts (r_sum cf 0 (map2 (wr cf D kf) (RErr tt) vs ts)) (concat2 (format D) vs ts).
Proof.
  intros HF ts W V L Z0.
  assert (HX : exists xs, Forall2 puts (map2 (wr cf D kf) (RErr tt) vs ts) xs /\ concat xs = concat2 (format D) vs ts).
  { revert ts W V L Z0. induction HF as [|v vs Hv _ IH]; intros [|t ts] W V L Z0; try discriminate V.
    - exists []. split; [constructor|reflexivity].
    - cbn [forallb] in W. apply andb_prop in W; destruct W as [W1 W2].
      cbn [all2] in V. apply andb_prop in V; destruct V as [V1 V2].
      rewrite concat2_cons, zlen_app in L. rewrite sum2_cons in Z0.
      pose proof (zlen_nonneg (format D v t)). pose proof (zlen_nonneg (concat2 (format D) vs ts)).
      pose proof (zeros_nonneg D v t).
      assert (HZ : 0 <= sum2 (zeros D) vs ts).
      { clear. revert ts; induction vs as [|v vs IH]; intros [|t ts]; try (cbn [sum2]; lia).
        rewrite sum2_cons. pose proof (zeros_nonneg D v t). specialize (IH ts). lia. }
      destruct (IH ts W2 V2 ltac:(lia) ltac:(intros HO; specialize (Z0 HO); lia)) as (xs & F & E).
      exists (format D v t :: xs). split; [constructor; [|exact F]|cbn [concat]; rewrite E; reflexivity].
      apply Hv; [exact W1|exact V1|lia|intros HO; specialize (Z0 HO); lia]. }
  destruct HX as (xs & F & E). rewrite <- E in *. apply puts_sum0; assumption.
Qed.

Lemma puts_elems vs t : Forall puts_val vs -> wf_ty D t = true -> forallb (fun v => valid D v t) vs = true ->
  zlen (concat (map (fun v => format D v t) vs)) <= isize_max ->
  (cf_est_override cf = true -> fold_right Z.add 0 (map (fun v => zeros D v t) vs) = 0) ->
  puts (r_sum cf 0 (map (fun v => wr cf D kf v t) vs)) (concat (map (fun v => format D v t) vs)).
Proof.
  intros HF W V L Z0. apply puts_sum0; [|exact L].
  induction HF as [|v vs Hv _ IH]; cbn [map]; [constructor|].
  cbn [forallb] in V. apply andb_prop in V; destruct V as [V1 V2].
  cbn [map concat fold_right] in L, Z0. rewrite zlen_app in L.
  pose proof (zlen_nonneg (format D v t)). pose proof (zlen_nonneg (concat (map (fun v => format D v t) vs))).
  pose proof (zeros_nonneg D v t).
  assert (HZ : 0 <= fold_right Z.add 0 (map (fun v => zeros D v t) vs)).
  { clear. induction vs as [|v vs IH]; cbn [map fold_right]; [lia|]. pose proof (zeros_nonneg D v t). lia. }
  constructor.
  - apply Hv; [exact W|exact V1|lia|intros HO; specialize (Z0 HO); lia].
  - apply IH; [exact V2|lia|intros HO; specialize (Z0 HO); lia].
Qed.

Lemma puts_wr v : puts_val v.
Proof.
  induction v as [| | | | |v IHv|vs IHvs|vs IHvs|ix vs IHvs|v IHv] using val_ind';
    intros t W V L Z0; destruct t; try discriminate V;
    unfold valid in V; cbn [valid_gen] in V; cbn [wf_ty] in W;
    try (destruct (nth_error D i) as [[?|?|?]|] eqn:Ei; discriminate V);
    cbn [wr format zeros] in *; try apply puts_int;
    try (apply puts_end; [apply puts_put|exact L]).
  - left; reflexivity.
  - apply puts_ranged; assumption.
  - apply puts_f64; exact V.
  - apply puts_f64. apply andb_prop in V; destruct V as [V _]. apply andb_prop in V; destruct V as [V _]. exact V.
  - rewrite n_serialize_format by lia. cbn [rbind]. apply puts_end; [apply puts_put|exact L].
  - rewrite z_serialize_format. cbn [rbind]. apply puts_end; [apply puts_put|exact L].
  - left; reflexivity.
  - apply puts_end; [|exact L]. change (255 :: format D v t) with ([255] ++ format D v t) in *.
    rewrite zlen_app in L. change (zlen [255]) with 1 in L.
    apply puts_add; [apply puts_put|apply IHv; try assumption; lia|rewrite zlen_app; exact L].
  - apply puts_end; [|exact L]. apply IHv; assumption.
  - apply puts_end; [|exact L]. apply puts_elems; assumption.
  - apply andb_prop in W; destruct W as [W1 W]. apply andb_prop in V; destruct V as [V V2].
    apply puts_end; [|exact L]. apply puts_elems; assumption.
  - apply andb_prop in W; destruct W as [W1 W]. apply andb_prop in V; destruct V as [V V2].
    apply puts_end; [|exact L]. apply puts_elems; assumption.
  - destruct (nth_error D i) as [[ts|?|?]|] eqn:Ei; try discriminate V.
    apply puts_end; [|exact L]. apply puts_fields; try assumption. apply (wf_struct D i ts HD Ei).
  - destruct (nth_error D i) as [[ts|k tags|k alts]|] eqn:Ei; try discriminate V.
    + destruct vs; [|discriminate V]. destruct (nth_error tags ix) as [tag|] eqn:Et.
      * rewrite (nth_error_nth _ _ _ Et). apply puts_int.
      * apply nth_error_None in Et. apply Nat.ltb_lt in V. lia.
    + destruct (nth_error alts ix) as [[tag ts]|] eqn:Ea; [|discriminate V].
      rewrite (nth_error_nth _ _ _ Ea) in *. cbn [fst snd] in *.
      apply puts_end; [|exact L]. rewrite zlen_app in L.
      pose proof (zlen_nonneg (int_format k tag)). pose proof (zlen_nonneg (concat2 (format D) vs ts)).
      apply puts_add; [apply puts_int| |rewrite zlen_app; exact L].
      apply puts_end; [|lia]. apply puts_fields; try assumption; [|lia]. apply (wf_data D i k alts ix tag ts HD Ei Ea).
  - apply andb_prop in V; destruct V as [V V2]. cbn [implb] in V2.
    rewrite zlen_app in L. pose proof (zlen_nonneg (format D v t)) as P. rewrite pref_format_len in L.
    assert (0 <= pref_len s) by (destruct s; cbn; lia).
    pose proof (IHv t W V ltac:(lia) Z0) as Hv.
    assert (Hp : 0 <= zlen (format D v t) <= pref_max s) by lia.
    match goal with |- puts (rbind ?x _) _ =>
      assert (HL : x = ROk (zlen (format D v t)) \/ (cf_est_override cf = true /\ x = RDiv)) end.
    { destruct (cf_est_override cf) eqn:EO.
      - assert (HN : estimate cf D kf v t = RDiv \/ estimate cf D kf v t <> RDiv)
          by (destruct (estimate cf D kf v t); auto; right; discriminate).
        destruct HN as [HN|HN]; [right; auto|]. left.
        rewrite (estimate_format cf D kf HD v t W (valid_typed D v t V) ltac:(lia) HN). f_equal. specialize (Z0 eq_refl). lia.
      - left. destruct Hv as [->|[E _]]; [reflexivity|congruence]. }
    destruct HL as [->|[EO ->]]; [|right; auto]. cbn [rbind].
    unfold rassert. rewrite V2. cbn [rbind]. rewrite pref_len_ok by exact Hp.
    match goal with |- puts (rbind ?x _) _ => assert (HLL : x = ROk (pref_len s)) end.
    { destruct (cf_est_override cf) eqn:EO; [reflexivity|].
      destruct (puts_pref s _ Hp) as [->|[E _]]; [|congruence]. cbn [rmap fst]. rewrite pref_format_len. reflexivity. }
    rewrite HLL. cbn [rbind]. assert (isize_max < usize_mod - 8) by reflexivity.
    rewrite uadd_ok by lia. cbn [rbind].
    apply puts_end; [|rewrite zlen_app, pref_format_len; exact L].
    apply puts_add; [apply puts_pref; exact Hp|exact Hv|rewrite zlen_app, pref_format_len; exact L].
  - apply andb_prop in W; destruct W as [W1 W]. apply IHv; assumption.
  - apply andb_prop in W; destruct W as [W1 W]. apply puts_end; [|exact L].
    apply puts_add; [|apply puts_put|exact L]. rewrite zlen_app in L.
    pose proof (zlen_nonneg (repeat 0 (Z.to_nat n))). apply IHv; try assumption. unfold byte in *; lia.
  - apply IHv; assumption.
Qed.

(** ** Values with a payload too long for its prefix are refused *)
Definition bad (r : pw) : Prop := r = RPanic \/ (cf_est_override cf = true /\ r = RDiv).
Definition fate (ok : bool) (r : pw) (bs : list byte) : Prop := if ok then puts r bs else bad r.

Lemma bad_add_l a b : bad a -> bad (r_add cf a b).
Proof. intros [->|[E ->]]; [left; reflexivity|right; split; [exact E|reflexivity]]. Qed.
Lemma bad_add_r a b x : puts a x -> bad b -> bad (r_add cf a b).
Proof.
  intros [->|[E ->]] H; [|right; split; [exact E|reflexivity]].
  destruct H as [->|[E ->]]; [left; reflexivity|right; split; [exact E|reflexivity]].
Qed.
Lemma bad_end a : bad a -> bad (r_end cf a).
Proof. apply bad_add_l. Qed.

Definition fate_val (v : val) : Prop := forall t, wf_ty D t = true -> well_typed D v t = true ->
  zlen (format D v t) <= isize_max -> (cf_est_override cf = true -> zeros D v t = 0) ->
  fate (valid D v t) (wr cf D kf v t) (format D v t).

Lemma fate_unfit v : (forall t, wf_ty D t = true -> well_typed D v t = true ->
  zlen (format D v t) <= isize_max -> (cf_est_override cf = true -> zeros D v t = 0) ->
  valid D v t = false -> bad (wr cf D kf v t)) -> fate_val v.
Proof.
  intros H t W V L Z0. unfold fate. destruct (valid D v t) eqn:E; [apply puts_wr; assumption|apply H; assumption].
Qed.

Lemma sum2_nonneg vs : forall ts, 0 <= sum2 (zeros D) vs ts.
Proof.
  clear. induction vs as [|v vs IH]; intros [|t ts]; try (cbn [sum2]; lia).
  rewrite sum2_cons. pose proof (zeros_nonneg D v t). specialize (IH ts). lia.
Qed.
Lemma fold_zeros_nonneg vs t : 0 <= fold_right Z.add 0 (map (fun v => zeros D v t) vs).
Proof. clear. induction vs as [|v vs IH]; cbn [map fold_right]; [lia|]. pose proof (zeros_nonneg D v t). lia. Qed.

Lemma bad_fields vs : Forall fate_val vs -> forall ts acc, forallb (wf_ty D) ts = true -> all2 (well_typed D) vs ts = true ->
  zlen (concat2 (format D) vs ts) <= isize_max -> (cf_est_override cf = true -> sum2 (zeros D) vs ts = 0) ->
  all2 (valid D) vs ts = false -> bad (r_sum cf acc (map2 (wr cf D kf) (RErr tt) vs ts)).
Proof.
  induction 1 as [|v vs Hv _ IH]; intros [|t ts] acc W V L Z0 B; try discriminate V; [discriminate B|].
  cbn [forallb] in W. apply andb_prop in W; destruct W as [W1 W2].
  cbn [all2] in V, B. apply andb_prop in V; destruct V as [V1 V2].
  rewrite concat2_cons, zlen_app in L. rewrite sum2_cons in Z0.
  pose proof (zlen_nonneg (format D v t)). pose proof (zlen_nonneg (concat2 (format D) vs ts)).
  pose proof (zeros_nonneg D v t). pose proof (sum2_nonneg vs ts).
  specialize (Hv t W1 V1 ltac:(lia) ltac:(intros HO; specialize (Z0 HO); lia)).
  cbn [map2 r_sum]. destruct (valid D v t) eqn:Ev; cbn [fate] in Hv.
  - cbn [andb] in B. destruct Hv as [->|[E ->]]; [|right; split; [exact E|reflexivity]]. cbn [rbind fst snd].
    assert (IH' : forall acc, bad (r_sum cf acc (map2 (wr cf D kf) (RErr tt) vs ts)))
      by (intros acc'; apply IH; try assumption; [lia|intros HO; specialize (Z0 HO); lia]).
    unfold uadd. destruct (acc + zlen (format D v t) <? usize_mod); [|destruct m]; cbn [rbind]; [| left; reflexivity |].
    + destruct (IH' (acc + zlen (format D v t))) as [->|[E ->]]; [left; reflexivity|right; split; [exact E|reflexivity]].
    + destruct (IH' ((acc + zlen (format D v t)) mod usize_mod)) as [->|[E ->]]; [left; reflexivity|right; split; [exact E|reflexivity]].
  - destruct Hv as [->|[E ->]]; [left; reflexivity|right; split; [exact E|reflexivity]].
Qed.

Lemma bad_elems vs t : Forall fate_val vs -> wf_ty D t = true -> forall acc, forallb (fun v => well_typed D v t) vs = true ->
  zlen (concat (map (fun v => format D v t) vs)) <= isize_max ->
  (cf_est_override cf = true -> fold_right Z.add 0 (map (fun v => zeros D v t) vs) = 0) ->
  forallb (fun v => valid D v t) vs = false -> bad (r_sum cf acc (map (fun v => wr cf D kf v t) vs)).
Proof.
  intros HF W. induction HF as [|v vs Hv _ IH]; intros acc V L Z0 B; [discriminate B|].
  cbn [forallb] in V, B. apply andb_prop in V; destruct V as [V1 V2].
  cbn [map concat fold_right] in L, Z0. rewrite zlen_app in L.
  pose proof (zlen_nonneg (format D v t)). pose proof (zlen_nonneg (concat (map (fun v => format D v t) vs))).
  pose proof (zeros_nonneg D v t). pose proof (fold_zeros_nonneg vs t).
  specialize (Hv t W V1 ltac:(lia) ltac:(intros HO; specialize (Z0 HO); lia)).
  cbn [map r_sum]. destruct (valid D v t) eqn:Ev; cbn [fate] in Hv.
  - cbn [andb] in B. destruct Hv as [->|[E ->]]; [|right; split; [exact E|reflexivity]]. cbn [rbind fst snd].
    assert (IH' : forall acc, bad (r_sum cf acc (map (fun v => wr cf D kf v t) vs)))
      by (intros acc'; apply IH; try assumption; [lia|intros HO; specialize (Z0 HO); lia]).
    unfold uadd. destruct (acc + zlen (format D v t) <? usize_mod); [|destruct m]; cbn [rbind]; [| left; reflexivity |].
    + destruct (IH' (acc + zlen (format D v t))) as [->|[E ->]]; [left; reflexivity|right; split; [exact E|reflexivity]].
    + destruct (IH' ((acc + zlen (format D v t)) mod usize_mod)) as [->|[E ->]]; [left; reflexivity|right; split; [exact E|reflexivity]].
  - destruct Hv as [->|[E ->]]; [left; reflexivity|right; split; [exact E|reflexivity]].
Qed.

Lemma fate_wr v : fate_val v.
Proof.
  induction v as [| | | | |v IHv|vs IHvs|vs IHvs|ix vs IHvs|v IHv] using val_ind'; apply fate_unfit;
    intros t W V L Z0 B; destruct t; try discriminate V;
    unfold valid, well_typed in *; cbn [valid_gen] in V, B; cbn [wf_ty] in W; try congruence;
    try (destruct (nth_error D i) as [[?|?|?]|] eqn:Ei; discriminate V);
    cbn [wr format zeros] in *.
  - apply bad_end. apply bad_add_r with (x := [255]); [apply puts_put|].
    rewrite zlen_cons in L. specialize (IHv t W V ltac:(lia) Z0). unfold valid in IHv. rewrite B in IHv. exact IHv.
  - apply bad_end. specialize (IHv t W V L Z0). unfold valid in IHv. rewrite B in IHv. exact IHv.
  - apply bad_end. apply bad_elems; assumption.
  - apply andb_prop in W; destruct W as [W1 W]. apply andb_prop in V; destruct V as [V V2].
    rewrite V2, andb_true_r in B. apply bad_end. apply bad_elems; assumption.
  - apply andb_prop in W; destruct W as [W1 W]. apply andb_prop in V; destruct V as [V V2].
    rewrite V2, andb_true_r in B. apply bad_end. apply bad_elems; assumption.
  - destruct (nth_error D i) as [[ts|?|?]|] eqn:Ei; try discriminate V.
    apply bad_end. apply bad_fields; try assumption. apply (wf_struct D i ts HD Ei).
  - destruct (nth_error D i) as [[ts|k tags|k alts]|] eqn:Ei; try discriminate V.
    + destruct vs; [congruence|discriminate V].
    + destruct (nth_error alts ix) as [[tag ts]|] eqn:Ea; [|discriminate V].
      rewrite (nth_error_nth _ _ _ Ea) in *. cbn [fst snd] in *. rewrite zlen_app in L.
      pose proof (zlen_nonneg (int_format k tag)).
      apply bad_end. apply bad_add_r with (x := int_format k tag); [apply puts_int|].
      apply bad_end. apply bad_fields; try assumption; [|lia]. apply (wf_data D i k alts ix tag ts HD Ei Ea).
  - apply andb_prop in V; destruct V as [V _]. rewrite zlen_app, pref_format_len in L.
    assert (0 <= pref_len s) by (destruct s; cbn; lia).
    specialize (IHv t W V ltac:(lia) Z0). unfold valid in IHv.
    assert (HN : estimate cf D kf v t = RDiv \/ estimate cf D kf v t <> RDiv)
      by (destruct (estimate cf D kf v t); auto; right; discriminate).
    assert (HEst : estimate cf D kf v t <> RDiv -> cf_est_override cf = true -> estimate cf D kf v t = ROk (zlen (format D v t))).
    { intros HN' HO. rewrite (estimate_format cf D kf HD v t W V ltac:(lia) HN'). f_equal. specialize (Z0 HO). lia. }
    match goal with |- bad (rbind ?x ?f) =>
      assert (HL : (x = ROk (zlen (format D v t))) \/ bad (rbind x f)) end.
    { destruct (cf_est_override cf) eqn:EO.
      - destruct HN as [HN|HN]; [right; right; rewrite HN; auto|left; auto].
      - destruct (valid_gen true D v t); cbn [fate] in IHv.
        + left. destruct IHv as [->|[E _]]; [reflexivity|congruence].
        + right. destruct IHv as [->|[E _]]; [left; reflexivity|congruence]. }
    destruct HL as [->|HL]; [|exact HL]. cbn [rbind]. unfold rassert.
    destruct (zlen (format D v t) <=? pref_max s) eqn:E2; [|left; reflexivity]. cbn [rbind].
    cbn [implb] in B. rewrite andb_true_r in B. rewrite B in IHv. cbn [fate] in IHv.
    pose proof (zlen_nonneg (format D v t)).
    assert (Hp : 0 <= zlen (format D v t) <= pref_max s) by lia.
    rewrite pref_len_ok by exact Hp.
    match goal with |- bad (rbind ?x _) => assert (HLL : x = ROk (pref_len s)) end.
    { destruct (cf_est_override cf) eqn:EO; [reflexivity|].
      destruct (puts_pref s _ Hp) as [->|[E _]]; [|congruence]. cbn [rmap fst]. rewrite pref_format_len. reflexivity. }
    rewrite HLL. cbn [rbind]. assert (isize_max < usize_mod - 8) by reflexivity.
    rewrite uadd_ok by lia. cbn [rbind].
    apply bad_end. apply bad_add_r with (x := pref_format s (zlen (format D v t))); [apply puts_pref; exact Hp|exact IHv].
  - apply andb_prop in W; destruct W as [W1 W]. specialize (IHv t W V L Z0). unfold valid in IHv. rewrite B in IHv. exact IHv.
  - apply andb_prop in W; destruct W as [W1 W]. rewrite zlen_app, zlen_repeat in L.
    specialize (IHv t W V ltac:(lia) Z0). unfold valid in IHv. rewrite B in IHv.
    apply bad_end, bad_add_l. exact IHv.
  - specialize (IHv t W V L Z0). unfold valid in IHv. rewrite B in IHv. exact IHv.
Qed.
End EncV.
