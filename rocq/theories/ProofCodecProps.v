(** The codec properties, from the lemmas about [dec] and [wr]. *)
From Verif Require Import Base BaseLemmas ModelErrors ModelSplitVec ModelParser ModelInt ModelFloat ModelZarith
  ModelUtf8 ModelTarget ModelSchema SpecParser SpecCodec ProofParserSim ProofInt ProofZarith ProofUtf8 ProofDec ProofCodec ProofMeta
  ProofRoundTrip ProofHalt ProofSafe ProofTyped ProofCanon ProofEnc ProofEstimate ProofEncValid ProofEncBytes
  ProofTransfer ProofSettle ProofView ProofBroken ProofCut.
From Coq Require Import ZifyBool.

Lemma decodable_kind I t : decodable I t = true -> exists k, kind_of I t = Some k /\ greedy_ok k = true.
Proof. unfold decodable. destruct (kind_of I t) as [k|]; [|discriminate]. intros H. exists k; auto. Qed.
Lemma delim_kind I t : self_delimiting I t = true -> kind_of I t = Some Delim.
Proof. unfold self_delimiting. destruct (kind_of I t) as [[|]|]; congruence. Qed.
Lemma finished_ok w cf v : (w = WSlice -> cf_complete cf = false) -> forall out, finished w cf v [] out -> out = ROk v.
Proof.
  intros H out F. unfold finished in F. destruct w; cbn [zlen] in F; try rewrite andb_false_r in F; auto.
  rewrite (H eq_refl) in F. exact F.
Qed.

(** ** C21, C22, C23 *)
Section Round.
Variables (cf : config) (D : list def) (I : list tinfo) (kf : nat) (t : ty) (v : val) (bs : list byte).
Hypothesis HD : wf_defs D = true.
Hypothesis HI : disciplined D I = true.
Hypothesis HW : wf_ty D t = true.
Hypothesis HV : well_typed D v t = true.
Hypothesis HE : to_bytes cf D kf v t = ROk bs.
Hypothesis HZ : cf_est_override cf = true -> zeros D v t = 0.

Lemma dec_own k extra : kind_of I t = Some k -> adm k extra -> zlen (bs ++ extra) <= isize_max ->
  exists f, dec cf D f t (bs ++ extra) = ROk (v, extra).
Proof.
  intros HK HA HL. assert (HB : zlen bs <= isize_max) by (rewrite zlen_app in HL; pose proof (zlen_nonneg extra); unfold byte in *; lia).
  destruct (to_bytes_format cf D kf HD v t bs HW HV HE HB HZ) as [-> V].
  destruct (rt_all cf D I HI HD v t k HK HW V) as [f0 R]. exists f0. apply R; auto.
Qed.
Lemma round_trip w : decodable I t = true -> zlen bs <= isize_max -> (w = WSlice -> cf_complete cf = false) ->
  decodes w cf D t bs (ROk v).
Proof.
  intros HK HL HC. apply decodable_kind in HK. destruct HK as (k & HK & HG).
  destruct (dec_own k [] HK (adm_greedy k HG)) as [f Hf]; [rewrite app_nil_r; exact HL|]. rewrite app_nil_r in Hf.
  destruct (decodes_finished w cf D t bs HL f v [] Hf) as (out & Hd & Hfin).
  rewrite (finished_ok w cf v HC out Hfin) in Hd. exact Hd.
Qed.
Lemma reads_own w extra : self_delimiting I t = true -> zlen (bs ++ extra) <= isize_max ->
  reads w cf D t (bs ++ extra) (ROk (v, extra)).
Proof.
  intros HK HL. apply delim_kind in HK. destruct (dec_own Delim extra HK Logic.I HL) as [f Hf].
  eapply reads_ok; eassumption.
Qed.
Lemma truncated w p q : self_delimiting I t = true -> zlen bs <= isize_max -> bs = p ++ q -> q <> [] ->
  exists out, decodes w cf D t p out /\
    ((exists e, out = RErr (DParse e)) \/
     (out = RPanic /\ parser_mode w cf = Debug /\ window_free t && window_free_defs D = false)).
Proof.
  intros HK HL E Hq. apply delim_kind in HK. destruct (dec_own Delim [] HK Logic.I) as [f Hf]; [rewrite app_nil_r; exact HL|].
  rewrite app_nil_r in Hf.
  destruct (local_dec cf D I HI f t HK bs v [] Hf) as [_ C]. destruct (C p q E) as [(r & Er & _)|[_ [e Hp]]].
  { symmetry in Er. apply app_eq_nil in Er. tauto. }
  assert (HP : zlen p <= isize_max) by (subst bs; rewrite zlen_app in HL; pose proof (zlen_nonneg q); unfold byte in *; lia).
  destruct (window_free t && window_free_defs D) eqn:Ew.
  - apply andb_prop in Ew. destruct (decode_error_seen w cf D f t p HP (fun _ => Ew) (ex_intro _ e Hp)) as [e' He].
    exists (RErr (DParse e')). split; [eapply decodes_at; [exact He|discriminate]|left; eexists; reflexivity].
  - assert (Hm : parser_mode w cf = Debug \/ parser_mode w cf = Release) by (destruct (parser_mode w cf); auto).
    destruct Hm as [Hm|Hm].
    + destruct (decode_with w cf D f t p) as [|e1| | |] eqn:Ed.
      all: assert (HS : (exists e, decode_with w cf D f t p = RErr (DParse e)) \/ decode_with w cf D f t p = RPanic).
      all: try (destruct (bool_dec (cf_complete cf) false) as [Ec|Ec];
        [pose proof (decode_seen w cf D f t p HP ltac:(auto)) as S; rewrite Hp in S; cbn [seen] in S; tauto|];
        destruct w; try discriminate Hm;
        [pose proof (decode_seen WByte cf D f t p HP ltac:(discriminate)) as S
        |pose proof (decode_seen WMemo cf D f t p HP ltac:(discriminate)) as S];
        rewrite Hp in S; cbn [seen] in S; tauto).
      all: rewrite Ed in HS; destruct HS as [[e2 HS]|HS]; try discriminate HS.
      * exists (RErr (DParse e2)). split; [eapply decodes_at; [rewrite <- HS; exact Ed|discriminate]|left; eexists; reflexivity].
      * exists RPanic. split; [eapply decodes_at; [exact Ed|discriminate]|right; auto].
    + destruct (decode_error_seen w cf D f t p HP ltac:(congruence) (ex_intro _ e Hp)) as [e' He].
      exists (RErr (DParse e')). split; [eapply decodes_at; [exact He|discriminate]|left; eexists; reflexivity].
Qed.
End Round.

Lemma prefix_free cf D I kf t v1 v2 bs1 extra :
  wf_defs D = true -> disciplined D I = true -> wf_ty D t = true -> self_delimiting I t = true ->
  well_typed D v1 t = true -> well_typed D v2 t = true ->
  to_bytes cf D kf v1 t = ROk bs1 -> to_bytes cf D kf v2 t = ROk (bs1 ++ extra) -> zlen (bs1 ++ extra) <= isize_max ->
  (cf_est_override cf = true -> zeros D v1 t = 0 /\ zeros D v2 t = 0) ->
  v1 = v2 /\ extra = [].
Proof.
  intros HD HI HW HK V1 V2 E1 E2 HL HZ.
  pose proof (reads_own cf D I kf t v1 bs1 HD HI HW V1 E1 (fun H => proj1 (HZ H)) WByte extra HK HL) as R1.
  pose proof (reads_own cf D I kf t v2 _ HD HI HW V2 E2 (fun H => proj2 (HZ H)) WByte [] HK) as R2.
  rewrite app_nil_r in R2. specialize (R2 HL). pose proof (settles_unique _ _ _ R1 R2) as E. injection E as -> ->. auto.
Qed.
Lemma encode_injective cf D I kf t v1 v2 bs :
  wf_defs D = true -> disciplined D I = true -> wf_ty D t = true -> decodable I t = true ->
  well_typed D v1 t = true -> well_typed D v2 t = true ->
  to_bytes cf D kf v1 t = ROk bs -> to_bytes cf D kf v2 t = ROk bs -> zlen bs <= isize_max ->
  (cf_est_override cf = true -> zeros D v1 t = 0 /\ zeros D v2 t = 0) ->
  v1 = v2.
Proof.
  intros HD HI HW HK V1 V2 E1 E2 HL HZ.
  pose proof (round_trip cf D I kf t v1 bs HD HI HW V1 E1 (fun H => proj1 (HZ H)) WByte HK HL ltac:(discriminate)) as R1.
  pose proof (round_trip cf D I kf t v2 bs HD HI HW V2 E2 (fun H => proj2 (HZ H)) WByte HK HL ltac:(discriminate)) as R2.
  pose proof (settles_unique _ _ _ R1 R2) as E. injection E as ->. reflexivity.
Qed.

(** ** C24, C25 *)
Section Accepted.
Variables (cf : config) (D : list def) (t : ty) (input : list byte).
Hypothesis HD : wf_defs D = true.
Hypothesis HW : wf_ty D t = true.
Hypothesis HB : bytes_ok input.
Hypothesis HL : zlen input <= isize_max.

Lemma decoded_typed w v : decodes w cf D t input (ROk v) -> well_typed D v t = true.
Proof.
  intros H. destruct (decodes_inv w cf D t input HD HW HB HL v H) as (f & rest & Hf & _).
  apply (typed_all cf D false HD ltac:(discriminate) f t input v rest); auto; discriminate.
Qed.
Lemma read_typed w v rest : reads w cf D t input (ROk (v, rest)) ->
  well_typed D v t = true /\ exists used, input = used ++ rest.
Proof.
  intros H. destruct (reads_inv w cf D t input HD HW HB HL v rest H) as (f & Hf). split.
  - apply (typed_all cf D false HD ltac:(discriminate) f t input v rest); auto; discriminate.
  - exact (shrinks_dec cf D f t _ _ _ Hf).
Qed.
End Accepted.

Lemma canonical_string_free cf t : canonical cf t = true -> string_free t = true.
Proof. induction t; cbn [canonical string_free]; intros H; try discriminate H; auto. apply andb_prop in H; tauto. Qed.
Lemma canonical_string_free_defs cf D : canonical_defs cf D = true -> string_free_defs D = true.
Proof.
  unfold canonical_defs, string_free_defs. rewrite !forallb_forall. intros H d Hd. specialize (H d Hd).
  rewrite forallb_forall in *. intros ts Hts. specialize (H ts Hts). rewrite forallb_forall in *.
  intros t Ht. eapply canonical_string_free, H; exact Ht.
Qed.

Lemma zeros_canonical cf D : canonical_defs cf D = true -> forall v t, canonical cf t = true -> zeros D v t = 0.
Proof.
  intros HC.
  assert (HF : forall vs ts, Forall (fun v => forall t, canonical cf t = true -> zeros D v t = 0) vs ->
    forallb (canonical cf) ts = true -> sum2 (zeros D) vs ts = 0).
  { intros vs ts H. revert ts. induction H as [|v vs Hv _ IH]; intros [|t ts] C; try reflexivity.
    cbn [forallb] in C. apply andb_prop in C; destruct C as [C1 C2]. rewrite sum2_cons, (Hv t C1), (IH ts C2). reflexivity. }
  assert (HE : forall vs t, Forall (fun v => forall t, canonical cf t = true -> zeros D v t = 0) vs ->
    canonical cf t = true -> fold_right Z.add 0 (map (fun v => zeros D v t) vs) = 0).
  { intros vs t H C. induction H as [|v vs Hv _ IH]; [reflexivity|]. cbn [map fold_right]. rewrite (Hv t C), IH. reflexivity. }
  induction v as [| | | | |v IHv|vs IHvs|vs IHvs|ix vs IHvs|v IHv] using val_ind'; intros t C;
    destruct t; cbn [canonical] in C; try discriminate C; cbn [zeros]; try reflexivity; auto;
    try (destruct (nth_error D i) as [[?|?|?]|]; reflexivity).
  - destruct (nth_error D i) as [[ts|?|?]|] eqn:Ei; try reflexivity.
    apply HF; [exact IHvs|]. exact (field_types_struct D _ i ts HC Ei).
  - destruct (nth_error D i) as [[?|?|k alts]|] eqn:Ei; try reflexivity.
    destruct (nth_error alts ix) as [[tag ts]|] eqn:Ea.
    + rewrite (nth_error_nth _ _ _ Ea). cbn [snd]. apply HF; [exact IHvs|]. exact (field_types_data D _ i k alts ix tag ts HC Ei Ea).
    + rewrite (nth_overflow _ _ (proj1 (nth_error_None _ _) Ea)). cbn [snd]. destruct vs; reflexivity.
  - apply andb_prop in C. apply IHv; tauto.
Qed.

Lemma accepted_canonical cf D t w input v rest kf :
  wf_defs D = true -> wf_ty D t = true -> canonical cf t = true -> canonical_defs cf D = true ->
  bytes_ok input -> zlen input <= isize_max ->
  reads w cf D t input (ROk (v, rest)) -> (cf_est_override cf = true -> to_bytes cf D kf v t <> RDiv) ->
  exists bs, input = bs ++ rest /\ to_bytes cf D kf v t = ROk bs.
Proof.
  intros HD HW HC HCD HB HL H HO.
  destruct (reads_inv w cf D t input HD HW HB HL v rest H) as (f & Hf).
  pose proof (canon_all cf D HCD f t input v rest HC HB Hf) as E.
  assert (HV : valid D v t = true).
  { apply (typed_all cf D true HD (fun _ => canonical_string_free_defs cf D HCD) f t input v rest); auto.
    intros _. exact (canonical_string_free cf t HC). }
  exists (format D v t). split; [exact E|].
  assert (HLf : zlen (format D v t) <= isize_max).
  { rewrite E, zlen_app in HL. pose proof (zlen_nonneg rest). unfold byte in *. lia. }
  destruct (puts_wr cf D kf HD v t HW HV HLf (fun _ => zeros_canonical cf D HCD v t HC)) as [P|[EO P]].
  - rewrite to_bytes_wr, P. reflexivity.
  - exfalso. apply (HO EO). rewrite to_bytes_wr, P. reflexivity.
Qed.

(** ** C26, C27 *)
Lemma tg_lawful w : lawful (tg_of w) (fun u bs => tg_bytes w u = bs).
Proof.
  destruct w; cbn [tg_of tg_bytes]; [apply lawful_vec|apply lawful_hex|exact lawful_strict|exact lawful_memo].
Qed.
Lemma write_appends cf D kf v t w u n u' : write_to cf D kf v (tg_state w) (tg_of w) t u = ROk (n, u') ->
  exists bs, tg_bytes w u' = tg_bytes w u ++ bs /\ (zlen bs < usize_mod -> n = zlen bs).
Proof.
  intros H. pose proof (sim_all_vals cf D kf v _ _ _ (tg_lawful w) t u _ eq_refl) as S.
  destruct (wr cf D kf v t) as [[n0 bs]| | | |] eqn:E; [|rewrite H in S; discriminate S..].
  destruct S as (u0 & H0 & R). rewrite H in H0. injection H0 as <- <-. exists bs. split; [exact R|].
  apply (cnt_wr cf D kf v t); exact E.
Qed.
Lemma encode_same cf D kf v t w : rmap (tg_bytes w) (encode cf D kf (tg_of w) v t) = to_bytes cf D kf v t.
Proof.
  rewrite to_bytes_wr. unfold encode.
  pose proof (sim_all_vals cf D kf v _ _ _ (tg_lawful w) t _ [] (law_create _ _ (tg_lawful w))) as S.
  destruct (wr cf D kf v t) as [[n bs]| | | |]; [|rewrite S; reflexivity..].
  destruct S as (u & -> & R). cbn [rmap snd]. exact (f_equal ROk R).
Qed.
Lemma counter_same cf D kf v t :
  match to_bytes cf D kf v t with
  | ROk bs => exists n, write_to cf D kf v unit tg_counter t tt = ROk (n, tt) /\ (zlen bs < usize_mod -> n = zlen bs)
  | RErr e => write_to cf D kf v unit tg_counter t tt = RErr e
  | RPanic => write_to cf D kf v unit tg_counter t tt = RPanic
  | RUB => write_to cf D kf v unit tg_counter t tt = RUB
  | RDiv => write_to cf D kf v unit tg_counter t tt = RDiv
  end.
Proof.
  rewrite to_bytes_wr. pose proof (sim_all_vals cf D kf v _ _ _ lawful_counter t tt [] Logic.I) as S.
  destruct (wr cf D kf v t) as [[n bs]| | | |] eqn:E; cbn [rmap snd]; [|exact S..].
  destruct S as ([] & H & _). exists n. split; [exact H|]. apply (cnt_wr cf D kf v t); exact E.
Qed.

(** ** C28, C43 *)
Lemma estimate_exact cf D kf v t bs n : wf_defs D = true -> wf_ty D t = true -> well_typed D v t = true ->
  to_bytes cf D kf v t = ROk bs -> zlen bs <= isize_max -> estimate cf D kf v t = ROk n ->
  n = zlen bs - zeros D v t.
Proof.
  intros HD HW HV HE HL HN. rewrite to_bytes_wr in HE. destruct (wr cf D kf v t) as [[k b]| | | |] eqn:E; try discriminate HE.
  injection HE as <-. cbn [snd] in *. pose proof (sl_wr cf D kf v t HV k b E) as SL.
  rewrite (estimate_format cf D kf HD v t HW HV) in HN; [|unfold byte in *; lia|rewrite HN; discriminate].
  injection HN as <-. unfold byte in *. lia.
Qed.
Lemma known_exact cf D kf v t bs n : wf_defs D = true -> wf_ty D t = true -> well_typed D v t = true ->
  to_bytes cf D kf v t = ROk bs -> known cf D kf t = Some (Some n) -> zlen bs = n.
Proof.
  intros HD HW HV HE HN. rewrite to_bytes_wr in HE. destruct (wr cf D kf v t) as [[k b]| | | |] eqn:E; try discriminate HE.
  injection HE as <-. cbn [snd] in *. pose proof (sl_wr cf D kf v t HV k b E) as SL.
  destruct (known_format cf D HD kf t n v HW HN HV) as [K _]. unfold byte in *. lia.
Qed.
Lemma enc_len_exact cf D kf v t bs : cf_est_override cf = false -> to_bytes cf D kf v t = ROk bs -> zlen bs <= isize_max ->
  enc_len cf D kf v t = ROk (zlen bs) /\ to_bytes_full cf D kf v t = ROk bs.
Proof.
  intros EO HE HL. pose proof (counter_same cf D kf v t) as C. rewrite HE in C. destruct C as (n & C & Hn).
  assert (E : enc_len cf D kf v t = ROk (zlen bs)).
  { unfold enc_len. rewrite EO, C. cbn [rmap fst]. rewrite Hn; [reflexivity|]. assert (isize_max < usize_mod) by reflexivity. lia. }
  split; [exact E|]. unfold to_bytes_full. rewrite E. cbn [rbind]. replace (zlen bs <=? isize_max) with true by lia. exact HE.
Qed.

(** ** C29 *)
Lemma dynamic_encode cf D kf v t s : cf_est_override cf = false ->
  match to_bytes cf D kf v t with
  | ROk p => zlen p <= isize_max ->
      to_bytes cf D kf (VWrap v) (TDyn s t) =
        if zlen p <=? pref_max s then ROk (pref_format s (zlen p) ++ p) else RPanic
  | bad => to_bytes cf D kf (VWrap v) (TDyn s t) = bad
  end.
Proof.
  intros EO. rewrite !to_bytes_wr. cbn [wr]. rewrite EO.
  destruct (wr cf D kf v t) as [[n p]| | | |] eqn:E; unfold rmap; cbn [rbind fst snd]; try reflexivity.
  intros HL. assert (isize_max < usize_mod - 8) by reflexivity.
  assert (Hn : n = zlen p) by (apply (cnt_wr cf D kf v t _ _ E); lia). subst n. pose proof (zlen_nonneg p).
  unfold rassert. destruct (Z.leb_spec (zlen p) (pref_max s)) as [Hs|Hs]; [|reflexivity]. cbn [rbind].
  rewrite (pref_len_ok cf [] eq_refl) by lia.
  destruct (puts_pref cf [] eq_refl s (zlen p) ltac:(lia)) as [->|[E' _]]; [|congruence]. unfold rmap; cbn [rbind fst snd].
  assert (pref_len s <= 8) by (destruct s; cbn; lia). assert (0 <= pref_len s) by (destruct s; cbn; lia).
  rewrite pref_format_len. rewrite uadd_ok by lia. cbn [rbind]. unfold r_end, r_add. cbn [rbind fst snd].
  rewrite uadd_ok by lia. cbn [rbind fst snd]. rewrite uadd_ok by lia. unfold rmap; cbn [rbind snd]. rewrite app_nil_r. reflexivity.
Qed.

Lemma bytes_ok_parts l x : bytes_ok (l ++ x) -> bytes_ok l /\ bytes_ok x.
Proof. apply bytes_ok_app. Qed.

Lemma dynamic_decode cf D s t w input v rest :
  wf_defs D = true -> wf_ty D t = true -> bytes_ok input -> zlen input <= isize_max ->
  reads w cf D (TDyn s t) input (ROk (VWrap v, rest)) <->
  exists payload, input = pref_format s (zlen payload) ++ payload ++ rest /\ zlen payload <= pref_max s /\
                  reads w cf D t payload (ROk (v, [])).
Proof.
  intros HD HW HB HL. split.
  - intros H.
    destruct (reads_inv w cf D (TDyn s t) input HD HW HB HL _ _ H) as (f & Hf).
    destruct f as [|f]; [discriminate Hf|]. cbn [dec] in Hf. apply d_bind_ok in Hf. destruct Hf as (n & r & Hp & Hf).
    apply d_pref_ok in Hp; [|exact HB]. destruct Hp as [-> Hn]. apply d_bind_ok in Hf. destruct Hf as (v' & r' & Hwn & Hf).
    apply d_ret_ok in Hf. destruct Hf as [Ev <-]. injection Ev as <-.
    apply d_window_ok in Hwn. destruct Hwn as (p & -> & <- & _ & Hd). exists p. split; [reflexivity|]. split; [lia|].
    eapply reads_ok; [|exact Hd]. rewrite !zlen_app in HL. pose proof (zlen_nonneg rest).
    pose proof (zlen_nonneg (pref_format s (zlen p))). unfold byte in *; lia.
  - intros (p & -> & Hs & Hr). pose proof (zlen_nonneg p) as Hp0.
    apply bytes_ok_parts in HB. destruct HB as [_ HB]. apply bytes_ok_parts in HB. destruct HB as [HB _].
    assert (HLp : zlen p <= isize_max) by (pose proof (pref_max_isize s); unfold byte in *; lia).
    destruct (reads_inv w cf D t p HD HW HB HLp _ _ Hr) as (f & Hf).
    apply (reads_ok w cf D _ _ HL (S f)). cbn [dec]. unfold d_bind at 1. rewrite d_pref_app by (unfold byte in *; lia).
    unfold d_bind. rewrite (d_window_app (zlen p) (dec cf D f t) p rest v eq_refl HLp Hf). reflexivity.
Qed.

(** ** C41 *)
Lemma padded_encode cf D kf v t n p : 0 <= n -> to_bytes cf D kf v t = ROk p -> zlen p + n <= isize_max ->
  to_bytes cf D kf (VWrap v) (TPad n t) = ROk (p ++ repeat 0 (Z.to_nat n)).
Proof.
  intros Hn HE HL. rewrite to_bytes_wr in *. cbn [wr]. destruct (wr cf D kf v t) as [[k b]| | | |] eqn:E; try discriminate HE.
  injection HE as <-. cbn [snd] in *. assert (isize_max < usize_mod) by reflexivity. pose proof (zlen_nonneg b).
  rewrite (cnt_wr cf D kf v t _ _ E) by lia. unfold r_end, r_add, r_put. cbn [rbind fst snd].
  assert (Z0 : zlen (repeat 0 (Z.to_nat n)) = n) by (rewrite zlen_repeat; lia). unfold byte in *. rewrite Z0.
  rewrite uadd_ok by lia. cbn [rbind fst snd]. rewrite uadd_ok by lia. unfold rmap. cbn [rbind snd]. rewrite app_nil_r. reflexivity.
Qed.
Lemma padded_decode cf D n t w input v rest :
  wf_defs D = true -> wf_ty D (TPad n t) = true -> bytes_ok input -> zlen input <= isize_max ->
  reads w cf D (TPad n t) input (ROk (VWrap v, rest)) <->
  exists padding, zlen padding = n /\ (cf_check_padding cf = true -> Forall (fun b => b = 0) padding) /\
                  reads w cf D t input (ROk (v, padding ++ rest)).
Proof.
  intros HD HW HB HL. assert (HW' := HW). cbn [wf_ty] in HW'. apply andb_prop in HW'. destruct HW' as [Hs HWt]. unfold sizeb in Hs.
  assert (Hz : forall pad, forallb (Z.eqb 0) pad = true <-> Forall (fun b => b = 0) pad).
  { intros pad. rewrite forallb_forall, Forall_forall. split; intros H x Hx; specialize (H x Hx); lia. }
  split.
  - intros H.
    destruct (reads_inv w cf D (TPad n t) input HD HW HB HL _ _ H) as (f & Hf).
    destruct f as [|f]; [discriminate Hf|]. cbn [dec] in Hf. apply d_bind_ok in Hf. destruct Hf as (v' & r & Hv & Hf).
    apply d_bind_ok in Hf. destruct Hf as (pad & r' & Hc & Hf). apply d_consume_ok in Hc. destruct Hc as [-> Hl].
    destruct (cf_check_padding cf && negb (forallb (Z.eqb 0) pad)) eqn:Ec; [discriminate Hf|].
    apply d_ret_ok in Hf. destruct Hf as [Ev <-]. injection Ev as <-. exists pad. split; [exact Hl|]. split.
    + intros E. rewrite E in Ec. cbn [andb] in Ec. apply Hz. destruct (forallb (Z.eqb 0) pad); [reflexivity|discriminate Ec].
    + eapply reads_ok; eassumption.
  - intros (pad & Hl & Hc & Hr).
    destruct (reads_inv w cf D t input HD HWt HB HL _ _ Hr) as (f & Hf).
    apply (reads_ok w cf D _ _ HL (S f)). cbn [dec]. unfold d_bind at 1. rewrite Hf. unfold d_bind, d_consume.
    pose proof (zlen_nonneg pad). pose proof (zlen_nonneg rest).
    rewrite size_ok_true by lia. rewrite zlen_app.
    match goal with |- context [?a <=? ?b] => replace (a <=? b) with true by (symmetry; apply Z.leb_le; unfold byte in *; lia) end.
    rewrite <- Hl, ztake_app, zdrop_app. destruct (cf_check_padding cf); [|reflexivity].
    rewrite (proj2 (Hz pad) (Hc eq_refl)). reflexivity.
Qed.
Lemma vpadded_encode cf D kf v t n : to_bytes cf D kf (VWrap v) (TVPad n t) = to_bytes cf D kf v t.
Proof. reflexivity. Qed.
Lemma vpadded_decode cf D n t w input v rest :
  wf_defs D = true -> wf_ty D (TVPad n t) = true -> bytes_ok input -> zlen input <= isize_max ->
  reads w cf D (TVPad n t) input (ROk (VWrap v, rest)) <->
  exists body, input = body ++ rest /\ zlen rest = n /\ reads w cf D t body (ROk (v, [])).
Proof.
  intros HD HW HB HL. assert (HW' := HW). cbn [wf_ty] in HW'. apply andb_prop in HW'. destruct HW' as [Hs HWt]. unfold sizeb in Hs.
  assert (ST : n <= zlen input -> forall f, dec cf D (S f) (TVPad n t) input =
    d_bind (d_window (zlen input - n) (dec cf D f t)) (fun v => d_ret (VWrap v)) input).
  { intros Hle f. cbn [dec]. unfold d_bind at 1, d_rem. rewrite usub_ok by lia. destruct (Z.leb_spec n (zlen input)); [|lia].
    unfold debug_assert. destruct (cf_mode cf); reflexivity. }
  split.
  - intros H. destruct (reads_inv w cf D (TVPad n t) input HD HW HB HL _ _ H) as (f & Hf).
    destruct f as [|f]; [discriminate Hf|]. destruct (Z.le_gt_cases n (zlen input)) as [Hle|Hgt].
    + rewrite (ST Hle f) in Hf. apply d_bind_ok in Hf. destruct Hf as (v' & r & Hd & Hf).
      apply d_ret_ok in Hf. destruct Hf as [Ev <-]. injection Ev as <-.
      apply d_window_ok in Hd. destruct Hd as (b & E & Hb & _ & Hd). exists b. split; [exact E|].
      assert (HLb : zlen b <= isize_max /\ zlen rest = n).
      { apply (f_equal (@zlen byte)) in E. rewrite zlen_app in E. pose proof (zlen_nonneg rest). lia. }
      split; [tauto|]. eapply reads_ok; [tauto|exact Hd].
    + exfalso. cbn [dec] in Hf. unfold d_bind at 1, d_rem in Hf. unfold debug_assert, usub in Hf.
      destruct (Z.leb_spec n (zlen input)); [lia|]. destruct (cf_mode cf); [discriminate Hf|].
      apply d_bind_ok in Hf. destruct Hf as (u & r & Hf1 & Hf). cbn [d_lift] in Hf1. injection Hf1 as <- <-.
      apply d_bind_ok in Hf. destruct Hf as (win & r & Hf1 & Hf). cbn [d_lift] in Hf1. injection Hf1 as <- <-.
      apply d_bind_ok in Hf. destruct Hf as (v' & r & Hd & _). apply d_window_ok in Hd. destruct Hd as (b & E & Hb & _ & _).
      apply (f_equal (@zlen byte)) in E. rewrite zlen_app in E. pose proof (zlen_nonneg r). pose proof (zlen_nonneg input).
      assert (EU : (zlen input - n) mod usize_mod = zlen input - n + usize_mod).
      { rewrite <- (Z.mod_add _ 1) by (unfold usize_mod; lia). rewrite Z.mul_1_l. apply Z.mod_small.
        assert (isize_max < usize_mod) by reflexivity. lia. }
      assert (isize_max < usize_mod) by reflexivity. lia.
  - intros (b & -> & Hl & Hr). apply bytes_ok_parts in HB. destruct HB as [HB _]. assert (HLw := HL). rewrite zlen_app in HL, ST.
    pose proof (zlen_nonneg rest). pose proof (zlen_nonneg b).
    assert (HLb : zlen b <= isize_max) by lia.
    destruct (reads_inv w cf D t b HD HWt HB HLb _ _ Hr) as (f & Hf).
    apply (reads_ok w cf D _ _ HLw (S f)). rewrite (ST ltac:(lia) f). replace (zlen b + zlen rest - n) with (zlen b) by lia.
    unfold d_bind. rewrite (d_window_app (zlen b) (dec cf D f t) b rest v eq_refl HLb Hf). reflexivity.
Qed.

(** ** C30 *)
Lemma decoding_ends w cf D I R t input f : wf_defs D = true -> wf_ty D t = true -> terminating D I R = true ->
  loops_ok I t = true -> pads_ok cf D t = true -> bytes_ok input -> zlen input <= isize_max ->
  step_bound D I R t (zlen input) <= Z.of_nat f -> decode_with w cf D f t input <> RDiv.
Proof.
  intros HD HW HT HLo HP HB HL Hf.
  pose proof (dec_halts cf D I R f t input HT HLo Hf) as N.
  pose proof (decode_cases w cf D t input HL f) as C. pose proof (dec_no_ub cf D t input f HD HW HP HB HL) as NU.
  destruct (dec cf D f t input) as [[v rest]| | | |]; try congruence.
  - unfold finished in C. destruct (_ && _); [destruct C as (lo & -> & _)|rewrite C]; discriminate.
  - destruct C as [[e' ->]|[_ ->]]; discriminate.
Qed.
Lemma decoding_answers w cf D I R t input : wf_defs D = true -> wf_ty D t = true -> terminating D I R = true ->
  loops_ok I t = true -> pads_ok cf D t = true -> bytes_ok input -> zlen input <= isize_max ->
  exists out, decodes w cf D t input out.
Proof.
  intros HD HW HT HLo HP HB HL. set (f := Z.to_nat (step_bound D I R t (zlen input))).
  exists (decode_with w cf D f t input). eapply decodes_at; [reflexivity|].
  apply (decoding_ends w cf D I R); auto. unfold f. lia.
Qed.

(** ** C31 *)
Lemma no_ub_with w cf D t input f : wf_defs D = true -> wf_ty D t = true -> pads_ok cf D t = true ->
  bytes_ok input -> zlen input <= isize_max -> decode_with w cf D f t input <> RUB.
Proof.
  intros HD HW HP HB HL.
  pose proof (decode_cases w cf D t input HL f) as C. pose proof (dec_no_ub cf D t input f HD HW HP HB HL) as NU.
  destruct (dec cf D f t input) as [[v rest]| | | |].
  - unfold finished in C. destruct (_ && _); [destruct C as (lo & -> & _)|rewrite C]; discriminate.
  - destruct C as [[e' ->]|[_ ->]]; discriminate.
  - rewrite C; discriminate.
  - congruence.
  - rewrite C; discriminate.
Qed.
Lemma no_panic_with w cf D t input f : wf_defs D = true -> wf_ty D t = true ->
  vpad_free t = true -> vpad_free_defs D = true ->
  (parser_mode w cf = Debug -> window_free t = true /\ window_free_defs D = true) ->
  bytes_ok input -> zlen input <= isize_max ->
  decode_with w cf D f t input <> RPanic /\ decode_with w cf D f t input <> RUB.
Proof.
  intros HD HW HV1 HV2 HM HB HL.
  assert (HP : pads_ok cf D t = true) by (unfold pads_ok; rewrite HV1, HV2; destruct (cf_mode cf); reflexivity).
  split; [|apply no_ub_with; assumption].
  pose proof (decode_cases w cf D t input HL f) as C. pose proof (dec_no_ub cf D t input f HD HW HP HB HL) as NU.
  pose proof (decode_error_seen w cf D f t input HL HM) as E.
  assert (V : vpads false cf (vpad_free t) = true /\ vpads false cf (vpad_free_defs D) = true).
  { unfold vpads. rewrite HV1, HV2, !orb_true_r. auto. }
  pose proof (proj1 (safe_dec false cf D HD (proj2 V) f t HW (proj1 V) input (conj HB HL)) eq_refl) as N.
  destruct (dec cf D f t input) as [[v rest]|e| | |]; try congruence.
  - unfold finished in C. destruct (_ && _); [destruct C as (lo & -> & _)|rewrite C]; discriminate.
  - destruct (E (ex_intro _ e eq_refl)) as [e' ->]. discriminate.
Qed.

(** ** C32, C42 *)
Section Whole.
Variables (cf : config) (D : list def) (t : ty) (input : list byte).
Hypothesis HD : wf_defs D = true.
Hypothesis HW : wf_ty D t = true.
Hypothesis HB : bytes_ok input.
Hypothesis HL : zlen input <= isize_max.

Lemma parsers_agree w w' v rest : reads w cf D t input (ROk (v, rest)) <-> reads w' cf D t input (ROk (v, rest)).
Proof.
  split; intros H; destruct (reads_inv _ cf D t input HD HW HB HL _ _ H) as (f & Hf); eapply reads_ok; eassumption.
Qed.
Lemma decoders_agree w w' v : cf_complete cf = false ->
  decodes w cf D t input (ROk v) <-> decodes w' cf D t input (ROk v).
Proof.
  intros Hc. assert (HH : forall w w', decodes w cf D t input (ROk v) -> decodes w' cf D t input (ROk v)).
  { intros w1 w2 H. destruct (decodes_inv w1 cf D t input HD HW HB HL v H) as (f & rest & Hf & _).
    destruct (decodes_finished w2 cf D t input HL f v rest Hf) as (out & Ho & F). unfold finished in F.
    rewrite Hc in F. cbn [andb] in F. rewrite F in Ho. exact Ho. }
  split; apply HH.
Qed.
Lemma decoders_agree_complete v : decodes WByte cf D t input (ROk v) <-> decodes WMemo cf D t input (ROk v).
Proof.
  split; intros H; destruct (decodes_inv _ cf D t input HD HW HB HL v H) as (f & rest & Hf & F0).
  - destruct (decodes_finished WMemo cf D t input HL f v rest Hf) as (out & Ho & F). unfold finished in *.
    destruct (_ && _); [destruct F0 as (lo & F0 & _); discriminate|]. rewrite F in Ho. exact Ho.
  - destruct (decodes_finished WByte cf D t input HL f v rest Hf) as (out & Ho & F). unfold finished in *.
    destruct (_ && _); [destruct F0 as (lo & F0 & _); discriminate|]. rewrite F in Ho. exact Ho.
Qed.
Lemma complete_on w v : cf_complete cf = true -> w <> WSlice ->
  (decodes w cf D t input (ROk v) <-> reads w cf D t input (ROk (v, []))) /\
  (forall rest, rest <> [] -> reads w cf D t input (ROk (v, rest)) ->
     exists lo, decodes w cf D t input (RErr (DNonEmpty lo)) /\ lo_bytes lo = rest).
Proof.
  intros Hc Hw.
  assert (FN : forall rest out, finished w cf v rest out ->
    if zlen rest =? 0 then out = ROk v else exists lo, out = RErr (DNonEmpty lo) /\ lo_bytes lo = rest).
  { intros rest out F. unfold finished in F. rewrite Hc in F. cbn [andb] in F. destruct w; try congruence; destruct (zlen rest =? 0); exact F. }
  split; [split|].
  - intros H. destruct (decodes_inv w cf D t input HD HW HB HL v H) as (f & rest & Hf & F). apply FN in F.
    destruct (Z.eqb_spec (zlen rest) 0) as [E|E].
    + apply zlen_0_nil in E. subst rest. eapply reads_ok; eassumption.
    + destruct F as (lo & F & _). discriminate F.
  - intros H. destruct (reads_inv w cf D t input HD HW HB HL _ _ H) as (f & Hf).
    destruct (decodes_finished w cf D t input HL f v [] Hf) as (out & Ho & F). apply FN in F. cbn in F. rewrite F in Ho. exact Ho.
  - intros rest Hr H. destruct (reads_inv w cf D t input HD HW HB HL _ _ H) as (f & Hf).
    destruct (decodes_finished w cf D t input HL f v rest Hf) as (out & Ho & F). apply FN in F.
    destruct (Z.eqb_spec (zlen rest) 0) as [E|E]; [apply zlen_0_nil in E; congruence|].
    destruct F as (lo & -> & F). exists lo. auto.
Qed.
Lemma complete_off w v : cf_complete cf = false ->
  decodes w cf D t input (ROk v) <-> exists rest, reads w cf D t input (ROk (v, rest)).
Proof.
  intros Hc. split.
  - intros H. destruct (decodes_inv w cf D t input HD HW HB HL v H) as (f & rest & Hf & _). exists rest. eapply reads_ok; eassumption.
  - intros [rest H]. destruct (reads_inv w cf D t input HD HW HB HL _ _ H) as (f & Hf).
    destruct (decodes_finished w cf D t input HL f v rest Hf) as (out & Ho & F). unfold finished in F.
    rewrite Hc in F. cbn [andb] in F. rewrite F in Ho. exact Ho.
Qed.
Lemma complete_slice v : cf_complete cf = true -> ~ decodes WSlice cf D t input (ROk v).
Proof.
  intros Hc H. destruct (decodes_inv _ cf D t input HD HW HB HL v H) as (f & rest & Hf & F). unfold finished in F.
  rewrite Hc in F. cbn [andb] in F. destruct F as (lo & F & _). discriminate F.
Qed.

(** ** C33 *)
Lemma lim_bounded w n t' v : t = TLim n t' -> decodes w cf D t input (ROk v) -> exists vs, v = VSeq vs /\ zlen vs <= n.
Proof.
  intros E H. apply decoded_typed in H; try assumption. rewrite E in H. unfold well_typed in H.
  destruct v; try discriminate H. cbn [valid_gen] in H. apply andb_prop in H. exists vs. split; [reflexivity|lia].
Qed.
Lemma fix_exact w n t' v : t = TFix n t' -> decodes w cf D t input (ROk v) -> exists vs, v = VSeq vs /\ zlen vs = n.
Proof.
  intros E H. apply decoded_typed in H; try assumption. rewrite E in H. unfold well_typed in H.
  destruct v; try discriminate H. cbn [valid_gen] in H. apply andb_prop in H. exists vs. split; [reflexivity|lia].
Qed.
End Whole.
