(** Streams of messages (C97). *)
From Verif Require Import Base BaseLemmas ModelErrors ModelParser ModelTarget ModelSchema ModelStream SpecParser SpecCodec SpecTarget SpecStream
  ProofDec ProofCodec ProofMeta ProofEncBytes ProofRoundTrip ProofGrammar ProofCut ProofSettle ProofView ProofCodecProps ProofCodecThms ProofTarget.
From Coq Require Import ZifyBool.

(** ** Receiving is decoding one after the other *)
Lemma try_fields pe ts : (forall t, try_bytes_only (pe t)) -> try_bytes_only (p_fields pe ts).
Proof. intros He; induction ts as [|t ts IHl]; cbn [p_fields]; tries. Qed.

Section Receive.
Variables (w : which_parser) (cf : config) (D : list def).

Lemma receive_seen ts input f : zlen input <= isize_max ->
  let out := run_with w (cf_mode cf) (then_rest (parse_each cf D f ts)) input in
  match d_fields (dec cf D f) ts input with
  | ROk (vs, rest) => out = ROk (vs, rest)
  | RErr _ => (exists e, out = RErr e) \/ (pm_of w (cf_mode cf) = Debug /\ out = RPanic)
  | RPanic => out = RPanic
  | RDiv => out = RDiv
  | RUB => True
  end.
Proof.
  intros HL. cbv zeta. unfold parse_each.
  pose proof (shrinks_fields (dec cf D f) ts (shrinks_dec cf D f)) as HS.
  assert (HR : runs (p_fields (parse cf D f) ts) (d_fields (dec cf D f) ts)).
  { apply runs_fields; auto with dec. apply runs_dec. }
  pose proof (with_seen w (cf_mode cf) _ _ input (runs_then _ _ HR HS) (try_then _ (try_fields _ ts (try_parse cf D f))) HL) as H.
  rewrite d_then_eq in H by auto. destruct (d_fields (dec cf D f) ts input) as [[v rest]| | | |]; exact H.
Qed.

Lemma receives_at ts input f out :
  run_with w (cf_mode cf) (then_rest (parse_each cf D f ts)) input = out -> out <> RDiv -> receives w cf D ts input out.
Proof.
  intros H Ho. split; [exact Ho|]. exists f. intros f' Hf. eapply run_with_mono; [|exact H|exact Ho].
  apply ap_then. unfold parse_each. apply ap_fields. intros t. apply ap_parse; exact Hf.
Qed.
Lemma receives_ok ts input f vs rest : zlen input <= isize_max -> d_fields (dec cf D f) ts input = ROk (vs, rest) ->
  receives w cf D ts input (ROk (vs, rest)).
Proof.
  intros HL H. pose proof (receive_seen ts input f HL) as R. rewrite H in R. eapply receives_at; [exact R|discriminate].
Qed.

(** The values before are fetched, what fails is the next. *)
Lemma fields_app f ts ts' input vs mid : d_fields (dec cf D f) ts input = ROk (vs, mid) ->
  d_fields (dec cf D f) (ts ++ ts') input = d_bind (d_fields (dec cf D f) ts') (fun vs' => d_ret (vs ++ vs')) mid.
Proof.
  revert input vs. induction ts as [|t ts IH]; intros input vs; cbn [app d_fields].
  - intros H. injection H as <- <-. unfold d_bind, d_ret. destruct (d_fields _ ts' _) as [[? ?]| | | |]; reflexivity.
  - unfold d_bind at 1 3. destruct (dec cf D f t input) as [[v m]| | | |]; try discriminate.
    unfold d_bind at 1. destruct (d_fields (dec cf D f) ts m) as [[vs1 m1]| | | |] eqn:E; try discriminate.
    intros H. injection H as <- <-. unfold d_bind at 1. rewrite (IH m vs1 E). unfold d_bind, d_ret.
    destruct (d_fields _ ts' m1) as [[? ?]| | | |]; reflexivity.
Qed.

(** ** Restarting with a new parser over the rest changes nothing *)
Section Restart.
Hypothesis HD : wf_defs D = true.

Lemma fields_no_ub ts f : forallb (fun t => wf_ty D t && pads_ok cf D t) ts = true -> forall input,
  bytes_ok input -> zlen input <= isize_max -> d_fields (dec cf D f) ts input <> RUB.
Proof.
  induction ts as [|t ts IH]; intros HW input HB HL; cbn [d_fields]; [discriminate|].
  cbn [forallb] in HW. apply andb_prop in HW. destruct HW as [HW HWs]. apply andb_prop in HW. destruct HW as [HW HP].
  unfold d_bind at 1. pose proof (dec_no_ub cf D t input f HD HW HP HB HL) as N.
  destruct (dec cf D f t input) as [[v m]| | | |] eqn:E; try congruence.
  destruct (small_rest cf D HD f t input v m (conj HB HL) E) as [HB' HL'].
  specialize (IH HWs m HB' HL'). unfold d_bind. destruct (d_fields (dec cf D f) ts m) as [[? ?]| | | |]; try congruence; discriminate.
Qed.
Lemma receives_inv ts input vs rest : forallb (fun t => wf_ty D t && pads_ok cf D t) ts = true ->
  bytes_ok input -> zlen input <= isize_max -> receives w cf D ts input (ROk (vs, rest)) ->
  exists f, d_fields (dec cf D f) ts input = ROk (vs, rest).
Proof.
  intros HW HB HL H. apply settles_at in H. destruct H as [f H]. exists f. pose proof (receive_seen ts input f HL) as R. cbv zeta in R.
  rewrite H in R. pose proof (fields_no_ub ts f HW input HB HL) as N.
  destruct (d_fields (dec cf D f) ts input) as [[v' rest']| | | |]; try congruence.
  destruct R as [[? R]|[_ R]]; discriminate R.
Qed.

Lemma restart t ts input vs rest : forallb (fun t => wf_ty D t && pads_ok cf D t) (t :: ts) = true ->
  bytes_ok input -> zlen input <= isize_max ->
  receives w cf D (t :: ts) input (ROk (vs, rest)) <->
  exists v vs' mid, vs = v :: vs' /\ reads w cf D t input (ROk (v, mid)) /\ receives w cf D ts mid (ROk (vs', rest)).
Proof.
  intros HW HB HL. split.
  - intros H. apply receives_inv in H; auto. destruct H as [f H]. cbn [d_fields] in H. unfold d_bind at 1 in H.
    destruct (dec cf D f t input) as [[v m]| | | |] eqn:E; try discriminate. unfold d_bind in H.
    destruct (d_fields (dec cf D f) ts m) as [[vs' r]| | | |] eqn:E'; try discriminate. injection H as <- <-.
    destruct (small_rest cf D HD f t input v m (conj HB HL) E) as [HB' HL'].
    exists v, vs', m. split; [reflexivity|]. split; [eapply reads_ok; eassumption|eapply receives_ok; eassumption].
  - intros (v & vs' & mid & -> & H1 & H2). cbn [forallb] in HW. apply andb_prop in HW. destruct HW as [HW HWs].
    apply andb_prop in HW. destruct HW as [HW HP].
    apply reads_inv_in in H1; [|exact HL|intros f; apply dec_no_ub; assumption]. destruct H1 as [f1 H1].
    destruct (small_rest cf D HD f1 t input v mid (conj HB HL) H1) as [HB' HL'].
    apply receives_inv in H2; auto. destruct H2 as [f2 H2].
    apply (receives_ok _ _ (Nat.max f1 f2)); [exact HL|]. cbn [d_fields]. unfold d_bind at 1.
    rewrite (dec_more cf D f1 (Nat.max f1 f2) t input v mid) by (auto; lia). unfold d_bind.
    rewrite (fields_more cf D f2 (Nat.max f1 f2) ts mid vs' rest) by (auto; lia). reflexivity.
Qed.
End Restart.
End Receive.

(** ** Streams *)
Section Stream.
Variables (cf : config) (D : list def) (I : list tinfo) (kf : nat).
Hypothesis HD : wf_defs D = true.
Hypothesis HI : disciplined D I = true.

Lemma fields_own xs bss extra : Forall (message cf D I) xs -> encodings cf D kf xs bss ->
  zlen (concat bss ++ extra) <= isize_max ->
  exists f, d_fields (dec cf D f) (map fst xs) (concat bss ++ extra) = ROk (map snd xs, extra).
Proof.
  intros HM HE. induction HE as [|x bs xs bss Hx HE IH]; intros HL.
  - exists 0%nat. reflexivity.
  - inversion HM as [|? ? (W & S & V & Z0) HM']; subst. cbn [concat map] in *. rewrite <- app_assoc in *.
    apply delim_kind in S.
    destruct (dec_own cf D I kf (fst x) (snd x) bs HD HI W V Hx Z0 Delim (concat bss ++ extra) S Logic.I HL) as [f1 H1].
    destruct IH as [f2 H2]; [exact HM'|rewrite zlen_app in HL; pose proof (zlen_nonneg bs); unfold byte in *; lia|].
    exists (Nat.max f1 f2). cbn [d_fields]. unfold d_bind at 1. rewrite (dec_more cf D f1 (Nat.max f1 f2) _ _ _ _) by (eauto; lia).
    unfold d_bind. rewrite (fields_more cf D f2 (Nat.max f1 f2) _ _ _ _) by (eauto; lia). reflexivity.
Qed.

Lemma in_order w xs bss extra : Forall (message cf D I) xs -> encodings cf D kf xs bss ->
  zlen (concat bss ++ extra) <= isize_max ->
  receives w cf D (map fst xs) (concat bss ++ extra) (ROk (map snd xs, extra)).
Proof. intros HM HE HL. destruct (fields_own xs bss extra HM HE HL) as [f H]. eapply receives_ok; eassumption. Qed.

Lemma greedy_last w xs bss t v bs : Forall (message cf D I) xs -> encodings cf D kf xs bss ->
  wf_ty D t = true -> decodable I t = true -> well_typed D v t = true -> (cf_est_override cf = true -> zeros D v t = 0) ->
  to_bytes cf D kf v t = ROk bs -> zlen (concat bss ++ bs) <= isize_max ->
  receives w cf D (map fst xs ++ [t]) (concat bss ++ bs) (ROk (map snd xs ++ [v], [])).
Proof.
  intros HM HE W K V Z0 Hb HL. destruct (fields_own xs bss bs HM HE HL) as [f1 H1].
  apply decodable_kind in K. destruct K as (k & K & G).
  destruct (dec_own cf D I kf t v bs HD HI W V Hb Z0 k [] K (adm_greedy k G)) as [f2 H2].
  { rewrite app_nil_r. rewrite zlen_app in HL. pose proof (zlen_nonneg (concat bss)). unfold byte in *. lia. }
  rewrite app_nil_r in H2. set (f := Nat.max f1 f2).
  apply (receives_ok w cf D _ _ f); [exact HL|]. rewrite (fields_app cf D f _ _ _ (map snd xs) bs).
  - cbn [d_fields]. unfold d_bind, d_ret. rewrite (dec_more cf D f2 f _ _ _ _) by (eauto; lia). reflexivity.
  - apply (fields_more cf D f1); [lia|exact H1].
Qed.

Lemma cut_short w xs bss t v p q : Forall (message cf D I) xs -> encodings cf D kf xs bss ->
  message cf D I (t, v) -> to_bytes cf D kf v t = ROk (p ++ q) -> q <> [] -> zlen (concat bss ++ p ++ q) <= isize_max ->
  receives w cf D (map fst xs) (concat bss ++ p) (ROk (map snd xs, p)) /\
  exists out, receives w cf D (map fst xs ++ [t]) (concat bss ++ p) out /\
    ((exists e, out = RErr e) \/ (out = RPanic /\ cf_mode cf = Debug /\ w <> WSlice)).
Proof.
  intros HM HE (W & S & V & Z0) Hb Hq HL. cbn [fst snd] in *.
  assert (HP : zlen (concat bss ++ p) <= isize_max).
  { rewrite !zlen_app in *. pose proof (zlen_nonneg q). unfold byte in *. lia. }
  assert (HB : zlen (p ++ q) <= isize_max).
  { rewrite !zlen_app in *. pose proof (zlen_nonneg (concat bss)). unfold byte in *. lia. }
  split; [apply (in_order w xs bss p); assumption|].
  destruct (fields_own xs bss p HM HE HP) as [f1 H1]. apply delim_kind in S.
  destruct (dec_own cf D I kf t v (p ++ q) HD HI W V Hb Z0 Delim [] S Logic.I) as [f2 H2]; [rewrite app_nil_r; exact HB|].
  rewrite app_nil_r in H2. set (f := Nat.max f1 f2).
  apply (dec_more cf D f2 f) in H2; [|lia]. apply (fields_more cf D f1 f) in H1; [|lia].
  destruct (local_dec cf D I HI f t S (p ++ q) v [] H2) as [_ C]. destruct (C p q eq_refl) as [(r & Er & _)|[_ [e Hp]]].
  { symmetry in Er. apply app_eq_nil in Er. tauto. }
  pose proof (receive_seen w cf D (map fst xs ++ [t]) (concat bss ++ p) f HP) as R. cbv zeta in R.
  rewrite (fields_app cf D f _ _ _ _ _ H1) in R. cbn [d_fields] in R. unfold d_bind in R. rewrite Hp in R.
  destruct R as [[e' R]|[Hm R]].
  - exists (RErr e'). split; [eapply receives_at; [exact R|discriminate]|left; eexists; reflexivity].
  - exists RPanic. split; [eapply receives_at; [exact R|discriminate]|]. right. destruct w; cbn [pm_of] in Hm; intuition congruence.
Qed.

Lemma same_stream xs ys bss css extra extra' : Forall (message cf D I) xs -> Forall (message cf D I) ys ->
  encodings cf D kf xs bss -> encodings cf D kf ys css -> map fst xs = map fst ys ->
  zlen (concat bss ++ extra) <= isize_max -> concat bss ++ extra = concat css ++ extra' -> xs = ys /\ extra = extra'.
Proof.
  intros MX MY EX EY ET HL E. destruct (fields_own xs bss extra MX EX HL) as [f1 H1].
  rewrite E in HL. destruct (fields_own ys css extra' MY EY HL) as [f2 H2].
  apply (fields_more cf D f1 (Nat.max f1 f2)) in H1; [|lia]. apply (fields_more cf D f2 (Nat.max f1 f2)) in H2; [|lia].
  rewrite E, ET, H2 in H1. injection H1 as H1 H3. split; [|auto].
  clear - ET H1. revert ys ET H1. induction xs as [|[t v] xs IH]; intros [|[t' v'] ys]; cbn [map fst snd]; try discriminate; auto.
  intros E1 E2. injection E1 as -> E1. injection E2 as -> E2. f_equal. auto.
Qed.
End Stream.

(** ** Writing *)
Lemma written cf D kf U (T : target U) holds xs bss : collects T holds -> encodings cf D kf xs bss -> zlen (concat bss) < usize_mod ->
  forall u pre, holds u pre -> exists u', write_all cf D kf xs T u = ROk (zlen (concat bss), u') /\ holds u' (pre ++ concat bss).
Proof.
  intros HC HE HL u pre Hu.
  assert (G : forall xs bss, encodings cf D kf xs bss -> forall (a : writer U) done ,
    (forall u pre, holds u pre -> exists u', a u = ROk (zlen done, u') /\ holds u' (pre ++ done)) ->
    zlen (done ++ concat bss) < usize_mod -> forall u pre, holds u pre ->
    exists u', fold_left (fun sum y => w_add cf sum (write_to cf D kf (snd y) U T (fst y))) xs a u = ROk (zlen (done ++ concat bss), u') /\
               holds u' (pre ++ done ++ concat bss)).
  { clear xs bss HE HL u pre Hu. intros xs bss HE. induction HE as [|x bs xs bss Hx HE IH]; intros a done Ha HL u pre Hu; cbn [fold_left concat] in *.
    - rewrite app_nil_r. apply Ha; exact Hu.
    - rewrite app_assoc in *. apply IH; [|exact HL|exact Hu]. clear u pre Hu. intros u pre Hu. unfold w_add.
      destruct (Ha u pre Hu) as (u1 & -> & H1). cbn [rbind fst snd].
      pose proof (custom_same T holds HC cf D kf (snd x) (fst x) u1 _ H1) as C. rewrite Hx in C.
      destruct C as (n & u2 & -> & H2 & Hn). cbn [rbind fst snd].
      rewrite !zlen_app in HL. pose proof (zlen_nonneg done). pose proof (zlen_nonneg bs). pose proof (zlen_nonneg (concat bss)).
      unfold byte in *. rewrite Hn by lia. rewrite uadd_ok by lia. cbn [rbind]. exists u2. rewrite zlen_app, app_assoc. auto. }
  destruct HC as [HC0 HC1] eqn:EC. clear EC.
  inversion HE as [|x bs xs' bss' Hx HE']; subst; cbn [write_all concat] in *.
  - unfold w_call. destruct (HC1 u pre Hu) as (_ & _ & _ & _ & _ & u' & -> & H). exists u'. rewrite app_nil_r. auto.
  - unfold write_all, w_add at 1. cbv zeta.
    destruct (G xs' bss' HE' (write_to cf D kf (snd x) U T (fst x)) bs) with (u := u) (pre := pre) as (u1 & -> & H1); auto.
    { intros u0 pre0 Hu0. pose proof (custom_same T holds (conj HC0 HC1) cf D kf (snd x) (fst x) u0 _ Hu0) as C. rewrite Hx in C.
      destruct C as (n & u2 & -> & H2 & Hn). exists u2. rewrite Hn; auto. rewrite zlen_app in HL. pose proof (zlen_nonneg (concat bss')). unfold byte in *. lia. }
    cbn [rbind fst snd]. unfold w_call. destruct (HC1 u1 _ H1) as (_ & _ & _ & _ & _ & u' & -> & H). cbn [rbind fst snd].
    rewrite uadd_ok by lia. cbn [rbind]. exists u'. rewrite Z.add_0_r. auto.
Qed.

(** ** Envelopes *)
Lemma envelope cf D I kf s t v bs w extra : wf_defs D = true -> disciplined D I = true -> wf_ty D t = true -> well_typed D v t = true ->
  (cf_est_override cf = true -> zeros D v t = 0) -> to_bytes cf D kf (VWrap v) (TDyn s t) = ROk bs -> zlen (bs ++ extra) <= isize_max ->
  reads w cf D (TDyn s TBytes) (bs ++ extra) (ROk (VWrap (VBytes (format D v t)), extra)) /\
  (cf_est_override cf = false -> to_bytes cf D kf v t = ROk (format D v t)) /\
  (decodable I t = true -> (w = WSlice -> cf_complete cf = false) -> decodes w cf D t (format D v t) (ROk v)).
Proof.
  intros HD HI HW HV HZ HE HL.
  assert (HB : zlen bs <= isize_max) by (rewrite zlen_app in HL; pose proof (zlen_nonneg extra); unfold byte in *; lia).
  assert (HV' : well_typed D (VWrap v) (TDyn s t) = true).
  { unfold well_typed in *. cbn [valid_gen]. rewrite HV. reflexivity. }
  destruct (to_bytes_format cf D kf HD (VWrap v) (TDyn s t) bs HW HV' HE HB HZ) as [Eb V]. clear HV'.
  cbn [valid valid_gen format] in *. unfold valid in V. cbn [valid_gen] in V. apply andb_prop in V. destruct V as [V1 V2].
  assert (HF : zlen (format D v t) <= isize_max).
  { subst bs. rewrite !zlen_app in HB. pose proof (zlen_nonneg (pref_format s (zlen (format D v t)))). unfold byte in *. lia. }
  split; [|split].
  - assert (VB : valid D (VWrap (VBytes (format D v t))) (TDyn s TBytes) = true).
    { unfold valid. cbn [valid_gen format]. rewrite V2, andb_true_r. apply forallb_byteb. apply format_bytes; assumption. }
    destruct (rt_all cf D I HI HD (VWrap (VBytes (format D v t))) (TDyn s TBytes) Delim eq_refl eq_refl VB) as [f0 R].
    eapply (reads_ok w cf D _ _ HL f0). rewrite Eb. apply (R f0 extra (le_n _) Logic.I). cbn [format]. rewrite <- Eb. exact HL.
  - intros EO. rewrite (encode_is_format cf D kf t v) by assumption. unfold valid. rewrite V1. reflexivity.
  - intros HK HC. apply decodable_kind in HK. destruct HK as (k & HK & HG).
    destruct (rt_all cf D I HI HD v t k HK HW V1) as [f0 R].
    specialize (R f0 [] (le_n _) (adm_greedy k HG)). rewrite app_nil_r in R. specialize (R HF).
    destruct (decodes_finished w cf D t (format D v t) HF f0 v [] R) as (out & Hd & Hfin).
    rewrite (finished_ok w cf v HC out Hfin) in Hd. exact Hd.
Qed.
