(** Lemmas behind C51: how the build profile and the options change decoding. *)
From Verif Require Import Base BaseLemmas ModelErrors ModelParser ModelInt ModelFloat ModelZarith
  ModelUtf8 ModelTarget ModelSchema SpecParser SpecCodec ProofInt ProofParser ProofDec ProofMeta ProofSafe ProofSettle ProofTransfer ProofView
  ProofBroken ProofCodecProps ProofCodecThms.
From Coq Require Import ZifyBool.

(** Whatever the first accepts the second accepts, with the same result. *)
Definition sub {A} (d1 d2 : dm A) : Prop :=
  forall cur a rest, d1 cur = ROk (a, rest) -> d2 cur = ROk (a, rest).

Lemma sub_refl {A} (d : dm A) : sub d d. Proof. intros cur a rest H; exact H. Qed.
Lemma sub_bind {A B} (d1 d2 : dm A) (k1 k2 : A -> dm B) :
  sub d1 d2 -> (forall a, sub (k1 a) (k2 a)) -> sub (d_bind d1 k1) (d_bind d2 k2).
Proof.
  intros Hd Hk cur b rest H. unfold d_bind in *.
  destruct (d1 cur) as [[a r]| | | |] eqn:E; try discriminate. rewrite (Hd _ _ _ E). apply Hk, H.
Qed.
Lemma sub_window {A} n (d1 d2 : dm A) : sub d1 d2 -> sub (d_window n d1) (d_window n d2).
Proof.
  intros Hd cur a rest H. unfold d_window in *. destruct (size_ok n); [|discriminate].
  destruct (n <=? zlen cur); [|discriminate].
  destruct (d1 (ztake n cur)) as [[a' r]| | | |] eqn:E; try discriminate. rewrite (Hd _ _ _ E). exact H.
Qed.
Lemma sub_seq e1 e2 : sub e1 e2 -> forall f acc, sub (d_seq f e1 acc) (d_seq f e2 acc).
Proof.
  intros He. induction f as [|f IH]; intros acc; cbn [d_seq]; [apply sub_refl|].
  apply sub_bind; [apply sub_refl|]. intros rem. destruct (rem =? 0); [apply sub_refl|].
  apply sub_bind; [exact He|auto].
Qed.
Lemma sub_lim n e1 e2 : sub e1 e2 -> forall f acc, sub (d_lim f n e1 acc) (d_lim f n e2 acc).
Proof.
  intros He. induction f as [|f IH]; intros acc; cbn [d_lim]; [apply sub_refl|].
  apply sub_bind; [apply sub_refl|]. intros rem. destruct (rem =? 0); [apply sub_refl|].
  apply sub_bind; [exact He|]. intros v. apply sub_bind; [apply sub_refl|auto].
Qed.
Lemma sub_fix n e1 e2 : sub e1 e2 -> forall f acc, sub (d_fix f n e1 acc) (d_fix f n e2 acc).
Proof.
  intros He. induction f as [|f IH]; intros acc; cbn [d_fix]; [apply sub_refl|].
  apply sub_bind; [apply sub_refl|]. intros rem. destruct (negb (rem =? 0) && (zlen acc <? n)); [|apply sub_refl].
  apply sub_bind; [exact He|auto].
Qed.
Lemma sub_fields (p : ty -> bool) e1 e2 : (forall t, p t = true -> sub (e1 t) (e2 t)) ->
  forall ts, forallb p ts = true -> sub (d_fields e1 ts) (d_fields e2 ts).
Proof.
  intros He. induction ts as [|t ts IH]; intros Ht; cbn [d_fields forallb] in *; [apply sub_refl|].
  apply andb_prop in Ht. apply sub_bind; [apply He; tauto|]. intros v.
  apply sub_bind; [apply IH; tauto|]. intros; apply sub_refl.
Qed.

Lemma ranged_same cf1 cf2 k lo hi : ri_sanity lo hi = true -> d_ranged cf1 k lo hi = d_ranged cf2 k lo hi.
Proof.
  intros H. unfold d_ranged, ri_try_from_underlying, ri_check, rassert. rewrite H.
  destruct (cf_range_check cf1), (cf_range_check cf2); reflexivity.
Qed.
Lemma pref_same cf1 cf2 s : d_pref cf1 s = d_pref cf2 s.
Proof. destruct s; cbn [d_pref]; try reflexivity. rewrite (ranged_same cf1 cf2) by reflexivity. reflexivity. Qed.


Lemma vpad_ok m n rem (e : dm val) cur a rest : 0 <= n <= isize_max -> 0 <= rem ->
  d_bind (d_lift (debug_assert m (n <=? rem))) (fun _ =>
  d_bind (d_lift (usub m rem n)) (fun win =>
  d_bind (d_window win e) (fun v => d_ret (VWrap v)))) cur = ROk (a, rest) ->
  n <= rem.
Proof.
  intros Hn Hr H. destruct (Z.leb_spec n rem) as [L|L]; [exact L|exfalso].
  destruct m; cbn [debug_assert] in H; unfold d_bind, d_lift in H; [discriminate|].
  unfold usub in H. rewrite (proj2 (Z.leb_gt _ _)) in H by lia. cbn [rassert] in H.
  pose proof isize_max_lt as HM. assert (1 < isize_max) by reflexivity.
  assert (E : (rem - n) mod usize_mod = rem - n + usize_mod).
  { symmetry. apply (Z.mod_unique _ _ (-1)); lia. }
  rewrite E in H. unfold d_window, size_ok in H.
  destruct (_ && _) eqn:Es in H; [lia|discriminate].
Qed.
Lemma vpad_reduce m n rem (e : dm val) cur : n <= rem ->
  d_bind (d_lift (debug_assert m (n <=? rem))) (fun _ =>
  d_bind (d_lift (usub m rem n)) (fun win =>
  d_bind (d_window win e) (fun v => d_ret (VWrap v)))) cur
  = d_bind (d_window (rem - n) e) (fun v => d_ret (VWrap v)) cur.
Proof.
  intros L. rewrite (proj2 (Z.leb_le _ _)) by lia. unfold usub. rewrite (proj2 (Z.leb_le _ _)) by lia.
  destruct m; reflexivity.
Qed.
Lemma sub_rem {A} (k1 k2 : Z -> dm A) : (forall rem, 0 <= rem -> sub (k1 rem) (k2 rem)) ->
  sub (d_bind d_rem k1) (d_bind d_rem k2).
Proof. intros H cur a rest E. unfold d_bind, d_rem in *. apply H; [apply zlen_nonneg|exact E]. Qed.

Section Options.
Variables (cf1 cf2 : config) (D : list def).
Hypothesis HD : wf_defs D = true.
Hypothesis HP : cf_check_padding cf2 = true -> cf_check_padding cf1 = true.

Lemma sub_dec f : forall t, wf_ty D t = true -> sub (dec cf1 D f t) (dec cf2 D f t).
Proof.
  induction f as [|f IH]; intros t HW; [apply sub_refl|].
  cbn [dec]. destruct t; cbn [wf_ty] in HW; try apply sub_refl.
  - rewrite (ranged_same cf1 cf2) by exact HW. apply sub_refl.
  - apply sub_bind; [apply sub_refl|]. intros tag. destruct (tag =? 255); [|apply sub_refl].
    apply sub_bind; [auto|intros; apply sub_refl].
  - apply sub_bind; [apply sub_refl|]. intros rem. destruct (negb (rem =? 0)); [|apply sub_refl].
    apply sub_bind; [auto|intros; apply sub_refl].
  - apply sub_bind; [apply sub_seq; auto|intros; apply sub_refl].
  - apply andb_prop in HW. apply sub_bind; [apply sub_lim; apply IH; tauto|intros; apply sub_refl].
  - apply andb_prop in HW. apply sub_bind; [apply sub_fix; apply IH; tauto|intros; apply sub_refl].
  - rewrite (pref_same cf1 cf2). apply sub_bind; [apply sub_refl|]. intros n.
    apply sub_bind; [apply sub_window; auto|intros; apply sub_refl].
  - apply andb_prop in HW. destruct HW as [Hs HW]. unfold sizeb in Hs. assert (Hn : 0 <= n <= isize_max) by lia.
    apply sub_rem. intros rem Hr cur a rest E. pose proof (vpad_ok _ _ _ _ _ _ _ Hn Hr E) as L. rewrite vpad_reduce in E by exact L.
    rewrite vpad_reduce by exact L. revert E. apply sub_bind; [apply sub_window; auto|intros; apply sub_refl].
  - apply andb_prop in HW. apply sub_bind; [apply IH; tauto|]. intros v. apply sub_bind; [apply sub_refl|].
    intros padding cur a rest E. destruct (cf_check_padding cf1 && negb (forallb (Z.eqb 0) padding)) eqn:Ep; [discriminate|].
    destruct (cf_check_padding cf2); [|exact E]. rewrite HP in Ep by reflexivity. rewrite Ep. exact E.
  - apply sub_bind; [auto|intros; apply sub_refl].
  - destruct (nth_error D i) as [[ts|k tags|k alts]|] eqn:Ei; try apply sub_refl.
    + apply sub_bind; [|intros; apply sub_refl]. apply (sub_fields (wf_ty D) _ _ IH). apply (wf_struct D i ts HD Ei).
    + apply sub_bind; [apply sub_refl|]. intros tag. destruct (find_tag tag (map fst alts)) as [ix|]; [|apply sub_refl].
      destruct (nth_error alts ix) as [[tg ts]|] eqn:Ea; [|apply sub_refl].
      apply sub_bind; [|intros; apply sub_refl]. apply (sub_fields (wf_ty D) _ _ IH).
      apply (wf_data D i k alts ix tg ts HD Ei Ea).
Qed.
End Options.

(** ** Types without VPadded: the profile does not matter at all *)
Definition deq {A} (d1 d2 : dm A) : Prop := forall cur, d1 cur = d2 cur.
Lemma deq_refl {A} (d : dm A) : deq d d. Proof. intros cur; reflexivity. Qed.
Lemma deq_bind {A B} (d1 d2 : dm A) (k1 k2 : A -> dm B) :
  deq d1 d2 -> (forall a, deq (k1 a) (k2 a)) -> deq (d_bind d1 k1) (d_bind d2 k2).
Proof. intros Hd Hk cur. unfold d_bind. rewrite Hd. destruct (d2 cur) as [[a r]| | | |]; try reflexivity. apply Hk. Qed.
Lemma deq_window {A} n (d1 d2 : dm A) : deq d1 d2 -> deq (d_window n d1) (d_window n d2).
Proof. intros Hd cur. unfold d_window. rewrite Hd. reflexivity. Qed.
Lemma deq_seq e1 e2 : deq e1 e2 -> forall f acc, deq (d_seq f e1 acc) (d_seq f e2 acc).
Proof.
  intros He. induction f as [|f IH]; intros acc; cbn [d_seq]; [apply deq_refl|].
  apply deq_bind; [apply deq_refl|]. intros rem. destruct (rem =? 0); [apply deq_refl|].
  apply deq_bind; [exact He|auto].
Qed.
Lemma deq_lim n e1 e2 : deq e1 e2 -> forall f acc, deq (d_lim f n e1 acc) (d_lim f n e2 acc).
Proof.
  intros He. induction f as [|f IH]; intros acc; cbn [d_lim]; [apply deq_refl|].
  apply deq_bind; [apply deq_refl|]. intros rem. destruct (rem =? 0); [apply deq_refl|].
  apply deq_bind; [exact He|]. intros v. apply deq_bind; [apply deq_refl|auto].
Qed.
Lemma deq_fix n e1 e2 : deq e1 e2 -> forall f acc, deq (d_fix f n e1 acc) (d_fix f n e2 acc).
Proof.
  intros He. induction f as [|f IH]; intros acc; cbn [d_fix]; [apply deq_refl|].
  apply deq_bind; [apply deq_refl|]. intros rem. destruct (negb (rem =? 0) && (zlen acc <? n)); [|apply deq_refl].
  apply deq_bind; [exact He|auto].
Qed.
Lemma deq_fields (p : ty -> bool) e1 e2 : (forall t, p t = true -> deq (e1 t) (e2 t)) ->
  forall ts, forallb p ts = true -> deq (d_fields e1 ts) (d_fields e2 ts).
Proof.
  intros He. induction ts as [|t ts IH]; intros Ht; cbn [d_fields forallb] in *; [apply deq_refl|].
  apply andb_prop in Ht. apply deq_bind; [apply He; tauto|]. intros v.
  apply deq_bind; [apply IH; tauto|]. intros; apply deq_refl.
Qed.
Lemma deq_rem {A} (k1 k2 : Z -> dm A) : (forall rem, 0 <= rem -> deq (k1 rem) (k2 rem)) ->
  deq (d_bind d_rem k1) (d_bind d_rem k2).
Proof. intros H cur. unfold d_bind, d_rem in *. apply H. apply zlen_nonneg. Qed.

Lemma vpad_free_struct D i ts : vpad_free_defs D = true -> nth_error D i = Some (DStruct ts) -> forallb vpad_free ts = true.
Proof.
  intros H E. unfold vpad_free_defs in H. rewrite forallb_forall in H. apply nth_error_In in E.
  specialize (H _ E). cbn [field_types forallb] in H. rewrite andb_true_r in H. exact H.
Qed.
Lemma vpad_free_data D i k alts ix tag ts : vpad_free_defs D = true -> nth_error D i = Some (DData k alts) ->
  nth_error alts ix = Some (tag, ts) -> forallb vpad_free ts = true.
Proof.
  intros H E Ea. unfold vpad_free_defs in H. rewrite forallb_forall in H. apply nth_error_In in E.
  specialize (H _ E). cbn [field_types] in H. rewrite forallb_forall in H. apply H.
  apply nth_error_In in Ea. apply (in_map snd) in Ea. exact Ea.
Qed.

Section Profile.
Variables (cf1 cf2 : config) (D : list def).
Hypothesis HD : wf_defs D = true.
Hypothesis HV : vpad_free_defs D = true.
Hypothesis HP : cf_check_padding cf1 = cf_check_padding cf2.

Lemma deq_dec f : forall t, wf_ty D t = true -> vpad_free t = true -> deq (dec cf1 D f t) (dec cf2 D f t).
Proof.
  induction f as [|f IH]; intros t HW HF; [apply deq_refl|].
  cbn [dec]. destruct t; cbn [wf_ty vpad_free] in HW, HF; try apply deq_refl.
  - rewrite (ranged_same cf1 cf2) by exact HW. apply deq_refl.
  - apply deq_bind; [apply deq_refl|]. intros tag. destruct (tag =? 255); [|apply deq_refl].
    apply deq_bind; [auto|intros; apply deq_refl].
  - apply deq_bind; [apply deq_refl|]. intros rem. destruct (negb (rem =? 0)); [|apply deq_refl].
    apply deq_bind; [auto|intros; apply deq_refl].
  - apply deq_bind; [apply deq_seq; auto|intros; apply deq_refl].
  - apply andb_prop in HW. apply deq_bind; [apply deq_lim; apply IH; tauto|intros; apply deq_refl].
  - apply andb_prop in HW. apply deq_bind; [apply deq_fix; apply IH; tauto|intros; apply deq_refl].
  - rewrite (pref_same cf1 cf2). apply deq_bind; [apply deq_refl|]. intros n.
    apply deq_bind; [apply deq_window; auto|intros; apply deq_refl].
  - apply andb_prop in HW. destruct HW as [Hs HW]. apply andb_prop in HF. destruct HF as [Hn HF].
    apply deq_rem. intros rem Hr cur. rewrite !vpad_reduce by lia.
    apply deq_bind; [apply deq_window; auto|intros; apply deq_refl].
  - apply andb_prop in HW. rewrite HP. apply deq_bind; [apply IH; tauto|intros; apply deq_refl].
  - apply deq_bind; [auto|intros; apply deq_refl].
  - destruct (nth_error D i) as [[ts|k tags|k alts]|] eqn:Ei; try apply deq_refl.
    + apply deq_bind; [|intros; apply deq_refl].
      apply (deq_fields (fun t => wf_ty D t && vpad_free t)); [intros t Ht; apply andb_prop in Ht; apply IH; tauto|].
      rewrite forallb_forall. intros t Ht. pose proof (wf_struct D i ts HD Ei) as W. pose proof (vpad_free_struct D i ts HV Ei) as V.
      rewrite forallb_forall in W, V. rewrite (W t Ht), (V t Ht). reflexivity.
    + apply deq_bind; [apply deq_refl|]. intros tag. destruct (find_tag tag (map fst alts)) as [ix|]; [|apply deq_refl].
      destruct (nth_error alts ix) as [[tg ts]|] eqn:Ea; [|apply deq_refl].
      apply deq_bind; [|intros; apply deq_refl].
      apply (deq_fields (fun t => wf_ty D t && vpad_free t)); [intros t Ht; apply andb_prop in Ht; apply IH; tauto|].
      rewrite forallb_forall. intros t Ht. pose proof (wf_data D i k alts ix tg ts HD Ei Ea) as W.
      pose proof (vpad_free_data D i k alts ix tg ts HV Ei Ea) as V.
      rewrite forallb_forall in W, V. rewrite (W t Ht), (V t Ht). reflexivity.
Qed.
End Profile.

(** ** C51 *)
Lemma stricter_accepts_less w cf1 cf2 D t input v :
  wf_defs D = true -> wf_ty D t = true -> bytes_ok input -> zlen input <= isize_max ->
  (cf_check_padding cf2 = true -> cf_check_padding cf1 = true) ->
  (cf_complete cf2 = true -> cf_complete cf1 = true) ->
  decodes w cf1 D t input (ROk v) -> decodes w cf2 D t input (ROk v).
Proof.
  intros HD HW HB HL HP HC H.
  destruct (decodes_inv w cf1 D t input HD HW HB HL v H) as (f & rest & E & F).
  apply (sub_dec cf1 cf2 D HD HP f t HW) in E.
  pose proof (decodes_finished w cf2 D t input HL f v rest E) as G.
  destruct G as (out & Ho & G).
  replace (ROk v) with out; [exact Ho|].
  unfold finished in *.
  destruct (cf_complete cf2 && _) eqn:E2.
  - apply andb_prop in E2. destruct E2 as [E2 E3]. rewrite (HC E2), E3 in F. cbn [andb] in F.
    destruct F as (lo & F & _). discriminate.
  - exact G.
Qed.

Lemma profile_irrelevant w cf1 cf2 D t input v :
  wf_defs D = true -> wf_ty D t = true -> bytes_ok input -> zlen input <= isize_max ->
  cf_check_padding cf1 = cf_check_padding cf2 -> cf_complete cf1 = cf_complete cf2 ->
  decodes w cf1 D t input (ROk v) <-> decodes w cf2 D t input (ROk v).
Proof.
  intros HD HW HB HL HP HC. split; apply stricter_accepts_less; auto; congruence.
Qed.

(** Where a debug build panics, the release build reports a parse error. *)
Lemma panics_are_errors w cf1 cf2 D t input :
  wf_defs D = true -> wf_ty D t = true -> bytes_ok input -> zlen input <= isize_max ->
  vpad_free t = true -> vpad_free_defs D = true ->
  cf_check_padding cf1 = cf_check_padding cf2 -> cf_mode cf2 = Release ->
  decodes w cf1 D t input RPanic -> exists e, decodes w cf2 D t input (RErr (DParse e)).
Proof.
  intros HD HW HB HL HF HV HP HM H. apply settles_at in H. destruct H as [f H].
  pose proof (decode_cases w cf1 D t input HL f) as C. cbv zeta in C. rewrite H in C.
  pose proof (deq_dec cf1 cf2 D HD HV HP f t HW HF input) as E.
  assert (S1 : ok_or_err false (dec cf1 D f t input)).
  { apply (safe_dec false cf1 D HD); try assumption.
    - unfold vpads. destruct (cf_mode cf1); exact HV.
    - unfold vpads. destruct (cf_mode cf1); exact HF.
    - split; assumption. }
  destruct S1 as [S1 S2].
  destruct (dec cf1 D f t input) as [[v rest]|e| | |] eqn:Ed; try discriminate C.
  - unfold finished in C. destruct (_ && _); [destruct C as (lo & C & _)|]; discriminate.
  - pose proof (decode_cases w cf2 D t input HL f) as C2. cbv zeta in C2. rewrite <- E in C2.
    destruct C2 as [[e2 C2]|[C2 _]].
    + exists e2. eapply decodes_at; [exact C2|discriminate].
    + destruct w; cbn [parser_mode] in C2; congruence.
  - destruct (S1 eq_refl eq_refl).
  - destruct (S2 eq_refl).
Qed.

(** With VPadded: a debug panic is at least no acceptance. *)
Lemma panics_are_rejections w cf1 cf2 D t input v :
  wf_defs D = true -> wf_ty D t = true -> bytes_ok input -> zlen input <= isize_max ->
  cf_check_padding cf1 = cf_check_padding cf2 -> cf_complete cf1 = cf_complete cf2 ->
  decodes w cf1 D t input RPanic -> ~ decodes w cf2 D t input (ROk v).
Proof.
  intros HD HW HB HL HP HC H1 H2.
  apply (profile_irrelevant w cf1 cf2) in H2; try assumption.
  pose proof (settles_unique _ _ _ H1 H2) as E. discriminate.
Qed.

Lemma encoding_same cf1 cf2 D kf1 kf2 v t :
  wf_defs D = true -> wf_ty D t = true -> well_typed D v t = true ->
  cf_est_override cf1 = false -> cf_est_override cf2 = false -> zlen (format D v t) <= isize_max ->
  to_bytes cf1 D kf1 v t = to_bytes cf2 D kf2 v t.
Proof. intros. rewrite !encode_is_format by assumption. reflexivity. Qed.
