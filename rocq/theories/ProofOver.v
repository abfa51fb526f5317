(** What is written with enc_len_estimable_override. *)
From Verif Require Import Base BaseLemmas ModelErrors ModelSplitVec ModelParser ModelInt ModelFloat ModelZarith
  ModelUtf8 ModelTarget ModelSchema SpecCodec SpecOver ProofInt ProofZarith ProofCodec ProofMeta ProofRoundTrip
  ProofEnc ProofEstimate ProofEncValid ProofEncBytes.
From Coq Require Import ZifyBool.

Section Over.
Variables (cf : config) (D : list def) (kf : nat).

(** ** Lengths *)
Lemma concat2_len (f g : val -> ty -> list byte) vs : Forall (fun v => forall t, zlen (f v t) = zlen (g v t)) vs ->
  forall ts, zlen (concat2 f vs ts) = zlen (concat2 g vs ts).
Proof.
  induction 1 as [|v vs Hv _ IH]; intros [|t ts]; try reflexivity.
  rewrite !concat2_cons, !zlen_app, Hv, IH. reflexivity.
Qed.
Lemma concat_len (f g : val -> list byte) vs : Forall (fun v => zlen (f v) = zlen (g v)) vs ->
  zlen (concat (map f vs)) = zlen (concat (map g vs)).
Proof. induction 1 as [|v vs Hv _ IH]; cbn [map concat]; [reflexivity|]. rewrite !zlen_app, Hv, IH. reflexivity. Qed.
Lemma format_est_len v : forall t, zlen (format_est D v t) = zlen (format D v t).
Proof.
  induction v as [| | | | |v IHv|vs IHvs|vs IHvs|ix vs IHvs|v IHv] using val_ind'; intros t;
    destruct t; cbn [format_est format]; try reflexivity; try apply IHv.
  - rewrite !zlen_cons, IHv. reflexivity.
  - apply concat_len. eapply Forall_impl; [|exact IHvs]. cbn beta; auto.
  - apply concat_len. eapply Forall_impl; [|exact IHvs]. cbn beta; auto.
  - apply concat_len. eapply Forall_impl; [|exact IHvs]. cbn beta; auto.
  - destruct (nth_error D i) as [[ts| |]|]; try reflexivity. apply concat2_len; exact IHvs.
  - destruct (nth_error D i) as [[ts| |k alts]|]; try reflexivity. rewrite !zlen_app. f_equal. apply concat2_len; exact IHvs.
  - rewrite !zlen_app, !pref_format_len, IHv. reflexivity.
  - rewrite !zlen_app, IHv. reflexivity.
Qed.

Lemma zeros_le_len v : forall t, zeros D v t <= zlen (format D v t).
Proof.
  assert (HS : forall vs, Forall (fun v => forall t, zeros D v t <= zlen (format D v t)) vs -> forall ts,
    sum2 (zeros D) vs ts <= zlen (concat2 (format D) vs ts)).
  { induction 1 as [|v' vs Hv _ IH]; intros [|t ts]; try (cbn; lia).
    rewrite sum2_cons, concat2_cons, zlen_app. specialize (Hv t). specialize (IH ts). lia. }
  assert (HC : forall vs t, Forall (fun v => forall t, zeros D v t <= zlen (format D v t)) vs ->
    fold_right Z.add 0 (map (fun v => zeros D v t) vs) <= zlen (concat (map (fun v => format D v t) vs))).
  { induction 1 as [|v' vs Hv _ IH]; cbn [map fold_right concat]; [cbn; lia|]. rewrite zlen_app. specialize (Hv t). lia. }
  induction v as [| | | | |v IHv|vs IHvs|vs IHvs|ix vs IHvs|v IHv] using val_ind'; intros t;
    destruct t; cbn [zeros format]; try apply zlen_nonneg; try apply IHv; try (apply HC; exact IHvs);
    try (destruct (nth_error D i) as [[| |]|]; apply zlen_nonneg).
  - destruct (Z.eqb_spec z 0) as [->|]; [change (zlen (natural_format 0)) with 1; lia|apply zlen_nonneg].
  - rewrite zlen_cons. specialize (IHv t). lia.
  - destruct (nth_error D i) as [[ts| |]|]; try apply zlen_nonneg. apply HS; exact IHvs.
  - destruct (nth_error D i) as [[ts|k tags|k alts]|]; try apply zlen_nonneg. rewrite zlen_app.
    specialize (HS vs IHvs (snd (nth ix alts (0, [])))). pose proof (zlen_nonneg (int_format k (fst (nth ix alts (0, []))))). lia.
  - rewrite zlen_app. specialize (IHv t). pose proof (zlen_nonneg (pref_format s (zlen (format D v t)))). lia.
  - rewrite zlen_app. specialize (IHv t). pose proof (zlen_nonneg (repeat 0 (Z.to_nat n))). unfold byte in *; lia.
Qed.

(** ** Constants that can be evaluated *)
Lemma sized_known t : sized cf D kf t = true -> known cf D kf t <> None.
Proof. destruct t; cbn [sized]; destruct (known cf D kf _); intros H; try discriminate H; discriminate. Qed.
Lemma known_sum_some ts : forallb (sized cf D kf) ts = true -> known_sum (known cf D kf) ts <> None.
Proof.
  induction ts as [|t ts IH]; intros H; [discriminate|]. cbn [forallb] in H. apply andb_prop in H; destruct H as [H1 H2].
  cbn [known_sum]. pose proof (sized_known t H1). specialize (IH H2).
  destruct (known cf D kf t) as [[a|]|]; [| |congruence]; destruct (known_sum (known cf D kf) ts) as [[b|]|]; congruence.
Qed.
Lemma uadd_div m a b : uadd (E := unit) m a b <> RDiv.
Proof. unfold uadd. destruct (_ <? _); [discriminate|]. destruct m; discriminate. Qed.
Lemma usum_div m l : Forall (fun r => r <> RDiv) l -> forall acc, usum m acc l <> RDiv.
Proof.
  induction 1 as [|r l Hr _ IH]; intros acc; cbn [usum]; [discriminate|].
  destruct r as [a| | | |]; cbn [rbind]; try congruence. pose proof (uadd_div m acc a).
  destruct (uadd m acc a); cbn [rbind]; try congruence; apply IH.
Qed.
Lemma bind_div {A} (r : wres A) (f : A -> wres Z) : r <> RDiv -> (forall a, f a <> RDiv) -> rbind r f <> RDiv.
Proof. intros Hr Hf. destruct r; cbn [rbind]; try congruence; apply Hf. Qed.
Lemma map2_div (f : val -> ty -> wres Z) vs ts (ok : ty -> bool) :
  Forall (fun v => forall t, ok t = true -> f v t <> RDiv) vs -> forallb ok ts = true ->
  Forall (fun r => r <> RDiv) (map2 f (RErr tt) vs ts).
Proof.
  intros H. revert ts. induction H as [|v vs Hv _ IH]; intros [|t ts] O; cbn [map2]; repeat (constructor; [discriminate|]); try constructor.
  - apply Hv. cbn [forallb] in O. apply andb_prop in O; apply O.
  - apply IH. cbn [forallb] in O. apply andb_prop in O; apply O.
Qed.

Hypothesis HS : sized_defs cf D kf = true.
Lemma sized_struct i ts : nth_error D i = Some (DStruct ts) -> forallb (sized cf D kf) ts = true.
Proof.
  intros E. apply nth_error_In in E. unfold sized_defs in HS. rewrite forallb_forall in HS. apply (HS _ E).
Qed.
Lemma sized_data i k alts ix tag ts : nth_error D i = Some (DData k alts) -> nth_error alts ix = Some (tag, ts) ->
  forallb (sized cf D kf) ts = true.
Proof.
  intros E Ea. apply nth_error_In in E, Ea. unfold sized_defs in HS. rewrite forallb_forall in HS. specialize (HS _ E).
  cbn beta iota in HS. rewrite forallb_forall in HS. apply (HS _ Ea).
Qed.
Lemma estimate_with_div t r : sized cf D kf t = true -> r <> RDiv -> estimate_with (known cf D kf t) r <> RDiv.
Proof.
  intros H Hr. pose proof (sized_known t H). unfold estimate_with. destruct (known cf D kf t) as [[n|]|]; congruence.
Qed.
Lemma sized_in t : sized cf D kf t = true ->
  match t with
  | TOption t | TNullable t | TSeq t | TLim _ t | TFix _ t | TDyn _ t | TVPad _ t | TPad _ t | TBox t =>
      sized cf D kf t = true
  | _ => True
  end.
Proof. destruct t; cbn [sized]; auto; destruct (known cf D kf _); intros; congruence. Qed.

Lemma unknown_div v : forall t, sized cf D kf t = true -> unknown cf D kf v t <> RDiv.
Proof.
  induction v as [| | | | |v IHv|vs IHvs|vs IHvs|ix vs IHvs|v IHv] using val_ind'; intros t H; pose proof (sized_in t H) as HI;
    destruct t; cbn [unknown]; try discriminate; cbn [sized_in] in HI;
    try (destruct (nth_error D i) as [[| |]|]; discriminate);
    try (apply usum_div; rewrite Forall_map; eapply Forall_impl; [|exact IHvs]; cbn beta; intros v Hv;
         first [apply estimate_with_div; [exact HI|apply Hv; exact HI]|apply Hv; exact HI]; fail).
  - apply bind_div; [|intros; apply uadd_div]. apply estimate_with_div; auto.
  - apply estimate_with_div; auto.
  - destruct (nth_error D i) as [[ts| |]|] eqn:Ei; try discriminate.
    apply usum_div. apply (map2_div _ vs ts (sized cf D kf)); [exact IHvs|apply (sized_struct i ts Ei)].
  - destruct (nth_error D i) as [[ts|k tags|k alts]|] eqn:Ei; try discriminate; [destruct vs; discriminate|].
    destruct (nth_error alts ix) as [[tag ts]|] eqn:Ea; [|discriminate].
    pose proof (sized_data i k alts ix tag ts Ei Ea) as Hts.
    apply bind_div; [|intros; apply uadd_div]. pose proof (known_sum_some ts Hts). unfold estimate_with.
    destruct (known_sum (known cf D kf) ts) as [[n|]|]; [discriminate| |congruence].
    apply usum_div. apply (map2_div _ vs ts (sized cf D kf)); [exact IHvs|exact Hts].
  - apply bind_div; [|intros; apply uadd_div]. auto.
  - auto.
  - apply bind_div; [|intros; apply uadd_div]. auto.
  - auto.
Qed.
Lemma estimate_div v t : sized cf D kf t = true -> estimate cf D kf v t <> RDiv.
Proof. intros H. apply estimate_with_div; [exact H|apply unknown_div; exact H]. Qed.

(** ** Writing *)
Hypothesis HD : wf_defs D = true.
Hypothesis HO : cf_est_override cf = true.

Definition goes (ok : bool) (x : list byte) (r : pw) : Prop := r = if ok then ROk (zlen x, x) else RPanic.

Lemma goes_add a b x y p q : goes p x a -> goes q y b -> zlen (x ++ y) <= isize_max -> goes (p && q) (x ++ y) (r_add cf a b).
Proof.
  intros -> -> L. destruct p; [|reflexivity]. destruct q; [|reflexivity]. unfold goes, r_add. cbn [andb rbind fst snd].
  rewrite zlen_app in *. pose proof (zlen_nonneg x). pose proof (zlen_nonneg y).
  assert (isize_max < usize_mod) by reflexivity. rewrite uadd_ok by lia. reflexivity.
Qed.
Lemma goes_end a x p : goes p x a -> zlen x <= isize_max -> goes p x (r_end cf a).
Proof.
  intros H L. rewrite <- (app_nil_r x), <- (andb_true_r p). apply goes_add; [exact H|reflexivity|]. rewrite app_nil_r; exact L.
Qed.
Lemma goes_put x : goes true x (r_put x). Proof. reflexivity. Qed.

Definition goes_val (v : val) : Prop := forall t, wf_ty D t = true -> well_typed D v t = true -> sized cf D kf t = true ->
  zlen (format D v t) <= isize_max -> goes (fits_est D v t) (format_est D v t) (wr cf D kf v t).

Lemma goes_fields vs : Forall goes_val vs -> forall ts, forallb (wf_ty D) ts = true -> all2 (well_typed D) vs ts = true ->
  forallb (sized cf D kf) ts = true -> forall acc, 0 <= acc -> acc + zlen (concat2 (format D) vs ts) <= isize_max ->
  r_sum cf acc (map2 (wr cf D kf) (RErr tt) vs ts) =
    (if all2 (fits_est D) vs ts then ROk (acc + zlen (concat2 (format_est D) vs ts), concat2 (format_est D) vs ts) else RPanic).
Proof.
  induction 1 as [|v vs Hv _ IH]; intros [|t ts] W V S acc A L; try discriminate V.
  - cbn. rewrite Z.add_0_r. reflexivity.
  - cbn [forallb] in W, S. apply andb_prop in W, S; destruct W as [W1 W2], S as [S1 S2].
    cbn [all2] in V |- *. apply andb_prop in V; destruct V as [V1 V2].
    rewrite concat2_cons, zlen_app in L. rewrite concat2_cons, zlen_app.
    pose proof (zlen_nonneg (format D v t)). pose proof (zlen_nonneg (concat2 (format D) vs ts)).
    assert (HM : isize_max < usize_mod) by reflexivity.
    assert (L1 : zlen (format D v t) <= isize_max) by (clear - A L H H0; lia).
    assert (L2 : 0 <= acc + zlen (format D v t)) by (clear - A H; lia).
    assert (L3 : acc + zlen (format D v t) + zlen (concat2 (format D) vs ts) <= isize_max) by (clear - L; lia).
    assert (L4 : acc + zlen (format D v t) < usize_mod) by (clear - L H0 HM; lia).
    cbn [map2 r_sum]. rewrite (Hv t W1 V1 S1 L1). destruct (fits_est D v t); [|reflexivity].
    cbn [rbind fst snd andb]. rewrite format_est_len.
    rewrite uadd_ok by (clear - L2 L4; lia). cbn [rbind]. rewrite (IH ts W2 V2 S2 _ L2 L3).
    fold (all2 (fits_est D)). destruct (all2 (fits_est D) vs ts); cbn [rbind fst snd]; [|reflexivity].
    f_equal. f_equal. clear. lia.
Qed.
Lemma goes_elems vs t : Forall goes_val vs -> wf_ty D t = true -> sized cf D kf t = true ->
  forallb (fun v => well_typed D v t) vs = true -> forall acc, 0 <= acc ->
  acc + zlen (concat (map (fun v => format D v t) vs)) <= isize_max ->
  r_sum cf acc (map (fun v => wr cf D kf v t) vs) =
    (if forallb (fun v => fits_est D v t) vs
     then ROk (acc + zlen (concat (map (fun v => format_est D v t) vs)), concat (map (fun v => format_est D v t) vs)) else RPanic).
Proof.
  intros HF W S. induction HF as [|v vs Hv _ IH]; intros V acc A L; cbn [map concat forallb r_sum] in *.
  - change (zlen []) with 0. rewrite Z.add_0_r. reflexivity.
  - apply andb_prop in V; destruct V as [V1 V2]. rewrite zlen_app in *.
    pose proof (zlen_nonneg (format D v t)). pose proof (zlen_nonneg (concat (map (fun v => format D v t) vs))).
    rewrite (Hv t W V1 S ltac:(lia)). destruct (fits_est D v t); [|reflexivity].
    cbn [rbind fst snd andb]. assert (isize_max < usize_mod) by reflexivity. rewrite format_est_len.
    rewrite uadd_ok by lia. cbn [rbind]. rewrite IH by (assumption || lia).
    destruct (forallb (fun v => fits_est D v t) vs); cbn [rbind fst snd]; [|reflexivity]. f_equal. f_equal. clear - L. lia.
Qed.
Lemma puts_goes r x : puts cf r x -> (r <> RDiv) -> goes true x r.
Proof. intros [->|[_ ->]] H; [reflexivity|congruence]. Qed.
Lemma end_put_div x : r_end cf (r_put x) <> RDiv.
Proof. unfold r_end, r_add, r_put. cbn [rbind fst snd]. pose proof (uadd_div (cf_mode cf) (zlen x) 0). destruct (uadd _ _ _); cbn [rbind]; congruence. Qed.
Lemma end_div r : r <> RDiv -> r_end cf r <> RDiv.
Proof.
  intros H. unfold r_end, r_add. destruct r as [[n bs]| | | |]; cbn [rbind fst snd]; try congruence.
  pose proof (uadd_div (cf_mode cf) n 0). destruct (uadd _ _ _); cbn [rbind]; congruence.
Qed.
Lemma ranged_div k lo hi z : r_ranged cf k lo hi z <> RDiv.
Proof.
  unfold r_ranged. assert (ri_to_underlying (cf_range_check cf) lo hi z <> @RDiv unit Z) as H.
  { unfold ri_to_underlying, ri_check, rassert.
    destruct (cf_range_check cf); [destruct (ri_sanity lo hi)|]; cbn [rbind]; try discriminate;
      destruct (restrict z lo hi); discriminate. }
  destruct (ri_to_underlying _ lo hi z); cbn [rbind]; try congruence. apply end_div, end_put_div.
Qed.
Lemma pref_div s n : r_pref cf s n <> RDiv.
Proof. destruct s; cbn [r_pref]; [apply end_put_div|apply end_put_div|apply ranged_div]. Qed.

Lemma goes_wr v : goes_val v.
Proof.
  induction v as [| | | | |v IHv|vs IHvs|vs IHvs|ix vs IHvs|v IHv] using val_ind';
    intros t W V S L; pose proof (sized_in t S) as HI; destruct t; try discriminate V;
    unfold well_typed in V; cbn [valid_gen] in V; cbn [wf_ty] in W;
    try (destruct (nth_error D i) as [[?|?|?]|] eqn:Ei; discriminate V);
    cbn [wr format format_est fits_est] in *;
    try (apply puts_goes; [apply (puts_int cf D HD)|apply end_put_div]);
    try (apply goes_end; [apply goes_put|exact L]).
  - reflexivity.
  - apply puts_goes; [apply (puts_ranged cf D HD); assumption|apply ranged_div].
  - apply puts_goes; [apply (puts_f64 cf D HD); exact V|apply end_put_div].
  - apply puts_goes; [apply (puts_f64 cf D HD)|apply end_put_div].
    apply andb_prop in V; destruct V as [V _]. apply andb_prop in V; destruct V as [V _]. exact V.
  - rewrite n_serialize_format by lia. cbn [rbind]. apply goes_end; [apply goes_put|exact L].
  - rewrite z_serialize_format. cbn [rbind]. apply goes_end; [apply goes_put|exact L].
  - reflexivity.
  - rewrite zlen_cons in L. apply goes_end; [|rewrite zlen_cons, format_est_len; exact L].
    change (255 :: format_est D v t) with ([255] ++ format_est D v t).
    apply (goes_add _ _ _ _ true); [apply goes_put|apply IHv; try assumption; lia|].
    rewrite zlen_app, format_est_len. exact L.
  - apply goes_end; [|rewrite format_est_len; exact L]. apply IHv; assumption.
  - assert (LL : zlen (concat (map (fun v => format_est D v t) vs)) <= isize_max).
    { rewrite (concat_len _ (fun v => format D v t)); [exact L|]. apply Forall_forall. intros; apply format_est_len. }
    apply goes_end; [|exact LL]. unfold goes. rewrite goes_elems by (assumption || lia). reflexivity.
  - apply andb_prop in W; destruct W as [W1 W]. apply andb_prop in V; destruct V as [V V2].
    assert (LL : zlen (concat (map (fun v => format_est D v t) vs)) <= isize_max).
    { rewrite (concat_len _ (fun v => format D v t)); [exact L|]. apply Forall_forall. intros; apply format_est_len. }
    apply goes_end; [|exact LL]. unfold goes. rewrite goes_elems by (assumption || lia). reflexivity.
  - apply andb_prop in W; destruct W as [W1 W]. apply andb_prop in V; destruct V as [V V2].
    assert (LL : zlen (concat (map (fun v => format_est D v t) vs)) <= isize_max).
    { rewrite (concat_len _ (fun v => format D v t)); [exact L|]. apply Forall_forall. intros; apply format_est_len. }
    apply goes_end; [|exact LL]. unfold goes. rewrite goes_elems by (assumption || lia). reflexivity.
  - destruct (nth_error D i) as [[ts|?|?]|] eqn:Ei; try discriminate V.
    assert (LL : zlen (concat2 (format_est D) vs ts) <= isize_max).
    { rewrite (concat2_len _ (format D)); [exact L|]. apply Forall_forall. intros; apply format_est_len. }
    apply goes_end; [|exact LL]. unfold goes.
    rewrite goes_fields; [reflexivity|assumption|apply (wf_struct D i ts HD Ei)|assumption|apply (sized_struct i ts Ei)|lia|lia].
  - destruct (nth_error D i) as [[ts|k tags|k alts]|] eqn:Ei; try discriminate V.
    + destruct vs; [|discriminate V]. destruct (nth_error tags ix) as [tag|] eqn:Et.
      * rewrite (nth_error_nth _ _ _ Et). apply puts_goes; [apply (puts_int cf D HD)|apply end_put_div].
      * apply nth_error_None in Et. apply Nat.ltb_lt in V. lia.
    + destruct (nth_error alts ix) as [[tag ts]|] eqn:Ea; [|discriminate V].
      rewrite (nth_error_nth _ _ _ Ea) in *. cbn [fst snd] in *. rewrite zlen_app in L.
      pose proof (zlen_nonneg (int_format k tag)).
      assert (LL : zlen (concat2 (format_est D) vs ts) = zlen (concat2 (format D) vs ts)).
      { apply concat2_len. apply Forall_forall. intros; apply format_est_len. }
      apply goes_end; [|rewrite zlen_app, LL; exact L].
      apply (goes_add _ _ _ _ true); [apply puts_goes; [apply (puts_int cf D HD)|apply end_put_div]| |rewrite zlen_app, LL; exact L].
      apply goes_end; [|rewrite LL; lia]. unfold goes.
      rewrite goes_fields; [reflexivity|assumption|apply (wf_data D i k alts ix tag ts HD Ei Ea)|assumption
        |apply (sized_data i k alts ix tag ts Ei Ea)|lia|lia].
  - apply andb_prop in V; destruct V as [V _]. rewrite zlen_app, pref_format_len in L.
    assert (HP : 0 <= pref_len s <= 4) by (destruct s; cbn; lia).
    pose proof (IHv t W V HI ltac:(lia)) as Hv.
    rewrite HO. rewrite (estimate_format cf D kf HD v t W V ltac:(lia) (estimate_div v t HI)). cbn [rbind].
    fold (announced D v t). assert (HA : announced D v t <= zlen (format D v t)).
    { unfold announced. pose proof (zeros_nonneg D v t). lia. }
    assert (HA0 : 0 <= announced D v t).
    { unfold announced. pose proof (zeros_le_len v t). lia. }
    unfold rassert. destruct (announced D v t <=? pref_max s) eqn:E2; [|rewrite andb_false_r; reflexivity].
    cbn [rbind]. rewrite andb_true_r. rewrite (pref_len_ok cf D HD) by lia. cbn [rbind].
    assert (isize_max < usize_mod - 8) by reflexivity. rewrite uadd_ok by lia. cbn [rbind].
    apply goes_end; [|rewrite zlen_app, pref_format_len, format_est_len; exact L].
    apply (goes_add _ _ _ _ true); [|exact Hv|rewrite zlen_app, pref_format_len, format_est_len; exact L].
    apply puts_goes; [apply (puts_pref cf D HD); lia|apply pref_div].
  - apply andb_prop in W; destruct W as [W1 W]. apply IHv; assumption.
  - apply andb_prop in W; destruct W as [W1 W]. rewrite zlen_app, zlen_repeat in L. unfold sizeb in W1.
    apply goes_end; [|rewrite zlen_app, zlen_repeat, format_est_len; exact L].
    rewrite <- (andb_true_r (fits_est D v t)).
    apply goes_add; [apply IHv; try assumption; lia|apply goes_put|rewrite zlen_app, zlen_repeat, format_est_len; exact L].
  - apply IHv; assumption.
Qed.
Lemma override_wire v t : wf_ty D t = true -> well_typed D v t = true -> sized cf D kf t = true ->
  zlen (format D v t) <= isize_max ->
  to_bytes cf D kf v t = (if fits_est D v t then ROk (format_est D v t) else RPanic).
Proof.
  intros W V S L. rewrite to_bytes_wr, (goes_wr v t W V S L). destruct (fits_est D v t); reflexivity.
Qed.
End Over.

(** ** When nothing differs *)
Section Same.
Variable (D : list def).

Lemma framed_le_zeros v : forall t, 0 <= framed_zeros D v t <= zeros D v t.
Proof.
  assert (HS : forall vs, Forall (fun v => forall t, 0 <= framed_zeros D v t <= zeros D v t) vs -> forall ts,
    0 <= sum2 (framed_zeros D) vs ts <= sum2 (zeros D) vs ts).
  { induction 1 as [|v' vs Hv _ IH]; intros [|t ts]; try (cbn; lia). rewrite !sum2_cons. specialize (Hv t). specialize (IH ts). lia. }
  assert (HC : forall vs t, Forall (fun v => forall t, 0 <= framed_zeros D v t <= zeros D v t) vs ->
    0 <= fold_right Z.add 0 (map (fun v => framed_zeros D v t) vs) <= fold_right Z.add 0 (map (fun v => zeros D v t) vs)).
  { induction 1 as [|v' vs Hv _ IH]; cbn [map fold_right]; [lia|]. specialize (Hv t). lia. }
  induction v as [| | | | |v IHv|vs IHvs|vs IHvs|ix vs IHvs|v IHv] using val_ind'; intros t;
    destruct t; cbn [framed_zeros zeros]; try lia; try apply IHv; try (apply HC; exact IHvs);
    try (destruct (nth_error D i) as [[| |]|]; lia).
  - destruct (z =? 0); lia.
  - destruct (nth_error D i) as [[ts| |]|]; try lia. apply HS; exact IHvs.
  - destruct (nth_error D i) as [[ts| |k alts]|]; try lia. apply HS; exact IHvs.
  - split; [apply zeros_nonneg|lia].
Qed.

Definition same_at (v : val) : Prop := forall t, well_typed D v t = true -> framed_zeros D v t = 0 ->
  format_est D v t = format D v t /\ fits_est D v t = valid D v t.

Lemma same_fields vs : Forall same_at vs -> forall ts, all2 (well_typed D) vs ts = true -> sum2 (framed_zeros D) vs ts = 0 ->
  concat2 (format_est D) vs ts = concat2 (format D) vs ts /\ all2 (fits_est D) vs ts = all2 (valid D) vs ts.
Proof.
  induction 1 as [|v vs Hv _ IH]; intros [|t ts] V F; try discriminate V; [split; reflexivity|].
  cbn [all2] in V |- *. apply andb_prop in V; destruct V as [V1 V2]. rewrite sum2_cons in F.
  pose proof (framed_le_zeros v t).
  assert (HN : 0 <= sum2 (framed_zeros D) vs ts).
  { clear. revert ts; induction vs as [|v vs IH]; intros [|t ts]; try (cbn [sum2]; lia).
    rewrite sum2_cons. pose proof (framed_le_zeros v t). specialize (IH ts). lia. }
  destruct (Hv t V1 ltac:(lia)) as [E1 E2]. destruct (IH ts V2 ltac:(lia)) as [E3 E4].
  rewrite !concat2_cons, E1, E2, E3. fold (all2 (fits_est D)) (all2 (valid D)). rewrite E4. split; reflexivity.
Qed.
Lemma same_elems vs t : Forall same_at vs -> forallb (fun v => well_typed D v t) vs = true ->
  fold_right Z.add 0 (map (fun v => framed_zeros D v t) vs) = 0 ->
  concat (map (fun v => format_est D v t) vs) = concat (map (fun v => format D v t) vs) /\
  forallb (fun v => fits_est D v t) vs = forallb (fun v => valid D v t) vs.
Proof.
  induction 1 as [|v vs Hv _ IH]; intros V F; cbn [map concat forallb fold_right] in *; [split; reflexivity|].
  apply andb_prop in V; destruct V as [V1 V2]. pose proof (framed_le_zeros v t).
  assert (HN : 0 <= fold_right Z.add 0 (map (fun v => framed_zeros D v t) vs)).
  { clear. induction vs as [|v vs IH]; cbn [map fold_right]; [lia|]. pose proof (framed_le_zeros v t). lia. }
  destruct (Hv t V1 ltac:(lia)) as [E1 E2]. destruct (IH V2 ltac:(lia)) as [E3 E4]. rewrite E1, E2, E3, E4. split; reflexivity.
Qed.

Lemma same_wr v : same_at v.
Proof.
  induction v as [| | | | |v IHv|vs IHvs|vs IHvs|ix vs IHvs|v IHv] using val_ind'; intros t V F;
    destruct t; try discriminate V; unfold well_typed, valid in *; cbn [valid_gen] in V |- *;
    try (destruct (nth_error D i) as [[?|?|?]|] eqn:Ei; discriminate V);
    cbn [format_est format fits_est framed_zeros] in *; try (split; [reflexivity|symmetry; exact V]).
  - destruct (IHv t V F) as [-> ->]. split; reflexivity.
  - apply IHv; assumption.
  - apply same_elems; assumption.
  - apply andb_prop in V; destruct V as [V V2]. rewrite V2, andb_true_r. apply same_elems; assumption.
  - apply andb_prop in V; destruct V as [V V2]. rewrite V2, andb_true_r. apply same_elems; assumption.
  - destruct (nth_error D i) as [[ts|?|?]|] eqn:Ei; try discriminate V. apply same_fields; assumption.
  - destruct (nth_error D i) as [[ts|k tags|k alts]|] eqn:Ei; try discriminate V.
    + destruct vs; [|discriminate V]. split; [reflexivity|symmetry; exact V].
    + destruct (nth_error alts ix) as [[tag ts]|] eqn:Ea; [|discriminate V].
      rewrite (nth_error_nth _ _ _ Ea) in *. cbn [fst snd] in *.
      destruct (same_fields vs IHvs ts V F) as [-> ->]. split; reflexivity.
  - apply andb_prop in V; destruct V as [V _].
    pose proof (framed_le_zeros v t). destruct (IHv t V ltac:(lia)) as [-> ->].
    unfold announced. rewrite F, Z.sub_0_r. cbn [implb]. split; reflexivity.
  - apply IHv; assumption.
  - destruct (IHv t V F) as [-> ->]. split; reflexivity.
  - apply IHv; assumption.
Qed.

(** ** When something differs *)
Lemma app_eq_len {A} (a b c d : list A) : zlen a = zlen c -> a ++ b = c ++ d -> a = c /\ b = d.
Proof.
  revert c. induction a as [|x a IH]; intros [|y c] L E; [split; auto|..].
  - rewrite zlen_cons in L. pose proof (zlen_nonneg c). change (zlen []) with 0 in L. lia.
  - rewrite zlen_cons in L. pose proof (zlen_nonneg a). change (zlen []) with 0 in L. lia.
  - rewrite !zlen_cons in L. injection E as -> E. destruct (IH c ltac:(lia) E) as [-> ->]. split; reflexivity.
Qed.
Lemma pref_format_inj s n m : 0 <= n <= pref_max s -> 0 <= m <= pref_max s -> pref_format s n = pref_format s m -> n = m.
Proof.
  intros Hn Hm E. pose proof (d_pref_app (mkConfig Release false false false false false) s n [] Hn) as H.
  rewrite E, (d_pref_app _ s m [] Hm) in H. injection H as ->. reflexivity.
Qed.

Definition differs_at (v : val) : Prop := forall t, valid D v t = true ->
  format_est D v t = format D v t -> framed_zeros D v t = 0.

Lemma differs_fields vs : Forall differs_at vs -> forall ts, all2 (valid D) vs ts = true ->
  concat2 (format_est D) vs ts = concat2 (format D) vs ts -> sum2 (framed_zeros D) vs ts = 0.
Proof.
  induction 1 as [|v vs Hv _ IH]; intros [|t ts] V E; try discriminate V; [reflexivity|].
  cbn [all2] in V. apply andb_prop in V; destruct V as [V1 V2]. rewrite !concat2_cons in E. rewrite sum2_cons.
  apply app_eq_len in E; [|apply format_est_len]. destruct E as [E1 E2]. rewrite (Hv t V1 E1), (IH ts V2 E2). reflexivity.
Qed.
Lemma differs_elems vs t : Forall differs_at vs -> forallb (fun v => valid D v t) vs = true ->
  concat (map (fun v => format_est D v t) vs) = concat (map (fun v => format D v t) vs) ->
  fold_right Z.add 0 (map (fun v => framed_zeros D v t) vs) = 0.
Proof.
  induction 1 as [|v vs Hv _ IH]; intros V E; cbn [map concat forallb fold_right] in *; [reflexivity|].
  apply andb_prop in V; destruct V as [V1 V2]. apply app_eq_len in E; [|apply format_est_len]. destruct E as [E1 E2].
  rewrite (Hv t V1 E1), (IH V2 E2). reflexivity.
Qed.

Lemma differs_wr v : differs_at v.
Proof.
  induction v as [| | | | |v IHv|vs IHvs|vs IHvs|ix vs IHvs|v IHv] using val_ind'; intros t V E;
    destruct t; try discriminate V; unfold valid in *; cbn [valid_gen] in V;
    try (destruct (nth_error D i) as [[?|?|?]|] eqn:Ei; discriminate V);
    cbn [format_est format framed_zeros] in *; try reflexivity.
  - injection E as E. apply IHv; assumption.
  - apply IHv; assumption.
  - apply differs_elems; assumption.
  - apply andb_prop in V; destruct V as [V V2]. apply differs_elems; assumption.
  - apply andb_prop in V; destruct V as [V V2]. apply differs_elems; assumption.
  - destruct (nth_error D i) as [[ts|?|?]|] eqn:Ei; try discriminate V. apply differs_fields; assumption.
  - destruct (nth_error D i) as [[ts|k tags|k alts]|] eqn:Ei; try discriminate V; [reflexivity|].
    destruct (nth_error alts ix) as [[tag ts]|] eqn:Ea; [|discriminate V].
    rewrite (nth_error_nth _ _ _ Ea) in *. cbn [fst snd] in *. apply app_inv_head in E. apply differs_fields; assumption.
  - apply andb_prop in V; destruct V as [V V2]. cbn [implb] in V2.
    apply app_eq_len in E; [|rewrite !pref_format_len; reflexivity]. destruct E as [E _].
    unfold announced in E. pose proof (zeros_nonneg D v t). pose proof (zeros_le_len D v t).
    apply pref_format_inj in E; lia.
  - apply IHv; assumption.
  - apply app_eq_len in E; [|apply format_est_len]. apply IHv; [assumption|apply E].
  - apply IHv; assumption.
Qed.

Lemma same_iff v t : well_typed D v t = true ->
  ((if fits_est D v t then ROk (format_est D v t) else RPanic) = (if valid D v t then @ROk unit _ (format D v t) else RPanic)
   <-> framed_zeros D v t = 0 \/ (fits_est D v t = false /\ valid D v t = false)).
Proof.
  intros V. split.
  - destruct (fits_est D v t) eqn:F; destruct (valid D v t) eqn:VV; intros E; try discriminate E; [|right; auto].
    left. injection E as E. apply differs_wr; assumption.
  - intros [Z0|[-> ->]]; [|reflexivity]. destruct (same_wr v t V Z0) as [-> ->]. reflexivity.
Qed.
End Same.

(** ** Round trip *)
From Verif Require Import ProofCodecThms ProofGrammar ProofOptions.
Definition counted (cf : config) : config :=
  mkConfig (cf_mode cf) (cf_check_padding cf) false (cf_relaxed_padding cf) (cf_range_check cf) (cf_complete cf).

Lemma override_wire_thm cf D kf v t :
  wf_defs D = true -> sized_defs cf D kf = true -> wf_ty D t = true -> sized cf D kf t = true ->
  well_typed D v t = true -> cf_est_override cf = true -> zlen (format D v t) <= isize_max ->
  to_bytes cf D kf v t = (if fits_est D v t then ROk (format_est D v t) else RPanic).
Proof. intros HD HS W S V HO L. apply override_wire; assumption. Qed.

Lemma override_same_thm cf cf0 D kf kf0 v t :
  wf_defs D = true -> sized_defs cf D kf = true -> wf_ty D t = true -> sized cf D kf t = true ->
  well_typed D v t = true -> cf_est_override cf = true -> cf_est_override cf0 = false -> zlen (format D v t) <= isize_max ->
  (to_bytes cf D kf v t = to_bytes cf0 D kf0 v t <->
   framed_zeros D v t = 0 \/ (fits_est D v t = false /\ valid D v t = false)).
Proof.
  intros HD HS W S V HO HO0 L. rewrite override_wire_thm, (encode_is_format cf0 D kf0) by assumption. apply same_iff; exact V.
Qed.

Lemma override_round_trip cf D I kf t v bs w :
  wf_defs D = true -> disciplined D I = true -> sized_defs cf D kf = true -> wf_ty D t = true -> decodable I t = true ->
  sized cf D kf t = true -> well_typed D v t = true -> cf_est_override cf = true -> framed_zeros D v t = 0 ->
  zlen (format D v t) <= isize_max -> to_bytes cf D kf v t = ROk bs ->
  (w = WSlice -> cf_complete cf = false) ->
  decodes w cf D t bs (ROk v).
Proof.
  intros HD HI HS W K S V HO Z0 L E HC.
  assert (EO : to_bytes cf D kf v t = to_bytes (counted cf) D kf v t)
    by (apply (override_same_thm cf (counted cf) D kf kf v t); auto).
  rewrite EO in E.
  assert (B : bs = format D v t).
  { rewrite (encode_is_format (counted cf) D kf t v HD W V eq_refl L) in E.
    destruct (valid D v t); [injection E as <-; reflexivity|discriminate E]. }
  apply (profile_irrelevant w (counted cf) cf D t bs v); try reflexivity; try assumption.
  - subst bs. apply format_bytes; exact V.
  - subst bs; exact L.
  - eapply (round_trip_thm (counted cf) D I kf); try eassumption; [subst bs; exact L|discriminate].
Qed.
