(** Proofs about default values. *)
From Verif Require Import Base ModelErrors ModelInt ModelFloat ModelParser ModelSchema ModelDefault
  SpecCodec SpecNum SpecDefault ProofInt ProofNum ProofCodec ProofCodecThms.

(** A RangedInt: valid exactly when MIN <= 0 or the number 2 MIN is in range. *)
Lemma ranged_default k lo hi z :
  backer_holds k lo hi -> (0 < lo -> lo <= ik_max k) -> @ri_default k lo hi unit = ROk z ->
  ranged_ok k lo hi z = true <-> lo <= 0 \/ lo + lo <= hi.
Proof.
  intros HB HL. unfold ri_default. destruct (lo <=? hi) eqn:LH; [|discriminate]. intros E. injection E as <-.
  apply Z.leb_le in LH. destruct (Z_le_gt_dec lo 0) as [L|L].
  - destruct (@default_valid unit k lo hi L LH HB) as [(z & EZ & OK & _) _].
    unfold ri_default in EZ. replace (lo <=? hi) with true in EZ by lia. injection EZ as ->. split; auto.
  - replace (Z.max lo (Z.min hi 0)) with lo by lia.
    assert (ik_in k lo = true) as IN.
    { unfold ik_in. apply andb_true_iff. split; apply Z.leb_le; [|apply HL; lia]. destruct k; cbn; lia. }
    rewrite (ik_wrap_id k lo IN). unfold ranged_ok. rewrite IN. replace (0 <? lo) with true by lia. cbn [andb]. lia.
Qed.

Lemma float_default lo hi z : is_u64 lo = true -> is_u64 hi = true -> @rf_default unit lo hi = ROk z ->
  is_u64 z && f64_le lo z && f64_le z hi = true.
Proof.
  intros HL HH E. destruct (@ranged_float_default unit lo hi) as [A B].
  destruct (f64_le lo hi) eqn:LE.
  - destruct (A eq_refl) as (y & EY & Y1 & Y2 & _). rewrite EY in E. injection E as ->. rewrite Y1, Y2.
    unfold rf_default, rassert in EY. rewrite LE in EY. cbn [rbind] in EY. injection EY as <-.
    destruct (f64_lt 0 lo); [destruct (f64_lt hi lo)|destruct (f64_lt hi 0)]; rewrite ?HL, ?HH; reflexivity.
  - rewrite B in E by reflexivity. discriminate.
Qed.

Lemma sound_inner D t t' : (forall u, default_of D t' u <-> u = t' \/ default_of D t u) -> sound_default t' ->
  ((forall u, default_of D t u -> sound_default u) <-> (forall u, default_of D t' u -> sound_default u)).
Proof.
  intros H S. split; intros A u; [intros [->|B]%H; auto|]. intros B. apply A, H. right; exact B.
Qed.
Lemma self_only D t : (forall u, default_of D t u -> u = t) ->
  sound_default t <-> (forall u, default_of D t u -> sound_default u).
Proof. intros H. split; [intros S u ->%H; exact S|]. intros A. apply A. constructor. Qed.

Lemma default_exact D b f t v :
  wf_defs D = true -> wf_ty D t = true -> backers_hold D t -> default_val f D t = ROk v ->
  valid_gen b D v t = true <-> (forall u, default_of D t u -> sound_default u).
Proof.
  intros HD. revert t v. induction f as [|f IH]; intros t v HT HB E; [discriminate|]. cbn [default_val] in E.
  destruct t; try discriminate E;
    try (injection E as <-; rewrite <- self_only by (intros u Q; inversion Q; reflexivity); cbn; tauto).
  - injection E as <-. rewrite <- self_only by (intros u Q; inversion Q; reflexivity). cbn. split; [auto|]. intros _. destruct k; reflexivity.
  - destruct (ri_default k lo hi) as [z| | | |] eqn:EZ; cbn [rbind] in E; try discriminate E. injection E as <-.
    rewrite <- self_only by (intros u Q; inversion Q; reflexivity). cbn [valid_gen sound_default].
    destruct (HB k lo hi (do_self _ _)). apply ranged_default; assumption.
  - destruct (rf_default lo hi) as [z| | | |] eqn:EZ; cbn [rbind] in E; try discriminate E. injection E as <-.
    rewrite <- self_only by (intros u Q; inversion Q; reflexivity). cbn [valid_gen sound_default].
    cbn in HT. apply andb_true_iff in HT. rewrite (float_default lo hi z) by tauto. tauto.
  - destruct (n <=? 32); [|discriminate]. injection E as <-.
    rewrite <- self_only by (intros u Q; inversion Q; reflexivity). cbn [valid_gen sound_default].
    split; [auto|intros _]. apply andb_true_iff. split.
    + apply forallb_forall. intros x Hx. apply repeat_spec in Hx. subst. reflexivity.
    + cbn in HT. unfold sizeb in HT. unfold zlen. rewrite repeat_length. lia.
  - injection E as <-. rewrite <- self_only by (intros u Q; inversion Q; reflexivity). cbn. cbn in HT. unfold sizeb in HT.
    split; [auto|intros _]. unfold zlen; cbn. lia.
  - injection E as <-. rewrite <- self_only by (intros u Q; inversion Q; reflexivity).
    cbn [valid_gen sound_default forallb andb]. change (zlen []) with 0. lia.
  - destruct (default_val f D t) as [w| | | |] eqn:EW; cbn [rbind] in E; try discriminate E. injection E as <-.
    cbn in HT. apply andb_true_iff in HT. cbn [valid_gen].
    rewrite (IH t w) by (try tauto; intros k lo hi Q; apply HB; constructor; exact Q).
    apply sound_inner; [|exact Logic.I]. intros u. split; [intros Q; inversion Q; auto|]. intros [->|Q]; constructor; exact Q.
  - destruct (default_val f D t) as [w| | | |] eqn:EW; cbn [rbind] in E; try discriminate E. injection E as <-.
    cbn in HT. apply andb_true_iff in HT. cbn [valid_gen].
    rewrite (IH t w) by (try tauto; intros k lo hi Q; apply HB; constructor; exact Q).
    apply sound_inner; [|exact Logic.I]. intros u. split; [intros Q; inversion Q; auto|]. intros [->|Q]; constructor; exact Q.
  - destruct (default_val f D t) as [w| | | |] eqn:EW; cbn [rbind] in E; try discriminate E. injection E as <-.
    cbn in HT. cbn [valid_gen].
    rewrite (IH t w) by (try tauto; intros k lo hi Q; apply HB; constructor; exact Q).
    apply sound_inner; [|exact Logic.I]. intros u. split; [intros Q; inversion Q; auto|]. intros [->|Q]; constructor; exact Q.
  - destruct (nth_error D i) as [[ts| |]|] eqn:EI; try discriminate E.
    destruct ((fix fields (ts : list ty) : wres (list val) := _) ts) as [vs| | | |] eqn:EV; cbn [rbind] in E; try discriminate E.
    injection E as <-. cbn [valid_gen]. rewrite EI.
    assert (forall ts', incl ts' ts -> forall vs,
      (fix fields (ts : list ty) : wres (list val) :=
        match ts with
        | [] => ROk []
        | t :: ts => rbind (default_val f D t) (fun v => rbind (fields ts) (fun vs => ROk (v :: vs)))
        end) ts' = ROk vs ->
      all2 (valid_gen b D) vs ts' = true <-> (forall t u, In t ts' -> default_of D t u -> sound_default u)) as H.
    { clear vs EV. induction ts' as [|t ts' IHt]; intros Hin vs EV.
      - injection EV as <-. cbn. split; [tauto|reflexivity].
      - destruct (default_val f D t) as [w| | | |] eqn:EW; cbn [rbind] in EV; try discriminate EV.
        destruct ((fix fields (ts : list ty) : wres (list val) := _) ts') as [ws| | | |] eqn:EWs; cbn [rbind] in EV; try discriminate EV.
        injection EV as <-. cbn [all2]. rewrite andb_true_iff.
        rewrite (IHt (fun x Hx => Hin x (or_intror Hx)) ws eq_refl).
        assert (In t ts) as Ht by (apply Hin; left; reflexivity).
        rewrite (IH t w).
        + split.
          * intros [A B] t0 u [<-|Q] R; eauto.
          * intros A. split; [intros u; apply A; left; reflexivity|]. intros t0 u Q. apply A. right; exact Q.
        + unfold wf_defs in HD. rewrite forallb_forall in HD. specialize (HD _ (nth_error_In _ _ EI)). cbn in HD.
          rewrite forallb_forall in HD. apply HD, Ht.
        + intros k lo hi Q. apply HB. econstructor; eauto.
        + exact EW. }
    rewrite (H ts (incl_refl _) vs EV). split.
    + intros A u Q. inversion Q; subst; [exact Logic.I|]. rewrite EI in H1. injection H1 as <-. eauto.
    + intros A t u Q R. apply A. econstructor; eauto.
Qed.

(** The amount of fuel does not matter. *)
Lemma default_more D f : forall t v, default_val f D t = ROk v -> forall g, (f <= g)%nat -> default_val g D t = ROk v.
Proof.
  induction f as [|f IH]; intros t v E g L; [discriminate|]. destruct g as [|g]; [lia|]. assert (L' : (f <= g)%nat) by lia.
  cbn [default_val] in *. destruct t; try exact E.
  1-3: destruct (default_val f D t) as [w| | | |] eqn:EW; cbn [rbind] in E; try discriminate E;
       rewrite (IH _ _ EW g L'); exact E.
  destruct (nth_error D i) as [[ts| |]|]; try exact E.
  destruct ((fix fields (ts : list ty) : wres (list val) := _) ts) as [vs| | | |] eqn:EV; cbn [rbind] in E; try discriminate E.
  enough (Q : (fix fields (ts : list ty) : wres (list val) :=
        match ts with
        | [] => ROk []
        | t :: ts => rbind (default_val g D t) (fun v => rbind (fields ts) (fun vs => ROk (v :: vs)))
        end) ts = ROk vs) by (rewrite Q; exact E).
  clear E. revert vs EV. induction ts as [|t ts IHt]; intros vs EV; [exact EV|].
  destruct (default_val f D t) as [w| | | |] eqn:EW; cbn [rbind] in EV; try discriminate EV.
  destruct ((fix fields (ts : list ty) : wres (list val) := _) ts) as [ws| | | |] eqn:EWs; cbn [rbind] in EV; try discriminate EV.
  rewrite (IH _ _ EW g L'). cbn [rbind]. rewrite (IHt ws eq_refl). exact EV.
Qed.

Lemma default_unique D t f g v w : default_val f D t = ROk v -> default_val g D t = ROk w -> v = w.
Proof.
  intros A B. destruct (Nat.le_gt_cases f g) as [L|L].
  - rewrite (default_more _ _ _ _ A g L) in B. injection B as ->. reflexivity.
  - rewrite (default_more _ _ _ _ B f) in A by lia. injection A as ->. reflexivity.
Qed.

Lemma default_round_trip cf D I t v f kf w :
  wf_defs D = true -> disciplined D I = true -> wf_ty D t = true -> decodable I t = true -> backers_hold D t ->
  default_val f D t = ROk v -> (forall u, default_of D t u -> sound_default u) ->
  cf_est_override cf = false -> zlen (format D v t) <= isize_max -> (w = WSlice -> cf_complete cf = false) ->
  exists bs, to_bytes cf D kf v t = ROk bs /\ decodes w cf D t bs (ROk v).
Proof.
  intros HD HI HT HK HB HV HS HE HL HW.
  assert (V : valid D v t = true) by (apply (default_exact D true f t v HD HT HB HV); exact HS).
  assert (W : well_typed D v t = true) by (apply (default_exact D false f t v HD HT HB HV); exact HS).
  pose proof (encode_is_format cf D kf t v HD HT W HE HL) as EF. rewrite V in EF.
  exists (format D v t). split; [exact EF|].
  eapply round_trip_thm; eauto. rewrite HE. discriminate.
Qed.

Lemma default_never_decoded cf D t v f input w u :
  wf_defs D = true -> wf_ty D t = true -> backers_hold D t -> default_val f D t = ROk v ->
  default_of D t u -> ~ sound_default u ->
  bytes_ok input -> zlen input <= isize_max -> ~ decodes w cf D t input (ROk v).
Proof.
  intros HD HT HB HV HU HS HI HL HX. apply HS.
  apply (proj1 (default_exact D false f t v HD HT HB HV)); [|exact HU]. eapply valid_only; eauto.
Qed.

(** Which types have a default. *)
Notation default_fields f D := (fix fields (ts : list ty) : wres (list val) :=
  match ts with
  | [] => ROk []
  | t :: ts => rbind (default_val f D t) (fun v => rbind (fields ts) (fun vs => ROk (v :: vs)))
  end).

Lemma default_exists D t : has_default D t <-> exists f v, default_val f D t = ROk v.
Proof.
  split.
  - induction 1 as [| | |k lo hi H| |lo hi H| | | | |n H| | | | | |n t H IH|n t H IH|t H IH|i ts EI H IH];
      try (exists 1%nat; eexists; reflexivity).
    + exists 1%nat. eexists. cbn [default_val]. unfold ri_default. replace (lo <=? hi) with true by lia. reflexivity.
    + exists 1%nat. eexists. cbn [default_val]. unfold rf_default, rassert. rewrite H. reflexivity.
    + exists 1%nat. eexists. cbn [default_val]. replace (n <=? 32) with true by lia. reflexivity.
    + destruct IH as (f & v & E). exists (S f). eexists. cbn [default_val]. rewrite E. reflexivity.
    + destruct IH as (f & v & E). exists (S f). eexists. cbn [default_val]. rewrite E. reflexivity.
    + destruct IH as (f & v & E). exists (S f). eexists. cbn [default_val]. rewrite E. reflexivity.
    + assert (Q : exists f, forall g, (f <= g)%nat -> exists vs, default_fields g D ts = ROk vs).
      { clear EI H. induction ts as [|t ts IHt]; [exists O; intros g _; exists []; reflexivity|].
        destruct IHt as (f1 & H1); [intros t' Ht'; apply IH; right; exact Ht'|].
        destruct (IH t (or_introl eq_refl)) as (f2 & v & E). exists (Nat.max f1 f2). intros g L.
        rewrite (default_more _ _ _ _ E g) by lia. destruct (H1 g) as (vs & EV); [lia|]. cbn [rbind]. rewrite EV.
        eexists. reflexivity. }
      destruct Q as (f & Q). destruct (Q f (le_n _)) as (vs & EV). exists (S f), (VStruct vs). cbn [default_val].
      rewrite EI, EV. reflexivity.
  - intros (f & v & E). revert t v E. induction f as [|f IH]; intros t v E; [discriminate|]. cbn [default_val] in E.
    destruct t; try discriminate E; try (constructor; fail).
    + constructor. unfold ri_default in E. destruct (Z.leb_spec lo hi); [assumption|discriminate E].
    + constructor. unfold rf_default, rassert in E. destruct (f64_le lo hi); [reflexivity|discriminate E].
    + constructor. destruct (Z.leb_spec n 32); [assumption|discriminate E].
    + destruct (default_val f D t) eqn:EW; try discriminate E. constructor. eauto.
    + destruct (default_val f D t) eqn:EW; try discriminate E. constructor. eauto.
    + destruct (default_val f D t) eqn:EW; try discriminate E. constructor. eauto.
    + destruct (nth_error D i) as [[ts| |]|] eqn:EI; try discriminate E.
      destruct (default_fields f D ts) as [vs| | | |] eqn:EV; cbn [rbind] in E; try discriminate E.
      econstructor; [exact EI|]. clear EI E. revert vs EV. induction ts as [|t ts IHt]; intros vs EV t0 []; subst.
      * destruct (default_val f D t0) eqn:EW; try discriminate EV. eauto.
      * destruct (default_val f D t) eqn:EW; cbn [rbind] in EV; try discriminate EV.
        destruct (default_fields f D ts) as [ws| | | |] eqn:EWs; cbn [rbind] in EV; try discriminate EV. eapply IHt; eauto.
Qed.

(** The default is the zero of its type. *)
Lemma zeros_app l l' : Forall (fun b => b = 0) l -> Forall (fun b : byte => b = 0) l' -> Forall (fun b => b = 0) (l ++ l').
Proof. intros; apply Forall_app; auto. Qed.
Lemma zeros_repeat n : Forall (fun b : byte => b = 0) (repeat 0 n).
Proof. induction n; constructor; auto. Qed.

Lemma default_zero D f : forall t v, default_val f D t = ROk v -> (forall u, default_of D t u -> zero_in_range u) ->
  Forall (fun b => b = 0) (format D v t).
Proof.
  induction f as [|f IH]; intros t v E HZ; [discriminate|]. pose proof (HZ t (do_self _ _)) as HS. cbn [default_val] in E.
  destruct t; try discriminate E; try (injection E as <-; repeat constructor; fail).
  - injection E as <-. destruct k; repeat constructor.
  - cbn in HS. unfold ri_default in E. replace (lo <=? hi) with true in E by lia. cbn [rbind] in E. injection E as <-.
    replace (Z.max lo (Z.min hi 0)) with 0 by lia. destruct k; repeat constructor.
  - cbn in HS. destruct (rf_default lo hi) as [z| | | |] eqn:EZ; cbn [rbind] in E; try discriminate E. injection E as <-.
    destruct (@ranged_float_default unit lo hi) as [A B]. destruct (f64_le lo hi) eqn:LE; [|rewrite B in EZ by reflexivity; discriminate EZ].
    destruct (A eq_refl) as (y & EY & _ & _ & Y & _). rewrite EY in EZ. injection EZ as <-. rewrite Y by tauto. repeat constructor.
  - destruct (n <=? 32); [|discriminate]. injection E as <-. apply zeros_repeat.
  - destruct (default_val f D t) as [w| | | |] eqn:EW; cbn [rbind] in E; try discriminate E. injection E as <-.
    cbn [format]. apply (IH t w EW). intros u Q. apply HZ. constructor. exact Q.
  - destruct (default_val f D t) as [w| | | |] eqn:EW; cbn [rbind] in E; try discriminate E. injection E as <-.
    cbn [format]. apply zeros_app; [|apply zeros_repeat]. apply (IH t w EW). intros u Q. apply HZ. constructor. exact Q.
  - destruct (default_val f D t) as [w| | | |] eqn:EW; cbn [rbind] in E; try discriminate E. injection E as <-.
    cbn [format]. apply (IH t w EW). intros u Q. apply HZ. constructor. exact Q.
  - destruct (nth_error D i) as [[ts| |]|] eqn:EI; try discriminate E.
    destruct (default_fields f D ts) as [vs| | | |] eqn:EV; cbn [rbind] in E; try discriminate E.
    injection E as <-. cbn [format]. rewrite EI.
    assert (HZ' : forall t u, In t ts -> default_of D t u -> zero_in_range u) by (intros; apply HZ; econstructor; eauto).
    clear EI HZ HS. revert vs EV. induction ts as [|t ts IHt]; intros vs EV; [injection EV as <-; constructor|].
    destruct (default_val f D t) eqn:EW; cbn [rbind] in EV; try discriminate EV.
    destruct (default_fields f D ts) as [ws| | | |] eqn:EWs; cbn [rbind] in EV; try discriminate EV. injection EV as <-.
    cbn [concat2]. apply zeros_app.
    + apply (IH t _ EW). intros u. apply HZ'. left; reflexivity.
    + apply IHt; [|reflexivity]. intros t0 u Q. apply HZ'. right; exact Q.
Qed.
