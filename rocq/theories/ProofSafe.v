(** Decoding does not panic and does not leave the contract of the parsers, for
    types without [VPadded]; with [VPadded] it may panic in debug builds
    ([pan = true] allows that). *)
From Verif Require Import Base BaseLemmas ModelErrors ModelParser ModelInt ModelFloat ModelZarith
  ModelUtf8 ModelTarget ModelSchema SpecParser SpecCodec ProofInt ProofZarith ProofFloat ProofDec ProofCodec ProofMeta.
From Coq Require Import ZifyBool.

Section Pan.
Variable pan : bool.

Definition ok_or_err {A} (r : pres A) : Prop := (pan = false -> r <> RPanic) /\ r <> RUB.
Ltac okd := split; [intros _; discriminate|discriminate].
Ltac okc H1 := split; [intros Hp; try discriminate; exfalso; apply (H1 Hp); reflexivity|congruence].
Definition good (cur : list byte) : Prop := bytes_ok cur /\ zlen cur <= isize_max.
Definition safe {A} (d : dm A) : Prop := forall cur, good cur -> ok_or_err (d cur).

Lemma good_suffix rest cur : suffix rest cur -> good cur -> good rest.
Proof. intros H [H1 H2]. split; [eapply suffix_bytes; eassumption|]. apply suffix_zlen in H. lia. Qed.

(** safe and, on success, the value satisfies [p] *)
Definition safe_with {A} (d : dm A) (p : A -> Prop) : Prop :=
  forall cur, good cur -> ok_or_err (d cur) /\ forall a rest, d cur = ROk (a, rest) -> p a.

Lemma safe_bind_with {A B} (d : dm A) (p : A -> Prop) (k : A -> dm B) :
  safe_with d p -> shrinks d -> (forall a, p a -> safe (k a)) -> safe (d_bind d k).
Proof.
  intros Hd Hs Hk cur Hc. destruct (Hd cur Hc) as [[H1 H2] H3]. unfold d_bind.
  destruct (d cur) as [[a r]| | | |] eqn:E; try okc H1.
  apply (Hk a (H3 _ _ eq_refl)). eapply good_suffix; [eapply Hs; exact E|exact Hc].
Qed.
Lemma safe_bind {A B} (d : dm A) (k : A -> dm B) :
  safe d -> shrinks d -> (forall a, safe (k a)) -> safe (d_bind d k).
Proof. intros Hd Hs Hk. apply (safe_bind_with d (fun _ => True)); auto. intros cur Hc; split; auto. Qed.
Lemma safe_ret {A} (a : A) : safe (d_ret a). Proof. okd. Qed.
Lemma safe_fail {A} e : safe (@d_fail A e). Proof. okd. Qed.
Lemma safe_div {A} : safe (@d_div A). Proof. okd. Qed.
Lemma safe_rem : safe d_rem. Proof. okd. Qed.
Lemma safe_byte : safe d_byte. Proof. intros [|b l] _; okd. Qed.
Lemma safe_lift {A} (r : pres A) : ok_or_err r -> safe (d_lift r).
Proof. intros [H1 H2] cur _. destruct r; cbn [d_lift]; okc H1. Qed.
Lemma safe_consume n : 0 <= n <= isize_max -> safe (d_consume n).
Proof.
  intros Hn cur _. unfold d_consume, size_ok. destruct (_ && _) eqn:E; [|lia].
  destruct (n <=? zlen cur); okd.
Qed.
Lemma safe_st t : safe (d_st t).
Proof. intros cur _. unfold d_st. destruct (st_split t cur) as [[]|]; okd. Qed.
Lemma safe_window {A} n (d : dm A) : 0 <= n <= isize_max -> safe d -> safe (d_window n d).
Proof.
  intros Hn Hd cur [Hb Hc]. unfold d_window, size_ok. destruct (_ && _) eqn:E; [|lia].
  destruct (Z.leb_spec n (zlen cur)); [|okd].
  assert (G : good (ztake n cur)) by (split; [apply bytes_ok_ztake; assumption|rewrite zlen_ztake; lia]).
  destruct (Hd _ G) as [H1 H2]. destruct (d (ztake n cur)) as [[a [|]]| | | |]; okc H1.
Qed.
#[local] Hint Resolve safe_ret safe_fail safe_div safe_rem safe_byte safe_st : dec.
Ltac sfe :=
  repeat first
    [ solve [auto with dec]
    | apply safe_bind; [|solve [auto with dec]|intros ?]
    | match goal with
      | |- safe (if ?b then _ else _) => destruct b
      | |- safe (match ?o with _ => _ end) => destruct o
      end ].
Lemma safe_fixed n : 0 <= n <= isize_max -> safe (d_fixed n).
Proof.
  intros Hn. unfold d_fixed. apply safe_bind; [apply safe_consume; assumption|auto with dec|]. intros bs.
  apply safe_lift. unfold coerce_slice. destruct (zlen bs =? n); okd.
Qed.
Lemma safe_bool : safe d_bool. Proof. unfold d_bool; sfe. Qed.
Lemma safe_int k : safe (d_int k).
Proof.
  unfold d_int. apply safe_bind; [|auto with dec|intros; sfe]. apply safe_fixed.
  unfold isize_max. destruct (ik_len_cases k) as [E|[E|[E|E]]]; rewrite E; split; reflexivity || discriminate.
Qed.
#[local] Hint Resolve safe_bool safe_int : dec.
Lemma safe_tag k tags : safe (d_tag k tags). Proof. unfold d_tag; sfe. Qed.
Lemma safe_tag_in k tags : safe_with (d_tag k tags) (fun z => In z tags).
Proof.
  intros cur Hc. split; [apply safe_tag; exact Hc|]. intros a rest H. destruct Hc as [Hb _].
  apply d_tag_ok in H; tauto.
Qed.
Lemma safe_ranged cf k lo hi : ri_sanity lo hi = true -> safe (d_ranged cf k lo hi).
Proof.
  intros Hs. unfold d_ranged; sfe. apply safe_lift. unfold ri_try_from_underlying, ri_check, rassert. rewrite Hs.
  destruct (cf_range_check cf); cbn [rbind];
  destruct (restrict_cases a lo hi) as [[e E]|E]; rewrite E; okd.
Qed.
#[local] Hint Resolve safe_tag safe_ranged : dec.
Lemma safe_pref cf s : safe (d_pref cf s).
Proof. destruct s; cbn [d_pref]; sfe. Qed.
Lemma safe_pref_with cf s : safe_with (d_pref cf s) (fun n => 0 <= n <= isize_max).
Proof.
  intros cur Hc. split; [apply safe_pref; exact Hc|]. intros n rest H. apply d_pref_ok in H; [|apply Hc].
  assert (pref_max s <= isize_max) by (destruct s; vm_compute; discriminate). lia.
Qed.

Lemma safe_seq elem fuel : safe elem -> shrinks elem -> forall acc, safe (d_seq fuel elem acc).
Proof. intros He Hs. induction fuel as [|fuel IH]; intros acc; cbn [d_seq]; sfe. Qed.
Lemma safe_lim elem n fuel : safe elem -> shrinks elem -> forall acc, safe (d_lim fuel n elem acc).
Proof.
  intros He Hs. induction fuel as [|fuel IH]; intros acc; cbn [d_lim]; sfe.
  apply safe_lift. unfold try_push. destruct (_ <? _); okd.
Qed.
Lemma safe_fix elem n fuel : safe elem -> shrinks elem -> forall acc, safe (d_fix fuel n elem acc).
Proof. intros He Hs. induction fuel as [|fuel IH]; intros acc; cbn [d_fix]; sfe. Qed.
Lemma safe_fields dec (p : ty -> bool) ts : (forall t, p t = true -> safe (dec t)) -> (forall t, shrinks (dec t)) ->
  forallb p ts = true -> safe (d_fields dec ts).
Proof.
  intros Hd Hs. induction ts as [|t ts IH]; cbn [forallb d_fields]; [sfe|]. intros H.
  apply andb_prop in H; destruct H as [H1 H2]. specialize (IH H2). specialize (Hd t H1). sfe.
Qed.
#[local] Hint Resolve safe_seq safe_lim safe_fix : dec.

Lemma find_tag_in z tags : In z tags -> exists ix, find_tag z tags = Some ix /\ nth_error tags ix = Some z.
Proof.
  induction tags as [|t tags IH]; [intros []|]. cbn [find_tag]. destruct (Z.eqb_spec z t) as [->|N].
  - intros _. exists O; split; reflexivity.
  - intros [E|H]; [congruence|]. destruct (IH H) as (ix & E1 & E2). rewrite E1. exists (S ix); split; [reflexivity|exact E2].
Qed.

Lemma st_good t : safe_with (d_st t) (fun bs => bytes_ok bs /\ bs <> []).
Proof.
  intros cur Hc. split; [apply safe_st; exact Hc|]. intros a rest H.
  pose proof (consumes_st t _ _ _ H). unfold d_st in H. destruct (st_split t cur) as [[p r]|] eqn:E; [|discriminate].
  injection H as <- <-. apply st_split_app in E. subst cur. destruct Hc as [Hb _]. apply bytes_ok_app in Hb.
  split; [tauto|]. intros ->. cbn [app] in *. lia.
Qed.
Lemma rem_good : safe_with d_rem (fun n => 0 <= n <= isize_max).
Proof.
  intros cur [Hb Hc]. split; [apply safe_rem; split; assumption|]. intros a rest H. injection H as <- <-.
  pose proof (zlen_nonneg cur). lia.
Qed.

Section Safe.
Variables (cf : config) (D : list def).
Hypothesis HD : wf_defs D = true.
(** VPadded is absent, or its check panics. *)
Definition vpads (absent : bool) : bool := (match cf_mode cf with Debug => pan | Release => false end) || absent.
Hypothesis HV : vpads (vpad_free_defs D) = true.

Lemma vpads_all ts : (vpad_free_defs D = true -> forallb vpad_free ts = true) -> forallb (fun t => vpads (vpad_free t)) ts = true.
Proof.
  intros H. unfold vpads in *. destruct (match cf_mode cf with Debug => pan | Release => false end); cbn [orb] in *.
  - clear. induction ts; [reflexivity|exact IHts].
  - rewrite forallb_forall in *. intros t Ht. apply (H HV t Ht).
Qed.
Lemma vpads_struct i ts : nth_error D i = Some (DStruct ts) -> forallb (fun t => vpads (vpad_free t)) ts = true.
Proof. intros Ei. apply vpads_all. intros H. exact (field_types_struct D _ i ts H Ei). Qed.
Lemma vpads_data i k alts ix tg ts : nth_error D i = Some (DData k alts) -> nth_error alts ix = Some (tg, ts) ->
  forallb (fun t => vpads (vpad_free t)) ts = true.
Proof. intros Ei Ea. apply vpads_all. intros H. exact (field_types_data D _ i k alts ix tg ts H Ei Ea). Qed.

Lemma safe_dec f : forall t, wf_ty D t = true -> vpads (vpad_free t) = true -> safe (dec cf D f t).
Proof.
  induction f as [|f IH]; intros t HW HF; [apply safe_div|].
  cbn [dec]. destruct t; cbn [wf_ty vpad_free] in HW, HF; try (sfe; fail).
  - (* ranged float *)
    apply safe_bind; [auto with dec|auto with dec|]. intros z. apply safe_bind; [|auto with dec|intros; sfe].
    apply safe_lift. destruct (restrict_float_spec z lo hi) as (_ & _ & H). unfold rf_try_from_f64.
    destruct (restrict_float z lo hi); cbn [ext_float]; try contradiction; okd.
  - apply (safe_bind_with _ _ _ (st_good _)); [auto with dec|]. intros bs [Hb _].
    rewrite n_deserialize_value by assumption. sfe. apply safe_lift; okd.
  - apply (safe_bind_with _ _ _ (st_good _)); [auto with dec|]. intros bs [Hb Hn].
    rewrite z_deserialize_value by assumption. sfe. apply safe_lift; okd.
  - apply (safe_bind_with _ _ _ rem_good); [auto with dec|]. intros n Hn.
    apply safe_bind; [apply safe_consume; assumption|auto with dec|intros; sfe].
  - apply (safe_bind_with _ _ _ rem_good); [auto with dec|]. intros n Hn.
    apply safe_bind; [apply safe_consume; assumption|auto with dec|intros; sfe].
  - apply safe_bind; [apply safe_fixed; unfold sizeb in HW; lia|auto with dec|intros; sfe].
  - apply safe_bind; [apply safe_fixed; unfold sizeb in HW; lia|auto with dec|intros; sfe].
  - (* option *)
    specialize (IH t HW HF). apply (safe_bind_with _ _ _ (safe_tag_in _ _)); [auto with dec|].
    intros tag [<-|[<-|[]]]; cbn [Z.eqb]; sfe.
  - apply andb_prop in HW; destruct HW as [_ HW]. specialize (IH t HW HF). sfe.
  - apply andb_prop in HW; destruct HW as [_ HW]. specialize (IH t HW HF). sfe.
  - (* dynamic *)
    apply (safe_bind_with _ _ _ (safe_pref_with cf s)); [auto with dec|]. intros n Hn.
    apply safe_bind; [apply safe_window; auto|auto with dec|intros; sfe].
  - (* vpadded *)
    apply andb_prop in HW; destruct HW as [Hs HW]. unfold sizeb in Hs.
    assert (HF' : vpads (vpad_free t) = true).
    { unfold vpads in *. destruct (match cf_mode cf with Debug => pan | Release => false end); [reflexivity|].
      cbn [orb] in *. apply andb_prop in HF; tauto. }
    apply (safe_bind_with _ _ _ rem_good); [auto with dec|]. intros rem Hrem.
    destruct (Z.leb_spec n rem) as [Hle|Hgt].
    + rewrite usub_ok by lia.
      replace (@debug_assert parse_error (cf_mode cf) true) with (@ROk parse_error unit tt)
        by (unfold debug_assert; destruct (cf_mode cf); reflexivity).
      apply safe_bind; [apply safe_lift; okd|auto with dec|intros _].
      intros cur Hc. unfold d_bind at 1, d_lift.
      revert cur Hc. change (safe (d_bind (d_window (rem - n) (dec cf D f t)) (fun v => d_ret (VWrap v)))).
      apply safe_bind; [apply safe_window; [lia|apply IH; assumption]|auto with dec|intros; sfe].
    + unfold vpads in HF. destruct (cf_mode cf) eqn:Em.
      * intros cur Hc. unfold debug_assert, d_bind, d_lift. split; [intros Hp|discriminate].
        rewrite Hp in HF. cbn [orb] in HF. apply andb_prop in HF. lia.
      * cbn [orb] in HF. apply andb_prop in HF. lia.
  - (* padded *)
    apply andb_prop in HW; destruct HW as [Hn HW]. specialize (IH t HW HF).
    apply safe_bind; [auto|auto with dec|]. intros v.
    apply safe_bind; [apply safe_consume; unfold sizeb in Hn; lia|auto with dec|intros; sfe].
  - (* named *)
    destruct (nth_error D i) as [[ts|k tags|k alts]|] eqn:Ei; [| | |].
    + apply safe_bind; [|auto with dec|intros; sfe].
      apply (safe_fields _ (fun t => wf_ty D t && vpads (vpad_free t))); [|auto with dec|].
      * intros t Ht. apply andb_prop in Ht. apply IH; tauto.
      * pose proof (wf_struct D i ts HD Ei) as W. pose proof (vpads_struct i ts Ei) as V.
        rewrite forallb_forall in *. intros t Ht. rewrite (W t Ht), (V t Ht). reflexivity.
    + apply (safe_bind_with _ _ _ (safe_tag_in _ _)); [auto with dec|]. intros tag Ht.
      destruct (find_tag_in _ _ Ht) as (ix & -> & _). sfe.
    + apply (safe_bind_with _ _ _ (safe_tag_in _ _)); [auto with dec|]. intros tag Ht.
      destruct (find_tag_in _ _ Ht) as (ix & -> & E). rewrite nth_error_map in E.
      destruct (nth_error alts ix) as [[tg ts]|] eqn:Ea; [|discriminate].
      apply safe_bind; [|auto with dec|intros; sfe].
      apply (safe_fields _ (fun t => wf_ty D t && vpads (vpad_free t))); [|auto with dec|].
      * intros t' Ht'. apply andb_prop in Ht'. apply IH; tauto.
      * pose proof (wf_data D i k alts ix tg ts HD Ei Ea) as W.
        pose proof (vpads_data i k alts ix tg ts Ei Ea) as V.
        rewrite forallb_forall in *. intros t Ht'. rewrite (W t Ht'), (V t Ht'). reflexivity.
    + exfalso. apply nth_error_None in Ei. lia.
Qed.
End Safe.
End Pan.
