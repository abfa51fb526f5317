(** Where no type is lossy, the bytes read are the encoding of the value; and
    self-delimiting decoders do not look at what follows. *)
From Verif Require Import Base BaseLemmas ModelErrors ModelParser ModelInt ModelFloat ModelZarith
  ModelUtf8 ModelTarget ModelSchema SpecParser SpecCodec ProofInt ProofZarith ProofUtf8 ProofFloat ProofDec ProofCodec
  ProofRoundTrip ProofMeta ProofSafe ProofTyped.
From Coq Require Import ZifyBool.

Lemma zeros_repeat l n : forallb (Z.eqb 0) l = true -> zlen l = n -> l = repeat 0 (Z.to_nat n).
Proof.
  intros H <-. unfold zlen. rewrite Nat2Z.id. induction l as [|b l IH]; [reflexivity|].
  cbn [forallb] in H. apply andb_prop in H; destruct H as [H1 H2]. cbn [length repeat].
  rewrite <- (IH H2). f_equal. lia.
Qed.

Section Canon.
Variables (cf : config) (D : list def).
Hypothesis HD : wf_defs D = true.
Hypothesis HC : canonical_defs cf D = true.

Definition canon_at (f : nat) : Prop := forall t cur v rest,
  canonical cf t = true -> bytes_ok cur -> dec cf D f t cur = ROk (v, rest) -> cur = format D v t ++ rest.

Lemma canon_steps f t : canon_at f -> canonical cf t = true ->
  forall cur vs rest, steps (dec cf D f t) cur vs rest -> bytes_ok cur ->
  cur = concat (map (fun v => format D v t) vs) ++ rest.
Proof.
  intros IH HF cur vs rest H. induction H as [cur|cur v r vs rest Hv Hs IHs]; intros Hb; [reflexivity|].
  rewrite (IH t cur v r HF Hb Hv). cbn [map concat]. rewrite <- app_assoc. f_equal. apply IHs.
  eapply bytes_rest; [|exact Hv|exact Hb]; auto with dec.
Qed.
Lemma canon_fields f ts : canon_at f -> forallb (canonical cf) ts = true ->
  forall cur vs rest, d_fields (dec cf D f) ts cur = ROk (vs, rest) -> bytes_ok cur ->
  cur = concat2 (format D) vs ts ++ rest.
Proof.
  intros IH. induction ts as [|t ts IHts]; intros HF cur vs rest H Hb.
  - apply d_ret_ok in H. destruct H as [-> ->]. reflexivity.
  - cbn [forallb] in HF. apply andb_prop in HF; destruct HF as [HF1 HF2]. cbn [d_fields] in H.
    apply d_bind_ok in H. destruct H as (v & r & Hv & H). apply d_bind_ok in H. destruct H as (vs' & r' & Hvs & H).
    apply d_ret_ok in H. destruct H as [-> ->]. rewrite (IH t cur v r HF1 Hb Hv), concat2_cons, <- app_assoc.
    f_equal. apply (IHts HF2); [exact Hvs|]. eapply bytes_rest; [|exact Hv|exact Hb]; auto with dec.
Qed.

Lemma canon_all f : canon_at f.
Proof.
  induction f as [|f IH]; intros t cur v rest HF Hb H; [discriminate H|].
  cbn [dec] in H. destruct t; cbn [canonical] in HF; try discriminate HF.
  - dinv. reflexivity.
  - dinv. apply d_bool_ok in H0. exact H0.
  - dinv. apply d_int_ok in H0; [|assumption]. exact (proj1 H0).
  - dinv. apply d_ranged_ok in H0; [|assumption]. exact (proj1 H0).
  - dinv. apply d_int_ok in H0; [|assumption]. destruct H0 as [-> Hi]. cbn [format].
    rewrite be8_int by (apply u64_bits; exact Hi). reflexivity.
  - dinv. apply d_int_ok in H0; [|assumption]. destruct H0 as [-> Hi].
    destruct (restrict_float_spec x lo hi) as (S1 & S2 & _).
    match goal with E : ext_float _ = _ |- _ => rename E into H1 end. unfold rf_try_from_f64 in H1.
    destruct (restrict_float x lo hi) as [y| | | |] eqn:Er; try discriminate H1. injection H1 as <-.
    pose proof (S2 _ eq_refl) as ->. cbn [format]. rewrite be8_int by (apply u64_bits; exact Hi). reflexivity.
  - dinv. match goal with E : d_consume _ _ = _ |- _ => rename E into H1 end. apply d_consume_ok in H1. exact (proj1 H1).
  - dinv. apply d_fixed_ok in H0. exact (proj1 H0).
  - dinv. apply d_fixed_ok in H0. exact (proj1 H0).
  - apply d_bind_ok in H. destruct H as (tag & r & Ht & H). apply d_tag_ok in Ht; [|assumption].
    destruct Ht as [-> Ht]. apply bytes_ok_app in Hb; destruct Hb as [_ Hb].
    destruct Ht as [<-|[<-|[]]]; cbn [Z.eqb] in H; dinv; [reflexivity|].
    change (Pos.eqb 255 255) with true in H. cbn iota in H. dinv. apply IH in H0; auto. subst r.
    reflexivity.
  - apply d_bind_ok in H. destruct H as (n & r & Hr & H). injection Hr as <- <-. destruct (negb _); dinv; [|reflexivity].
    apply IH in H0; auto.
  - dinv. apply d_seq_steps in H0. destruct H0 as (new & Hn & Hs & _). cbn [app] in Hn; subst x.
    apply (canon_steps f t IH HF _ _ _ Hs Hb).
  - dinv. assert (Hs : exists new, x = new /\ steps (dec cf D f t) cur new x0).
    { clear - H0. destruct (Z.leb_spec 0 n) as [Hn|Hn].
      - apply d_lim_steps in H0; [|exact Hn]. destruct H0 as (new & E & Hs & _). exists new; split; [exact E|exact Hs].
      - destruct f as [|f]; [discriminate H0|]. cbn [d_lim] in H0. apply d_bind_ok in H0. destruct H0 as (m & r & Hr & H).
        injection Hr as <- <-. destruct (zlen cur =? 0); [apply d_ret_ok in H; destruct H as [-> ->]; exists []; split; [reflexivity|constructor]|].
        apply d_bind_ok in H. destruct H as (v & r & Hv & H). apply d_bind_ok in H. destruct H as (a & r' & Hp & H).
        apply d_lift_ok in Hp. destruct Hp as [Hp _]. unfold try_push in Hp. change (zlen (@nil val)) with 0 in Hp.
        destruct (Z.ltb_spec 0 n); [lia|discriminate]. }
    destruct Hs as (new & -> & Hs). apply (canon_steps f t IH HF _ _ _ Hs Hb).
  - dinv. apply d_fix_steps in H0. destruct H0 as (new & Hn & Hs & _). cbn [app] in Hn; subst x.
    apply (canon_steps f t IH HF _ _ _ Hs Hb).
  - apply d_bind_ok in H. destruct H as (n & r & Hp & H). apply d_bind_ok in H. destruct H as (v' & r' & Hw & H). dinv.
    apply d_pref_ok in Hp; [|assumption]. destruct Hp as [-> Hp]. apply bytes_ok_app in Hb; destruct Hb as [_ Hb].
    apply d_window_ok in Hw. destruct Hw as (w & -> & Hl & _ & Hd). apply bytes_ok_app in Hb; destruct Hb as [Hb _].
    pose proof (IH t w v' [] HF Hb Hd) as E. rewrite app_nil_r in E. subst w. cbn [format]. rewrite Hl, <- app_assoc. reflexivity.
  - apply d_bind_ok in H. destruct H as (rem & r & Hr & H). injection Hr as <- <-.
    apply d_bind_ok in H. destruct H as (u1 & r1 & Hr1 & H). apply d_lift_ok in Hr1. destruct Hr1 as [_ ->].
    apply d_bind_ok in H. destruct H as (win & r2 & Hr2 & H). apply d_lift_ok in Hr2. destruct Hr2 as [_ ->].
    apply d_bind_ok in H. destruct H as (v' & r' & Hw & H). dinv.
    apply d_window_ok in Hw. destruct Hw as (w & -> & Hl & _ & Hd). apply bytes_ok_app in Hb; destruct Hb as [Hb _].
    pose proof (IH t w v' [] HF Hb Hd) as E. rewrite app_nil_r in E. subst w. reflexivity.
  - apply andb_prop in HF; destruct HF as [Hp0 HF].
    apply d_bind_ok in H. destruct H as (v' & r & Hv & H). apply d_bind_ok in H. destruct H as (pd & r' & Hp & H).
    apply d_consume_ok in Hp. destruct Hp as [-> Hp]. rewrite Hp0 in H. cbn [andb] in H.
    destruct (forallb (Z.eqb 0) pd) eqn:Ez; [|discriminate]. cbn [negb] in H. dinv.
    rewrite (IH t cur v' _ HF Hb Hv) at 1. cbn [format]. rewrite <- (zeros_repeat pd (zlen pd) Ez eq_refl), <- app_assoc. reflexivity.
  - dinv. apply (IH t cur x _ HF Hb H0).
  - destruct (nth_error D i) as [[ts|k tags|k alts]|] eqn:Ei; [| | |discriminate H].
    + dinv. cbn [format]. rewrite Ei. apply (canon_fields f ts IH) in H0; [exact H0| |exact Hb].
      apply (field_types_struct D _ i ts HC Ei).
    + apply d_bind_ok in H. destruct H as (tag & r & Ht & H). apply d_tag_ok in Ht; [|assumption].
      destruct Ht as [-> Ht]. destruct (find_tag_in _ _ Ht) as (ix & E1 & E2). rewrite E1 in H. dinv.
      cbn [format]; rewrite Ei. rewrite (nth_error_nth _ _ 0 E2). reflexivity.
    + apply d_bind_ok in H. destruct H as (tag & r & Ht & H). apply d_tag_ok in Ht; [|assumption].
      destruct Ht as [-> Ht]. destruct (find_tag_in _ _ Ht) as (ix & E1 & E2). rewrite E1 in H.
      rewrite nth_error_map in E2. destruct (nth_error alts ix) as [[tg ts]|] eqn:Ea; [|discriminate].
      injection E2 as ->. dinv. cbn [format]; rewrite Ei. cbv zeta. rewrite (nth_error_nth _ _ (0, []) Ea). cbn [fst snd].
      apply bytes_ok_app in Hb; destruct Hb as [_ Hb]. apply (canon_fields f ts IH) in H0; [| |exact Hb].
      * rewrite H0 at 1. rewrite <- app_assoc. reflexivity.
      * apply (field_types_data D _ i k alts ix tag ts HC Ei Ea).
Qed.
End Canon.

(** ** Self-delimiting decoders *)
Definition extends {A} (d : dm A) : Prop := forall cur a rest x, d cur = ROk (a, rest) -> d (cur ++ x) = ROk (a, rest ++ x).

Lemma extends_bind {A B} (d : dm A) (k : A -> dm B) : extends d -> (forall a, extends (k a)) -> extends (d_bind d k).
Proof.
  intros Hd Hk cur b rest x H. apply d_bind_ok in H. destruct H as (a & r & H1 & H2).
  unfold d_bind. rewrite (Hd _ _ _ x H1). apply Hk. exact H2.
Qed.
Lemma extends_ret {A} (a : A) : extends (d_ret a).
Proof. intros cur b rest x H. injection H as <- <-. reflexivity. Qed.
Lemma extends_fail {A} e : extends (@d_fail A e). Proof. intros ? ? ? ? H; discriminate H. Qed.
Lemma extends_panic {A} : extends (@d_panic A). Proof. intros ? ? ? ? H; discriminate H. Qed.
Lemma extends_div {A} : extends (@d_div A). Proof. intros ? ? ? ? H; discriminate H. Qed.
Lemma extends_lift {A} (r : pres A) : extends (d_lift r).
Proof. intros cur a rest x H. apply d_lift_ok in H. destruct H as [-> ->]. reflexivity. Qed.
Lemma extends_byte : extends d_byte.
Proof. intros [|b cur] a rest x H; [discriminate|]. injection H as <- <-. reflexivity. Qed.
Lemma extends_consume n : extends (d_consume n).
Proof.
  intros cur a rest x H. pose proof H as H0. apply d_consume_ok in H0. destruct H0 as [-> Hl].
  unfold d_consume in *. destruct (size_ok n) eqn:Es; [|discriminate]. unfold size_ok in Es.
  rewrite <- app_assoc. assert (Hle : n <=? zlen (a ++ rest ++ x) = true).
  { rewrite zlen_app. pose proof (zlen_nonneg (rest ++ x)). lia. }
  rewrite Hle. rewrite <- Hl. rewrite ztake_app, zdrop_app. reflexivity.
Qed.
Lemma extends_window {A} n (d : dm A) : extends (d_window n d).
Proof.
  intros cur a rest x H. pose proof H as H0. apply d_window_ok in H0. destruct H0 as (w & -> & Hl & Hi & Hd).
  rewrite <- app_assoc. apply d_window_app; assumption.
Qed.
Lemma extends_st t : extends (d_st t).
Proof.
  intros cur a rest x. unfold d_st. revert a rest. induction cur as [|b cur IH]; intros a rest; cbn [st_split app]; [discriminate|].
  destruct (t b); [intros H; injection H as <- <-; reflexivity|].
  destruct (st_split t cur) as [[p r]|]; [|discriminate]. intros H; injection H as <- <-.
  specialize (IH p r eq_refl). destruct (st_split t (cur ++ x)) as [[p' r']|]; [|discriminate].
  injection IH as -> ->. reflexivity.
Qed.
#[export] Hint Resolve extends_ret extends_fail extends_panic extends_div extends_lift extends_byte extends_consume extends_window extends_st : dec.
Ltac ext :=
  repeat first
    [ solve [auto with dec]
    | apply extends_bind; [|intros ?]
    | match goal with
      | |- extends (if ?b then _ else _) => destruct b
      | |- extends (match ?o with _ => _ end) => destruct o
      end ].
Lemma extends_fixed n : extends (d_fixed n). Proof. unfold d_fixed; ext. Qed.
#[export] Hint Resolve extends_fixed : dec.
Lemma extends_bool : extends d_bool. Proof. unfold d_bool; ext. Qed.
Lemma extends_int k : extends (d_int k). Proof. unfold d_int; ext. Qed.
#[export] Hint Resolve extends_bool extends_int : dec.
Lemma extends_tag k tags : extends (d_tag k tags). Proof. unfold d_tag; ext. Qed.
Lemma extends_ranged cf k lo hi : extends (d_ranged cf k lo hi). Proof. unfold d_ranged; ext. Qed.
#[export] Hint Resolve extends_tag extends_ranged : dec.
Lemma extends_pref cf s : extends (d_pref cf s). Proof. destruct s; cbn [d_pref]; ext. Qed.
#[export] Hint Resolve extends_pref : dec.

Lemma extends_fix elem n f : extends elem -> forall acc, extends (d_fix f n elem acc).
Proof.
  intros He. induction f as [|f IH]; intros acc; [apply extends_div|]. cbn [d_fix].
  intros cur vs rest x H. apply d_bind_ok in H. destruct H as (m & r & Hr & H). injection Hr as <- <-.
  unfold d_bind at 1, d_rem. cbv iota beta.
  destruct (Z.ltb_spec (zlen acc) n) as [Hl|Hl].
  - destruct (Z.eqb_spec (zlen cur) 0) as [E|E]; cbn [negb andb] in H.
    + destruct (Z.eqb_spec (zlen acc) n); [lia|discriminate].
    + assert (E' : zlen (cur ++ x) =? 0 = false) by (rewrite zlen_app; pose proof (zlen_nonneg cur); pose proof (zlen_nonneg x); lia).
      rewrite E'. cbn [negb andb]. apply d_bind_ok in H. destruct H as (v & r & Hv & H).
      unfold d_bind. rewrite (He _ _ _ x Hv). apply IH. exact H.
  - rewrite andb_false_r in *. destruct (Z.eqb_spec (zlen acc) n); [|discriminate].
    apply d_ret_ok in H. destruct H as [-> ->]. reflexivity.
Qed.
Lemma extends_fields dec ts : Forall (fun t => extends (dec t)) ts -> extends (d_fields dec ts).
Proof. induction 1 as [|t ts Ht Hts IH]; cbn [d_fields]; ext. Qed.

Section Ext.
Variables (cf : config) (D : list def) (I : list tinfo).
Hypothesis HI : disciplined D I = true.

Lemma kind_fields_delim ts : kind_fields I ts = Some Delim -> Forall (fun t => kind_of I t = Some Delim) ts.
Proof.
  induction ts as [|t ts IH]; [constructor|]. cbn [kind_fields].
  destruct (kind_of I t) as [[|n]|] eqn:E; [|destruct (kind_fields I ts) as [[|]|]; try discriminate|discriminate].
  - intros H. constructor; [exact E|apply IH; exact H].
  - destruct (len_fields I ts); [|discriminate]. destruct (_ && _); discriminate.
Qed.
Lemma kind_check_delim ts k : kind_check (kind_fields I ts) k = true -> k = Delim -> Forall (fun t => kind_of I t = Some Delim) ts.
Proof.
  intros H ->. apply kind_fields_delim. unfold kind_check in H. destruct (kind_fields I ts) as [[|]|]; try discriminate. reflexivity.
Qed.

Lemma extends_dec f : forall t, kind_of I t = Some Delim -> extends (dec cf D f t).
Proof.
  induction f as [|f IH]; intros t HK; [apply extends_div|]. cbn [dec].
  destruct t; cbn [kind_of] in HK; try discriminate HK; try (ext; fail).
  - (* nullable *) destruct (kind_of I t) as [k|]; [|discriminate]. destruct (_ && _); discriminate.
  - (* seq *) destruct (kind_of I t) as [[|]|]; try discriminate. destruct (nonempty I t); discriminate.
  - destruct (kind_of I t) as [[|]|]; try discriminate. destruct (nonempty I t); discriminate.
  - destruct (kind_of I t) as [[|]|] eqn:E; try discriminate. apply extends_bind; [|intros; ext]. apply extends_fix. auto.
  - destruct (kind_of I t) as [k|]; [|discriminate]. destruct (greedy_ok k); discriminate.
  - destruct (kind_of I t) as [[|m]|] eqn:E; try discriminate; [|destruct (n <=? m); discriminate]. specialize (IH t E). ext.
  - injection HK as HK. destruct (nth_error D i) as [[ts|k tags|k alts]|] eqn:Ei; try (ext; fail).
    + apply extends_bind; [|intros; ext]. apply extends_fields.
      pose proof (disciplined_nth D I _ _ HI Ei) as H. cbn [check_def] in H. apply andb_prop in H; destruct H as [H _].
      apply andb_prop in H; destruct H as [H _]. apply (kind_check_delim _ _ H) in HK.
      eapply Forall_impl; [|exact HK]. intros t. apply IH.
    + apply extends_bind; [auto with dec|]. intros tag. destruct (find_tag tag _) as [ix|]; [|ext].
      destruct (nth_error alts ix) as [[tg ts]|] eqn:Ea; [|ext].
      apply extends_bind; [|intros; ext]. apply extends_fields.
      pose proof (disciplined_nth D I _ _ HI Ei) as H. cbn [check_def] in H. rewrite forallb_forall in H.
      apply nth_error_In in Ea. specialize (H _ Ea). cbn [snd] in H. apply andb_prop in H; destruct H as [H _].
      apply (kind_check_delim _ _ H) in HK. eapply Forall_impl; [|exact HK]. intros t. apply IH.
Qed.
End Ext.
