(** Self-delimiting types look at nothing beyond their own encoding: cutting the
    input after it changes nothing, cutting it inside is an error. *)
From Verif Require Import Base BaseLemmas ModelErrors ModelParser ModelInt ModelFloat ModelZarith
  ModelUtf8 ModelTarget ModelSchema SpecParser SpecCodec ProofInt ProofZarith ProofFloat ProofDec ProofCodec ProofMeta
  ProofRoundTrip ProofCanon.
From Coq Require Import ZifyBool.

Definition fails {A} (r : pres A) : Prop := exists e, r = RErr e.
Definition local {A} (d : dm A) : Prop := forall cur a rest, d cur = ROk (a, rest) ->
  zlen rest <= zlen cur /\
  forall p q, cur = p ++ q ->
    (exists r, rest = r ++ q /\ d p = ROk (a, r)) \/ (zlen rest < zlen q /\ fails (d p)).

Lemma local_bind {A B} (d : dm A) (k : A -> dm B) : local d -> (forall a, local (k a)) -> local (d_bind d k).
Proof.
  intros Hd Hk cur b rest H. apply d_bind_ok in H. destruct H as (a & r0 & H1 & H2).
  destruct (Hd _ _ _ H1) as [L1 C1]. destruct (Hk a _ _ _ H2) as [L2 C2]. split; [lia|].
  intros p q E. unfold d_bind. destruct (C1 p q E) as [(r & Er & ->)|[Hl [e ->]]].
  - apply C2. exact Er.
  - right. split; [lia|eexists; reflexivity].
Qed.
Lemma local_ret {A} (a : A) : local (d_ret a).
Proof. intros cur b rest H. injection H as <- <-. split; [lia|]. intros p q ->. left. exists p. auto. Qed.
Lemma local_fail {A} e : local (@d_fail A e). Proof. intros ? ? ? H; discriminate H. Qed.
Lemma local_panic {A} : local (@d_panic A). Proof. intros ? ? ? H; discriminate H. Qed.
Lemma local_div {A} : local (@d_div A). Proof. intros ? ? ? H; discriminate H. Qed.
Lemma local_lift {A} (r : pres A) : local (d_lift r).
Proof.
  intros cur a rest H. apply d_lift_ok in H. destruct H as [-> ->]. split; [lia|]. intros p q ->. left. exists p. auto.
Qed.
Lemma local_byte : local d_byte.
Proof.
  intros [|b cur] a rest H; [discriminate|]. injection H as <- <-. split; [rewrite zlen_cons; lia|].
  intros [|c p] q E; cbn [app] in E.
  - subst q. right. rewrite zlen_cons. split; [lia|]. eexists; reflexivity.
  - injection E as -> ->. left. exists p. auto.
Qed.
(** [a ++ rest = p ++ q]: the cut lies in [rest] or in [a]. *)
Lemma app_cut {A} (a rest p q : list A) : a ++ rest = p ++ q ->
  (exists r, p = a ++ r /\ rest = r ++ q) \/ (zlen rest < zlen q /\ zlen p < zlen a).
Proof.
  revert p; induction a as [|x a IH]; intros p E; cbn [app] in E.
  - left. exists p. auto.
  - destruct p as [|y p]; cbn [app] in E.
    + right. subst q. rewrite !zlen_cons, zlen_app. change (zlen (@nil A)) with 0.
      pose proof (zlen_nonneg a). lia.
    + injection E as -> E. destruct (IH p E) as [(r & -> & ->)|[H1 H2]].
      * left. exists r. auto.
      * right. rewrite !zlen_cons. lia.
Qed.
Lemma local_consume n : local (d_consume n).
Proof.
  intros cur a rest H. pose proof H as H0. apply d_consume_ok in H0. destruct H0 as [-> Hl].
  unfold d_consume in H. destruct (size_ok n) eqn:Es; [|discriminate]. clear H.
  split; [rewrite zlen_app; pose proof (zlen_nonneg a); lia|]. intros p q E. unfold d_consume. rewrite Es.
  destruct (app_cut _ _ _ _ E) as [(r & -> & ->)|[H1 H2]].
  - left. exists r. split; [reflexivity|]. assert (Hle : n <=? zlen (a ++ r) = true).
    { rewrite zlen_app. pose proof (zlen_nonneg r). lia. }
    rewrite Hle, <- Hl, ztake_app, zdrop_app. reflexivity.
  - right. split; [exact H1|]. destruct (Z.leb_spec n (zlen p)); [lia|]. eexists; reflexivity.
Qed.
Lemma local_window {A} n (d : dm A) : local (d_window n d).
Proof.
  intros cur a rest H. pose proof H as H0. apply d_window_ok in H0. destruct H0 as (w & -> & Hl & Hi & Hd).
  split; [rewrite zlen_app; pose proof (zlen_nonneg w); lia|]. intros p q E.
  destruct (app_cut _ _ _ _ E) as [(r & -> & ->)|[H1 H2]].
  - left. exists r. split; [reflexivity|]. apply d_window_app; assumption.
  - right. split; [exact H1|]. unfold d_window in *. destruct (size_ok n); [|discriminate].
    destruct (Z.leb_spec n (zlen p)); [lia|]. eexists; reflexivity.
Qed.
Lemma local_st t : local (d_st t).
Proof.
  intros cur a rest H. unfold d_st in H. destruct (st_split t cur) as [[p0 r0]|] eqn:E0; [|discriminate].
  injection H as <- <-. pose proof (st_split_app _ _ _ _ E0) as E1.
  split; [rewrite E1, zlen_app; pose proof (zlen_nonneg p0); lia|]. intros p q E.
  unfold d_st. revert p0 r0 p E0 E1 E. induction cur as [|b cur IH]; intros p0 r0 p E0 E1 E; cbn [st_split] in E0; [discriminate|].
  destruct p as [|c p]; cbn [app] in E.
  - right. subst q. split; [|eexists; reflexivity].
    destruct (t b); [injection E0 as <- <-; rewrite zlen_cons; lia|].
    destruct (st_split t cur) as [[p1 r1]|] eqn:E2; [|discriminate]. injection E0 as <- <-.
    cbn [app] in E1. injection E1 as ->. rewrite zlen_cons, zlen_app. pose proof (zlen_nonneg p1). lia.
  - injection E as -> ->. cbn [st_split]. destruct (t c).
    + injection E0 as <- <-. left. exists p. split; reflexivity.
    + destruct (st_split t (p ++ q)) as [[p1 r1]|] eqn:E2; [|discriminate]. injection E0 as <- <-.
      cbn [app] in E1. injection E1 as E1.
      destruct (IH p1 r1 p eq_refl E1 eq_refl) as [(r & -> & H)|[Hl H]].
      * left. exists r. split; [reflexivity|]. destruct (st_split t p) as [[p2 r2]|]; [|discriminate].
        injection H as -> ->. reflexivity.
      * right. split; [exact Hl|]. destruct (st_split t p) as [[p2 r2]|]; [|eexists; reflexivity].
        destruct H as [e H]; discriminate H.
Qed.
#[export] Hint Resolve local_ret local_fail local_panic local_div local_lift local_byte local_consume local_window local_st : dec.
Ltac loc :=
  repeat first
    [ solve [auto with dec]
    | apply local_bind; [|intros ?]
    | match goal with
      | |- local (if ?b then _ else _) => destruct b
      | |- local (match ?o with _ => _ end) => destruct o
      end ].
Lemma local_fixed n : local (d_fixed n). Proof. unfold d_fixed; loc. Qed.
#[export] Hint Resolve local_fixed : dec.
Lemma local_bool : local d_bool. Proof. unfold d_bool; loc. Qed.
Lemma local_int k : local (d_int k). Proof. unfold d_int; loc. Qed.
#[export] Hint Resolve local_bool local_int : dec.
Lemma local_tag k tags : local (d_tag k tags). Proof. unfold d_tag; loc. Qed.
Lemma local_ranged cf k lo hi : local (d_ranged cf k lo hi). Proof. unfold d_ranged; loc. Qed.
#[export] Hint Resolve local_tag local_ranged : dec.
Lemma local_pref cf s : local (d_pref cf s). Proof. destruct s; cbn [d_pref]; loc. Qed.
#[export] Hint Resolve local_pref : dec.

Lemma local_fix elem n f : local elem -> shrinks elem -> (consumes elem \/ n <= 0) -> forall acc, local (d_fix f n elem acc).
Proof.
  intros He Hs Hc. induction f as [|f IH]; intros acc; [apply local_div|]. cbn [d_fix].
  intros cur vs rest H. apply d_bind_ok in H. destruct H as (m & r & Hr & H). injection Hr as <- <-.
  destruct (Z.ltb_spec (zlen acc) n) as [Hl|Hl].
  - destruct Hc as [Hc|Hc]; [|pose proof (zlen_nonneg acc); lia].
    destruct (Z.eqb_spec (zlen cur) 0) as [E|E]; cbn [negb andb] in H.
    + destruct (Z.eqb_spec (zlen acc) n); [lia|discriminate].
    + destruct (local_bind elem (fun v => d_fix f n elem (acc ++ [v])) He (fun v => IH _) cur vs rest H) as [L C].
      assert (Hlt : zlen rest < zlen cur).
      { eapply (consumes_bind1 elem (fun v => d_fix f n elem (acc ++ [v]))); [exact Hc| |exact H]. auto with dec. }
      split; [exact L|]. intros p q Epq. unfold d_bind at 1 3, d_rem. cbv iota beta.
      destruct (Z.eqb_spec (zlen p) 0) as [Ep|Ep]; cbn [negb andb].
      * apply zlen_0_nil in Ep; subst p. cbn [app] in Epq; subst q.
        destruct (Z.eqb_spec (zlen acc) n); [lia|]. right. split; [exact Hlt|eexists; reflexivity].
      * apply C. exact Epq.
  - rewrite andb_false_r in *. destruct (Z.eqb_spec (zlen acc) n); [|discriminate].
    apply d_ret_ok in H. destruct H as [-> ->]. split; [lia|]. intros p q ->. left. exists p. split; [reflexivity|].
    unfold d_bind, d_rem. rewrite andb_false_r. destruct (Z.eqb_spec (zlen acc) n); [reflexivity|lia].
Qed.
Lemma local_fields dec ts : Forall (fun t => local (dec t)) ts -> local (d_fields dec ts).
Proof. induction 1 as [|t ts Ht Hts IH]; cbn [d_fields]; loc. Qed.

Section Loc.
Variables (cf : config) (D : list def) (I : list tinfo).
Hypothesis HI : disciplined D I = true.

Lemma disciplined_claims : nonempty_claims D I.
Proof.
  intros i ts E Hn. pose proof (disciplined_nth D I _ _ HI E) as H. cbn [check_def] in H.
  apply andb_prop in H; destruct H as [H _]. apply andb_prop in H; destruct H as [_ H]. rewrite Hn in H. exact H.
Qed.

Lemma local_dec f : forall t, kind_of I t = Some Delim -> local (dec cf D f t).
Proof.
  induction f as [|f IH]; intros t HK; [apply local_div|]. cbn [dec].
  destruct t; cbn [kind_of] in HK; try discriminate HK; try (loc; fail).
  - (* nullable *) destruct (kind_of I t) as [k|]; [|discriminate]. destruct (_ && _); discriminate.
  - (* seq *) destruct (kind_of I t) as [[|]|]; try discriminate. destruct (nonempty I t); discriminate.
  - destruct (kind_of I t) as [[|]|]; try discriminate. destruct (nonempty I t); discriminate.
  - destruct (kind_of I t) as [[|]|] eqn:E; try discriminate. apply local_bind; [|intros; loc].
    apply local_fix; [auto|apply shrinks_dec|]. destruct (nonempty I t) eqn:N.
    + left. apply (consumes_dec cf D I disciplined_claims); exact N.
    + right. cbn [orb] in HK. destruct (Z.eqb_spec n 0); [lia|discriminate].
  - destruct (kind_of I t) as [k|]; [|discriminate]. destruct (greedy_ok k); discriminate.
  - destruct (kind_of I t) as [[|m]|] eqn:E; try discriminate; [|destruct (n <=? m); discriminate]. specialize (IH t E). loc.
  - injection HK as HK. destruct (nth_error D i) as [[ts|k tags|k alts]|] eqn:Ei; try (loc; fail).
    + apply local_bind; [|intros; loc]. apply local_fields.
      pose proof (disciplined_nth D I _ _ HI Ei) as H. cbn [check_def] in H. apply andb_prop in H; destruct H as [H _].
      apply andb_prop in H; destruct H as [H _]. apply (kind_check_delim I _ _ H) in HK.
      eapply Forall_impl; [|exact HK]. intros t. apply IH.
    + apply local_bind; [auto with dec|]. intros tag. destruct (find_tag tag _) as [ix|]; [|loc].
      destruct (nth_error alts ix) as [[tg ts]|] eqn:Ea; [|loc].
      apply local_bind; [|intros; loc]. apply local_fields.
      pose proof (disciplined_nth D I _ _ HI Ei) as H. cbn [check_def] in H. rewrite forallb_forall in H.
      apply nth_error_In in Ea. specialize (H _ Ea). cbn [snd] in H. apply andb_prop in H; destruct H as [H _].
      apply (kind_check_delim I _ _ H) in HK. eapply Forall_impl; [|exact HK]. intros t. apply IH.
Qed.
End Loc.
