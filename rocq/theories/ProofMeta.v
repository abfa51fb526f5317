(** Facts about [dec]: more fuel changes nothing, it halts, it does not panic,
    what it returns is well typed, it is canonical where it should be, and
    self-delimiting decoders ignore what follows. *)
From Verif Require Import Base BaseLemmas ModelErrors ModelParser ModelInt ModelFloat ModelZarith
  ModelUtf8 ModelTarget ModelSchema SpecParser SpecCodec ProofInt ProofZarith ProofUtf8 ProofFloat ProofDec ProofCodec.
From Coq Require Import ZifyBool.

(** ** Inversion *)
Lemma d_bind_ok {A B} (d : dm A) (k : A -> dm B) cur b rest :
  d_bind d k cur = ROk (b, rest) -> exists a r, d cur = ROk (a, r) /\ k a r = ROk (b, rest).
Proof. unfold d_bind. destruct (d cur) as [[a r]| | | |]; try discriminate. eauto. Qed.
Lemma d_ret_ok {A} (a b : A) cur rest : d_ret a cur = ROk (b, rest) -> b = a /\ rest = cur.
Proof. intros H; injection H as <- <-; auto. Qed.
Lemma d_lift_ok {A} (r : pres A) cur a rest : d_lift r cur = ROk (a, rest) -> r = ROk a /\ rest = cur.
Proof. destruct r; try discriminate. intros H; injection H as <- <-; auto. Qed.
Lemma d_consume_ok n cur bs rest : d_consume n cur = ROk (bs, rest) -> cur = bs ++ rest /\ zlen bs = n.
Proof.
  unfold d_consume. destruct (size_ok n) eqn:E; [|discriminate]. destruct (Z.leb_spec n (zlen cur)); [|discriminate].
  intros H'; injection H' as <- <-. split; [symmetry; apply ztake_zdrop|].
  apply zlen_ztake. unfold size_ok in E; lia.
Qed.
Lemma d_fixed_ok n cur bs rest : d_fixed n cur = ROk (bs, rest) -> cur = bs ++ rest /\ zlen bs = n.
Proof.
  unfold d_fixed. intros H. apply d_bind_ok in H. destruct H as (a & r & H1 & H2).
  apply d_consume_ok in H1. apply d_lift_ok in H2. destruct H2 as [H2 ->].
  unfold coerce_slice in H2. destruct (zlen a =? n); [|discriminate]. injection H2 as <-. exact H1.
Qed.
Lemma d_int_ok k cur z rest : bytes_ok cur -> d_int k cur = ROk (z, rest) -> cur = int_format k z ++ rest /\ ik_in k z = true.
Proof.
  unfold d_int. intros Hb H. apply d_bind_ok in H. destruct H as (bs & r & H1 & H2).
  apply d_ret_ok in H2. destruct H2 as [-> ->]. apply d_fixed_ok in H1. destruct H1 as [-> Hl].
  apply bytes_ok_app in Hb. rewrite to_from_be_bytes by tauto. split; [reflexivity|apply from_be_bytes_in].
Qed.
Lemma d_tag_ok k tags cur z rest : bytes_ok cur -> d_tag k tags cur = ROk (z, rest) ->
  cur = int_format k z ++ rest /\ In z tags.
Proof.
  unfold d_tag. intros Hb H. apply d_bind_ok in H. destruct H as (a & r & H1 & H2).
  apply d_int_ok in H1; [|assumption]. destruct (existsb (Z.eqb a) tags) eqn:E; [|discriminate].
  apply d_ret_ok in H2. destruct H2 as [-> ->]. split; [tauto|].
  apply existsb_exists in E. destruct E as (y & Hy & Ey). apply Z.eqb_eq in Ey. subst y. exact Hy.
Qed.
Lemma d_ranged_ok cf k lo hi cur z rest : bytes_ok cur -> d_ranged cf k lo hi cur = ROk (z, rest) ->
  cur = int_format k z ++ rest /\ ranged_ok k lo hi z = true.
Proof.
  unfold d_ranged. intros Hb H. apply d_bind_ok in H. destruct H as (a & r & H1 & H2).
  apply d_int_ok in H1; [|assumption]. destruct H1 as [-> Hi]. apply d_lift_ok in H2. destruct H2 as [H2 ->].
  unfold ri_try_from_underlying in H2. destruct (ri_check _ _ _); cbn [rbind ext_int] in H2; try discriminate.
  destruct (restrict_cases a lo hi) as [[e E]|E]; rewrite E in H2; cbn [ext_int] in H2; [discriminate|].
  injection H2 as <-. split; [reflexivity|]. unfold ranged_ok. rewrite Hi. apply restrict_ok in E.
  destruct (0 <? lo); lia.
Qed.
Lemma d_window_ok {A} n (d : dm A) cur a rest : d_window n d cur = ROk (a, rest) ->
  exists w, cur = w ++ rest /\ zlen w = n /\ n <= isize_max /\ d w = ROk (a, []).
Proof.
  unfold d_window. destruct (size_ok n) eqn:E; [|discriminate]. destruct (Z.leb_spec n (zlen cur)); [|discriminate].
  destruct (d (ztake n cur)) as [[b [|]]| | | |] eqn:Ed; try discriminate.
  intros H'; injection H' as <- <-. exists (ztake n cur). split; [symmetry; apply ztake_zdrop|].
  unfold size_ok in E. split; [apply zlen_ztake; lia|]. split; [lia|]. exact Ed.
Qed.
Lemma d_pref_ok cf s cur n rest : bytes_ok cur -> d_pref cf s cur = ROk (n, rest) ->
  cur = pref_format s n ++ rest /\ 0 <= n <= pref_max s.
Proof.
  intros Hb H. destruct s; cbn [d_pref pref_max] in *.
  - apply d_int_ok in H; [|assumption]. destruct H as [-> H]. apply ik_in_spec in H.
    change (ik_min U8) with 0 in H. change (ik_max U8) with 255 in H.
    split; [|lia]. unfold pref_format, int_format. cbn [pref_len ik_len].
    rewrite Z.mod_small by (change (256 ^ 1) with 256; lia). reflexivity.
  - apply d_int_ok in H; [|assumption]. destruct H as [-> H]. apply ik_in_spec in H.
    change (ik_min U16) with 0 in H. change (ik_max U16) with 65535 in H.
    split; [|lia]. unfold pref_format, int_format. cbn [pref_len ik_len].
    rewrite Z.mod_small by (change (256 ^ 2) with 65536; lia). reflexivity.
  - apply d_bind_ok in H. destruct H as (a & r & H1 & H2). apply d_ret_ok in H2. destruct H2 as [-> ->].
    apply d_ranged_ok in H1; [|assumption]. destruct H1 as [-> H]. unfold ranged_ok in H.
    apply andb_prop in H; destruct H as [_ H]. cbn [Z.ltb Z.compare] in H. unfold u30_max in *.
    assert (E : ri_into U64 a = a).
    { unfold ri_into. apply ik_wrap_id. apply ik_in_spec. change (ik_min U64) with 0. change (ik_max U64) with (2 ^ 64 - 1). lia. }
    rewrite E. split; [|lia]. unfold pref_format, int_format. cbn [pref_len ik_len].
    rewrite Z.mod_small by (change (256 ^ 4) with (2 ^ 32); lia). reflexivity.
Qed.

Ltac dinv :=
  repeat match goal with
  | H : d_bind _ _ _ = ROk _ |- _ => apply d_bind_ok in H; destruct H as (? & ? & ? & H)
  | H : d_ret _ _ = ROk _ |- _ => apply d_ret_ok in H; destruct H as [? ?]; subst
  | H : d_lift _ _ = ROk _ |- _ => apply d_lift_ok in H; destruct H as [? ?]; subst
  | H : d_rem _ = ROk _ |- _ => injection H as <- <-
  | H : d_fail _ _ = ROk _ |- _ => discriminate H
  | H : d_panic _ = ROk _ |- _ => discriminate H
  | H : d_div _ = ROk _ |- _ => discriminate H
  end.

(** ** Field types of definitions *)
Lemma field_types_struct D (p : ty -> bool) i ts :
  forallb (fun d => forallb (forallb p) (field_types d)) D = true ->
  nth_error D i = Some (DStruct ts) -> forallb p ts = true.
Proof.
  intros H E. apply nth_error_In in E. rewrite forallb_forall in H. specialize (H _ E).
  cbn [field_types forallb] in H. rewrite andb_true_r in H. exact H.
Qed.
Lemma field_types_data D (p : ty -> bool) i k alts ix tag ts :
  forallb (fun d => forallb (forallb p) (field_types d)) D = true ->
  nth_error D i = Some (DData k alts) -> nth_error alts ix = Some (tag, ts) -> forallb p ts = true.
Proof.
  intros H E Ea. apply nth_error_In in E. rewrite forallb_forall in H. specialize (H _ E).
  cbn [field_types] in H. rewrite forallb_forall in H. apply H.
  apply nth_error_In in Ea. apply in_map_iff. exists (tag, ts); auto.
Qed.
Lemma wf_struct D i ts : wf_defs D = true -> nth_error D i = Some (DStruct ts) -> forallb (wf_ty D) ts = true.
Proof. intros H E. apply (wf_nth D _ _ H E). Qed.
Lemma wf_data D i k alts ix tag ts : wf_defs D = true -> nth_error D i = Some (DData k alts) ->
  nth_error alts ix = Some (tag, ts) -> forallb (wf_ty D) ts = true.
Proof.
  intros H E Ea. pose proof (wf_nth D _ _ H E) as W. cbn [wf_def] in W. apply andb_prop in W; destruct W as [_ W].
  rewrite forallb_forall in W. apply nth_error_In in Ea. apply (W _ Ea).
Qed.

(** ** More fuel changes nothing *)
Definition d_le {A} (d d' : dm A) : Prop := forall cur, d cur <> RDiv -> d' cur = d cur.

Lemma d_le_refl {A} (d : dm A) : d_le d d.
Proof. intros cur _; reflexivity. Qed.
Lemma d_le_div {A} (d : dm A) : d_le d_div d.
Proof. intros cur H; exfalso; apply H; reflexivity. Qed.
Lemma d_le_bind {A B} (d d' : dm A) (k k' : A -> dm B) :
  d_le d d' -> (forall a, d_le (k a) (k' a)) -> d_le (d_bind d k) (d_bind d' k').
Proof.
  intros Hd Hk cur H. unfold d_bind in *.
  assert (Hn : d cur <> RDiv) by (intros E; rewrite E in H; apply H; reflexivity).
  rewrite (Hd cur Hn). destruct (d cur) as [[a r]| | | |]; try reflexivity. apply Hk. exact H.
Qed.
Lemma d_le_window {A} n (d d' : dm A) : d_le d d' -> d_le (d_window n d) (d_window n d').
Proof.
  intros Hd cur H. unfold d_window in *. destruct (size_ok n); [|reflexivity].
  destruct (n <=? zlen cur); [|reflexivity].
  rewrite Hd; [reflexivity|]. intros E. rewrite E in H. apply H; reflexivity.
Qed.
#[export] Hint Resolve d_le_refl d_le_div d_le_window : dec.
Ltac dle :=
  repeat first
    [ solve [auto with dec]
    | apply d_le_bind; [|intros ?]
    | match goal with
      | |- d_le (if ?b then _ else _) _ => destruct b
      | |- d_le (match ?o with _ => _ end) _ => destruct o
      end ].

Lemma d_le_seq elem elem' f : d_le elem elem' -> forall f' acc, (f <= f')%nat -> d_le (d_seq f elem acc) (d_seq f' elem' acc).
Proof.
  intros He. induction f as [|f IH]; intros f' acc Hf; [apply d_le_div|]. destruct f' as [|f']; [lia|].
  assert (f <= f')%nat by lia. cbn [d_seq]; dle.
Qed.
Lemma d_le_lim elem elem' n f : d_le elem elem' -> forall f' acc, (f <= f')%nat -> d_le (d_lim f n elem acc) (d_lim f' n elem' acc).
Proof.
  intros He. induction f as [|f IH]; intros f' acc Hf; [apply d_le_div|]. destruct f' as [|f']; [lia|].
  assert (f <= f')%nat by lia. cbn [d_lim]; dle.
Qed.
Lemma d_le_fix elem elem' n f : d_le elem elem' -> forall f' acc, (f <= f')%nat -> d_le (d_fix f n elem acc) (d_fix f' n elem' acc).
Proof.
  intros He. induction f as [|f IH]; intros f' acc Hf; [apply d_le_div|]. destruct f' as [|f']; [lia|].
  assert (f <= f')%nat by lia. cbn [d_fix]; dle.
Qed.
Lemma d_le_fields dec dec' ts : (forall t, d_le (dec t) (dec' t)) -> d_le (d_fields dec ts) (d_fields dec' ts).
Proof. intros H. induction ts as [|t ts IH]; cbn [d_fields]; dle. Qed.
#[export] Hint Resolve d_le_seq d_le_lim d_le_fix d_le_fields : dec.

Lemma dec_mono cf D f : forall f' t, (f <= f')%nat -> d_le (dec cf D f t) (dec cf D f' t).
Proof.
  induction f as [|f IH]; intros f' t Hf; [apply d_le_div|]. destruct f' as [|f']; [lia|].
  assert (Hf' : (f <= f')%nat) by lia. cbn [dec]. destruct t; dle.
Qed.

(** ** Consumption *)
Definition consumes {A} (d : dm A) : Prop := forall cur a rest, d cur = ROk (a, rest) -> zlen rest < zlen cur.

Lemma consumes_fixed n : 0 < n -> consumes (d_fixed n).
Proof. intros Hn cur a rest H. apply d_fixed_ok in H. destruct H as [-> H]. rewrite zlen_app. lia. Qed.
Lemma consumes_bind1 {A B} (d : dm A) (k : A -> dm B) : consumes d -> (forall a, shrinks (k a)) -> consumes (d_bind d k).
Proof.
  intros Hd Hk cur b rest H. apply d_bind_ok in H. destruct H as (a & r & H1 & H2).
  apply Hd in H1. pose proof (suffix_zlen _ _ (Hk a _ _ _ H2)). lia.
Qed.
Lemma consumes_bind2 {A B} (d : dm A) (k : A -> dm B) : shrinks d -> (forall a, consumes (k a)) -> consumes (d_bind d k).
Proof.
  intros Hd Hk cur b rest H. apply d_bind_ok in H. destruct H as (a & r & H1 & H2).
  apply Hk in H2. pose proof (suffix_zlen _ _ (Hd _ _ _ H1)). lia.
Qed.
Lemma consumes_int k : consumes (d_int k).
Proof. apply consumes_bind1; [|intros; apply shrinks_ret]. apply consumes_fixed. destruct k; reflexivity. Qed.
Lemma consumes_tag k tags : consumes (d_tag k tags).
Proof. apply consumes_bind1; [apply consumes_int|]. intros; shr. Qed.
Lemma consumes_ranged cf k lo hi : consumes (d_ranged cf k lo hi).
Proof. apply consumes_bind1; [apply consumes_int|]. intros; shr. Qed.
Lemma consumes_pref cf s : consumes (d_pref cf s).
Proof.
  destruct s; cbn [d_pref]; try apply consumes_int. apply consumes_bind1; [apply consumes_ranged|]. intros; shr.
Qed.
Lemma consumes_st term : consumes (d_st term).
Proof.
  intros cur a rest H. unfold d_st in H. destruct (st_split term cur) as [[p r]|] eqn:E; [|discriminate].
  injection H as <- <-. pose proof (st_split_app _ _ _ _ E) as ->. rewrite zlen_app.
  destruct p as [|b p]; [|rewrite zlen_cons; pose proof (zlen_nonneg p); lia]. exfalso.
  clear -E. cbn [app] in E. destruct r as [|b r]; cbn [st_split] in E; [discriminate|].
  destruct (term b); [discriminate|]. destruct (st_split term r) as [[]|]; discriminate.
Qed.
#[export] Hint Resolve consumes_int consumes_tag consumes_ranged consumes_pref consumes_st : dec.

Definition nonempty_claims (D : list def) (I : list tinfo) : Prop :=
  forall i ts, nth_error D i = Some (DStruct ts) -> ti_nonempty (info I i) = true -> existsb (nonempty I) ts = true.

Lemma consumes_fields dec (p : ty -> bool) ts :
  (forall t, shrinks (dec t)) -> (forall t, p t = true -> consumes (dec t)) -> existsb p ts = true ->
  consumes (d_fields dec ts).
Proof.
  intros Hs Hc. induction ts as [|t ts IH]; cbn [existsb d_fields]; [discriminate|].
  intros H. destruct (p t) eqn:E.
  - apply consumes_bind1; [auto|]. intros; shr.
  - apply consumes_bind2; [auto|]. intros; apply consumes_bind1; [auto|]. intros; shr.
Qed.

Lemma consumes_dec cf D I : nonempty_claims D I -> forall f t, nonempty I t = true -> consumes (dec cf D f t).
Proof.
  intros HC. induction f as [|f IH]; intros t N; [intros ? ? ? H; discriminate H|].
  cbn [dec]. destruct t; cbn [nonempty] in N; try discriminate N.
  all: try (apply consumes_bind1; [auto with dec|intros; shr]; fail).
  - apply consumes_bind1; [|intros; shr]. intros cur a rest H. unfold d_bool in H. dinv.
    unfold d_byte in H0. destruct cur as [|b cur]; [discriminate|]. injection H0 as <- <-.
    rewrite zlen_cons. assert (rest = cur); [|subst; lia].
    destruct (b =? 255); [dinv; auto|]. destruct (b =? 0); dinv; auto.
  - apply consumes_bind1; [apply consumes_fixed; lia|intros; shr].
  - apply consumes_bind1; [apply consumes_fixed; lia|intros; shr].
  - apply andb_prop in N; destruct N as [N1 N2]. apply consumes_bind1; [|intros; shr].
    intros cur vs rest H. destruct f as [|f]; [discriminate H|]. cbn [d_fix] in H. dinv.
    change (zlen (@nil val)) with 0 in H. rewrite N1, andb_true_r in H.
    destruct (negb _) eqn:Er; [|destruct (Z.eqb_spec 0 n); [lia|dinv]].
    dinv. apply (IH t N2) in H0.
    pose proof (suffix_zlen _ _ (shrinks_fix _ n f (shrinks_dec cf D (S f) t) _ _ _ _ H)). lia.
  - intros cur v rest H. apply d_bind_ok in H. destruct H as (x0 & ? & Hrem & H). injection Hrem as <- <-. dinv.
    apply d_window_ok in H2.
    destruct H2 as (w & -> & _ & _ & Hd). apply (IH _ N) in Hd. change (zlen []) with 0 in Hd. rewrite zlen_app. lia.
  - destruct (nonempty I t) eqn:E.
    + apply consumes_bind1; [auto|]. intros; shr.
    + cbn [orb] in N. apply consumes_bind2; [auto with dec|]. intros v. apply consumes_bind1; [|intros; shr].
      intros cur bs rest H. apply d_consume_ok in H. destruct H as [-> H]. rewrite zlen_app. lia.
  - destruct (nth_error D i) as [[ts|k tags|k alts]|] eqn:Ei; try (intros ? ? ? H; discriminate H).
    + apply consumes_bind1; [|intros; shr]. apply (consumes_fields _ (nonempty I)); auto with dec. eapply HC; eassumption.
    + apply consumes_bind1; [auto with dec|intros; shr].
    + apply consumes_bind1; [auto with dec|intros; shr].
Qed.
