(** Decoding the format of a valid value gives the value back (C21, C22). *)
From Verif Require Import Base BaseLemmas ModelErrors ModelParser ModelInt ModelFloat ModelZarith
  ModelUtf8 ModelTarget ModelSchema SpecParser SpecCodec ProofInt ProofZarith ProofUtf8 ProofFloat ProofDec ProofCodec.
From Coq Require Import ZifyBool.

Lemma isize_pos : 0 < isize_max. Proof. reflexivity. Qed.

(** ** Primitive decoders on their formats *)
Lemma size_ok_true n : 0 <= n <= isize_max -> size_ok n = true.
Proof. unfold size_ok; lia. Qed.

Lemma d_consume_app n bs x : zlen bs = n -> n <= isize_max -> d_consume n (bs ++ x) = ROk (bs, x).
Proof.
  intros Hn Hm. unfold d_consume. pose proof (zlen_nonneg bs). pose proof (zlen_nonneg x).
  rewrite size_ok_true by lia. rewrite zlen_app.
  destruct (Z.leb_spec n (zlen bs + zlen x)); [|lia].
  rewrite <- Hn, ztake_app, zdrop_app. reflexivity.
Qed.

Lemma d_fixed_app n bs x : zlen bs = n -> n <= isize_max -> d_fixed n (bs ++ x) = ROk (bs, x).
Proof.
  intros Hn Hm. unfold d_fixed, d_bind. rewrite d_consume_app by assumption.
  unfold coerce_slice. rewrite Hn, Z.eqb_refl. reflexivity.
Qed.

Lemma ik_len_small k : ik_len k <= isize_max.
Proof. destruct k; discriminate. Qed.

Lemma d_int_app k z x : ik_in k z = true -> d_int k (int_format k z ++ x) = ROk (z, x).
Proof.
  intros Hz. unfold d_int, d_bind. rewrite d_fixed_app by (auto using int_format_length, ik_len_small).
  unfold d_ret. rewrite from_to_be_bytes by assumption. reflexivity.
Qed.

Lemma d_tag_app k tags z x : ik_in k z = true -> In z tags -> d_tag k tags (int_format k z ++ x) = ROk (z, x).
Proof.
  intros Hz Hi. unfold d_tag, d_bind. rewrite d_int_app by assumption.
  replace (existsb (Z.eqb z) tags) with true; [reflexivity|].
  symmetry; apply existsb_exists. exists z; split; [assumption|apply Z.eqb_refl].
Qed.

Lemma ri_ok rc lo hi z : ri_sanity lo hi = true ->
  (if 0 <? lo then (0 <=? z) && (z + lo <=? hi) else (lo <=? z) && (z <=? hi)) = true ->
  ri_try_from_underlying rc lo hi z = ROk z.
Proof.
  intros Hs Hz. unfold ri_try_from_underlying, ri_check. rewrite Hs.
  assert (E : restrict z lo hi = ROk z) by (apply restrict_ok; destruct (0 <? lo); lia).
  destruct rc; cbn [rassert rbind]; exact E.
Qed.

Lemma d_ranged_app cf k lo hi z x : ri_sanity lo hi = true -> ranged_ok k lo hi z = true ->
  d_ranged cf k lo hi (int_format k z ++ x) = ROk (z, x).
Proof.
  intros Hs Hz. unfold ranged_ok in Hz. apply andb_prop in Hz; destruct Hz as [Hz1 Hz2].
  unfold d_ranged, d_bind. rewrite d_int_app by assumption. rewrite ri_ok by assumption. reflexivity.
Qed.

Lemma terminal_split l x : bytes_ok l -> terminated l = true -> st_split zarith_terminal (l ++ x) = Some (l, x).
Proof.
  induction l as [|b l IH]; [discriminate|]. intros Hb Ht. inversion Hb as [|? ? Hb1 Hb2]; subst.
  cbn [app st_split]. rewrite terminal_spec by assumption.
  destruct l as [|c l].
  - cbn [terminated] in Ht. rewrite Ht. reflexivity.
  - rewrite terminated_cons in Ht by discriminate. apply andb_prop in Ht; destruct Ht as [Ht1 Ht2].
    destruct (Z.ltb_spec b 128); [lia|]. rewrite IH by assumption. reflexivity.
Qed.

Lemma pref_format_int s n : 0 <= n <= pref_max s ->
  pref_format s n = int_format (match s with PrefU8 => U8 | PrefU16 => U16 | PrefU30 => U32 end) n.
Proof.
  intros Hn. unfold pref_format, int_format. destruct s; cbn [pref_len ik_len pref_max] in *;
    (rewrite Z.mod_small; [reflexivity|]).
  - change (256 ^ 1) with 256; lia.
  - change (256 ^ 2) with 65536; lia.
  - change (256 ^ 4) with (2 ^ 32). unfold u30_max in Hn. lia.
Qed.

Lemma d_pref_app cf s n x : 0 <= n <= pref_max s -> d_pref cf s (pref_format s n ++ x) = ROk (n, x).
Proof.
  intros Hn. rewrite pref_format_int by assumption. destruct s; cbn [d_pref pref_max] in *.
  - apply d_int_app. unfold ik_in; cbn; lia.
  - apply d_int_app. unfold ik_in; cbn; lia.
  - assert (Hi : ik_in U64 n = true).
    { apply ik_in_spec. change (ik_min U64) with 0. change (ik_max U64) with (2 ^ 64 - 1).
      unfold u30_max in Hn; lia. }
    unfold d_bind. rewrite d_ranged_app.
    + unfold d_ret, ri_into. rewrite ik_wrap_id by exact Hi. reflexivity.
    + reflexivity.
    + unfold ranged_ok. apply andb_true_intro; split; [|cbn [Z.ltb Z.compare]; lia].
      apply ik_in_spec. change (ik_min U32) with 0. change (ik_max U32) with (2 ^ 32 - 1).
      unfold u30_max in Hn; lia.
Qed.

Lemma pref_max_isize s : pref_max s <= isize_max.
Proof. destruct s; discriminate. Qed.

Lemma d_window_app {A} n (d : dm A) bs x a : zlen bs = n -> n <= isize_max -> d bs = ROk (a, []) ->
  d_window n d (bs ++ x) = ROk (a, x).
Proof.
  intros Hn Hm Hd. unfold d_window. pose proof (zlen_nonneg bs). pose proof (zlen_nonneg x).
  rewrite size_ok_true by lia. rewrite zlen_app.
  destruct (Z.leb_spec n (zlen bs + zlen x)); [|lia].
  rewrite <- Hn, ztake_app, zdrop_app, Hd. reflexivity.
Qed.

Lemma find_tag_nth tags ix d : nodupb tags = true -> (ix < length tags)%nat ->
  find_tag (nth ix tags d) tags = Some ix.
Proof.
  revert ix; induction tags as [|t tags IH]; intros ix Hn Hl; cbn [length] in Hl; [lia|].
  cbn [nodupb] in Hn. apply andb_prop in Hn; destruct Hn as [Hn1 Hn2].
  destruct ix as [|ix]; cbn [nth find_tag].
  - rewrite Z.eqb_refl. reflexivity.
  - destruct (Z.eqb_spec (nth ix tags d) t) as [E|].
    + exfalso. apply negb_true_iff in Hn1. rewrite <- not_true_iff_false in Hn1. apply Hn1.
      apply existsb_exists. exists (nth ix tags d). split; [apply nth_In; lia|]. rewrite E; apply Z.eqb_refl.
    + rewrite IH by (assumption || lia). reflexivity.
Qed.

(** ** Loops *)
Definition d_reads_back (d : dm val) (v : val) (bs : list byte) : Prop :=
  forall x, zlen (bs ++ x) <= isize_max -> d (bs ++ x) = ROk (v, x).

Lemma d_seq_app elem vs bss : Forall2 (d_reads_back elem) vs bss -> Forall (fun bs => 0 < zlen bs) bss ->
  forall fuel acc, (length vs < fuel)%nat -> zlen (concat bss) <= isize_max ->
  d_seq fuel elem acc (concat bss) = ROk (acc ++ vs, []).
Proof.
  induction 1 as [|v bs vs bss Hv _ IH]; intros Hne fuel acc Hf Hz; (destruct fuel as [|fuel]; [cbn in Hf; lia|]).
  - cbn. rewrite app_nil_r. reflexivity.
  - apply Forall_cons_iff in Hne; destruct Hne as [Hb Hbs]. cbn [concat d_seq length] in *. unfold d_bind at 1, d_rem at 1.
    pose proof (zlen_nonneg (concat bss)). rewrite zlen_app in *.
    destruct (Z.eqb_spec (zlen bs + zlen (concat bss)) 0); [lia|].
    unfold d_bind. rewrite Hv by (rewrite zlen_app; lia). rewrite IH by (assumption || lia).
    rewrite <- app_assoc. reflexivity.
Qed.

Lemma d_lim_app elem n vs bss : Forall2 (d_reads_back elem) vs bss -> Forall (fun bs => 0 < zlen bs) bss ->
  forall fuel acc, (length vs < fuel)%nat -> zlen (concat bss) <= isize_max -> zlen acc + zlen vs <= n ->
  d_lim fuel n elem acc (concat bss) = ROk (acc ++ vs, []).
Proof.
  induction 1 as [|v bs vs bss Hv _ IH]; intros Hne fuel acc Hf Hz Hn; (destruct fuel as [|fuel]; [cbn in Hf; lia|]).
  - cbn. rewrite app_nil_r. reflexivity.
  - apply Forall_cons_iff in Hne; destruct Hne as [Hb Hbs]. cbn [concat d_lim length] in *. unfold d_bind at 1, d_rem at 1.
    pose proof (zlen_nonneg (concat bss)). rewrite zlen_app in *. rewrite zlen_cons in Hn. pose proof (zlen_nonneg vs).
    destruct (Z.eqb_spec (zlen bs + zlen (concat bss)) 0); [lia|].
    unfold d_bind. rewrite Hv by (rewrite zlen_app; lia).
    unfold try_push. destruct (Z.ltb_spec (zlen acc) n); [|lia]. cbn [ext_len d_lift].
    rewrite IH; [rewrite <- app_assoc; reflexivity|assumption|lia|lia|].
    rewrite zlen_app. change (zlen [v]) with 1. lia.
Qed.

Lemma d_fix_app elem n vs bss : Forall2 (d_reads_back elem) vs bss -> Forall (fun bs => 0 < zlen bs) bss ->
  forall fuel acc x, (length vs < fuel)%nat -> zlen (concat bss ++ x) <= isize_max -> zlen acc + zlen vs = n ->
  d_fix fuel n elem acc (concat bss ++ x) = ROk (acc ++ vs, x).
Proof.
  induction 1 as [|v bs vs bss Hv _ IH]; intros Hne fuel acc x Hf Hz Hn; (destruct fuel as [|fuel]; [cbn in Hf; lia|]).
  - cbn [concat app d_fix]. unfold d_bind, d_rem. change (zlen []) with 0 in Hn.
    destruct (Z.ltb_spec (zlen acc) n); [lia|]. rewrite andb_false_r.
    destruct (Z.eqb_spec (zlen acc) n); [|lia]. rewrite app_nil_r. reflexivity.
  - apply Forall_cons_iff in Hne; destruct Hne as [Hb Hbs]. cbn [concat d_fix length] in *. rewrite <- app_assoc in *.
    unfold d_bind at 1, d_rem at 1.
    pose proof (zlen_nonneg (concat bss ++ x)). rewrite (zlen_app bs) in *. rewrite zlen_cons in Hn. pose proof (zlen_nonneg vs).
    destruct (Z.eqb_spec (zlen bs + zlen (concat bss ++ x)) 0); [lia|].
    destruct (Z.ltb_spec (zlen acc) n); [|lia]. cbn [negb andb].
    unfold d_bind. rewrite Hv by (rewrite zlen_app; lia).
    rewrite IH; [rewrite <- app_assoc; reflexivity|assumption|lia|lia|].
    rewrite zlen_app. change (zlen [v]) with 1. lia.
Qed.

Lemma is_u64_in z : is_u64 z = true -> ik_in U64 z = true.
Proof.
  unfold is_u64; intros H. apply ik_in_spec. change (ik_min U64) with 0. change (ik_max U64) with (2 ^ 64 - 1). lia.
Qed.
Lemma be8_int z : is_u64 z = true -> big_endian 8 z = int_format U64 z.
Proof.
  unfold is_u64; intros H. unfold int_format. cbn [ik_len]. change (256 ^ 8) with (2 ^ 64).
  rewrite Z.mod_small by lia. reflexivity.
Qed.

(** ** The round trip *)
Definition adm (k : kind) (x : list byte) : Prop :=
  match k with Delim => True | Leave n => zlen x = n end.

Lemma adm_greedy k : greedy_ok k = true -> adm k [].
Proof. destruct k; cbn; [trivial|]. intros H. change (zlen []) with 0. lia. Qed.

Section RoundTrip.
Variables (cf : config) (D : list def) (I : list tinfo).
Hypothesis HI : disciplined D I = true.
Hypothesis HD : wf_defs D = true.

Definition rt (v : val) (t : ty) (k : kind) (f0 : nat) : Prop :=
  forall f x, (f0 <= f)%nat -> adm k x -> zlen (format D v t ++ x) <= isize_max ->
    dec cf D f t (format D v t ++ x) = ROk (v, x).
Definition rt_val (v : val) : Prop :=
  forall t k, kind_of I t = Some k -> wf_ty D t = true -> valid D v t = true -> exists f0, rt v t k f0.

Lemma rt_fields vs : Forall rt_val vs -> forall ts k,
  kind_fields I ts = Some k -> forallb (wf_ty D) ts = true -> all2 (valid D) vs ts = true ->
  exists f0, forall f x, (f0 <= f)%nat -> adm k x -> zlen (concat2 (format D) vs ts ++ x) <= isize_max ->
    d_fields (dec cf D f) ts (concat2 (format D) vs ts ++ x) = ROk (vs, x).
Proof.
  induction 1 as [|v vs Hv _ IH]; intros [|t ts] k Hk Hw Ha; cbn [all2] in Ha; try discriminate.
  - exists O. intros. reflexivity.
  - cbn [forallb] in Hw; apply andb_prop in Hw; destruct Hw as [Hw1 Hw2].
    apply andb_prop in Ha; destruct Ha as [Ha1 Ha2]. cbn [kind_fields] in Hk.
    destruct (kind_of I t) as [kt|] eqn:Ekt; [|discriminate].
    destruct (Hv t kt Ekt Hw1 Ha1) as [f1 H1].
    assert (Hrest : exists k', kind_fields I ts = Some k').
    { destruct kt; [eauto|]. destruct (kind_fields I ts); [eauto|discriminate]. }
    destruct Hrest as [k' Hk']. destruct (IH ts k' Hk' Hw2 Ha2) as [f2 H2].
    exists (Nat.max f1 f2). intros f x Hf Hx Hz. rewrite concat2_cons, <- app_assoc in *.
    cbn [d_fields]. unfold d_bind at 1.
    assert (Hzr : zlen (concat2 (format D) vs ts ++ x) <= isize_max).
    { rewrite zlen_app in Hz. pose proof (zlen_nonneg (format D v t)). lia. }
    destruct kt as [|n].
    + rewrite H1 by (lia || exact Logic.I || assumption). unfold d_bind.
      rewrite Hk' in Hk; injection Hk as <-.
      rewrite H2 by (lia || assumption). reflexivity.
    + rewrite Hk' in Hk. destruct k'; [|discriminate].
      destruct (len_fields I ts) as [m|] eqn:El; [|discriminate].
      destruct ((0 <=? m) && (m <=? n)) eqn:Em; [|discriminate]. injection Hk as <-. cbn [adm] in Hx.
      assert (Hlen : zlen (concat2 (format D) vs ts) = m).
      { apply (len_fields_concat2 D I); try assumption.
        apply Forall_forall. intros v' _. apply (len_of_format D I HI HD). }
      rewrite H1; [|lia| |assumption].
      * unfold d_bind. rewrite H2 by (lia || exact Logic.I || assumption). reflexivity.
      * cbn [adm]. rewrite zlen_app. lia.
Qed.

Lemma kind_check_adm k k' x : kind_leb k k' = true -> adm k' x -> adm k x.
Proof. destruct k, k'; cbn; try discriminate; auto. intros; lia. Qed.

(** Elements of a sequence: one fuel for all. *)
Lemma rt_list vs t : Forall rt_val vs -> kind_of I t = Some Delim -> wf_ty D t = true ->
  forallb (fun v => valid D v t) vs = true ->
  exists f0, forall f, (f0 <= f)%nat ->
    Forall2 (d_reads_back (dec cf D f t)) vs (map (fun v => format D v t) vs).
Proof.
  intros Hvs Hk Hw. induction Hvs as [|v vs Hv _ IH]; intros Ha.
  - exists O. intros; constructor.
  - cbn [forallb] in Ha. apply andb_prop in Ha; destruct Ha as [Ha1 Ha2].
    destruct (IH Ha2) as [f1 H1]. destruct (Hv t Delim Hk Hw Ha1) as [f2 H2].
    exists (Nat.max f1 f2). intros f Hf. cbn [map]. constructor; [|apply H1; lia].
    intros x Hz. apply H2; [lia|exact Logic.I|assumption].
Qed.

Lemma nonempty_list vs t : wf_ty D t = true -> nonempty I t = true -> forallb (fun v => valid D v t) vs = true ->
  Forall (fun bs => 0 < zlen bs) (map (fun v => format D v t) vs).
Proof.
  intros Hw Hn Ha. rewrite forallb_forall in Ha. apply Forall_forall. intros bs Hin.
  apply in_map_iff in Hin. destruct Hin as (v & <- & Hv).
  apply (nonempty_format D I HI HD); auto.
Qed.

Ltac leaf := exists 1%nat; intros f x Hf _ Hz; (destruct f as [|f]; [lia|]); cbn [dec]; unfold d_bind.

Lemma rt_all v : rt_val v.
Proof.
  induction v as [| | | | |v IHv|vs IHvs|vs IHvs|ix vs IHvs|v IHv] using val_ind';
    intros t k K W V; unfold rt; destruct t; try exact (False_ind _ (diff_false_true V)); try discriminate V;
    try (unfold valid in V; cbn [valid_gen] in V; destruct (nth_error D i) as [[?|?|?]|] eqn:Ei; discriminate V);
    cbn [format]; unfold valid in V; cbn [valid_gen] in V; cbn [wf_ty] in W; cbn [kind_of] in K.
  (* unit, bool *)
  - leaf. reflexivity.
  - leaf. destruct b; reflexivity.
  (* numbers *)
  - leaf. rewrite d_int_app by assumption. reflexivity.
  - leaf. rewrite d_ranged_app by assumption. reflexivity.
  - leaf. rewrite be8_int, d_int_app by (auto using is_u64_in). reflexivity.
  - apply andb_prop in V; destruct V as [V V2]. apply andb_prop in V; destruct V as [V V1].
    leaf. rewrite be8_int, d_int_app by (auto using is_u64_in).
    unfold rf_try_from_f64, restrict_float. rewrite V1, V2.
    rewrite (f64_le_trans _ _ _ V1 V2). reflexivity.
  - leaf. destruct (natural_format_props z ltac:(lia)) as (Hb & Ht & Hv & _).
    unfold d_st. rewrite terminal_split by assumption.
    rewrite n_deserialize_value, Hv by assumption. reflexivity.
  - leaf. destruct (integer_format_props z) as (Hb & Ht & Hv & _).
    unfold d_st. rewrite terminal_split by assumption.
    rewrite z_deserialize_value, Hv by (try (intros E; rewrite E in Ht; discriminate); assumption). reflexivity.
  (* byte strings *)
  - injection K as <-. exists 1%nat; intros f x Hf Hx Hz; (destruct f as [|f]; [lia|]); cbn [dec adm] in *.
    apply zlen_0_nil in Hx; subst x. unfold d_bind, d_rem. rewrite app_nil_r in *.
    rewrite <- (app_nil_r bs) at 2. rewrite d_consume_app by (reflexivity || assumption). reflexivity.
  - injection K as <-. exists 1%nat; intros f x Hf Hx Hz; (destruct f as [|f]; [lia|]); cbn [dec adm] in *.
    apply zlen_0_nil in Hx; subst x. unfold d_bind, d_rem. rewrite app_nil_r in *.
    rewrite <- (app_nil_r bs) at 2. rewrite d_consume_app by (reflexivity || assumption).
    apply andb_prop in V; destruct V as [V1 V2]. rewrite utf8_lossy_valid_id by (try apply forallb_byteb; assumption). reflexivity.
  - apply andb_prop in V; destruct V as [V1 V2]. unfold sizeb in W.
    leaf. rewrite d_fixed_app by lia. reflexivity.
  - apply andb_prop in V; destruct V as [V1 V2]. unfold sizeb in W.
    leaf. rewrite d_fixed_app by lia. reflexivity.
  (* none *)
  - leaf. change [0] with (int_format U8 0). rewrite d_tag_app; [reflexivity|reflexivity|left; reflexivity].
  - destruct (kind_of I t) as [k'|]; [|discriminate]. destruct (greedy_ok k' && nonempty I t); [|discriminate].
    injection K as <-. exists 1%nat; intros f x Hf Hx Hz; (destruct f as [|f]; [lia|]); cbn [dec adm] in *.
    apply zlen_0_nil in Hx; subst x. reflexivity.
  (* some *)
  - destruct (IHv t k K W V) as [f0 H]. exists (S f0). intros f x Hf Hx Hz. destruct f as [|f]; [lia|].
    cbn [dec]. unfold d_bind at 1. change ((255 :: format D v t) ++ x) with (int_format U8 255 ++ (format D v t ++ x)) in *.
    rewrite d_tag_app; [|reflexivity|right; left; reflexivity]. cbn [Z.eqb Pos.eqb].
    unfold d_bind. rewrite H; [reflexivity|lia|assumption|].
    rewrite zlen_app in Hz. pose proof (zlen_nonneg (int_format U8 255)). lia.
  - destruct (kind_of I t) as [k'|] eqn:Ek; [|discriminate].
    destruct (greedy_ok k' && nonempty I t) eqn:Eg; [|discriminate]. apply andb_prop in Eg; destruct Eg as [Eg En].
    injection K as <-. destruct (IHv t k' Ek W V) as [f0 H]. exists (S f0). intros f x Hf Hx Hz.
    destruct f as [|f]; [lia|]. cbn [dec adm] in *. apply zlen_0_nil in Hx; subst x.
    pose proof (nonempty_format D I HI HD v t W En V) as Hpos.
    unfold d_bind at 1, d_rem at 1. rewrite app_nil_r in *. destruct (Z.eqb_spec (zlen (format D v t)) 0); [lia|].
    cbn [negb]. unfold d_bind. specialize (H f [] ltac:(lia) (adm_greedy _ Eg)). rewrite app_nil_r in H.
    rewrite H by assumption. reflexivity.
  (* sequences *)
  - destruct (kind_of I t) as [[|]|] eqn:Ek; try discriminate. destruct (nonempty I t) eqn:En; [|discriminate].
    injection K as <-. destruct (rt_list vs t IHvs Ek W V) as [f0 H].
    exists (S (Nat.max f0 (S (length vs)))). intros f x Hf Hx Hz. destruct f as [|f]; [lia|]. cbn [dec adm] in *.
    apply zlen_0_nil in Hx; subst x. rewrite app_nil_r in *. unfold d_bind.
    rewrite (d_seq_app _ vs _ (H f ltac:(lia)) (nonempty_list vs t W En V)) by (lia || assumption). reflexivity.
  - apply andb_prop in V; destruct V as [V1 V2]. apply andb_prop in W; destruct W as [W1 W].
    destruct (kind_of I t) as [[|]|] eqn:Ek; try discriminate. destruct (nonempty I t) eqn:En; [|discriminate].
    injection K as <-. destruct (rt_list vs t IHvs Ek W V1) as [f0 H].
    exists (S (Nat.max f0 (S (length vs)))). intros f x Hf Hx Hz. destruct f as [|f]; [lia|]. cbn [dec adm] in *.
    apply zlen_0_nil in Hx; subst x. rewrite app_nil_r in *. unfold d_bind.
    rewrite (d_lim_app _ n vs _ (H f ltac:(lia)) (nonempty_list vs t W En V1)); [reflexivity|lia|assumption|].
    change (zlen []) with 0. lia.
  - apply andb_prop in V; destruct V as [V1 V2]. apply andb_prop in W; destruct W as [W1 W].
    destruct (kind_of I t) as [[|]|] eqn:Ek; try discriminate.
    destruct (nonempty I t || (n =? 0)) eqn:En; [|discriminate]. injection K as <-.
    destruct (rt_list vs t IHvs Ek W V1) as [f0 H].
    assert (Hne : Forall (fun bs => 0 < zlen bs) (map (fun v => format D v t) vs)).
    { apply orb_prop in En. destruct En as [En|En]; [apply nonempty_list; assumption|].
      assert (vs = []) by (apply zlen_0_nil; lia). subst vs. constructor. }
    exists (S (Nat.max f0 (S (length vs)))). intros f x Hf Hx Hz. destruct f as [|f]; [lia|]. cbn [dec adm] in *.
    unfold d_bind. rewrite (d_fix_app _ n vs _ (H f ltac:(lia)) Hne); [reflexivity|lia|assumption|].
    change (zlen []) with 0. lia.
  (* struct *)
  - destruct (nth_error D i) as [[ts|?|?]|] eqn:Ei; try discriminate V. injection K as <-.
    destruct (struct_nth D I HI HD _ _ Ei) as (Hk & _ & _ & Hw). unfold kind_check in Hk.
    destruct (kind_fields I ts) as [k'|] eqn:Ek; [|discriminate].
    destruct (rt_fields vs IHvs ts k' Ek Hw V) as [f0 H].
    exists (S f0). intros f x Hf Hx Hz. destruct f as [|f]; [lia|]. cbn [dec]. rewrite Ei. unfold d_bind.
    rewrite H; [reflexivity|lia| |assumption]. eapply kind_check_adm; eassumption.
  (* enums *)
  - destruct (nth_error D i) as [[ts|kk tags|kk alts]|] eqn:Ei; try discriminate V; injection K as <-.
    + destruct vs; [|discriminate V]. apply Nat.ltb_lt in V.
      destruct (cstyle_nth D I HI HD _ _ _ Ei) as (_ & Hn & Hin).
      exists 1%nat. intros f x Hf _ Hz. destruct f as [|f]; [lia|]. cbn [dec]. rewrite Ei. unfold d_bind.
      assert (Hi : In (nth ix tags 0) tags) by (apply nth_In; assumption).
      rewrite forallb_forall in Hin.
      rewrite d_tag_app by auto. rewrite find_tag_nth by assumption. reflexivity.
    + destruct (nth_error alts ix) as [[tag ts]|] eqn:Ea; [|discriminate V].
      destruct (data_nth D I HI HD _ _ _ Ei) as (Hn & _ & H). destruct (H _ _ _ Ea) as (Hk & _ & Hw & Htag).
      unfold kind_check in Hk. destruct (kind_fields I ts) as [k'|] eqn:Ek; [|discriminate].
      rewrite (nth_error_nth _ _ _ Ea). cbn [fst snd].
      destruct (rt_fields vs IHvs ts k' Ek Hw V) as [f0 Hf0].
      exists (S f0). intros f x Hf Hx Hz. destruct f as [|f]; [lia|]. cbn [dec]. rewrite Ei. unfold d_bind at 1.
      rewrite <- app_assoc in *.
      assert (Emap : nth_error (map fst alts) ix = Some tag) by (rewrite nth_error_map, Ea; reflexivity).
      rewrite d_tag_app; [|assumption|eapply nth_error_In; exact Emap].
      assert (Eft : find_tag tag (map fst alts) = Some ix).
      { rewrite <- (nth_error_nth _ _ 0 Emap). apply find_tag_nth; [assumption|]. apply nth_error_Some; congruence. }
      rewrite Eft, Ea. unfold d_bind. rewrite Hf0; [reflexivity|lia|eapply kind_check_adm; eassumption|].
      rewrite zlen_app in Hz. pose proof (zlen_nonneg (int_format kk tag)). lia.
  (* dynamic *)
  - apply andb_prop in V; destruct V as [V1 V2]. cbn [implb] in V2.
    destruct (kind_of I t) as [k'|] eqn:Ek; [|discriminate]. destruct (greedy_ok k') eqn:Eg; [|discriminate].
    injection K as <-. destruct (IHv t k' Ek W V1) as [f0 H].
    exists (S f0). intros f x Hf Hx Hz. destruct f as [|f]; [lia|]. cbn [dec]. unfold d_bind at 1.
    rewrite <- app_assoc in *. pose proof (zlen_nonneg (format D v t)). pose proof (pref_max_isize s).
    rewrite d_pref_app by lia. unfold d_bind.
    specialize (H f [] ltac:(lia) (adm_greedy _ Eg)). rewrite app_nil_r in H.
    rewrite (d_window_app _ _ _ x v); [reflexivity|reflexivity|lia|]. apply H; lia.
  (* vpadded *)
  - apply andb_prop in W; destruct W as [W1 W]. unfold sizeb in W1.
    destruct (kind_of I t) as [k'|] eqn:Ek; [|discriminate]. destruct (greedy_ok k') eqn:Eg; [|discriminate].
    injection K as <-. destruct (IHv t k' Ek W V) as [f0 H].
    exists (S f0). intros f x Hf Hx Hz. destruct f as [|f]; [lia|]. cbn [dec adm] in *. unfold d_bind, d_rem.
    rewrite zlen_app in *. pose proof (zlen_nonneg (format D v t)).
    unfold debug_assert. replace (n <=? zlen (format D v t) + zlen x) with true by lia.
    destruct (cf_mode cf); cbn [rassert d_lift]; rewrite usub_ok by lia; cbn [d_lift];
      replace (zlen (format D v t) + zlen x - n) with (zlen (format D v t)) by lia;
      specialize (H f [] ltac:(lia) (adm_greedy _ Eg)); rewrite app_nil_r in H;
      (rewrite (d_window_app _ _ _ x v); [reflexivity|reflexivity|lia|]; apply H; lia).
  (* padded *)
  - apply andb_prop in W; destruct W as [W1 W]. unfold sizeb in W1.
    destruct (kind_of I t) as [k'|] eqn:Ek; [|discriminate].
    destruct (IHv t k' Ek W V) as [f0 H].
    exists (S f0). intros f x Hf Hx Hz. destruct f as [|f]; [lia|]. cbn [dec]. unfold d_bind at 1.
    rewrite <- app_assoc in *. set (z := repeat 0 (Z.to_nat n)) in *.
    assert (Lz : zlen z = n) by (subst z; rewrite zlen_repeat; lia).
    assert (Fz : forallb (Z.eqb 0) z = true).
    { apply forallb_forall. intros b Hb. apply repeat_spec in Hb. subst b. reflexivity. }
    clearbody z. rewrite H; [|lia| |assumption].
    + unfold d_bind. rewrite (d_consume_app n z x Lz) by lia. rewrite Fz, andb_false_r. reflexivity.
    + destruct k' as [|m]; cbn [adm]; [exact Logic.I|].
      destruct (n <=? m) eqn:Enm; [|discriminate]. injection K as <-. cbn [adm] in Hx.
      rewrite zlen_app. unfold byte in *. lia.
  (* box *)
  - destruct (IHv t k K W V) as [f0 H]. exists (S f0). intros f x Hf Hx Hz. destruct f as [|f]; [lia|].
    cbn [dec]. unfold d_bind. rewrite H by (lia || assumption). reflexivity.
Qed.
End RoundTrip.
