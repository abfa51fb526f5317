(** Lemmas behind C12 and the skip_dynamic part of C11. *)
From Verif Require Import Base BaseLemmas ModelErrors ModelSplitVec ModelParser ModelInt ModelSchema ModelScan
  SpecParser SpecCodec SpecScan
  ProofParser ProofParserSim ProofParserProps ProofParserClean ProofParserMisc ProofInt ProofDec ProofCodecThms.
From Coq Require Import ZifyBool.

Lemma bytes_eqb_eq a : forall b, bytes_eqb a b = true <-> a = b.
Proof.
  induction a as [|x a IH]; intros [|y b]; cbn [bytes_eqb]; try (split; [discriminate|congruence]).
  - tauto.
  - rewrite andb_true_iff, IH, Z.eqb_eq. split; [intros [-> ->]; reflexivity|]. intros [= -> ->]; auto.
Qed.

(** ** The prefix on the wire *)
Lemma pref_format_len s n : zlen (pref_format s n) = pref_len s.
Proof.
  unfold pref_format, zlen. rewrite <- be_bytes_big_endian, be_bytes_length. destruct s; reflexivity.
Qed.

Lemma marshall_format cf s n : 0 <= n <= pref_max s -> marshall_usize cf s (pref_format s n) = ROk n.
Proof.
  intros Hn. unfold marshall_usize. rewrite pref_format_len, Z.eqb_refl. cbn [negb].
  assert (F : forall k, ik_in k n = true -> 0 <= n < ik_mod k -> Z.to_nat (ik_len k) = Z.to_nat (pref_len s) ->
              from_be_bytes k (pref_format s n) = n).
  { intros k Hk Hm He. rewrite <- (from_to_be_bytes k n Hk) at 2. f_equal.
    unfold int_format, pref_format. fold (ik_mod k). rewrite Z.mod_small by exact Hm. rewrite He. reflexivity. }
  destruct s; cbn [pref_max pref_len] in *.
  - rewrite F; try reflexivity; unfold ik_in; cbn; lia.
  - rewrite F; try reflexivity; unfold ik_in; cbn; lia.
  - unfold u30_max in *. rewrite F; [|unfold ik_in; cbn; lia|cbn; lia|reflexivity].
    unfold ri_try_from_i32. cbn [Z.leb Z.compare].
    assert (C : @ri_check (cf_range_check cf) 0 (2 ^ 30 - 1) bounds_error = ROk tt)
      by (unfold ri_check; destruct (cf_range_check cf); reflexivity).
    rewrite C. cbn [rbind]. unfold restrict. cbn [Z.ltb Z.compare].
    bcase (0 <=? n); [|lia]. bcase (n <=? 2 ^ 30 - 1); [|lia]. cbn [rbind].
    unfold ik_try_from, ik_in. cbn. bcase (0 <=? n); [|lia]. bcase (n <=? 4294967295); [|lia]. cbn.
    f_equal. apply Z.mod_small. lia.
Qed.

(** Any other four bytes make [marshall_usize] of u30 panic. *)
Lemma marshall_u30_panics cf bs :
  bytes_ok bs -> zlen bs = 4 -> (forall n, 0 <= n <= u30_max -> bs <> pref_format PrefU30 n) ->
  marshall_usize cf PrefU30 bs = RPanic.
Proof.
  intros Hb Hl Hne. unfold marshall_usize. rewrite Hl. cbn [pref_len Z.eqb Pos.eqb negb].
  set (raw := from_be_bytes I32 bs).
  assert (Hr : ~ 0 <= raw <= u30_max).
  { intros Hr. apply (Hne raw Hr). rewrite <- (to_from_be_bytes I32 bs Hb Hl) at 1. fold raw.
    unfold int_format, pref_format. rewrite Z.mod_small; [reflexivity|].
    unfold u30_max in Hr. cbn. lia. }
  unfold ri_try_from_i32.
  assert (C : @ri_check (cf_range_check cf) 0 u30_max bounds_error = ROk tt)
    by (unfold ri_check; destruct (cf_range_check cf); reflexivity).
  rewrite C. cbn [Z.leb Z.compare rbind]. unfold restrict. cbn [Z.ltb Z.compare].
  bcase (0 <=? raw); [bcase (raw <=? u30_max); [lia|]|]; reflexivity.
Qed.

Lemma u30_restrict raw : restrict raw 0 u30_max = ROk raw -> 0 <= raw <= u30_max.
Proof.
  unfold restrict. cbn [Z.ltb Z.compare].
  bcase (0 <=? raw); [bcase (raw <=? u30_max); [lia|]|]; discriminate.
Qed.

Lemma marshall_bound cf s bs n : marshall_usize cf s bs = ROk n -> 0 <= n <= pref_max s.
Proof.
  unfold marshall_usize. destruct (negb _); [discriminate|].
  pose proof (from_be_bytes_in U8 bs) as H8. pose proof (from_be_bytes_in U16 bs) as H16.
  destruct s; cbn [pref_max].
  - intros [= <-]. unfold ik_in in H8; cbn in H8. cbn. lia.
  - intros [= <-]. unfold ik_in in H16; cbn in H16. cbn. lia.
  - set (raw := from_be_bytes I32 bs). unfold ri_try_from_i32.
    destruct (@ri_check (cf_range_check cf) 0 u30_max bounds_error); cbn [rbind]; try discriminate.
    cbn [Z.leb Z.compare rbind].
    destruct (restrict raw 0 u30_max) as [y|?| | |] eqn:E; cbn [rbind]; try discriminate.
    assert (raw = y). { revert E. unfold restrict. cbn [Z.ltb Z.compare].
      bcase (0 <=? raw); [bcase (raw <=? u30_max); [congruence|]|]; discriminate. }
    subst y. apply u30_restrict in E. unfold u30_max in *.
    unfold ik_try_from. destruct (ik_in U32 raw); [|discriminate].
    intros [= <-]. cbn. rewrite Z.mod_small; lia.
Qed.

(** ** A parser seen as its unread window *)
Section Machine.
Context {P : Type} (m : mode) (h : handler P) (ok : P -> Prop) (view : P -> list byte)
        (moved open : P -> Z -> P).
Hypothesis L_rem : forall p, ok p -> h Z OpRemainder p = (ROk (zlen (view p)), p).
Hypothesis L_consume : forall p n, ok p -> 0 <= n <= zlen (view p) ->
  h _ (OpConsume n) p = (ROk (ztake n (view p)), moved p n).
Hypothesis L_skip : forall p n, ok p -> 0 <= n <= zlen (view p) ->
  h _ (OpSkipExactly n) p = (ROk tt, moved p n).
Hypothesis L_consume_fail : forall p n, ok p -> zlen (view p) < n <= isize_max ->
  exists e p', h _ (OpConsume n) p = (RErr e, p').
Hypothesis L_skip_fail : forall p n, ok p -> zlen (view p) < n <= isize_max ->
  exists e p', h _ (OpSkipExactly n) p = (RErr e, p').
Hypothesis L_moved : forall p n, ok p -> 0 <= n <= zlen (view p) ->
  ok (moved p n) /\ view (moved p n) = zdrop n (view p).
Hypothesis L_moved_moved : forall p a b, 0 <= a -> 0 <= b -> moved (moved p a) b = moved p (a + b).
Hypothesis L_moved_0 : forall p, ok p -> moved p 0 = p.
Hypothesis L_small : forall p, ok p -> zlen (view p) <= isize_max.
Hypothesis L_open : forall p n, ok p -> 0 <= n <= zlen (view p) ->
  h _ (OpSetFit n) p = (ROk tt, open p n) /\ ok (open p n) /\ view (open p n) = ztake n (view p).
Hypothesis L_open_fail : forall p n, ok p -> zlen (view p) < n <= isize_max ->
  (exists e, fst (h _ (OpSetFit n) p) = RErr e) \/ (m = Debug /\ fst (h _ (OpSetFit n) p) = RPanic).
Hypothesis L_close : forall p n, ok p -> 0 <= n <= zlen (view p) ->
  h _ OpEnforceTarget (moved (open p n) n) = (ROk tt, moved p n).

Lemma run_op {A} {X : Set} (o : pop X) (k : X -> prog A) p :
  run h (pbind (do_op o) k) p =
  (let '(r, p') := h X o p in
   match r with ROk x => run h (k x) p' | RErr e => (RErr e, p') | RPanic => (RPanic, p')
              | RUB => (RUB, p') | RDiv => (RDiv, p') end).
Proof.
  rewrite run_pbind. unfold do_op; cbn [run]. destruct (h X o p) as [[] ?]; reflexivity.
Qed.

Lemma run_arr {A} n (k : list byte -> prog A) p :
  ok p -> 0 <= n <= zlen (view p) ->
  run h (pbind (p_consume_arr n) k) p = run h (k (ztake n (view p))) (moved p n).
Proof.
  intros Hok Hn. rewrite run_pbind. unfold p_consume_arr, p_consume. rewrite run_op, L_consume by assumption.
  unfold coerce_slice. rewrite zlen_ztake by lia. rewrite Z.eqb_refl. reflexivity.
Qed.
Lemma run_arr_fail {A} n (k : list byte -> prog A) p :
  ok p -> zlen (view p) < n <= isize_max ->
  exists e, fst (run h (pbind (p_consume_arr n) k) p) = RErr e.
Proof.
  intros Hok Hn. rewrite run_pbind. unfold p_consume_arr, p_consume. rewrite run_op.
  destruct (L_consume_fail p n Hok Hn) as (e & p' & ->). eexists; reflexivity.
Qed.

Section KV.
Context {V : Type} (key : list byte) (N : Z) (f : list byte -> V).
Hypothesis HN : 0 <= N <= isize_max.
Hypothesis HK : zlen key <= isize_max.

Lemma kv_skip before : forall p rest,
  ok p -> kv_sized (zlen key) N before -> kv_unbound key before ->
  0 < zlen key + N ->
  view p = kv_bytes before ++ rest ->
  let q := moved p (zlen (kv_bytes before)) in
  ok q /\ view q = rest /\
  forall fuel, run h (p_kv_search (length before + fuel) key N f) p = run h (p_kv_search fuel key N f) q.
Proof.
  induction before as [|[k v] before IH]; intros p rest Hok Hs Hu Hpos Hv.
  - cbn [kv_bytes map concat zlen length] in *. rewrite L_moved_0 by exact Hok. cbn [app] in Hv. auto.
  - apply Forall_cons_iff in Hs as [[Hk Hvv] Hs]; cbn [fst snd] in *.
    assert (Hu' : kv_unbound key before /\ k <> key).
    { unfold kv_unbound in *; cbn [map In fst] in Hu. tauto. }
    destruct Hu' as [Hu' Hne].
    change (kv_bytes ((k, v) :: before)) with ((k ++ v) ++ kv_bytes before) in *.
    rewrite <- !app_assoc in Hv.
    pose proof (zlen_nonneg (kv_bytes before)) as Hb0. pose proof (zlen_nonneg rest) as Hr0.
    assert (HL : zlen (view p) = zlen key + N + zlen (kv_bytes before) + zlen rest).
    { rewrite Hv, !zlen_app. lia. }
    pose proof (zlen_nonneg key) as Hk0.
    destruct (L_moved p (zlen key) Hok) as [Hok1 Hv1]; [lia|].
    assert (Hv1' : view (moved p (zlen key)) = v ++ kv_bytes before ++ rest).
    { rewrite Hv1, Hv, <- Hk. apply zdrop_app. }
    destruct (L_moved (moved p (zlen key)) N Hok1) as [Hok2 Hv2]; [rewrite Hv1', !zlen_app; lia|].
    assert (Hv2' : view (moved (moved p (zlen key)) N) = kv_bytes before ++ rest).
    { rewrite Hv2, Hv1', <- Hvv. apply zdrop_app. }
    destruct (IH _ rest Hok2 Hs Hu' Hpos Hv2') as (Hq & Hvq & Hrun).
    rewrite !L_moved_moved in Hq, Hvq by lia.
    assert (Hsum : zlen ((k ++ v) ++ kv_bytes before) = zlen key + (N + zlen (kv_bytes before))).
    { rewrite !zlen_app. lia. }
    cbv zeta; rewrite Hsum.
    split; [exact Hq|]. split; [exact Hvq|].
    intros fuel. cbn [length Nat.add p_kv_search]. unfold p_remainder. rewrite run_op, L_rem by exact Hok.
    rewrite HL. bcase (0 <? zlen key + N + zlen (kv_bytes before) + zlen rest); [|lia].
    rewrite run_arr by (try exact Hok; lia).
    rewrite Hv, <- Hk at 1. rewrite ztake_app.
    destruct (bytes_eqb key k) eqn:Eb; [apply bytes_eqb_eq in Eb; congruence|].
    unfold p_skip_exactly. rewrite run_op, L_skip; [|exact Hok1|rewrite Hv1', !zlen_app; lia].
    rewrite Hrun. rewrite !L_moved_moved by lia. reflexivity.
Qed.

Lemma kv_found before v rest p :
  ok p -> kv_sized (zlen key) N before -> kv_unbound key before -> zlen v = N ->
  0 < zlen key + N ->
  view p = kv_bytes before ++ key ++ v ++ rest ->
  forall fuel, (length before < fuel)%nat ->
  run h (p_kv_search fuel key N f) p =
    (ROk (Some (f v)), moved p (zlen (kv_bytes before ++ key ++ v))) /\
  h _ (OpConsume (zlen (kv_bytes before ++ key ++ v))) p =
    (ROk (kv_bytes before ++ key ++ v), moved p (zlen (kv_bytes before ++ key ++ v))).
Proof.
  intros Hok Hs Hu Hvn Hpos Hv fuel Hf.
  pose proof (zlen_nonneg (kv_bytes before)) as Hb0. pose proof (zlen_nonneg rest) as Hr0.
  pose proof (zlen_nonneg key) as Hk0.
  split.
  - destruct (kv_skip before p _ Hok Hs Hu Hpos Hv) as (Hq & Hvq & Hrun).
    replace fuel with (length before + S (fuel - S (length before)))%nat by lia.
    rewrite Hrun. set (q := moved p (zlen (kv_bytes before))) in *.
    assert (HL : zlen (view q) = zlen key + N + zlen rest) by (rewrite Hvq, !zlen_app; lia).
    cbn [p_kv_search]. unfold p_remainder. rewrite run_op, L_rem by exact Hq. rewrite HL.
    bcase (0 <? zlen key + N + zlen rest); [|lia].
    rewrite run_arr by (try exact Hq; lia). rewrite Hvq at 1. rewrite ztake_app.
    rewrite (proj2 (bytes_eqb_eq key key) eq_refl).
    destruct (L_moved q (zlen key) Hq) as [Hok1 Hv1]; [lia|].
    rewrite Hvq, zdrop_app in Hv1.
    rewrite run_arr by (try exact Hok1; rewrite Hv1, !zlen_app; lia).
    rewrite Hv1, <- Hvn, ztake_app. cbn [run]. unfold q. rewrite !L_moved_moved by lia.
    do 2 f_equal. rewrite !zlen_app. lia.
  - rewrite L_consume; [|exact Hok|].
    + do 2 f_equal. rewrite Hv.
      replace (kv_bytes before ++ key ++ v ++ rest) with ((kv_bytes before ++ key ++ v) ++ rest)
        by (rewrite <- !app_assoc; reflexivity).
      apply ztake_app.
    + rewrite Hv, !zlen_app. lia.
Qed.

Lemma kv_absent entries p :
  ok p -> kv_sized (zlen key) N entries -> kv_unbound key entries -> 0 < zlen key + N ->
  view p = kv_bytes entries ->
  forall fuel, (length entries < fuel)%nat ->
  run h (p_kv_search fuel key N f) p = (ROk None, moved p (zlen (view p))) /\
  h _ (OpConsume (zlen (view p))) p = (ROk (view p), moved p (zlen (view p))).
Proof.
  intros Hok Hs Hu Hpos Hv fuel Hf.
  pose proof (zlen_nonneg (kv_bytes entries)) as Hb0.
  split.
  - destruct (kv_skip entries p [] Hok Hs Hu Hpos) as (Hq & Hvq & Hrun); [rewrite app_nil_r; exact Hv|].
    replace fuel with (length entries + S (fuel - S (length entries)))%nat by lia.
    rewrite Hrun. cbn [p_kv_search]. unfold p_remainder. rewrite run_op, L_rem by exact Hq.
    rewrite Hvq, Hv. reflexivity.
  - rewrite L_consume by (try exact Hok; rewrite Hv; lia). rewrite ztake_all. reflexivity.
Qed.

Lemma kv_malformed entries tail p :
  ok p -> kv_sized (zlen key) N entries -> kv_unbound key entries ->
  0 < zlen tail < zlen key + N ->
  view p = kv_bytes entries ++ tail ->
  exists e, forall fuel, (length entries < fuel)%nat ->
  fst (run h (p_kv_search fuel key N f) p) = RErr e.
Proof.
  intros Hok Hs Hu Ht Hv.
  destruct (kv_skip entries p tail Hok Hs Hu ltac:(lia) Hv) as (Hq & Hvq & Hrun).
  set (q := moved p (zlen (kv_bytes entries))) in *.
  pose proof (zlen_nonneg key) as Hk0.
  assert (H : exists e, forall fuel, fst (run h (p_kv_search (S fuel) key N f) q) = RErr e).
  { destruct (Z_lt_dec (zlen tail) (zlen key)) as [Hlt|Hge].
    - destruct (L_consume_fail q (zlen key) Hq) as (e & q' & E); [rewrite Hvq; lia|].
      exists e. intros fuel. cbn [p_kv_search]. unfold p_remainder. rewrite run_op, L_rem by exact Hq.
      rewrite Hvq. bcase (0 <? zlen tail); [|lia].
      rewrite run_pbind. unfold p_consume_arr, p_consume. rewrite run_op, E. reflexivity.
    - destruct (L_moved q (zlen key) Hq) as [Hok1 Hv1]; [rewrite Hvq; lia|].
      assert (HL1 : zlen (view (moved q (zlen key))) < N <= isize_max).
      { rewrite Hv1, Hvq, zlen_zdrop; lia. }
      destruct (bytes_eqb key (ztake (zlen key) (view q))) eqn:Eb.
      + destruct (L_consume_fail _ N Hok1 HL1) as (e & q' & E).
        exists e. intros fuel. cbn [p_kv_search]. unfold p_remainder. rewrite run_op, L_rem by exact Hq.
        rewrite Hvq at 1. bcase (0 <? zlen tail); [|lia].
        rewrite run_arr by (try exact Hq; rewrite Hvq; lia). rewrite Eb.
        rewrite run_pbind. unfold p_consume_arr, p_consume. rewrite run_op, E. reflexivity.
      + destruct (L_skip_fail _ N Hok1 HL1) as (e & q' & E).
        exists e. intros fuel. cbn [p_kv_search]. unfold p_remainder. rewrite run_op, L_rem by exact Hq.
        rewrite Hvq at 1. bcase (0 <? zlen tail); [|lia].
        rewrite run_arr by (try exact Hq; rewrite Hvq; lia). rewrite Eb.
        unfold p_skip_exactly. rewrite run_op, E. reflexivity. }
  destruct H as [e H]. exists e. intros fuel Hf.
  replace fuel with (length entries + S (fuel - S (length entries)))%nat by lia.
  rewrite Hrun. apply H.
Qed.
End KV.

Section Prefix.
Variable cf : config.

Lemma run_prefix {A} s bs rest (k : Z -> prog A) p :
  ok p -> zlen bs = pref_len s -> view p = bs ++ rest ->
  run h (pbind (p_parse_as_usize cf s) k) p =
  match marshall_usize cf s bs with
  | ROk n => run h (k n) (moved p (pref_len s))
  | RErr e => (RErr e, moved p (pref_len s)) | RPanic => (RPanic, moved p (pref_len s))
  | RUB => (RUB, moved p (pref_len s)) | RDiv => (RDiv, moved p (pref_len s))
  end.
Proof.
  intros Hok Hl Hv. pose proof (zlen_nonneg rest). pose proof (zlen_nonneg bs).
  rewrite run_pbind. unfold p_parse_as_usize, p_consume. rewrite run_op, L_consume; [|exact Hok|].
  - rewrite Hv, <- Hl, ztake_app. destruct (marshall_usize cf s bs); reflexivity.
  - rewrite Hv, zlen_app. lia.
Qed.

Lemma prefix_opens s n payload rest p :
  ok p -> 0 <= n <= pref_max s -> zlen payload = n ->
  marshall_usize cf s (pref_format s n) = ROk n -> zlen (pref_format s n) = pref_len s ->
  view p = pref_format s n ++ payload ++ rest ->
  exists p1 p2,
    h _ (OpConsume (pref_len s)) p = (ROk (pref_format s n), p1) /\
    h _ (OpSetFit n) p1 = (ROk tt, p2) /\ view p2 = payload /\
    run h (p_process_prefix cf s) p = (ROk n, p2).
Proof.
  intros Hok Hn Hp Hm Hl Hv. pose proof (zlen_nonneg rest).
  assert (H0 : 0 <= pref_len s) by (rewrite <- Hl; apply zlen_nonneg).
  destruct (L_moved p (pref_len s) Hok) as [Hok1 Hv1].
  { rewrite Hv, !zlen_app, Hl. lia. }
  rewrite Hv, <- Hl, zdrop_app, Hl in Hv1.
  destruct (L_open (moved p (pref_len s)) n Hok1) as (Ho & Hok2 & Hv2).
  { rewrite Hv1, zlen_app. lia. }
  exists (moved p (pref_len s)), (open (moved p (pref_len s)) n).
  split; [|split; [|split]].
  - rewrite L_consume; [|exact Hok|].
    + rewrite Hv, <- Hl, ztake_app. reflexivity.
    + rewrite Hv, !zlen_app, Hl. lia.
  - exact Ho.
  - rewrite Hv2, Hv1, <- Hp. apply ztake_app.
  - unfold p_process_prefix. rewrite (run_prefix s (pref_format s n) (payload ++ rest)) by assumption.
    rewrite Hm. unfold p_set_fit. rewrite run_op, Ho. reflexivity.
Qed.

Lemma skip_dynamic_past s n payload rest p :
  ok p -> 0 <= n <= pref_max s -> zlen payload = n ->
  marshall_usize cf s (pref_format s n) = ROk n -> zlen (pref_format s n) = pref_len s ->
  view p = pref_format s n ++ payload ++ rest ->
  run h (p_skip_dynamic cf s) p = (ROk n, moved p (pref_len s + n)) /\
  h _ (OpConsume (pref_len s + n)) p =
    (ROk (pref_format s n ++ payload), moved p (pref_len s + n)).
Proof.
  intros Hok Hn Hp Hm Hl Hv. pose proof (zlen_nonneg rest).
  assert (H0 : 0 <= pref_len s) by (rewrite <- Hl; apply zlen_nonneg).
  destruct (L_moved p (pref_len s) Hok) as [Hok1 Hv1].
  { rewrite Hv, !zlen_app, Hl. lia. }
  rewrite Hv, <- Hl, zdrop_app, Hl in Hv1.
  assert (Hr : 0 <= n <= zlen (view (moved p (pref_len s)))) by (rewrite Hv1, zlen_app; lia).
  destruct (L_open (moved p (pref_len s)) n Hok1 Hr) as (Ho & Hok2 & Hv2).
  split.
  - unfold p_skip_dynamic. rewrite run_pbind.
    unfold p_process_prefix. rewrite (run_prefix s (pref_format s n) (payload ++ rest)) by assumption.
    rewrite Hm. unfold p_set_fit. rewrite run_op, Ho. cbn [run].
    unfold p_skip_exactly. rewrite run_op, L_skip; [|exact Hok2|].
    + unfold p_enforce_target. rewrite run_op, L_close by assumption. cbn [run].
      rewrite L_moved_moved by lia. reflexivity.
    + rewrite Hv2, zlen_ztake by lia. lia.
  - rewrite L_consume; [|exact Hok|].
    + f_equal. f_equal. rewrite Hv, app_assoc, <- Hl, <- Hp, <- zlen_app. apply ztake_app.
    + rewrite Hv, !zlen_app, Hl. lia.
Qed.

Lemma skip_dynamic_short s n short p :
  ok p -> n <= pref_max s -> zlen short < n ->
  marshall_usize cf s (pref_format s n) = ROk n -> zlen (pref_format s n) = pref_len s ->
  view p = pref_format s n ++ short ->
  (exists e, fst (run h (p_skip_dynamic cf s) p) = RErr e) \/
  (m = Debug /\ fst (run h (p_skip_dynamic cf s) p) = RPanic).
Proof.
  intros Hok Hn Hp Hm Hl Hv.
  assert (H0 : 0 <= pref_len s) by (rewrite <- Hl; apply zlen_nonneg).
  destruct (L_moved p (pref_len s) Hok) as [Hok1 Hv1].
  { rewrite Hv, !zlen_app, Hl. pose proof (zlen_nonneg short). lia. }
  rewrite Hv, <- Hl, zdrop_app, Hl in Hv1.
  assert (Hr : zlen (view (moved p (pref_len s))) < n <= isize_max).
  { rewrite Hv1. split; [exact Hp|]. assert (pref_max s <= isize_max) by (destruct s; discriminate). lia. }
  assert (E : forall r, fst (h _ (OpSetFit n) (moved p (pref_len s))) = r ->
              match r with ROk _ => True | RErr e => fst (run h (p_skip_dynamic cf s) p) = RErr e
                         | RPanic => fst (run h (p_skip_dynamic cf s) p) = RPanic | _ => True end).
  { intros r Er. unfold p_skip_dynamic. rewrite run_pbind.
    unfold p_process_prefix. rewrite (run_prefix s (pref_format s n) short) by assumption.
    rewrite Hm. unfold p_set_fit. rewrite run_op.
    destruct (h unit (OpSetFit n) (moved p (pref_len s))) as [r0 p0]; cbn [fst] in Er; subst r0.
    destruct r; auto. }
  destruct (L_open_fail _ _ Hok1 Hr) as [[e He]|[Hd He]]; [left; exists e|right; split; [exact Hd|]];
    exact (E _ He).
Qed.

Lemma skip_dynamic_cut s p :
  ok p -> zlen (view p) < pref_len s -> exists e, fst (run h (p_skip_dynamic cf s) p) = RErr e.
Proof.
  intros Hok Hl. destruct (L_consume_fail p (pref_len s) Hok) as (e & p' & E).
  { split; [exact Hl|]. destruct s; discriminate. }
  exists e. unfold p_skip_dynamic, p_process_prefix, p_parse_as_usize, p_consume.
  rewrite !run_pbind. unfold do_op; cbn [run]. rewrite E. reflexivity.
Qed.

Lemma prefix_panics bs rest p :
  ok p -> zlen bs = 4 -> view p = bs ++ rest ->
  marshall_usize cf PrefU30 bs = RPanic ->
  fst (run h (p_process_prefix cf PrefU30) p) = RPanic /\
  fst (run h (p_skip_dynamic cf PrefU30) p) = RPanic.
Proof.
  intros Hok Hl Hv Hm. unfold p_skip_dynamic. rewrite run_pbind. unfold p_process_prefix.
  rewrite (run_prefix PrefU30 bs rest) by assumption. rewrite Hm. split; reflexivity.
Qed.
End Prefix.

Lemma machine_search (same : P -> P -> Prop) V key N (f : list byte -> V) p :
  (forall q, same q q) ->
  ok p -> zlen key <= isize_max -> 0 <= N <= isize_max -> 0 < zlen key + N ->
  search_spec h same p (view p) key N f.
Proof.
  intros Hsame Hok HK HN Hpos. split; [|split].
  - intros before v rest E Hs Hn Hu.
    pose proof (kv_found key N f HN before v rest p Hok Hs Hu Hn Hpos E) as H.
    eexists; eexists. split; [apply (H (S (length before))); lia|].
    exists (S (length before)). intros fuel Hf. eexists. split; [apply (H fuel); lia|apply Hsame].
  - intros entries E Hs Hu.
    pose proof (kv_absent key N f HN entries p Hok Hs Hu Hpos E) as H.
    eexists. split; [apply (H (S (length entries))); lia|].
    exists (S (length entries)). intros fuel Hf. eexists. split; [apply (H fuel); lia|apply Hsame].
  - intros entries tail E Hs Hu Ht.
    destruct (kv_malformed key N f HN HK entries tail p Hok Hs Hu Ht E) as [e H].
    exists e, (S (length entries)). intros fuel Hf. apply H; lia.
Qed.

Lemma machine_prefix (same : P -> P -> Prop) cf s p :
  (forall q, same q q) -> ok p -> prefix_spec m h same cf p (view p) s.
Proof.
  intros Hsame Hok. split; [|split].
  - intros payload rest E Hmax. pose proof (zlen_nonneg payload).
    pose proof (marshall_format cf s (zlen payload) ltac:(lia)) as Hm.
    pose proof (pref_format_len s (zlen payload)) as Hl. split.
    + destruct (prefix_opens cf s (zlen payload) payload rest p Hok ltac:(lia) eq_refl Hm Hl E)
        as (p1 & p2 & E1 & E2 & _ & E4).
      exists p1, p2, p2. split; [exact E1|]. split; [exact E2|]. split; [exact E4|apply Hsame].
    + destruct (skip_dynamic_past cf s (zlen payload) payload rest p Hok ltac:(lia) eq_refl Hm Hl E)
        as (E1 & E2).
      eexists; eexists. split; [exact E2|]. split; [exact E1|apply Hsame].
  - intros n short E Hn. pose proof (zlen_nonneg short).
    apply (skip_dynamic_short cf s n short p Hok); try lia; try exact E.
    + apply marshall_format; lia.
    + apply pref_format_len.
  - intros Hl. apply skip_dynamic_cut; assumption.
Qed.

Lemma machine_bad_prefix cf bs rest p :
  ok p -> view p = bs ++ rest -> bytes_ok bs -> zlen bs = 4 ->
  (forall n, 0 <= n <= u30_max -> bs <> pref_format PrefU30 n) ->
  fst (run h (p_process_prefix cf PrefU30) p) = RPanic /\
  fst (run h (p_skip_dynamic cf PrefU30) p) = RPanic.
Proof.
  intros Hok Hv Hb Hl Hne. eapply prefix_panics; try eassumption. apply marshall_u30_panics; assumption.
Qed.
End Machine.

(** ** ByteParser *)
Definition bp_view (p : byte_parser) : list byte := zslice (bp_offset p) (bp_view_len p) (bp_buf p).
Definition bp_open (p : byte_parser) (n : Z) : byte_parser :=
  mkBP (bp_buf p) (mkCO (co_abs (bp_off p)) (bp_offset p + n :: co_frames (bp_off p)) (co_cur (bp_off p))).

Lemma bp_bounds p : bp_inv p ->
  0 <= bp_offset p <= bp_view_len p /\ bp_view_len p <= zlen (bp_buf p) <= isize_max.
Proof. intros H. apply co_inv_limit in H. unfold bp_offset, bp_view_len, co_index. lia. Qed.
Lemma bp_view_zlen p : bp_inv p -> zlen (bp_view p) = bp_view_len p - bp_offset p.
Proof. intros H; apply bp_bounds in H. apply zlen_zslice; lia. Qed.

Lemma fits_small m n : 0 <= n <= isize_max -> size_fits m n.
Proof. pose proof isize_max_lt. destruct m; unfold size_fits, is_usize; lia. Qed.

Section ByteLaws.
Variable m : mode.
Lemma bl_rem p : bp_inv p -> byte_h m Z OpRemainder p = (ROk (zlen (bp_view p)), p).
Proof. intros H. rewrite bp_view_zlen by exact H. apply bp_remainder_ok; exact H. Qed.
Lemma bl_consume p n : bp_inv p -> 0 <= n <= zlen (bp_view p) ->
  byte_h m _ (OpConsume n) p = (ROk (ztake n (bp_view p)), bp_moved p n).
Proof.
  intros H Hn. pose proof (bp_bounds p H). rewrite bp_view_zlen in Hn by exact H.
  cbn [byte_h]. rewrite bp_consume_ok; [|exact H|apply fits_small; lia|lia].
  unfold bp_view. rewrite ztake_zslice by lia. reflexivity.
Qed.
Lemma bl_skip_eq p n : bp_inv p -> size_fits m n -> exists r p',
  byte_h m _ (OpConsume n) p = (r, p') /\ byte_h m unit (OpSkipExactly n) p = (rmap (fun _ => tt) r, p').
Proof.
  intros Hi Hn. cbn [byte_h]. unfold bp_consume, bp_skip_exactly.
  pose proof (co_inv_limit _ _ Hi) as HL. pose proof (size_fits_nonneg _ _ Hn).
  destruct (@co_advance_spec parse_error m n _ _ Hi Hn) as [[Hle E]|[[? E]|(? & ? & E)]]; rewrite E.
  - rewrite vb_get_slice_unchecked_ok by lia. eexists; eexists; split; reflexivity.
  - eexists; eexists; split; reflexivity.
  - exists RPanic, p; split; reflexivity.
Qed.
Lemma bl_skip p n : bp_inv p -> 0 <= n <= zlen (bp_view p) ->
  byte_h m _ (OpSkipExactly n) p = (ROk tt, bp_moved p n).
Proof.
  intros H Hn. pose proof (bp_bounds p H). pose proof (bp_view_zlen p H).
  destruct (bl_skip_eq p n H) as (r & p' & E1 & E2); [apply fits_small; lia|].
  rewrite bl_consume in E1 by assumption. injection E1 as <- <-. exact E2.
Qed.
Lemma bl_consume_fail p n : bp_inv p -> zlen (bp_view p) < n <= isize_max ->
  exists e p', byte_h m _ (OpConsume n) p = (RErr e, p').
Proof.
  intros H Hn. pose proof (bp_bounds p H). rewrite bp_view_zlen in Hn by exact H.
  cbn [byte_h]. destruct (bp_consume_fail m p n H) as [E|(_ & ? & _)]; [apply fits_small; lia|lia| |lia].
  rewrite E. eexists; eexists; reflexivity.
Qed.
Lemma bl_skip_fail p n : bp_inv p -> zlen (bp_view p) < n <= isize_max ->
  exists e p', byte_h m _ (OpSkipExactly n) p = (RErr e, p').
Proof.
  intros H Hn. pose proof (bp_bounds p H). pose proof (bp_view_zlen p H).
  destruct (bl_skip_eq p n H) as (r & p' & E1 & E2); [apply fits_small; lia|].
  destruct (bl_consume_fail p n H Hn) as (e & p'' & E). rewrite E in E1; injection E1 as <- <-.
  rewrite E2. eexists; eexists; reflexivity.
Qed.
Lemma bl_moved p n : bp_inv p -> 0 <= n <= zlen (bp_view p) ->
  bp_inv (bp_moved p n) /\ bp_view (bp_moved p n) = zdrop n (bp_view p).
Proof.
  intros H Hn. pose proof (bp_bounds p H). rewrite bp_view_zlen in Hn by exact H.
  split; [apply bp_moved_inv; assumption|]. unfold bp_view. rewrite zdrop_zslice by lia.
  reflexivity.
Qed.
Lemma bl_moved_moved p a b : bp_moved (bp_moved p a) b = bp_moved p (a + b).
Proof. unfold bp_moved; cbn [bp_buf bp_off co_abs co_frames co_cur]. rewrite Z.add_assoc. reflexivity. Qed.
Lemma bl_moved_0 p : bp_moved p 0 = p.
Proof. destruct p as [b [a f c]]; unfold bp_moved; cbn. rewrite Z.add_0_r. reflexivity. Qed.
Lemma bl_open p n : bp_inv p -> 0 <= n <= zlen (bp_view p) ->
  byte_h m _ (OpSetFit n) p = (ROk tt, bp_open p n) /\ bp_inv (bp_open p n) /\
  bp_view (bp_open p n) = ztake n (bp_view p).
Proof.
  intros H Hn. pose proof (bp_bounds p H). rewrite bp_view_zlen in Hn by exact H.
  split; [cbn [byte_h]; apply bp_set_fit_ok; assumption|].
  destruct (co_push (bp_buf p) (bp_off p) n H) as [Hp _].
  { unfold bp_view_len, bp_offset, co_index in Hn. exact Hn. }
  split; [exact Hp|]. unfold bp_view. rewrite ztake_zslice by lia. reflexivity.
Qed.
Lemma bl_open_fail p n : bp_inv p -> zlen (bp_view p) < n <= isize_max ->
  (exists e, fst (byte_h m _ (OpSetFit n) p) = RErr e) \/
  (m = Debug /\ fst (byte_h m _ (OpSetFit n) p) = RPanic).
Proof.
  intros H Hn. pose proof (bp_bounds p H). rewrite bp_view_zlen in Hn by exact H. cbn [byte_h].
  destruct (bp_set_fit_fail m p n H) as [[e E]|E]; [apply fits_small; lia|lia| |right; exact E].
  rewrite E. left; exists e; reflexivity.
Qed.
Lemma bl_close p n : bp_inv p -> 0 <= n <= zlen (bp_view p) ->
  byte_h m _ OpEnforceTarget (bp_moved (bp_open p n) n) = (ROk tt, bp_moved p n).
Proof.
  intros _ _. cbn [byte_h]. unfold bp_enforce_target, co_enforce_target, co_index, bp_moved, bp_open.
  cbn [bp_off bp_buf co_abs co_frames co_cur]. unfold bp_offset, co_index. rewrite Z.compare_refl. reflexivity.
Qed.
Lemma bl_small p : bp_inv p -> zlen (bp_view p) <= isize_max.
Proof. intros H. rewrite bp_view_zlen by exact H. apply bp_bounds in H. lia. Qed.
End ByteLaws.

(** ** SliceParser *)
Definition sp_ok (p : slice_parser) : Prop := p <> [].
Definition sp_view (p : slice_parser) : list byte := hd [] p.
Definition sp_moved (p : slice_parser) (n : Z) : slice_parser := zdrop n (hd [] p) :: tl p.
Definition sp_open (p : slice_parser) (n : Z) : slice_parser :=
  ztake n (hd [] p) :: zdrop n (hd [] p) :: tl p.

Ltac sp_start p := destruct p as [|s p]; [intros H; contradiction (H eq_refl)|intros _]; cbn [sp_view hd tl].
Lemma sl_rem p : sp_ok p -> slice_h Z OpRemainder p = (ROk (zlen (sp_view p)), p).
Proof. sp_start p. reflexivity. Qed.
Lemma sl_consume p n : sp_ok p -> 0 <= n <= zlen (sp_view p) ->
  slice_h _ (OpConsume n) p = (ROk (ztake n (sp_view p)), sp_moved p n).
Proof. sp_start p. intros Hn. apply sp_consume_exact; lia. Qed.
Lemma sl_consume_fail p n : sp_ok p -> zlen (sp_view p) < n <= isize_max ->
  exists e p', slice_h _ (OpConsume n) p = (RErr e, p').
Proof.
  sp_start p. intros Hn. pose proof (zlen_nonneg s).
  destruct (sp_consume_exact s p n) as (_ & _ & E & _); [lia|].
  destruct E as [e E]; [lia|]. exists e, (s :: p). exact E.
Qed.
Lemma sl_skip p n : sp_ok p -> 0 <= n <= zlen (sp_view p) ->
  slice_h _ (OpSkipExactly n) p = (ROk tt, sp_moved p n).
Proof.
  intros H Hn. destruct (sp_skip_is_consume p n H) as [_ (r & p' & E1 & E2)]; [lia|].
  rewrite sl_consume in E1 by assumption. injection E1 as <- <-. exact E2.
Qed.
Lemma sl_skip_fail p n : sp_ok p -> zlen (sp_view p) < n <= isize_max ->
  exists e p', slice_h _ (OpSkipExactly n) p = (RErr e, p').
Proof.
  intros H Hn. destruct (sp_skip_is_consume p n H) as [_ (r & p' & E1 & E2)].
  { pose proof (zlen_nonneg (sp_view p)). lia. }
  destruct (sl_consume_fail p n H Hn) as (e & p'' & E). rewrite E in E1; injection E1 as <- <-.
  rewrite E2. eexists; eexists; reflexivity.
Qed.
Lemma sl_moved p n : sp_ok p -> 0 <= n <= zlen (sp_view p) ->
  sp_ok (sp_moved p n) /\ sp_view (sp_moved p n) = zdrop n (sp_view p).
Proof. intros _ _. split; [discriminate|reflexivity]. Qed.
Lemma sl_moved_moved p a b : 0 <= a -> 0 <= b -> sp_moved (sp_moved p a) b = sp_moved p (a + b).
Proof. intros. unfold sp_moved; cbn [hd tl]. rewrite zdrop_zdrop by lia. f_equal. f_equal. lia. Qed.
Lemma sl_moved_0 p : sp_ok p -> sp_moved p 0 = p.
Proof. sp_start p. unfold sp_moved; cbn [hd tl]. rewrite zdrop_0. reflexivity. Qed.
Lemma sl_open p n : sp_ok p -> 0 <= n <= zlen (sp_view p) ->
  slice_h _ (OpSetFit n) p = (ROk tt, sp_open p n) /\ sp_ok (sp_open p n) /\
  sp_view (sp_open p n) = ztake n (sp_view p).
Proof.
  sp_start p. intros Hn. split; [|split; [discriminate|reflexivity]].
  cbn [slice_h sp_set_fit]. bcase (n <=? zlen s); [|lia]. rewrite slb_split_ok by lia. reflexivity.
Qed.
Lemma sl_open_fail m p n : sp_ok p -> zlen (sp_view p) < n <= isize_max ->
  (exists e, fst (slice_h _ (OpSetFit n) p) = RErr e) \/
  (m = Debug /\ fst (slice_h _ (OpSetFit n) p) = RPanic).
Proof.
  sp_start p. intros Hn. left. cbn [slice_h sp_set_fit]. bcase (n <=? zlen s); [lia|]. eexists; reflexivity.
Qed.
Lemma sl_close p n : sp_ok p -> 0 <= n <= zlen (sp_view p) ->
  slice_h _ OpEnforceTarget (sp_moved (sp_open p n) n) = (ROk tt, sp_moved p n).
Proof.
  sp_start p. intros Hn. unfold sp_moved, sp_open; cbn [hd tl slice_h sp_enforce_target].
  assert (E : zdrop n (ztake n s) = []).
  { apply zlen_0_nil. rewrite zlen_zdrop; rewrite ?zlen_ztake; lia. }
  rewrite E. reflexivity.
Qed.

(** ** The three parsers *)
Lemma byte_view m buf p :
  zlen buf <= isize_max -> reaches m (byte_h m) (bp_from_buffer buf) p ->
  bp_inv p /\ bp_view p = zslice (bp_offset p) (bp_view_len p) buf.
Proof.
  intros Hb Hr. destruct (bp_reaches_inv _ _ _ Hb Hr) as [Hi Hbuf]. split; [exact Hi|].
  unfold bp_view. rewrite Hbuf. reflexivity.
Qed.

Lemma byte_search m buf p V key N (f : list byte -> V) :
  zlen buf <= isize_max -> reaches m (byte_h m) (bp_from_buffer buf) p ->
  zlen key <= isize_max -> 0 <= N <= isize_max -> 0 < zlen key + N ->
  search_spec (byte_h m) eq p (zslice (bp_offset p) (bp_view_len p) buf) key N f.
Proof.
  intros Hb Hr. destruct (byte_view m buf p Hb Hr) as [Hi <-].
  apply (machine_search (byte_h m) bp_inv bp_view bp_moved); try exact Hi; try reflexivity.
  - apply bl_rem.
  - apply bl_consume.
  - apply bl_skip.
  - apply bl_consume_fail.
  - apply bl_skip_fail.
  - apply bl_moved.
  - intros; apply bl_moved_moved.
  - intros; apply bl_moved_0.
Qed.

Lemma byte_prefix buf p cf s :
  zlen buf <= isize_max -> reaches (cf_mode cf) (byte_h (cf_mode cf)) (bp_from_buffer buf) p ->
  prefix_spec (cf_mode cf) (byte_h (cf_mode cf)) eq cf p (zslice (bp_offset p) (bp_view_len p) buf) s.
Proof.
  intros Hb Hr. destruct (byte_view _ buf p Hb Hr) as [Hi <-].
  apply (machine_prefix (cf_mode cf) (byte_h (cf_mode cf)) bp_inv bp_view bp_moved bp_open);
    try exact Hi; try reflexivity.
  - apply bl_consume.
  - apply bl_skip.
  - apply bl_consume_fail.
  - apply bl_moved.
  - intros; apply bl_moved_moved.
  - apply bl_open.
  - apply bl_open_fail.
  - apply bl_close.
Qed.

Lemma byte_bad_prefix m buf p cf bs rest :
  zlen buf <= isize_max -> reaches m (byte_h m) (bp_from_buffer buf) p ->
  zslice (bp_offset p) (bp_view_len p) buf = bs ++ rest -> bytes_ok bs -> zlen bs = 4 ->
  (forall n, 0 <= n <= u30_max -> bs <> pref_format PrefU30 n) ->
  fst (run (byte_h m) (p_process_prefix cf PrefU30) p) = RPanic /\
  fst (run (byte_h m) (p_skip_dynamic cf PrefU30) p) = RPanic.
Proof.
  intros Hb Hr. destruct (byte_view m buf p Hb Hr) as [Hi <-].
  apply (machine_bad_prefix (byte_h m) bp_inv bp_view bp_moved); try exact Hi.
  apply bl_consume.
Qed.

Lemma slice_search s rest V key N (f : list byte -> V) :
  zlen key <= isize_max -> 0 <= N <= isize_max -> 0 < zlen key + N ->
  search_spec slice_h eq (s :: rest) s key N f.
Proof.
  apply (machine_search slice_h sp_ok sp_view sp_moved); try reflexivity; try discriminate.
  - apply sl_rem.
  - apply sl_consume.
  - apply sl_skip.
  - apply sl_consume_fail.
  - apply sl_skip_fail.
  - apply sl_moved.
  - apply sl_moved_moved.
  - apply sl_moved_0.
Qed.

Lemma slice_prefix w rest cf s : prefix_spec (cf_mode cf) slice_h eq cf (w :: rest) w s.
Proof.
  apply (machine_prefix (cf_mode cf) slice_h sp_ok sp_view sp_moved sp_open);
    try reflexivity; try discriminate.
  - apply sl_consume.
  - apply sl_skip.
  - apply sl_consume_fail.
  - apply sl_moved.
  - apply sl_moved_moved.
  - apply sl_open.
  - apply sl_open_fail.
  - apply sl_close.
Qed.

(** MemoParser, through the ByteParser it contains. *)
Lemma fits_bind m {A B} (pg : prog A) (k : A -> prog B) :
  prog_fits m pg -> (forall a, prog_fits m (k a)) -> prog_fits m (pbind pg k).
Proof.
  induction pg as [a|e| | | |X o kk IH|X o kk IHk f IHf]; cbn [pbind prog_fits]; intros Hp Hk; auto.
  - destruct Hp; split; auto.
  - destruct Hp as (? & ? & ?); split; [|split]; auto.
Qed.
Lemma fits_op m {X : Set} (o : pop X) : arg_fits m (AnyOp o) -> prog_fits m (do_op o).
Proof. intros H. split; [exact H|]. intros; exact I. Qed.
Lemma arg_size m n : 0 <= n <= isize_max ->
  arg_fits m (AnyOp (OpConsume n)) /\ arg_fits m (AnyOp (OpSetFit n)) /\ arg_fits m (AnyOp (OpSkipExactly n)).
Proof. pose proof isize_max_lt. intros. destruct m; cbn [arg_fits arg_ok arg_small]; unfold is_usize; lia. Qed.
Lemma arr_fits m n : 0 <= n <= isize_max -> prog_fits m (p_consume_arr n).
Proof.
  intros H. apply fits_bind; [apply fits_op, arg_size; exact H|]. intros bs. destruct (coerce_slice n bs); exact I.
Qed.

Lemma kv_fits m V fuel key N (f : list byte -> V) :
  zlen key <= isize_max -> 0 <= N <= isize_max -> prog_fits m (p_kv_search fuel key N f).
Proof.
  intros HK HN. pose proof (zlen_nonneg key).
  induction fuel as [|fuel IH]; cbn [p_kv_search]; [exact I|].
  apply fits_bind; [apply fits_op; destruct m; exact I|]. intros rem.
  destruct (0 <? rem); [|exact I].
  apply fits_bind; [apply arr_fits; lia|]. intros k'.
  destruct (bytes_eqb key k').
  - apply fits_bind; [apply arr_fits; lia|]. intros; exact I.
  - apply fits_bind; [apply fits_op, arg_size; exact HN|]. intros; exact IH.
Qed.

(** As [fits_bind], knowing what the first program can return. *)
Lemma prefix_fits m cf s {A} (k : Z -> prog A) :
  (forall n, 0 <= n <= isize_max -> prog_fits m (k n)) ->
  prog_fits m (pbind (p_parse_as_usize cf s) k).
Proof.
  intros Hk. split; [apply arg_size; destruct s; split; discriminate|].
  intros bs. cbn [pbind]. destruct (marshall_usize cf s bs) as [n|e| | |] eqn:E; cbn [plift pbind prog_fits]; auto.
  apply Hk. apply marshall_bound in E. assert (pref_max s <= isize_max) by (destruct s; discriminate). lia.
Qed.

Lemma pbind_assoc {A B C} (a : prog A) (f : A -> prog B) (g : B -> prog C) m :
  prog_fits m (pbind a (fun x => pbind (f x) g)) -> prog_fits m (pbind (pbind a f) g).
Proof.
  induction a as [x|e| | | |X o k IH|X o k IHk t IHt]; cbn [pbind prog_fits]; intros H; auto.
  - destruct H; split; auto.
  - destruct H as (? & ? & ?); split; [|split]; auto.
Qed.

Lemma process_fits m cf s : prog_fits m (p_process_prefix cf s).
Proof.
  unfold p_process_prefix. apply prefix_fits. intros n Hn.
  apply fits_bind; [apply fits_op, arg_size; exact Hn|]. intros; exact I.
Qed.
Lemma skip_dynamic_fits m cf s : prog_fits m (p_skip_dynamic cf s).
Proof.
  unfold p_skip_dynamic, p_process_prefix. apply pbind_assoc, prefix_fits. intros n Hn.
  apply pbind_assoc. apply fits_bind; [apply fits_op, arg_size; exact Hn|]. intros []. cbn [pbind].
  apply fits_bind; [apply fits_op, arg_size; exact Hn|]. intros [].
  apply fits_bind; [apply fits_op; destruct m; exact I|]. intros; exact I.
Qed.


Lemma memo_lift m {A} (pg : prog A) p r q :
  mp_inv p -> prog_fits m pg -> run (byte_h m) pg (mp_bp p) = (r, q) ->
  exists p', run (memo_h m) pg p = (r, p') /\ mp_bp p' = q.
Proof.
  intros Hi Hf E. destruct (run (memo_h m) pg p) as [r' p'] eqn:Em.
  destruct (mp_run m pg p Hi Hf _ _ Em) as [Hb _]. rewrite E in Hb. injection Hb as -> ->. eauto.
Qed.
Lemma memo_lift_op m {X : Set} (o : pop X) p r q :
  mp_inv p -> arg_fits m (AnyOp o) -> byte_h m X o (mp_bp p) = (r, q) ->
  exists p', memo_h m X o p = (r, p') /\ mp_bp p' = q /\ (r <> RPanic -> mp_inv p').
Proof.
  intros Hi Hf E. destruct (memo_h m X o p) as [r' p'] eqn:Em.
  destruct (mp_step m o p Hi Hf _ _ Em) as [Hb Hi']. rewrite E in Hb. injection Hb as -> ->.
  exists p'. split; [reflexivity|]. split; [reflexivity|exact Hi'].
Qed.
Lemma memo_same_bp p q : mp_bp p = mp_bp q -> memo_same p q.
Proof. destruct p, q; unfold mp_bp, memo_same; cbn. intros H; injection H; auto. Qed.

Lemma memo_search m buf p V key N (f : list byte -> V) :
  zlen buf <= isize_max -> reaches m (memo_h m) (mp_from_buffer buf) p ->
  zlen key <= isize_max -> 0 <= N <= isize_max -> 0 < zlen key + N ->
  search_spec (memo_h m) memo_same p (zslice (mp_offset p) (mp_view_len p) buf) key N f.
Proof.
  intros Hb Hr HK HN Hpos. destruct (reaches_memo m buf p Hb Hr) as (Hi & _ & Hrb).
  destruct (byte_search m buf (mp_bp p) V key N f Hb Hrb HK HN Hpos) as (H1 & H2 & H3).
  change (bp_offset (mp_bp p)) with (mp_offset p) in *. change (bp_view_len (mp_bp p)) with (mp_view_len p) in *.
  pose proof (fun fuel => kv_fits m V fuel key N f HK HN) as Hfit.
  destruct (bp_reaches_inv _ _ _ Hb Hrb) as [Hbi Hbuf]. pose proof (bp_bounds _ Hbi) as Hbd.
  change (bp_offset (mp_bp p)) with (mp_offset p) in *. change (bp_view_len (mp_bp p)) with (mp_view_len p) in *.
  rewrite Hbuf in Hbd.
  pose proof (zlen_zslice (mp_offset p) (mp_view_len p) buf (proj1 Hbd) (proj1 (proj2 Hbd))) as HL.
  split; [|split].
  - intros before v rest E Hs Hn Hu.
    destruct (H1 before v rest E Hs Hn Hu) as (bs & q & Ec & f0 & Hf).
    assert (Hsz : 0 <= zlen (kv_bytes before ++ key ++ v) <= isize_max).
    { pose proof (zlen_nonneg (kv_bytes before)). pose proof (zlen_nonneg key). pose proof (zlen_nonneg rest).
      rewrite E in HL. rewrite !zlen_app in *. lia. }
    destruct (memo_lift_op m _ p _ _ Hi (proj1 (arg_size m _ Hsz)) Ec) as (q' & Eq & Hq & _).
    exists bs, q'. split; [exact Eq|]. exists f0. intros fuel Hle.
    destruct (Hf fuel Hle) as (p' & Er & ->).
    destruct (memo_lift m _ p _ _ Hi (Hfit fuel) Er) as (p'' & Er' & Hp).
    exists p''. split; [exact Er'|]. apply memo_same_bp. congruence.
  - intros entries E Hs Hu.
    destruct (H2 entries E Hs Hu) as (q & Ec & f0 & Hf).
    destruct (memo_lift_op m _ p _ _ Hi (proj1 (arg_size m (zlen (zslice (mp_offset p) (mp_view_len p) buf)) ltac:(lia))) Ec) as (q' & Eq & Hq & _).
    exists q'. split; [exact Eq|]. exists f0. intros fuel Hle.
    destruct (Hf fuel Hle) as (p' & Er & ->).
    destruct (memo_lift m _ p _ _ Hi (Hfit fuel) Er) as (p'' & Er' & Hp).
    exists p''. split; [exact Er'|]. apply memo_same_bp. congruence.
  - intros entries tail E Hs Hu Ht.
    destruct (H3 entries tail E Hs Hu Ht) as (e & f0 & Hf).
    exists e, f0. intros fuel Hle. specialize (Hf fuel Hle).
    destruct (run (byte_h m) (p_kv_search fuel key N f) (mp_bp p)) as [r q] eqn:Er; cbn [fst] in Hf; subst r.
    destruct (memo_lift m _ p _ _ Hi (Hfit fuel) Er) as (p'' & Er' & Hp). rewrite Er'. reflexivity.
Qed.

Lemma memo_prefix buf p cf s :
  zlen buf <= isize_max -> reaches (cf_mode cf) (memo_h (cf_mode cf)) (mp_from_buffer buf) p ->
  prefix_spec (cf_mode cf) (memo_h (cf_mode cf)) memo_same cf p
    (zslice (mp_offset p) (mp_view_len p) buf) s.
Proof.
  intros Hb Hr. destruct (reaches_memo _ buf p Hb Hr) as (Hi & _ & Hrb). set (m := cf_mode cf) in *.
  destruct (byte_prefix buf (mp_bp p) cf s Hb Hrb) as (H1 & H2 & H3). fold m in H1, H2, H3.
  change (bp_offset (mp_bp p)) with (mp_offset p) in *. change (bp_view_len (mp_bp p)) with (mp_view_len p) in *.
  assert (Hmax : 0 <= pref_max s <= 1073741823 /\ 0 <= pref_len s <= 4) by (destruct s; cbn [pref_max pref_len]; unfold u30_max; lia).
  assert (Hbig : 1073741827 <= isize_max) by (vm_compute; discriminate).
  pose proof (skip_dynamic_fits m cf s) as Hsf. pose proof (process_fits m cf s) as Hpf.
  assert (HS : forall r, fst (run (byte_h m) (p_skip_dynamic cf s) (mp_bp p)) = r ->
                         fst (run (memo_h m) (p_skip_dynamic cf s) p) = r).
  { intros r Er. destruct (run (byte_h m) (p_skip_dynamic cf s) (mp_bp p)) as [r' q] eqn:E; cbn [fst] in Er; subst r'.
    destruct (memo_lift m _ p _ _ Hi Hsf E) as (p'' & -> & _). reflexivity. }
  split; [|split].
  - intros payload rest E Hp. pose proof (zlen_nonneg payload). destruct (H1 payload rest E Hp) as [Ha Hc]. split.
    + destruct Ha as (q0 & q & p' & E1 & E2 & E3 & ->).
      destruct (memo_lift_op m _ p _ _ Hi (proj1 (arg_size m (pref_len s) ltac:(lia))) E1) as (r0 & F1 & <- & Hi1).
      specialize (Hi1 ltac:(discriminate)).
      destruct (memo_lift_op m _ r0 _ _ Hi1 (proj1 (proj2 (arg_size m (zlen payload) ltac:(lia)))) E2) as (r1 & F2 & Hq & _).
      destruct (memo_lift m _ p _ _ Hi Hpf E3) as (p'' & F3 & Hp'').
      exists r0, r1, p''. split; [exact F1|]. split; [exact F2|]. split; [exact F3|].
      apply memo_same_bp. congruence.
    + destruct Hc as (q & p' & E1 & E2 & ->).
      destruct (memo_lift_op m _ p _ _ Hi (proj1 (arg_size m (pref_len s + zlen payload) ltac:(lia))) E1) as (r0 & F1 & Hq & _).
      destruct (memo_lift m _ p _ _ Hi Hsf E2) as (p'' & F2 & Hp'').
      exists r0, p''. split; [exact F1|]. split; [exact F2|]. apply memo_same_bp. congruence.
  - intros n short E Hn. destruct (H2 n short E Hn) as [[e He]|[Hd He]].
    + left; exists e. apply HS; exact He.
    + right; split; [exact Hd|apply HS; exact He].
  - intros Hl. destruct (H3 Hl) as [e He]. exists e. apply HS; exact He.
Qed.

Lemma kv_empty_entries V (f : list byte -> V) w rest fuel :
  run slice_h (p_kv_search (S fuel) [] 0 f) (w :: rest) =
    (ROk (match w with [] => None | _ => Some (f []) end), w :: rest).
Proof.
  destruct w as [|b w]; [reflexivity|].
  cbn [p_kv_search]. unfold p_remainder. rewrite run_op. cbn [slice_h].
  change (sp_remainder ((b :: w) :: rest)) with (zlen (b :: w)).
  pose proof (zlen_nonneg w). rewrite zlen_cons. bcase (0 <? 1 + zlen w); [|lia].
  change (zlen []) with 0.
  rewrite (run_arr slice_h sp_ok sp_view sp_moved sl_consume) by (try discriminate; cbn [sp_view hd]; rewrite zlen_cons; lia).
  change (bytes_eqb [] (ztake 0 (sp_view ((b :: w) :: rest)))) with true. cbn iota.
  rewrite (run_arr slice_h sp_ok sp_view sp_moved sl_consume); [reflexivity|discriminate|].
  cbn [sp_view sp_moved hd]. change (zdrop 0 (b :: w)) with (b :: w). rewrite zlen_cons; lia.
Qed.

Lemma prefix_panics_refuted :
  (exists buf cf, bytes_ok buf /\ zlen buf = 4 /\ cf_mode cf = Release /\
     fst (run (byte_h Release) (p_process_prefix cf PrefU30) (bp_from_buffer buf)) = RPanic /\
     fst (run (byte_h Release) (p_skip_dynamic cf PrefU30) (bp_from_buffer buf)) = RPanic) /\
  (forall m buf p cf bs rest,
     zlen buf <= isize_max -> reaches m (byte_h m) (bp_from_buffer buf) p ->
     zslice (bp_offset p) (bp_view_len p) buf = bs ++ rest -> bytes_ok bs -> zlen bs = 4 ->
     (forall n, 0 <= n <= u30_max -> bs <> pref_format PrefU30 n) ->
     fst (run (byte_h m) (p_process_prefix cf PrefU30) p) = RPanic /\
     fst (run (byte_h m) (p_skip_dynamic cf PrefU30) p) = RPanic).
Proof.
  split; [|exact byte_bad_prefix].
  exists [255; 255; 255; 255], (mkConfig Release false false false false false).
  split; [apply bytes_ok_check; reflexivity|]. split; [reflexivity|]. split; [reflexivity|].
  split; vm_compute; reflexivity.
Qed.
