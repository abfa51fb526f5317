(** Proofs about the type [HexString]. *)
From Coq Require Import String.
From Verif Require Import Base BaseLemmas ModelHex ModelTarget ModelDisplay ModelHexString SpecHex SpecHexString ProofHex.

Lemma make_gives k l : makes k l -> hs_make k = ROk (mkHex l).
Proof.
  destruct 1; try reflexivity. cbn [hs_make].
  rewrite (proj2 (from_hex_exact s bs) (denotes_loose _ _ H)). reflexivity.
Qed.

Lemma make_only k h : hs_make k = ROk h -> makes k (hs_bytes h) \/ exists s, k = MkText s /\ In plus_sign s.
Proof.
  destruct k; cbn [hs_make]; try (intros E; injection E as <-; left; constructor).
  destruct (bytes_of_hex s) as [b|e| | |] eqn:E; cbn [rbind]; try discriminate. intros E'. injection E' as <-.
  destruct (in_dec Z.eq_dec plus_sign s) as [I|N]; [right; exists s; auto|].
  left. constructor. exact (proj1 (from_hex_accepts s b N) E).
Qed.

Lemma set_split i (l : list byte) : 0 <= i < zlen l ->
  exists pre x post, l = pre ++ x :: post /\ zlen pre = i.
Proof.
  intros H. exists (ztake i l). pose proof (zlen_zdrop i l ltac:(lia)) as L. pose proof (ztake_zdrop i l) as E.
  destruct (zdrop i l) as [|x post]; [rewrite zlen_nil in L; lia|]. exists x, post. split; [symmetry; exact E|].
  apply zlen_ztake. lia.
Qed.

Lemma set_at (pre : list byte) x post b :
  ztake (zlen pre) (pre ++ x :: post) ++ [b] ++ zdrop (zlen pre + 1) (pre ++ x :: post) = pre ++ b :: post.
Proof.
  rewrite ztake_app. f_equal. cbn [app]. f_equal. replace (pre ++ x :: post) with ((pre ++ [x]) ++ post) by (rewrite <- app_assoc; reflexivity).
  replace (zlen pre + 1) with (zlen (pre ++ [x])) by (rewrite zlen_app; reflexivity). apply zdrop_app.
Qed.

Lemma step_exact op h n h' : hs_step op h = ROk (n, h') <-> changes op (hs_bytes h) n (hs_bytes h').
Proof.
  unfold hs_bytes. destruct h as [l], h' as [l']. cbn [hx_bytes]. split.
  - destruct op; cbn; try (intros E; injection E as <- <-; constructor).
    destruct ((0 <=? i) && (i <? zlen l)) eqn:B; [|discriminate]. intros E. injection E as <- <-.
    destruct (set_split i l ltac:(lia)) as (pre & x & post & -> & <-).
    change (b :: zdrop (zlen pre + 1) (pre ++ x :: post)) with ([b] ++ zdrop (zlen pre + 1) (pre ++ x :: post)).
    rewrite set_at. constructor. reflexivity.
  - intros C. destruct op; inversion C; subst; try reflexivity. cbn [hs_step hx_bytes].
    rewrite zlen_app, zlen_cons. pose proof (zlen_nonneg pre). pose proof (zlen_nonneg post).
    replace ((0 <=? zlen pre) && (zlen pre <? zlen pre + (1 + zlen post))) with true by lia.
    rewrite set_at. reflexivity.
Qed.

Lemma history_exact ops : forall h ns h', hs_run ops h = ROk (ns, h') <-> change_all ops (hs_bytes h) ns (hs_bytes h').
Proof.
  induction ops as [|op ops IH]; intros h ns h'; cbn [hs_run].
  - split.
    + intros E. injection E as <- <-. constructor.
    + intros C. inversion C; subst. destruct h as [u], h' as [v]. unfold hs_bytes in *. cbn [hx_bytes] in *. subst. reflexivity.
  - split.
    + destruct (hs_step op h) as [[n h1]| | | |] eqn:E; cbn [rbind]; try discriminate.
      destruct (hs_run ops h1) as [[ns1 h2]| | | |] eqn:E1; cbn [rbind]; try discriminate.
      intros E2. injection E2 as <- <-. econstructor; [apply step_exact; exact E|]. apply IH. exact E1.
    + intros C. inversion C as [|? ? ? n l' ns' ? C1 C2]; subst.
      assert (E : hs_step op h = ROk (n, mkHex l')) by (apply step_exact; exact C1). rewrite E. cbn [rbind].
      assert (E1 : hs_run ops (mkHex l') = ROk (ns', h')) by (apply IH; exact C2). rewrite E1. reflexivity.
Qed.

(** An operation that does not go through is a panic, and it is a write outside. *)
Lemma step_cases op h : (exists n h', hs_step op h = ROk (n, h')) \/
  (hs_step op h = RPanic /\ exists i b, op = HsSet i b /\ ~ 0 <= i < zlen (hs_bytes h)).
Proof.
  destruct op; try (left; eexists; eexists; reflexivity). cbn [hs_step].
  destruct ((0 <=? i) && (i <? zlen (hx_bytes h))) eqn:B; [left; eexists; eexists; reflexivity|].
  right. split; [reflexivity|]. exists i, b. split; [reflexivity|]. unfold hs_bytes. lia.
Qed.

Lemma history_panics ops : forall h, (forall r, hs_run ops h <> ROk r) ->
  hs_run ops h = RPanic /\ exists pre i b post ns h', ops = pre ++ HsSet i b :: post /\
    hs_run pre h = ROk (ns, h') /\ ~ 0 <= i < zlen (hs_bytes h').
Proof.
  induction ops as [|op ops IH]; intros h N; cbn [hs_run] in *; [destruct (N _ eq_refl)|].
  destruct (step_cases op h) as [(n & h1 & E)|(E & i & b & -> & B)].
  - rewrite E in *. cbn [rbind] in *. destruct (IH h1) as (P & pre & i & b & post & ns & h2 & -> & R & B).
    { intros r R. rewrite R in N. destruct r. exact (N _ eq_refl). }
    rewrite P. split; [reflexivity|]. exists (op :: pre), i, b, post, (n :: ns), h2. split; [reflexivity|].
    cbn [hs_run]. rewrite E. cbn [rbind]. rewrite R. split; [reflexivity|exact B].
  - rewrite E. split; [reflexivity|]. exists [], i, b, ops, [], h. repeat split. exact B.
Qed.

Lemma len_text h : bytes_ok (hs_bytes h) ->
  hs_len h = zlen (hs_bytes h) /\ (hs_is_empty h = true <-> hs_bytes h = []) /\ zlen (hs_text h) = 2 * hs_len h /\
  hex_denotes (hs_text h) (hs_bytes h) /\ Forall lower_hex (hs_text h).
Proof.
  unfold hs_len, hs_is_empty, hs_text, hs_bytes. intros B. destruct (to_hex_spec _ B) as (D & F & _). split; [reflexivity|].
  split; [destruct (hx_bytes h); split; intros; congruence|]. split; [|split; [exact D|exact F]].
  rewrite <- (loose_len _ _ (denotes_loose _ _ D)). lia.
Qed.

Lemma text_back h : bytes_ok (hs_bytes h) -> hs_make (MkText (hs_text h)) = ROk h.
Proof. unfold hs_bytes, hs_text. intros B. cbn [hs_make]. rewrite (hex_round_trip _ B). destruct h. reflexivity. Qed.

Lemma hex_app a b : hex_of_bytes (a ++ b) = hex_of_bytes a ++ hex_of_bytes b.
Proof. induction a as [|x a IH]; cbn [hex_of_bytes app]; [reflexivity|]. rewrite IH, app_assoc. reflexivity. Qed.

Lemma append_text op bs h n h' : appends op bs -> hs_step op h = ROk (n, h') ->
  hs_text h' = hs_text h ++ hex_of_bytes bs.
Proof.
  intros A E. apply step_exact in E. unfold hs_text, hs_bytes in *. rewrite <- hex_app. f_equal.
  destruct A; inversion E; subst; reflexivity.
Qed.

(** ** Order *)
Lemma slice_cmp_cons x a y b :
  slice_cmp (x :: a) (y :: b) = match Z.compare x y with Eq => slice_cmp a b | c => c end.
Proof.
  unfold slice_cmp. cbn [List.length Nat.min memcmp]. destruct (Z.compare x y); try reflexivity.
  rewrite !zlen_cons. rewrite Z.add_compare_mono_l. reflexivity.
Qed.
Lemma slice_cmp_nil_l b : slice_cmp [] b = match b with [] => Eq | _ => Lt end.
Proof. unfold slice_cmp. cbn [List.length Nat.min memcmp]. destruct b as [|y b]; [reflexivity|]. rewrite zlen_nil, zlen_cons. pose proof (zlen_nonneg b). apply Z.compare_lt_iff. lia. Qed.
Lemma slice_cmp_nil_r a : slice_cmp a [] = match a with [] => Eq | _ => Gt end.
Proof. unfold slice_cmp. rewrite Nat.min_0_r. cbn [memcmp]. destruct a as [|y b]; [reflexivity|]. rewrite zlen_nil, zlen_cons. pose proof (zlen_nonneg b). apply Z.compare_gt_iff. lia. Qed.

Lemma before_cons x a y b : before (x :: a) (y :: b) <-> x < y \/ (x = y /\ before a b).
Proof.
  split.
  - intros [(z & t & E)|(p & u & s & v & t & E1 & E2 & L)].
    + cbn [app] in E. injection E as -> ->. right. split; [reflexivity|]. left. eauto.
    + destruct p as [|q p]; cbn [app] in *; injection E1 as -> ->; injection E2 as -> ->; [left; exact L|].
      right. split; [reflexivity|]. right. exists p, u, s, v, t. auto.
  - intros [L|(-> & [(z & t & ->)|(p & u & s & v & t & -> & -> & L)])].
    + right. exists [], x, a, y, b. auto.
    + left. exists z, t. reflexivity.
    + right. exists (y :: p), u, s, v, t. auto.
Qed.
Lemma before_nil b : before [] b <-> b <> [].
Proof.
  split; [|intros N; destruct b as [|y b]; [congruence|]; left; exists y, b; reflexivity].
  intros [(y & t & ->)|(p & u & s & v & t & E & _)]; [discriminate|]. destruct p; discriminate.
Qed.
Lemma not_before_nil a : ~ before a [].
Proof. intros [(y & t & E)|(p & u & s & v & t & _ & E & _)]; [destruct a; discriminate|destruct p; discriminate]. Qed.

(** The order computed is the dictionary order. *)
Lemma slice_cmp_spec a : forall b,
  (slice_cmp a b = Lt <-> before a b) /\ (slice_cmp a b = Eq <-> a = b) /\ (slice_cmp a b = Gt <-> before b a).
Proof.
  induction a as [|x a IH]; intros [|y b].
  - rewrite slice_cmp_nil_l. repeat split; try discriminate; intros H; destruct (not_before_nil _ H).
  - rewrite slice_cmp_nil_l. split; [|split]; split; try discriminate; intros H; auto.
    + apply before_nil. discriminate.
    + destruct (not_before_nil _ H).
  - rewrite slice_cmp_nil_r. split; [|split]; split; try discriminate; intros H; auto.
    + destruct (not_before_nil _ H).
    + apply before_nil. discriminate.
  - rewrite slice_cmp_cons, !before_cons. specialize (IH b). destruct (Z.compare_spec x y) as [->|L|L].
    + destruct IH as (I1 & I2 & I3). rewrite I1, I2, I3. split; [|split]; split; intros; try (right; auto; fail).
      * destruct H as [?|[_ ?]]; [lia|assumption].
      * congruence.
      * congruence.
      * destruct H as [?|[_ ?]]; [lia|assumption].
    + split; [|split]; split; intros; auto; try discriminate.
      * injection H as -> _. lia.
      * destruct H as [?|[? _]]; lia.
    + split; [|split]; split; intros; auto; try discriminate.
      * destruct H as [?|[? _]]; lia.
      * injection H as -> _. lia.
Qed.

Lemma lower_digit_compare m n : 0 <= m < 16 -> 0 <= n < 16 -> Z.compare (lower_digit m) (lower_digit n) = Z.compare m n.
Proof.
  intros Hm Hn. unfold lower_digit. destruct (Z.ltb_spec m 10), (Z.ltb_spec n 10).
  - rewrite Z.add_compare_mono_l. reflexivity.
  - rewrite (proj2 (Z.compare_lt_iff m n)), (proj2 (Z.compare_lt_iff _ _)) by lia. reflexivity.
  - rewrite (proj2 (Z.compare_gt_iff m n)), (proj2 (Z.compare_gt_iff _ _)) by lia. reflexivity.
  - rewrite Z.add_compare_mono_l. reflexivity.
Qed.

Lemma fmt_compare x y s t : 0 <= x < 256 -> 0 <= y < 256 ->
  slice_cmp (fmt_02x x ++ s) (fmt_02x y ++ t) = match Z.compare x y with Eq => slice_cmp s t | c => c end.
Proof.
  intros Hx Hy. rewrite !fmt_02x_eq by assumption. cbn [app]. rewrite !slice_cmp_cons.
  rewrite !lower_digit_compare by (Z.to_euclidean_division_equations; lia).
  destruct (Z.compare_spec (x / 16) (y / 16)) as [E|L|L].
  - destruct (Z.compare_spec (x mod 16) (y mod 16)) as [E'|L'|L'].
    + replace y with x by (Z.to_euclidean_division_equations; lia). rewrite Z.compare_refl. reflexivity.
    + rewrite (proj2 (Z.compare_lt_iff x y)) by (Z.to_euclidean_division_equations; lia). reflexivity.
    + rewrite (proj2 (Z.compare_gt_iff x y)) by (Z.to_euclidean_division_equations; lia). reflexivity.
  - rewrite (proj2 (Z.compare_lt_iff x y)) by (Z.to_euclidean_division_equations; lia). reflexivity.
  - rewrite (proj2 (Z.compare_gt_iff x y)) by (Z.to_euclidean_division_equations; lia). reflexivity.
Qed.

Lemma hex_compare a : bytes_ok a -> forall b, bytes_ok b -> slice_cmp (hex_of_bytes a) (hex_of_bytes b) = slice_cmp a b.
Proof.
  unfold bytes_ok, is_byte. induction 1 as [|x a Hx Ha IH]; intros b Hb.
  - destruct Hb as [|y b Hy Hb]; [reflexivity|]. cbn [hex_of_bytes]. rewrite fmt_02x_eq by assumption. cbn [app].
    rewrite !slice_cmp_nil_l. reflexivity.
  - destruct Hb as [|y b Hy Hb]; cbn [hex_of_bytes].
    + rewrite fmt_02x_eq by assumption. cbn [app]. rewrite !slice_cmp_nil_r. reflexivity.
    + rewrite fmt_compare, slice_cmp_cons, IH by assumption. reflexivity.
Qed.

Lemma order_text h h' : bytes_ok (hs_bytes h) -> bytes_ok (hs_bytes h') ->
  (hs_cmp h h' = Lt <-> before (hs_text h) (hs_text h')) /\
  (hs_cmp h h' = Eq <-> hs_text h = hs_text h') /\
  (hs_cmp h h' = Gt <-> before (hs_text h') (hs_text h)).
Proof.
  unfold hs_cmp, hs_text, hs_bytes. intros B B'. rewrite <- (hex_compare _ B _ B'). apply slice_cmp_spec.
Qed.

Lemma order_bytes h h' :
  (hs_cmp h h' = Lt <-> before (hs_bytes h) (hs_bytes h')) /\
  (hs_cmp h h' = Eq <-> hs_bytes h = hs_bytes h') /\
  (hs_cmp h h' = Gt <-> before (hs_bytes h') (hs_bytes h)).
Proof. apply slice_cmp_spec. Qed.

Lemma memcmp_eq a : forall b, zlen a = zlen b -> (memcmp (List.length a) a b = Eq <-> a = b).
Proof.
  induction a as [|x a IH]; intros [|y b] L; try (split; reflexivity).
  - rewrite zlen_nil, zlen_cons in L. pose proof (zlen_nonneg b). lia.
  - rewrite zlen_nil, zlen_cons in L. pose proof (zlen_nonneg a). lia.
  - rewrite !zlen_cons in L. cbn [List.length memcmp]. destruct (Z.compare_spec x y) as [->|N|N].
    + rewrite IH by lia. split; congruence.
    + split; [discriminate|]. intros E. injection E as -> _. lia.
    + split; [discriminate|]. intros E. injection E as -> _. lia.
Qed.

Lemma equal_bytes h h' : hs_eq h h' = true <-> hs_bytes h = hs_bytes h'.
Proof.
  unfold hs_eq, hs_bytes. destruct (Z.eqb_spec (zlen (hx_bytes h)) (zlen (hx_bytes h'))) as [L|L]; cbn [andb].
  - rewrite <- (memcmp_eq _ _ L). destruct (memcmp _ _ _); split; congruence.
  - split; [discriminate|]. intros E. rewrite E in L. lia.
Qed.

(** ** Equality with a text *)
Lemma fold_lower c : lower_hex c -> (if (65 <=? c) && (c <=? 90) then c + 32 else c) = c.
Proof. unfold lower_hex. intros H. destruct ((65 <=? c) && (c <=? 90)) eqn:E; lia. Qed.
Lemma fold_hex b : bytes_ok b -> fold_case (hex_of_bytes b) = hex_of_bytes b.
Proof.
  intros B. destruct (to_hex_spec _ B) as (_ & F & _). unfold fold_case.
  induction F as [|c s H F IH]; cbn [map]; [reflexivity|]. rewrite IH, fold_lower by assumption. reflexivity.
Qed.
Lemma fold_digit_lower c v : hex_digit c v -> (if (65 <=? c) && (c <=? 90) then c + 32 else c) = lower_digit v.
Proof.
  intros D. unfold lower_digit. destruct D as [c H|c H|c H]; destruct ((65 <=? c) && (c <=? 90)) eqn:E;
    match goal with |- _ = (if ?x then _ else _) => destruct x eqn:E' end; lia.
Qed.
Lemma denotes_text s b : hex_denotes s b -> fold_case s = hex_of_bytes b.
Proof.
  induction 1 as [|c1 c2 h l s b D1 D2 D IH]; [reflexivity|]. cbn [fold_case map hex_of_bytes] in *.
  fold (fold_case s). rewrite IH. destruct (hex_digit_range _ _ D1) as (R1 & _), (hex_digit_range _ _ D2) as (R2 & _).
  rewrite fmt_02x_eq by lia. cbn [app].
  replace ((16 * h + l) / 16) with h by (Z.to_euclidean_division_equations; lia).
  replace ((16 * h + l) mod 16) with l by (Z.to_euclidean_division_equations; lia).
  rewrite (fold_digit_lower _ _ D1), (fold_digit_lower _ _ D2). reflexivity.
Qed.

Lemma equal_text h s : bytes_ok (hs_bytes h) -> ascii s -> ~ In plus_sign s ->
  exists answer, hs_eq_text h s = ROk answer /\ (answer = true <-> fold_case s = hs_text h).
Proof.
  unfold hs_eq_text, hs_text, hs_bytes. intros B A P.
  assert (I : bytes_of_hex s = ROk (hx_bytes h) <-> fold_case s = hex_of_bytes (hx_bytes h)).
  { split.
    - intros E. apply denotes_text. exact (proj1 (from_hex_accepts s _ P) E).
    - intros E. apply (from_hex_case (hex_of_bytes (hx_bytes h))); [|apply hex_round_trip; exact B].
      rewrite E. apply fold_hex. exact B. }
  destruct (list_eq_dec Z.eq_dec (fold_case s) (hex_of_bytes (hx_bytes h))) as [E|N].
  - exists true. split; [apply eq_hex_true; apply I; exact E|]. split; auto.
  - exists false. split; [apply eq_hex_false; [exact A|]; intros E; apply N, I, E|]. split; [discriminate|intros E; destruct (N E)].
Qed.

Lemma debug_hex_text h : hs_debug h = txt "HexString(""" ++ hs_text h ++ txt """)".
Proof.
  unfold hs_debug. change (txt "HexString(""") with (txt "HexString(" ++ [34]). change (txt """)") with ([34] ++ txt ")").
  rewrite <- !app_assoc. exact eq_refl.
Qed.
