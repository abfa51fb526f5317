(** Decoding halts: with enough fuel [dec] is never [RDiv]. *)
From Verif Require Import Base BaseLemmas ModelErrors ModelParser ModelInt ModelFloat ModelZarith
  ModelUtf8 ModelTarget ModelSchema SpecParser SpecCodec ProofInt ProofZarith ProofDec ProofCodec ProofMeta.
From Coq Require Import ZifyBool.

Definition halts {A} (d : dm A) : Prop := forall cur, d cur <> RDiv.
(** halts on windows of at most [n] bytes *)
Definition halts_le {A} (n : Z) (d : dm A) : Prop := forall cur, zlen cur <= n -> d cur <> RDiv.

Lemma halts_halts_le {A} n (d : dm A) : halts d -> halts_le n d.
Proof. intros H cur _; apply H. Qed.
Lemma halts_bind {A B} (d : dm A) (k : A -> dm B) : halts d -> (forall a, halts (k a)) -> halts (d_bind d k).
Proof.
  intros Hd Hk cur. unfold d_bind. specialize (Hd cur). destruct (d cur) as [[a r]| | | |]; try discriminate; [|congruence].
  apply Hk.
Qed.
Lemma halts_le_bind {A B} n (d : dm A) (k : A -> dm B) :
  halts_le n d -> shrinks d -> (forall a, halts_le n (k a)) -> halts_le n (d_bind d k).
Proof.
  intros Hd Hs Hk cur Hc. unfold d_bind. specialize (Hd cur Hc).
  destruct (d cur) as [[a r]| | | |] eqn:E; try discriminate; [|congruence].
  apply Hk. pose proof (suffix_zlen _ _ (Hs _ _ _ E)). lia.
Qed.
Lemma halts_le_bind_lt {A B} n (d : dm A) (k : A -> dm B) :
  halts_le n d -> consumes d -> (forall a, halts_le (n - 1) (k a)) -> halts_le n (d_bind d k).
Proof.
  intros Hd Hs Hk cur Hc. unfold d_bind. specialize (Hd cur Hc).
  destruct (d cur) as [[a r]| | | |] eqn:E; try discriminate; [|congruence].
  apply Hk. pose proof (Hs _ _ _ E). lia.
Qed.
Lemma halts_le_window {A} n w (d : dm A) : halts_le n d -> halts_le n (d_window w d).
Proof.
  intros Hd cur Hc. unfold d_window. destruct (size_ok w) eqn:Es; [|discriminate].
  destruct (Z.leb_spec w (zlen cur)); [|discriminate].
  assert (zlen (ztake w cur) <= n) by (rewrite zlen_ztake; unfold size_ok in Es; lia).
  specialize (Hd (ztake w cur) ltac:(assumption)).
  destruct (d (ztake w cur)) as [[a [|]]| | | |]; try discriminate; congruence.
Qed.

Lemma halts_ret {A} (a : A) : halts (d_ret a). Proof. intros cur; discriminate. Qed.
Lemma halts_fail {A} e : halts (@d_fail A e). Proof. intros cur; discriminate. Qed.
Lemma halts_panic {A} : halts (@d_panic A). Proof. intros cur; discriminate. Qed.
Lemma halts_rem : halts d_rem. Proof. intros cur; discriminate. Qed.
Lemma halts_byte : halts d_byte. Proof. intros [|]; discriminate. Qed.
Lemma halts_consume n : halts (d_consume n).
Proof. intros cur; unfold d_consume. destruct (size_ok n); [|discriminate]. destruct (n <=? zlen cur); discriminate. Qed.
Lemma halts_st t : halts (d_st t).
Proof. intros cur; unfold d_st. destruct (st_split t cur) as [[]|]; discriminate. Qed.
Lemma halts_lift {A} (r : pres A) : r <> RDiv -> halts (d_lift r).
Proof. intros H cur. destruct r; try discriminate; congruence. Qed.
#[export] Hint Resolve halts_ret halts_fail halts_panic halts_rem halts_byte halts_consume halts_st : dec.
Ltac hlt :=
  repeat first
    [ solve [auto with dec]
    | apply halts_bind; [|intros ?]
    | match goal with
      | |- halts (if ?b then _ else _) => destruct b
      | |- halts (match ?o with _ => _ end) => destruct o
      end ].

Lemma coerce_slice_halts n bs : coerce_slice n bs <> RDiv.
Proof. unfold coerce_slice. destruct (zlen bs =? n); discriminate. Qed.
Lemma halts_fixed n : halts (d_fixed n).
Proof. unfold d_fixed; hlt. apply halts_lift, coerce_slice_halts. Qed.
#[export] Hint Resolve halts_fixed : dec.
Lemma halts_bool : halts d_bool. Proof. unfold d_bool; hlt. Qed.
Lemma halts_int k : halts (d_int k). Proof. unfold d_int; hlt. Qed.
#[export] Hint Resolve halts_bool halts_int : dec.
Lemma halts_tag k tags : halts (d_tag k tags). Proof. unfold d_tag; hlt. Qed.
Lemma halts_ranged cf k lo hi : halts (d_ranged cf k lo hi).
Proof.
  unfold d_ranged; hlt. apply halts_lift. unfold ri_try_from_underlying, ri_check, rassert.
  destruct (cf_range_check cf); [destruct (ri_sanity lo hi); cbn [rbind ext_int]; try discriminate|cbn [rbind ext_int]];
  match goal with |- context [restrict a ?l ?h] => destruct (restrict_cases a l h) as [[e E]|E]; rewrite E; discriminate end.
Qed.
#[export] Hint Resolve halts_tag halts_ranged : dec.
Lemma halts_pref cf s : halts (d_pref cf s). Proof. destruct s; cbn [d_pref]; hlt. Qed.
#[export] Hint Resolve halts_pref : dec.

Lemma n_deserialize_halts bs : @n_deserialize parse_error bs <> RDiv.
Proof. unfold n_deserialize. destruct (from_radix_le_128 _); discriminate. Qed.
Lemma z_deserialize_halts bs : @z_deserialize parse_error bs <> RDiv.
Proof.
  unfold z_deserialize. destruct bs; [discriminate|]. cbv zeta. destruct (from_radix_le_128 _); discriminate.
Qed.
Lemma rf_halts lo hi z : ext_float (rf_try_from_f64 lo hi z) <> RDiv.
Proof.
  unfold rf_try_from_f64, restrict_float. destruct (f64_le lo hi), (f64_le lo z), (f64_le z hi); discriminate.
Qed.
Lemma debug_assert_halts m b : @debug_assert parse_error m b <> RDiv.
Proof. unfold debug_assert. destruct m, b; discriminate. Qed.
Lemma usub_halts m a b : @usub parse_error m a b <> RDiv.
Proof. unfold usub. destruct (b <=? a), m; discriminate. Qed.
Lemma try_push_halts n (l : list val) v : ext_len (try_push n l v) <> RDiv.
Proof. unfold try_push. destruct (zlen l <? n); discriminate. Qed.
#[export] Hint Resolve halts_lift n_deserialize_halts z_deserialize_halts rf_halts debug_assert_halts usub_halts try_push_halts : dec.

(** ** Loops *)
Lemma halts_seq n elem fuel : halts_le n elem -> consumes elem -> forall acc,
  forall cur, zlen cur <= n -> zlen cur < Z.of_nat fuel -> d_seq fuel elem acc cur <> RDiv.
Proof.
  intros He Hs. induction fuel as [|fuel IH]; intros acc cur Hc Hf; [pose proof (zlen_nonneg cur); lia|].
  cbn [d_seq]. unfold d_bind at 1, d_rem. cbv iota beta. destruct (zlen cur =? 0); [discriminate|].
  unfold d_bind. specialize (He cur Hc). destruct (elem cur) as [[v r]| | | |] eqn:E; try discriminate; [|congruence].
  apply Hs in E. apply IH; lia.
Qed.
Lemma halts_lim n k elem fuel : halts_le n elem -> consumes elem -> forall acc,
  forall cur, zlen cur <= n -> zlen cur < Z.of_nat fuel -> d_lim fuel k elem acc cur <> RDiv.
Proof.
  intros He Hs. induction fuel as [|fuel IH]; intros acc cur Hc Hf; [pose proof (zlen_nonneg cur); lia|].
  cbn [d_lim]. unfold d_bind at 1, d_rem. cbv iota beta. destruct (zlen cur =? 0); [discriminate|].
  unfold d_bind. specialize (He cur Hc). destruct (elem cur) as [[v r]| | | |] eqn:E; try discriminate; [|congruence].
  apply Hs in E. pose proof (try_push_halts k acc v) as Hp. unfold d_lift.
  destruct (ext_len (try_push k acc v)); try discriminate; [|congruence]. apply IH; lia.
Qed.
Lemma halts_lim_rounds n k elem fuel : halts_le n elem -> shrinks elem -> forall acc,
  forall cur, zlen cur <= n -> Z.max 0 (k - zlen acc) < Z.of_nat fuel -> d_lim fuel k elem acc cur <> RDiv.
Proof.
  intros He Hs. induction fuel as [|fuel IH]; intros acc cur Hc Hf; [lia|].
  cbn [d_lim]. unfold d_bind at 1, d_rem. cbv iota beta. destruct (zlen cur =? 0); [discriminate|].
  unfold d_bind. specialize (He cur Hc). destruct (elem cur) as [[v r]| | | |] eqn:E; try discriminate; [|congruence].
  apply Hs, suffix_zlen in E. unfold d_lift, try_push. destruct (Z.ltb_spec (zlen acc) k); cbn [ext_len]; [|discriminate].
  apply IH; [lia|]. rewrite zlen_app. change (zlen [v]) with 1. lia.
Qed.
Lemma halts_fix_rounds n k elem fuel : halts_le n elem -> shrinks elem -> forall acc,
  forall cur, zlen cur <= n -> Z.max 0 (k - zlen acc) < Z.of_nat fuel -> d_fix fuel k elem acc cur <> RDiv.
Proof.
  intros He Hs. induction fuel as [|fuel IH]; intros acc cur Hc Hf; [lia|].
  cbn [d_fix]. unfold d_bind at 1, d_rem. cbv iota beta. destruct (_ && _) eqn:Eb.
  - unfold d_bind. specialize (He cur Hc). destruct (elem cur) as [[v r]| | | |] eqn:E; try discriminate; [|congruence].
    apply Hs, suffix_zlen in E. apply IH; [lia|]. rewrite zlen_app. change (zlen [v]) with 1. lia.
  - destruct (zlen acc =? k); discriminate.
Qed.
Lemma halts_fix n k elem fuel : halts_le n elem -> consumes elem -> forall acc,
  forall cur, zlen cur <= n -> zlen cur < Z.of_nat fuel -> d_fix fuel k elem acc cur <> RDiv.
Proof.
  intros He Hs. induction fuel as [|fuel IH]; intros acc cur Hc Hf; [pose proof (zlen_nonneg cur); lia|].
  cbn [d_fix]. unfold d_bind at 1, d_rem. cbv iota beta. destruct (_ && _) eqn:Eb.
  - unfold d_bind. specialize (He cur Hc). destruct (elem cur) as [[v r]| | | |] eqn:E; try discriminate; [|congruence].
    apply Hs in E. apply IH; lia.
  - destruct (zlen acc =? k); discriminate.
Qed.

(** ** Environment facts *)
Lemma zmax_list_ge l z : In z l -> z <= zmax_list l.
Proof.
  induction l as [|a l IH]; [intros []|]. intros [->|H]; cbn [zmax_list fold_right]; [lia|].
  specialize (IH H). unfold zmax_list in IH. lia.
Qed.
Lemma zmax_list_nonneg l : 0 <= zmax_list l.
Proof. induction l as [|a l IH]; cbn [zmax_list fold_right]; [lia|]. unfold zmax_list in IH; lia. Qed.
Lemma depth_pos t : 1 <= depth t.
Proof. induction t; cbn [depth]; lia. Qed.
Lemma max_depth_ge D d ts t : In d D -> In ts (field_types d) -> In t ts -> depth t <= max_depth D.
Proof.
  intros Hd Hts Ht. apply zmax_list_ge. apply in_map. apply in_concat. exists ts. split; [|exact Ht].
  apply in_concat. exists (field_types d). split; [apply in_map; exact Hd|exact Hts].
Qed.
Lemma rounds_nonneg I t : 0 <= rounds I t.
Proof. induction t; cbn [rounds]; lia. Qed.
Lemma max_rounds_ge D I d ts t : In d D -> In ts (field_types d) -> In t ts -> rounds I t <= max_rounds D I.
Proof.
  intros Hd Hts Ht. apply zmax_list_ge. apply in_map. apply in_concat. exists ts. split; [|exact Ht].
  apply in_concat. exists (field_types d). split; [apply in_map; exact Hd|exact Hts].
Qed.
Lemma rank_le R i : Z.of_nat (rank R i) <= max_rank R.
Proof.
  unfold rank. destruct (nth_in_or_default i R O) as [H|H].
  - apply zmax_list_ge. apply in_map. exact H.
  - rewrite H. apply zmax_list_nonneg.
Qed.
Lemma forallb_from_nth {A} (f : nat -> A -> bool) l : forall i j a,
  forallb_from f i l = true -> nth_error l j = Some a -> f (i + j)%nat a = true.
Proof.
  induction l as [|b l IH]; intros i j a H E; [destruct j; discriminate|].
  cbn [forallb_from] in H. apply andb_prop in H; destruct H as [H1 H2]. destruct j as [|j]; cbn [nth_error] in E.
  - injection E as <-. rewrite Nat.add_0_r. exact H1.
  - rewrite <- plus_n_Sm. apply (IH (S i)); assumption.
Qed.

Section Halt.
Variables (cf : config) (D : list def) (I : list tinfo) (R : list nat).
Hypothesis HT : terminating D I R = true.

Lemma term_nth i d : nth_error D i = Some d -> term_def I R i d = true.
Proof. intros E. apply (forallb_from_nth _ _ O i d HT E). Qed.
Lemma term_claims : nonempty_claims D I.
Proof.
  intros i ts E Hn. pose proof (term_nth _ _ E) as H. cbn [term_def] in H.
  apply andb_prop in H; destruct H as [_ H]. apply andb_prop in H; destruct H as [H _]. rewrite Hn in H. exact H.
Qed.

Let P := max_depth D + 1.
Let K := (max_rank R + 2) * P.
Definition low (r : Z) (js : list nat) : Prop := Forall (fun j => Z.of_nat (rank R j) < r) js.
Variable M : Z.
Hypothesis HM : max_rounds D I <= M.
Definition need (n r d : Z) : Z := n * K + r * P + d + 1 + M.
Lemma M_nonneg : 0 <= M. Proof. pose proof (zmax_list_nonneg (map (rounds I) (concat (concat (map field_types D))))). unfold max_rounds in HM. lia. Qed.

Lemma low_top js : low (max_rank R + 1) js.
Proof. apply Forall_forall. intros j _. pose proof (rank_le R j). lia. Qed.

Lemma P_pos : 1 <= P. Proof. pose proof (zmax_list_nonneg (map depth (concat (concat (map field_types D))))). unfold P, max_depth. lia. Qed.
Lemma R_nonneg : 0 <= max_rank R. Proof. apply zmax_list_nonneg. Qed.

Definition halts_at (f : nat) : Prop := forall t n r,
  loops_ok I t = true -> rounds I t <= M -> low r (heads t) -> 0 <= r <= max_rank R + 1 ->
  need n r (depth t) <= Z.of_nat f -> halts_le n (dec cf D f t).

Lemma halts_fields f ts : halts_at f -> forallb (loops_ok I) ts = true ->
  (forall t, In t ts -> depth t <= max_depth D /\ rounds I t <= M) ->
  forall n r, low r (field_heads I ts) -> 0 <= r <= max_rank R + 1 -> need n r (max_depth D) <= Z.of_nat f ->
  halts_le n (d_fields (dec cf D f) ts).
Proof.
  intros Hf. induction ts as [|t ts IH]; intros HL HM0 n r Hlow Hr Hn; [apply halts_halts_le, halts_ret|].
  cbn [forallb] in HL. apply andb_prop in HL; destruct HL as [HL1 HL2].
  cbn [field_heads] in Hlow. apply Forall_app in Hlow; destruct Hlow as [Hl1 Hl2].
  destruct (HM0 t (or_introl eq_refl)) as [Hd Hm]. pose proof P_pos. pose proof R_nonneg.
  assert (HM' : forall t, In t ts -> depth t <= max_depth D /\ rounds I t <= M) by (intros; apply HM0; right; assumption).
  cbn [d_fields].
  assert (Ht : halts_le n (dec cf D f t)) by (apply (Hf t n r); try assumption; unfold need in *; lia).
  destruct (nonempty I t) eqn:N.
  - apply halts_le_bind_lt; [exact Ht|apply (consumes_dec cf D I term_claims); exact N|]. intros v.
    apply halts_le_bind; [|auto with dec|intros; apply halts_halts_le, halts_ret].
    apply (IH HL2 HM' (n - 1) (max_rank R + 1)); [apply low_top|lia|].
    unfold need, K in *. pose proof (Z.mul_nonneg_nonneg r P ltac:(lia) ltac:(lia)). lia.
  - apply halts_le_bind; [exact Ht|auto with dec|]. intros v.
    apply halts_le_bind; [|auto with dec|intros; apply halts_halts_le, halts_ret].
    apply (IH HL2 HM' n r); assumption.
Qed.

Lemma fields_depth i d ts : nth_error D i = Some d -> In ts (field_types d) -> forall t, In t ts -> depth t <= max_depth D /\ rounds I t <= M.
Proof.
  intros E Hts t Ht. apply nth_error_In in E. split; [eapply max_depth_ge; eassumption|].
  pose proof (max_rounds_ge D I d ts t E Hts Ht). lia.
Qed.
Lemma fields_loops i d ts : nth_error D i = Some d -> In ts (field_types d) -> forallb (loops_ok I) ts = true.
Proof.
  intros E Hts. pose proof (term_nth _ _ E) as H. unfold term_def in H. apply andb_prop in H; destruct H as [H _].
  rewrite forallb_forall in H. apply H; assumption.
Qed.

Lemma halts_all f : halts_at f.
Proof.
  pose proof M_nonneg as HM1. induction f as [|f IH]; intros t n r HL HMt Hlow Hr Hn.
  - intros cur Hc. exfalso. pose proof (depth_pos t). pose proof (zlen_nonneg cur). pose proof P_pos. pose proof R_nonneg.
    unfold need in Hn. assert (0 <= n * K) by (apply Z.mul_nonneg_nonneg; [lia|]; unfold K; apply Z.mul_nonneg_nonneg; lia).
    pose proof (Z.mul_nonneg_nonneg r P ltac:(lia) ltac:(lia)). lia.
  - pose proof P_pos as HP. pose proof R_nonneg as HR. pose proof (Z.mul_nonneg_nonneg r P ltac:(lia) ltac:(lia)) as HrP.
    assert (HK : n * K = (n - 1) * K + (max_rank R + 1) * P + P) by (unfold K; lia).
    assert (Hfu : forall cur : list byte, zlen cur <= n -> zlen cur < Z.of_nat f).
    { intros cur Hc. unfold need in Hn. pose proof (depth_pos t). pose proof (zlen_nonneg cur).
      assert (1 <= K). { unfold K. pose proof (Z.mul_nonneg_nonneg (max_rank R) P ltac:(lia) ltac:(lia)). lia. }
      pose proof (Z.mul_nonneg_nonneg n (K - 1) ltac:(lia) ltac:(lia)). lia. }
    unfold need in Hn.
    cbn [dec]. destruct t; cbn [loops_ok heads depth rounds] in HL, HMt, Hlow, Hn;
      try (apply halts_halts_le; hlt; fail).
    + (* option *)
      apply halts_le_bind_lt; [apply halts_halts_le; auto with dec|auto with dec|]. intros tag.
      destruct (tag =? 255); [|apply halts_halts_le; hlt].
      apply halts_le_bind; [|auto with dec|intros; apply halts_halts_le, halts_ret].
      apply (IH t (n - 1) (max_rank R + 1)); [assumption|assumption|apply low_top|lia|unfold need; lia].
    + (* nullable *)
      apply halts_le_bind; [apply halts_halts_le; auto with dec|auto with dec|]. intros rem.
      destruct (negb _); [|apply halts_halts_le; hlt].
      apply halts_le_bind; [|auto with dec|intros; apply halts_halts_le, halts_ret].
      apply (IH t n r); try assumption; unfold need; lia.
    + (* sequence *)
      apply andb_prop in HL; destruct HL as [HL1 HL2].
      apply halts_le_bind; [|auto with dec|intros; apply halts_halts_le, halts_ret].
      intros cur Hc. apply (halts_seq n); [|apply (consumes_dec cf D I term_claims); assumption|assumption|auto].
      apply (IH t n r); try assumption; unfold need; lia.
    + apply halts_le_bind; [|auto with dec|intros; apply halts_halts_le, halts_ret]. pose proof (depth_pos t). pose proof (rounds_nonneg I t).
      assert (HE : halts_le n (dec cf D f t)) by (apply (IH t n r); try assumption; unfold need; lia).
      assert (HnK : forall cur : list byte, zlen cur <= n -> 0 <= n * K).
      { intros cur Hc. pose proof (zlen_nonneg cur). apply Z.mul_nonneg_nonneg; [lia|]. unfold K. apply Z.mul_nonneg_nonneg; lia. }
      intros cur Hc. specialize (HnK cur Hc). destruct (nonempty I t) eqn:N.
      * apply (halts_lim n); [exact HE|apply (consumes_dec cf D I term_claims); exact N|exact Hc|auto].
      * apply (halts_lim_rounds n); [exact HE|auto with dec|exact Hc|]. change (zlen (@nil val)) with 0. lia.
    + apply halts_le_bind; [|auto with dec|intros; apply halts_halts_le, halts_ret]. pose proof (depth_pos t). pose proof (rounds_nonneg I t).
      assert (HE : halts_le n (dec cf D f t)) by (apply (IH t n r); try assumption; unfold need; lia).
      assert (HnK : forall cur : list byte, zlen cur <= n -> 0 <= n * K).
      { intros cur Hc. pose proof (zlen_nonneg cur). apply Z.mul_nonneg_nonneg; [lia|]. unfold K. apply Z.mul_nonneg_nonneg; lia. }
      intros cur Hc. specialize (HnK cur Hc). destruct (nonempty I t) eqn:N.
      * apply (halts_fix n); [exact HE|apply (consumes_dec cf D I term_claims); exact N|exact Hc|auto].
      * apply (halts_fix_rounds n); [exact HE|auto with dec|exact Hc|]. change (zlen (@nil val)) with 0. lia.
    + (* dynamic *)
      apply halts_le_bind_lt; [apply halts_halts_le; auto with dec|auto with dec|]. intros buflen.
      apply halts_le_bind; [|auto with dec|intros; apply halts_halts_le, halts_ret].
      apply halts_le_window. apply (IH t (n - 1) (max_rank R + 1)); [assumption|assumption|apply low_top|lia|unfold need; lia].
    + (* vpadded *)
      do 3 (apply halts_le_bind; [apply halts_halts_le; auto with dec|auto with dec|]; intros ?).
      apply halts_le_bind; [|auto with dec|intros; apply halts_halts_le, halts_ret].
      apply halts_le_window. apply (IH t n r); try assumption; unfold need; lia.
    + (* padded *)
      apply halts_le_bind; [|auto with dec|intros; apply halts_halts_le; hlt].
      apply (IH t n r); try assumption; unfold need; lia.
    + apply halts_le_bind; [|auto with dec|intros; apply halts_halts_le; hlt].
      apply (IH t n r); try assumption; unfold need; lia.
    + (* named *)
      destruct (nth_error D i) as [[ts|k tags|k alts]|] eqn:Ei; [| | |apply halts_halts_le; hlt].
      * apply halts_le_bind; [|auto with dec|intros; apply halts_halts_le; hlt].
        assert (Hr' : Z.of_nat (rank R i) < r) by (inversion Hlow; assumption).
        apply (halts_fields f ts IH) with (r := Z.of_nat (rank R i)).
        -- apply (fields_loops i _ _ Ei). left; reflexivity.
        -- apply (fields_depth i _ _ Ei). left; reflexivity.
        -- pose proof (term_nth _ _ Ei) as HD. cbn [term_def] in HD. apply andb_prop in HD; destruct HD as [_ HD].
           apply andb_prop in HD; destruct HD as [_ HD]. rewrite forallb_forall in HD. apply Forall_forall.
           intros j Hj. specialize (HD j Hj). lia.
        -- pose proof (rank_le R i). lia.
        -- unfold need. assert ((Z.of_nat (rank R i) + 1) * P <= r * P) by (apply Z.mul_le_mono_nonneg_r; lia).
           replace (max_depth D) with (P - 1) by (unfold P; lia). lia.
      * apply halts_halts_le; hlt.
      * apply halts_le_bind_lt; [apply halts_halts_le; auto with dec|auto with dec|]. intros tag.
        destruct (find_tag tag _) as [ix|]; [|apply halts_halts_le; hlt].
        destruct (nth_error alts ix) as [[tg ts]|] eqn:Ea; [|apply halts_halts_le; hlt].
        apply halts_le_bind; [|auto with dec|intros; apply halts_halts_le; hlt].
        assert (Hin : In ts (field_types (DData k alts))).
        { cbn [field_types]. apply in_map_iff. exists (tg, ts). split; [reflexivity|]. eapply nth_error_In; eassumption. }
        apply (halts_fields f ts IH) with (r := max_rank R + 1).
        -- apply (fields_loops i _ _ Ei Hin).
        -- apply (fields_depth i _ _ Ei Hin).
        -- apply low_top.
        -- lia.
        -- unfold need. replace (max_depth D) with (P - 1) by (unfold P; lia). lia.
Qed.

End Halt.

Lemma dec_halts cf D I R f t cur : terminating D I R = true -> loops_ok I t = true ->
  step_bound D I R t (zlen cur) <= Z.of_nat f -> dec cf D f t cur <> RDiv.
Proof.
  intros HT HL Hf. assert (HR : 0 <= max_rank R) by apply R_nonneg. pose proof (P_pos D I R HT).
  apply (halts_all cf D I R HT (Z.max (rounds I t) (max_rounds D I)) ltac:(lia) f t (zlen cur) (max_rank R + 1) HL ltac:(lia)).
  - apply Forall_forall. intros j _. pose proof (rank_le R j). lia.
  - lia.
  - unfold step_bound in Hf. unfold need. lia.
  - lia.
Qed.
