(** The same for the SliceParser. *)
From Coq Require Import Lia.
From Verif Require Import Base BaseLemmas ModelErrors ModelParser ModelInt ModelFloat ModelUtf8 ModelTarget ModelSchema
  SpecCodec SpecParser SpecFinal ProofDec ProofSettle ProofCodec ProofCodecThms ProofFinal.
From Coq Require Import ZifyBool.

Section Grow.
Variable q : list byte.

(** [d] windows are open; below them lies what is left of the input. *)
Definition R (d : nat) (st st' : slice_parser) : Prop :=
  exists ws b, st = ws ++ [b] /\ st' = ws ++ [b ++ q] /\ length ws = d /\ zlen (b ++ q) <= isize_max.

Definition short {A} (r : pres A) : Prop :=
  match r with RErr e => slice_may_be_short e = true | _ => False end.

Definition tracks {A} (d : nat) (a b : pres A * slice_parser) : Prop :=
  short (fst a) \/ (fst a = fst b /\ (forall x, fst a = ROk x -> R d (snd a) (snd b))).

Definition sim {A} (out : bool) (pg : prog A) : Prop :=
  forall d st st', R d st st' -> (out = true \/ d <> 0%nat) ->
  tracks d (run slice_h pg st) (run slice_h pg st').

Lemma sim_ret {A} out (a : A) : sim out (PRet a).
Proof. intros d st st' H _. right. cbn. split; [reflexivity|]. intros x _. auto. Qed.
Lemma sim_err {A} out e : @sim A out (PErr e).
Proof. intros d st st' H _. right. cbn. split; [reflexivity|]. discriminate. Qed.
Lemma sim_panic {A} out : @sim A out PPanic.
Proof. intros d st st' H _. right. cbn. split; [reflexivity|]. discriminate. Qed.
Lemma sim_div {A} out : @sim A out PDiv.
Proof. intros d st st' H _. right. cbn. split; [reflexivity|]. discriminate. Qed.
Lemma sim_lift {A} out (r : pres A) : sim out (plift r).
Proof. destruct r; intros d st st' H _; right; cbn; (split; [reflexivity|]); try discriminate. intros x _. auto. Qed.

Lemma sim_bind {A B} out (pg : prog A) (k : A -> prog B) :
  sim out pg -> (forall a, sim out (k a)) -> sim out (pbind pg k).
Proof.
  intros H Hk d st st' HR Ho. specialize (H d st st' HR Ho). unfold tracks in *. rewrite !run_pbind.
  destruct (run slice_h pg st) as [r s] eqn:E, (run slice_h pg st') as [r' s'] eqn:E'. cbn [fst snd] in H.
  destruct H as [H|[<- H]].
  - destruct r; cbn in H; try contradiction; left; exact H.
  - destruct r as [a|e| | |]; try (right; split; [reflexivity|discriminate]).
    apply Hk; [exact (H a eq_refl)|exact Ho].
Qed.

Lemma sim_weak {A} (pg : prog A) : sim true pg -> sim false pg.
Proof. intros H d st st' HR _. apply H; auto. Qed.

(** ** Single calls *)
Lemma take_grow {A} n (b r : list A) : n <= zlen b -> ztake n (b ++ r) = ztake n b /\ (0 <= n -> zdrop n (b ++ r) = zdrop n b ++ r).
Proof.
  unfold zlen, ztake, zdrop. intros H. rewrite firstn_app, skipn_app.
  replace (Z.to_nat n - length b)%nat with 0%nat by lia. cbn [firstn skipn]. rewrite app_nil_r. auto.
Qed.
Lemma drop_neg {A} n (b : list A) : n < 0 -> zdrop n b = b.
Proof. intros H. unfold zdrop. replace (Z.to_nat n) with 0%nat by lia. reflexivity. Qed.
Lemma drop_grow {A} n (b r : list A) : n <= zlen b -> zdrop n (b ++ r) = zdrop n b ++ r.
Proof. intros H. destruct (Z.lt_ge_cases n 0) as [Hn|Hn]; [rewrite !drop_neg by lia; reflexivity|]. apply take_grow; lia. Qed.
Lemma drop_len {A} n (b : list A) : zlen (zdrop n b) <= zlen b.
Proof. unfold zlen, zdrop. rewrite skipn_length. lia. Qed.

Lemma sim_consume out n : sim out (p_consume n).
Proof.
  intros d st st' (ws & b & -> & -> & Hd & HL) _. unfold p_consume. rewrite !run_do_op. cbn [slice_h].
  pose proof (zlen_app b q) as Ha. pose proof (zlen_nonneg q) as Hq.
  destruct ws as [|w ws]; cbn [app sp_consume]; unfold slb_take_unchecked.
  - destruct (Z.leb_spec n (zlen b)) as [Hn|Hn].
    + replace (n <=? zlen (b ++ q)) with true by lia. destruct (take_grow n b q Hn) as [-> _]. rewrite drop_grow by exact Hn.
      right. cbn [fst snd]. split; [reflexivity|]. intros x _. exists [], (zdrop n b). repeat split; auto.
      rewrite zlen_app. pose proof (drop_len n b). lia.
    + left. reflexivity.
  - destruct (Z.leb_spec n (zlen w)) as [Hn|Hn].
    + right. cbn [fst snd]. split; [reflexivity|]. intros x _. exists (zdrop n w :: ws), b. repeat split; auto.
    + left. reflexivity.
Qed.

Lemma byte_cases d st st' : R d st st' ->
  (exists b s s', slice_h _ OpConsumeByte st = (ROk b, s) /\ slice_h _ OpConsumeByte st' = (ROk b, s') /\ R d s s' /\
     sp_view_len st = sp_view_len s + 1) \/
  (exists e s, slice_h _ OpConsumeByte st = (RErr e, s) /\ slice_may_be_short e = true).
Proof.
  intros (ws & b & -> & -> & Hd & HL). cbn [slice_h].
  destruct ws as [|w ws]; cbn [app sp_consume_byte].
  - destruct b as [|x b]; cbn [slb_cut_first app].
    + right. do 2 eexists. split; reflexivity.
    + left. do 3 eexists. split; [reflexivity|]. split; [reflexivity|]. split.
      * exists [], b. repeat split; auto. unfold zlen in *. cbn [length app] in HL. lia.
      * cbn. unfold zlen. cbn [length]. lia.
  - destruct w as [|x w]; cbn [slb_cut_first].
    + right. do 2 eexists. split; reflexivity.
    + left. do 3 eexists. split; [reflexivity|]. split; [reflexivity|]. split.
      * exists (w :: ws), b. repeat split; auto.
      * cbn. unfold zlen. cbn [length]. lia.
Qed.

Lemma sim_consume_byte out : sim out p_consume_byte.
Proof.
  intros d st st' H _. unfold p_consume_byte. rewrite !run_do_op. unfold tracks.
  destruct (byte_cases d st st' H) as [(b & s & s' & -> & -> & HR & _)|(e & s & -> & Hs)].
  - right. cbn [fst snd]. split; [reflexivity|]. auto.
  - left. exact Hs.
Qed.

Lemma sim_remainder : sim false p_remainder.
Proof.
  intros d st st' HR [Ho|Ho]; [discriminate|]. pose proof HR as (ws & b & -> & -> & Hd & HL).
  destruct ws as [|w ws]; [cbn in Hd; congruence|].
  unfold p_remainder. rewrite !run_do_op. cbn [slice_h]. right. cbn [fst snd]. split; [reflexivity|auto].
Qed.

Lemma remainder_out b :
  run slice_h p_remainder [b] = (ROk (zlen b), [b]) /\
  run slice_h p_remainder [b ++ q] = (ROk (zlen b + zlen q), [b ++ q]).
Proof. unfold p_remainder. rewrite !run_do_op. cbn [slice_h sp_remainder sp_view_len]. unfold sp_remainder. cbn [sp_view_len]. rewrite zlen_app. auto. Qed.

Lemma sim_window {A} out n (body : prog A) (k : A -> prog A) :
  sim false body -> (forall a, sim out (k a)) ->
  sim out (p_set_fit n ;;; v <- body ;; p_enforce_target ;;; k v).
Proof.
  intros Hb Hk d st st' (ws & b & -> & -> & Hd & HL) Ho. unfold p_set_fit, p_enforce_target, tracks. rewrite !run_pbind, !run_do_op. cbn [slice_h].
  pose proof (zlen_app b q) as Ha. pose proof (zlen_nonneg q) as Hq.
  assert (Go : forall s s', R (S d) s s' ->
    tracks d (run slice_h (v <- body ;; do_op OpEnforceTarget ;;; k v) s) (run slice_h (v <- body ;; do_op OpEnforceTarget ;;; k v) s')).
  { intros s s' HR. assert (Hne : S d <> 0%nat) by discriminate. specialize (Hb (S d) s s' HR (or_intror Hne)). unfold tracks in *. rewrite !run_pbind.
    destruct (run slice_h body s) as [r s1] eqn:E1. destruct (run slice_h body s') as [r' s1'] eqn:E2. cbn [fst snd] in Hb.
    destruct Hb as [Hb|[<- Hb]].
    + destruct r; cbn in Hb; try contradiction; left; exact Hb.
    + destruct r as [a|e| | |]; try (right; split; [reflexivity|discriminate]).
      destruct (Hb a eq_refl) as (ws1 & b1 & -> & -> & Hd1 & HL1). destruct ws1 as [|w ws1]; [discriminate Hd1|].
      rewrite !run_pbind, !run_do_op. cbn [slice_h app sp_enforce_target].
      destruct (zlen w =? 0); [|right; split; [reflexivity|discriminate]].
      apply Hk; [exists ws1, b1; repeat split; auto|]. exact Ho. }
  destruct ws as [|w ws]; cbn [app sp_set_fit]; unfold slb_split_unchecked.
  - destruct (Z.leb_spec n (zlen b)) as [Hn|Hn].
    + replace (n <=? zlen (b ++ q)) with true by lia. destruct (take_grow n b q Hn) as [-> _]. rewrite drop_grow by exact Hn.
      apply Go. exists [ztake n b], (zdrop n b). cbn in Hd. subst d. repeat split; auto.
      rewrite zlen_app. pose proof (drop_len n b). lia.
    + left. reflexivity.
  - destruct (Z.leb_spec n (zlen w)) as [Hn|Hn].
    + apply Go. exists (ztake n w :: zdrop n w :: ws), b. cbn [length] in *. repeat split; auto.
    + left. reflexivity.
Qed.

(** ** Numbers *)
Lemma sim_int out k : sim out (p_int k).
Proof. unfold p_int, p_take_fixed, p_consume_arr. repeat (apply sim_bind; [|intros]); try apply sim_consume; try apply sim_lift; apply sim_ret. Qed.
Lemma sim_fixed out n : sim out (p_take_fixed n).
Proof. unfold p_take_fixed, p_consume_arr. apply sim_bind; [apply sim_consume|intros; apply sim_lift]. Qed.
Lemma sim_bool out : sim out p_take_bool.
Proof. apply sim_bind; [apply sim_consume_byte|]. intros b. destruct (_ =? _); [apply sim_ret|]. destruct (_ =? _); [apply sim_ret|apply sim_err]. Qed.
Lemma sim_tagword out k tags : sim out (p_take_tagword k tags).
Proof. apply sim_bind; [apply sim_int|]. intros b. destruct (existsb _ _); [apply sim_ret|]. destruct tags; apply sim_err. Qed.
Lemma sim_ranged out cf k lo hi : sim out (p_ranged cf k lo hi).
Proof. apply sim_bind; [apply sim_int|]. intros; apply sim_lift. Qed.
Lemma sim_pref out cf s : sim out (p_pref cf s).
Proof. destruct s; cbn [p_pref]; try apply sim_int. apply sim_bind; [apply sim_ranged|intros; apply sim_ret]. Qed.

Lemma sim_self_loop term : forall k k' ret d st st', R d st st' ->
  (k = k' \/ (sp_view_len st < Z.of_nat k /\ (k <= k')%nat)) ->
  tracks d (run slice_h (p_self_terminating_loop k term ret) st) (run slice_h (p_self_terminating_loop k' term ret) st').
Proof.
  induction k as [|k IH]; intros k' ret d st st' HR Hk.
  - destruct Hk as [<- |[Hk _]].
    + right. split; [reflexivity|discriminate].
    + exfalso. destruct st as [|x st]; cbn [sp_view_len] in Hk; [lia|]. pose proof (zlen_nonneg x). lia.
  - destruct k' as [|k']; [destruct Hk as [Hk|[_ Hk]]; [discriminate|lia]|]. cbn [p_self_terminating_loop run].
    destruct (byte_cases d st st' HR) as [(b & s & s' & -> & -> & HR' & Hc)|(e & s & -> & _)].
    + destruct (term b).
      * right. cbn [fst snd run]. split; [reflexivity|]. auto.
      * apply IH; [exact HR'|]. destruct Hk as [Hk|[Hk1 Hk2]]; [left; congruence|right]. lia.
    + left. reflexivity.
Qed.

Lemma sim_self out term : sim out (p_take_self_terminating term).
Proof.
  intros d st st' HR Ho. pose proof HR as (ws & b & -> & -> & Hd & HL). unfold p_take_self_terminating.
  destruct ws as [|w ws].
  - unfold tracks. rewrite !run_pbind. cbn [app]. destruct (remainder_out b) as [-> ->].
    pose proof (zlen_app b q) as Ha. pose proof (zlen_nonneg q) as Hq. pose proof (zlen_nonneg b) as Hb.
    replace (zlen b <=? isize_max) with true by lia. replace (zlen b + zlen q <=? isize_max) with true by lia.
    apply sim_self_loop; [exact HR|]. right. cbn [sp_view_len]. lia.
  - unfold tracks. rewrite !run_pbind. unfold p_remainder. rewrite !run_do_op. cbn [slice_h app]. unfold sp_remainder. cbn [sp_view_len].
    destruct (zlen w <=? isize_max); [|right; split; [reflexivity|discriminate]].
    apply sim_self_loop; auto.
Qed.

(** ** Sequences *)
Lemma sim_seq_loop {A} (e : prog A) : sim false e -> forall k seq, sim false (p_seq_loop k e seq).
Proof.
  intros He. induction k as [|k IH]; intros seq; cbn [p_seq_loop]; [apply sim_div|].
  apply sim_bind; [apply sim_remainder|]. intros rem. destruct (rem =? 0); [apply sim_ret|]. apply sim_bind; auto.
Qed.
Lemma sim_lim_loop {A} (e : prog A) n : sim false e -> forall k seq, sim false (p_lim_loop k n e seq).
Proof.
  intros He. induction k as [|k IH]; intros seq; cbn [p_lim_loop]; [apply sim_div|].
  apply sim_bind; [apply sim_remainder|]. intros rem. destruct (rem =? 0); [apply sim_ret|]. apply sim_bind; [auto|].
  intros. apply sim_bind; [apply sim_lift|]. auto.
Qed.
Lemma sim_fix_loop {A} (e : prog A) n out : sim out e -> forall k seq, sim out (p_fix_loop k n e seq).
Proof.
  intros He. induction k as [|k IH]; intros seq; cbn [p_fix_loop]; [apply sim_div|].
  intros d st st' HR Ho. pose proof HR as (ws & b & -> & -> & Hd & HL).
  destruct ws as [|w ws].
  - unfold tracks. rewrite !run_pbind. cbn [app]. destruct (remainder_out b) as [-> ->].
    pose proof (zlen_nonneg q) as Hq. pose proof (zlen_nonneg b) as Hb.
    destruct (Z.eqb_spec (zlen b) 0) as [E0|E0].
    + cbn [negb andb]. destruct (zlen seq =? n) eqn:En.
      * replace (zlen seq <? n) with false by lia. rewrite Bool.andb_false_r.
        right. cbn [run fst snd]. split; [reflexivity|]. auto.
      * left. reflexivity.
    + replace (zlen b + zlen q =? 0) with false by lia. cbn [negb andb].
      assert (G : sim out (if zlen seq <? n then v <- e ;; p_fix_loop k n e (seq ++ [v])
        else if zlen seq =? n then PRet seq else PErr (EExternal (LengthViolation (WrongLength n (zlen seq)))))).
      { destruct (zlen seq <? n); [apply sim_bind; auto|]. destruct (zlen seq =? n); [apply sim_ret|apply sim_err]. }
      apply G; assumption.
  - assert (G : sim false (rem <- p_remainder ;; (if negb (rem =? 0) && (zlen seq <? n) then v <- e ;; p_fix_loop k n e (seq ++ [v])
        else if zlen seq =? n then PRet seq else PErr (EExternal (LengthViolation (WrongLength n (zlen seq))))))).
    { apply sim_bind; [apply sim_remainder|]. intros rem. destruct (negb _ && _).
      - apply sim_bind; [destruct out; [apply sim_weak|]; assumption|]. intros a. destruct out; [apply sim_weak|]; apply IH.
      - destruct (zlen seq =? n); [apply sim_ret|apply sim_err]. }
    apply G; [exact HR|]. right. subst d. discriminate.
Qed.

Lemma sim_fields out (f : ty -> prog val) ts : Forall (fun t => sim out (f t)) ts -> sim out (p_fields f ts).
Proof.
  induction 1; cbn [p_fields]; [apply sim_ret|]. apply sim_bind; [assumption|]. intros. apply sim_bind; [assumption|]. intros; apply sim_ret.
Qed.

(** ** Types *)
Variables (cf : config) (D : list def).

Ltac prims := first [apply sim_ret|apply sim_err|apply sim_panic|apply sim_div|apply sim_lift|apply sim_consume|apply sim_consume_byte
  |apply sim_int|apply sim_fixed|apply sim_bool|apply sim_tagword|apply sim_ranged|apply sim_pref|apply sim_self].
Ltac walk := repeat first [prims|apply sim_bind; [|intros]|match goal with |- sim _ (if ?b then _ else _) => destruct b end].

Lemma parse_in : forall f t, sim false (parse cf D f t).
Proof.
  induction f as [|f IH]; intros t; cbn [parse]; [apply sim_div|].
  destruct t; try (walk; fail);
    try (repeat first [prims|apply sim_remainder|apply IH|apply sim_bind; [|intros]|match goal with |- sim _ (if ?b then _ else _) => destruct b end]; fail).
  - apply sim_bind; [apply sim_seq_loop; apply IH|intros; apply sim_ret].
  - apply sim_bind; [apply sim_lim_loop; apply IH|intros; apply sim_ret].
  - apply sim_bind; [apply sim_fix_loop; apply IH|intros; apply sim_ret].
  - apply sim_bind; [apply sim_pref|]. intros. apply (sim_window false _ (parse cf D f t) (fun v => PRet (VWrap v))); [apply IH|intros; apply sim_ret].
  - apply sim_bind; [apply sim_remainder|]. intros. apply sim_bind; [apply sim_lift|]. intros. apply sim_bind; [apply sim_lift|]. intros.
    apply (sim_window false _ (parse cf D f t) (fun v => PRet (VWrap v))); [apply IH|intros; apply sim_ret].
  - assert (G : forall ts, sim false (p_fields (parse cf D f) ts)) by (intros; apply sim_fields; apply Forall_forall; auto).
    destruct (nth_error D i) as [[ts|k tags|k alts]|]; walk; auto.
    + destruct (find_tag _ _); walk.
    + destruct (find_tag _ _); walk. destruct (nth_error _ _) as [[? ?]|]; walk; auto.
Qed.

Variable I : list tinfo.
Hypothesis HI : disciplined D I = true.

Lemma parse_out : forall f t, kind_of I t = Some Delim -> sim true (parse cf D f t).
Proof.
  induction f as [|f IH]; intros t K; cbn [parse]; [apply sim_div|].
  destruct t; cbn [kind_of] in K; try discriminate K; try (walk; fail);
    try (repeat first [prims|apply IH; exact K|apply sim_bind; [|intros]|match goal with |- sim _ (if ?b then _ else _) => destruct b end]; fail).
  - exfalso. destruct (kind_of I t) as [k|]; [destruct (greedy_ok k && nonempty I t)|]; discriminate K.
  - exfalso. destruct (kind_of I t) as [[|]|]; [destruct (nonempty I t)| |]; discriminate K.
  - exfalso. destruct (kind_of I t) as [[|]|]; [destruct (nonempty I t)| |]; discriminate K.
  - apply sim_bind; [apply sim_fix_loop|intros; apply sim_ret]. apply IH.
    destruct (kind_of I t) as [[|]|]; try discriminate K. reflexivity.
  - apply sim_bind; [apply sim_pref|]. intros. apply (sim_window true _ (parse cf D f t) (fun v => PRet (VWrap v))); [apply parse_in|intros; apply sim_ret].
  - exfalso. destruct (kind_of I t) as [k|]; [destruct (greedy_ok k)|]; discriminate K.
  - assert (K' : kind_of I t = Some Delim) by (destruct (kind_of I t) as [[|]|]; [reflexivity| |]; [destruct (_ <=? _)|]; discriminate K).
    apply sim_bind; [apply IH; exact K'|]. intros. walk.
  - injection K as K.
    assert (G : forall ts, kind_check (kind_fields I ts) (ti_kind (info I i)) = true -> sim true (p_fields (parse cf D f) ts)).
    { intros ts Hts. rewrite K in Hts. apply sim_fields. apply delim_check, delim_fields in Hts. eapply Forall_impl; [|exact Hts]. auto. }
    destruct (nth_error D i) as [[ts|k tags|k alts]|] eqn:En; walk.
    + apply G. pose proof (disciplined_nth D I i _ HI En) as C. cbn [check_def] in C. lia.
    + destruct (find_tag _ _); walk.
    + destruct (find_tag _ _) as [ix|]; walk. destruct (nth_error alts ix) as [[? ts]|] eqn:Ea; walk. apply G.
      pose proof (disciplined_nth D I i _ HI En) as C. cbn [check_def] in C. rewrite forallb_forall in C.
      specialize (C _ (nth_error_In _ _ Ea)). cbn [snd] in C. lia.
Qed.
End Grow.

(** ** Whole inputs *)
Lemma slice_final cf D I t p e q :
  disciplined D I = true -> self_delimiting I t = true -> zlen (p ++ q) <= isize_max ->
  decodes WSlice cf D t p (RErr (DParse e)) -> slice_may_be_short e = false ->
  decodes WSlice cf D t (p ++ q) (RErr (DParse e)).
Proof.
  intros HI HS HL [_ [f0 H]] Hs. split; [discriminate|]. exists f0. intros f Hf. specialize (H f Hf).
  assert (K : kind_of I t = Some Delim) by (unfold self_delimiting in HS; destruct (kind_of I t) as [[|]|]; congruence).
  cbn [decode_with] in *. unfold slice_decode, try_decode in *.
  assert (HR : R q 0 (sp_from_buffer p) (sp_from_buffer (p ++ q))) by (exists [], p; repeat split; auto).
  pose proof (parse_out q cf D I HI f t K _ _ _ HR (or_introl eq_refl)) as T. unfold tracks in T.
  destruct (run slice_h (parse cf D f t) (sp_from_buffer p)) as [r st] eqn:Er.
  destruct (run slice_h (parse cf D f t) (sp_from_buffer (p ++ q))) as [r' st'] eqn:Er'. cbn [fst snd] in T.
  assert (r = RErr e) as ->.
  { destruct r as [v|e'| | |]; try discriminate H; [|congruence]. destruct (cf_complete cf); [|discriminate H].
    destruct (sp_cleanup _) as [lo|?| | |]; try discriminate H. destruct (lo_is_empty lo); discriminate H. }
  destruct T as [T|[<- _]]; [cbn in T; congruence|reflexivity].
Qed.

Lemma slice_waiting cf D I kf t v p q :
  wf_defs D = true -> disciplined D I = true -> wf_ty D t = true -> self_delimiting I t = true ->
  cf_complete cf = false ->
  well_typed D v t = true -> to_bytes cf D kf v t = ROk (p ++ q) -> zlen (p ++ q) <= isize_max ->
  (cf_est_override cf = true -> zeros D v t = 0) -> q <> [] ->
  exists e, decodes WSlice cf D t p (RErr (DParse e)) /\ slice_may_be_short e = true.
Proof.
  intros HD HI HW HS Hc HV HE HL HZ Hq.
  destruct (truncated_thm cf D I kf t v (p ++ q) WSlice p q HD HI HW HS HV HE HL HZ eq_refl Hq) as (out & Ho & [[e ->]|(-> & _ & Hm & _)]); [|congruence].
  exists e. split; [exact Ho|]. destruct (slice_may_be_short e) eqn:Es; [reflexivity|exfalso].
  pose proof (slice_final cf D I t p e q HI HS HL Ho Es) as H1.
  assert (Hd : decodable I t = true) by (unfold self_delimiting in HS; unfold decodable; destruct (kind_of I t) as [[|]|]; [reflexivity|discriminate HS|discriminate HS]).
  pose proof (round_trip_thm cf D I kf t v (p ++ q) WSlice HD HI HW Hd HV HE HL HZ (fun _ => Hc)) as H2.
  pose proof (settles_unique _ _ _ H1 H2) as E. discriminate E.
Qed.
