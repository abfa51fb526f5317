(** A ByteParser over [p] and one over [p ++ q]: the first notices a difference only by
    running out of bytes. *)
From Coq Require Import Lia.
From Verif Require Import Base BaseLemmas ModelErrors ModelParser ModelInt ModelFloat ModelUtf8 ModelTarget ModelSchema
  SpecCodec SpecParser SpecFinal ProofDec ProofSettle ProofCodec ProofCodecThms ProofMemoSame.
From Coq Require Import ZifyBool.

Lemma slice_grow {A} (p q : list A) i j : 0 <= i -> j <= zlen p -> zslice i j (p ++ q) = zslice i j p.
Proof.
  intros Hi Hj. unfold zslice, ztake, zdrop, zlen in *.
  rewrite skipn_app. rewrite firstn_app. rewrite skipn_length.
  destruct (Z.le_gt_cases j i) as [H|H].
  - replace (Z.to_nat (j - i)) with 0%nat by lia. reflexivity.
  - replace (Z.to_nat (j - i) - (length p - Z.to_nat i))%nat with 0%nat by lia.
    cbn [firstn]. apply app_nil_r.
Qed.

Section Grow.
Variables (m : mode) (p q : list byte).
Hypothesis Hpq : zlen (p ++ q) <= isize_max.

Definition frames (st : byte_parser) : list Z := co_frames (bp_off st).

Definition R (st st' : byte_parser) : Prop :=
  exists fs c, st = mkBP p (mkCO (zlen p) fs c) /\ st' = mkBP (p ++ q) (mkCO (zlen (p ++ q)) fs c) /\
    0 <= c <= zlen p /\ Forall (fun x => x <= zlen p) fs.

Definition short {A} (r : pres A) : Prop :=
  match r with
  | RErr e => may_be_short (zlen p) e = true
  | RPanic => m = Debug
  | _ => False
  end.

Definition tracks {A} (st : byte_parser) (a b : pres A * byte_parser) : Prop :=
  short (fst a) \/ (fst a = fst b /\ (forall x, fst a = ROk x -> R (snd a) (snd b) /\ frames (snd a) = frames st)).

(** [out]: also outside of every window. *)
Definition sim {A} (out : bool) (pg : prog A) : Prop :=
  forall st st', R st st' -> (out = true \/ frames st <> []) ->
  tracks st (run (byte_h m) pg st) (run (byte_h m) pg st').

Lemma sim_ret {A} out (a : A) : sim out (PRet a).
Proof. intros st st' H _. right. cbn. split; [reflexivity|]. intros x _. auto. Qed.
Lemma sim_err {A} out e : @sim A out (PErr e).
Proof. intros st st' H _. right. cbn. split; [reflexivity|]. discriminate. Qed.
Lemma sim_panic {A} out : @sim A out PPanic.
Proof. intros st st' H _. right. cbn. split; [reflexivity|]. discriminate. Qed.
Lemma sim_div {A} out : @sim A out PDiv.
Proof. intros st st' H _. right. cbn. split; [reflexivity|]. discriminate. Qed.
Lemma sim_lift {A} out (r : pres A) : sim out (plift r).
Proof. destruct r; intros st st' H _; right; cbn; (split; [reflexivity|]); try discriminate. intros x _. auto. Qed.

Lemma sim_bind {A B} out (pg : prog A) (k : A -> prog B) :
  sim out pg -> (forall a, sim out (k a)) -> sim out (pbind pg k).
Proof.
  intros H Hk st st' HR Ho. specialize (H st st' HR Ho). unfold tracks in *. rewrite !run_pbind.
  destruct (run (byte_h m) pg st) as [r s] eqn:E, (run (byte_h m) pg st') as [r' s'] eqn:E'. cbn [fst snd] in H.
  destruct H as [H|[<- H]].
  - destruct r; cbn in H; try contradiction; left; exact H.
  - destruct r as [a|e| | |]; try (right; split; [reflexivity|discriminate]).
    destruct (H a eq_refl) as [HR' Hf]. rewrite <- Hf. apply Hk; [exact HR'|].
    rewrite Hf. exact Ho.
Qed.

Lemma sim_weak {A} (pg : prog A) : sim true pg -> sim false pg.
Proof. intros H st st' HR _. apply H; auto. Qed.

(** ** Single calls *)
Lemma limit_cases fs c :
  (fs = [] /\ co_limit (mkCO (zlen p) fs c) = zlen p /\ co_limit (mkCO (zlen (p ++ q)) fs c) = zlen (p ++ q)) \/
  (fs <> [] /\ co_limit (mkCO (zlen (p ++ q)) fs c) = co_limit (mkCO (zlen p) fs c)).
Proof. destruct fs as [|t fs]; [left|right]; repeat split; auto; discriminate. Qed.

Lemma limit_le fs c : Forall (fun x => x <= zlen p) fs -> co_limit (mkCO (zlen p) fs c) <= zlen p.
Proof. intros H. destruct fs as [|t fs]; cbn; [lia|]. inversion H; subst; assumption. Qed.

Lemma uadd_cases {E} a b : (exists s, @uadd E m a b = ROk s) \/ @uadd E m a b = RPanic.
Proof. unfold uadd. destruct (_ <? _); [eauto|]. destruct m; eauto. Qed.

Lemma sim_consume out n : sim out (p_consume n).
Proof.
  intros st st' (fs & c & -> & -> & Hc & Hf) _. unfold p_consume. rewrite !run_do_op. cbn [byte_h].
  unfold bp_consume, co_advance, increment_checked. cbn [bp_buf bp_off co_cur co_abs co_frames].
  pose proof (limit_le fs c Hf) as HL. pose proof (zlen_nonneg q) as Hq. pose proof (zlen_app p q) as Ha.
  destruct (@uadd_cases parse_error c n) as [[s Es]| ->]; [|right; split; [reflexivity|discriminate]].
  rewrite Es; cbn [rbind]; rewrite ?Es; cbn [rbind rmap].
  destruct (limit_cases fs c) as [(-> & El & El')|(Hn & El)].
  - rewrite El, El'. destruct (Z.leb_spec s (zlen p)) as [Hs|Hs].
    + replace (s <=? zlen (p ++ q)) with true by lia. cbn [rbind rmap].
      unfold vb_get_slice_unchecked. rewrite Es. cbn [rbind].
      replace (s <=? zlen p) with true by lia. replace (s <=? zlen (p ++ q)) with true by lia.
      destruct (Z.leb_spec c s) as [Hcs|Hcs]; cbn [andb].
      * right. cbn [fst snd]. split; [rewrite slice_grow by lia; reflexivity|].
        intros x _. split; [exists [], s; repeat split; auto; lia|reflexivity].
      * right. cbn [fst snd]. split; [reflexivity|discriminate].
    + left. cbn. apply Z.eqb_refl.
  - rewrite El. destruct (Z.leb_spec s (co_limit (mkCO (zlen p) fs c))) as [Hs|Hs].
    + cbn [rbind rmap]. unfold vb_get_slice_unchecked. rewrite Es. cbn [rbind].
      replace (s <=? zlen p) with true by lia. replace (s <=? zlen (p ++ q)) with true by lia.
      destruct (Z.leb_spec c s) as [Hcs|Hcs]; cbn [andb].
      * right. cbn [fst snd]. split; [rewrite slice_grow by lia; reflexivity|].
        intros x _. split; [exists fs, s; repeat split; auto; lia|reflexivity].
      * right. cbn [fst snd]. split; [reflexivity|discriminate].
    + right. cbn [fst snd rmap rbind]. unfold bp_view_len. cbn [bp_off]. rewrite El. split; [reflexivity|discriminate].
Qed.

(** Reading one byte: the same byte, or both fail, or only the shorter one fails at its end. *)
Lemma byte_cases st st' : R st st' ->
  (exists b s s', byte_h m _ OpConsumeByte st = (ROk b, s) /\ byte_h m _ OpConsumeByte st' = (ROk b, s') /\ R s s' /\
     frames s = frames st /\ co_cur (bp_off s) = co_cur (bp_off st) + 1) \/
  (exists e s, byte_h m _ OpConsumeByte st = (RErr e, s) /\
     (may_be_short (zlen p) e = true \/ exists s', byte_h m _ OpConsumeByte st' = (RErr e, s'))).
Proof.
  intros (fs & c & -> & -> & Hc & Hf). cbn [byte_h].
  unfold bp_consume_byte, co_advance, increment_checked. cbn [bp_buf bp_off co_cur co_abs co_frames].
  pose proof (limit_le fs c Hf) as HL. pose proof (zlen_nonneg q) as Hq. pose proof (zlen_app p q) as Ha.
  assert (Es : forall E, @uadd E m c 1 = ROk (c + 1)).
  { intros E. unfold uadd. replace (c + 1 <? usize_mod) with true; [reflexivity|].
    assert (isize_max < usize_mod - 1) by reflexivity. lia. }
  rewrite !Es; cbn [rbind rmap].
  assert (G : c + 1 <= zlen p -> vb_get_byte (E := parse_error) c (p ++ q) = vb_get_byte c p /\ exists b, vb_get_byte (E := parse_error) c p = ROk b).
  { intros H. unfold vb_get_byte, vb_get_byte_unchecked, rassert.
    replace (c <=? zlen p) with true by lia. replace (c <=? zlen (p ++ q)) with true by lia. cbn [rbind].
    rewrite nth_error_app1 by (unfold zlen in *; lia). split; [reflexivity|].
    destruct (nth_error p (Z.to_nat c)) eqn:En; [eauto|]. apply nth_error_None in En. unfold zlen in *. lia. }
  destruct (limit_cases fs c) as [(-> & El & El')|(Hn & El)].
  - rewrite El, El'. destruct (Z.leb_spec (c + 1) (zlen p)) as [Hs|Hs].
    + replace (c + 1 <=? zlen (p ++ q)) with true by lia. rewrite ?Es. cbn [rbind rmap].
      destruct (G Hs) as [G1 [b G2]]. rewrite G1, G2. left. do 3 eexists. split; [reflexivity|]. split; [reflexivity|].
      split; [exists [], (c + 1); repeat split; auto; lia|]. split; reflexivity.
    + right. do 2 eexists. split; [reflexivity|]. left. cbn. apply Z.eqb_refl.
  - rewrite El. destruct (Z.leb_spec (c + 1) (co_limit (mkCO (zlen p) fs c))) as [Hs|Hs].
    + rewrite ?Es. cbn [rbind rmap]. destruct (G ltac:(lia)) as [G1 [b G2]]. rewrite G1, G2. left. do 3 eexists. split; [reflexivity|]. split; [reflexivity|].
      split; [exists fs, (c + 1); repeat split; auto; lia|]. split; reflexivity.
    + right. cbn [rbind rmap]. do 2 eexists. split; [reflexivity|]. right. unfold bp_view_len. cbn [bp_off]. rewrite El. eauto.
Qed.

Lemma sim_consume_byte out : sim out p_consume_byte.
Proof.
  intros st st' H _. unfold p_consume_byte. rewrite !run_do_op. unfold tracks.
  destruct (byte_cases st st' H) as [(b & s & s' & -> & -> & HR & Hf & _)|(e & s & -> & [Hs|[s' ->]])].
  - right. cbn [fst snd]. split; [reflexivity|]. auto.
  - left. exact Hs.
  - right. split; [reflexivity|discriminate].
Qed.

Lemma sim_remainder : sim false p_remainder.
Proof.
  intros st st' HR [Ho|Ho]; [discriminate|]. pose proof HR as (fs & c & -> & -> & Hc & Hf). unfold frames in Ho. cbn in Ho.
  unfold p_remainder. rewrite !run_do_op. cbn [byte_h]. right. cbn [fst snd]. split; [|auto].
  unfold bp_remainder, bp_view_len, bp_offset, co_index. cbn [bp_off co_cur].
  destruct (limit_cases fs c) as [(-> & _)|(Hn & ->)]; [congruence|reflexivity].
Qed.

Lemma remainder_out c : 0 <= c <= zlen p ->
  run (byte_h m) p_remainder (mkBP p (mkCO (zlen p) [] c)) = (ROk (zlen p - c), mkBP p (mkCO (zlen p) [] c)) /\
  run (byte_h m) p_remainder (mkBP (p ++ q) (mkCO (zlen (p ++ q)) [] c)) = (ROk (zlen p + zlen q - c), mkBP (p ++ q) (mkCO (zlen (p ++ q)) [] c)).
Proof.
  intros H. unfold p_remainder. rewrite !run_do_op. cbn [byte_h]. unfold bp_remainder, bp_view_len, bp_offset, co_index, co_limit, usub.
  cbn [bp_off co_cur co_frames co_abs fs_peek hd_error]. pose proof (zlen_app p q) as Ha. pose proof (zlen_nonneg q).
  replace (c <=? zlen p) with true by lia. replace (c <=? zlen (p ++ q)) with true by lia. rewrite Ha. auto.
Qed.

Lemma sim_window {A} out n (body : prog A) (k : A -> prog A) :
  sim false body -> (forall a, sim out (k a)) ->
  sim out (p_set_fit n ;;; v <- body ;; p_enforce_target ;;; k v).
Proof.
  intros Hb Hk st st' (fs & c & -> & -> & Hc & Hf) Ho. unfold p_set_fit, p_enforce_target, tracks. rewrite !run_pbind, !run_do_op. cbn [byte_h].
  unfold bp_set_fit, co_set_fit, co_index. cbn [bp_buf bp_off co_cur co_abs co_frames].
  pose proof (zlen_nonneg q) as Hq. pose proof (zlen_app p q) as Ha.
  destruct (@uadd_cases parse_error c n) as [[s Es]| ->]; [|right; split; [reflexivity|discriminate]].
  rewrite Es. destruct (Z.ltb_spec (zlen p) s) as [Hs|Hs].
  - left. unfold usub. destruct (n <=? zlen p); cbn [rbind fst]; [reflexivity|]. unfold short. destruct m; reflexivity.
  - replace (zlen (p ++ q) <? s) with false by lia. unfold fs_push_frame.
    destruct (detect_error (fs_peek fs) s) as [we|] eqn:Ed; [right; split; [reflexivity|discriminate]|].
    assert (HR : R (mkBP p (mkCO (zlen p) (s :: fs) c)) (mkBP (p ++ q) (mkCO (zlen (p ++ q)) (s :: fs) c))).
    { exists (s :: fs), c. repeat split; auto; lia. }
    assert (Hne : frames (mkBP p (mkCO (zlen p) (s :: fs) c)) <> []) by discriminate.
    specialize (Hb _ _ HR (or_intror Hne)). unfold tracks in Hb. cbv beta iota zeta. rewrite !run_pbind.
    destruct (run (byte_h m) body (mkBP p (mkCO (zlen p) (s :: fs) c))) as [r s1] eqn:E1.
    destruct (run (byte_h m) body (mkBP (p ++ q) (mkCO (zlen (p ++ q)) (s :: fs) c))) as [r' s1'] eqn:E2. cbn [fst snd] in Hb.
    destruct Hb as [Hb|[<- Hb]].
    + destruct r; cbn in Hb; try contradiction; left; exact Hb.
    + destruct r as [a|e| | |]; try (right; split; [reflexivity|discriminate]).
      destruct (Hb a eq_refl) as [(fs1 & c1 & -> & -> & Hc1 & Hf1) Hfs]. unfold frames in Hfs. cbn in Hfs. subst fs1.
      rewrite !run_pbind, !run_do_op. cbn [byte_h]. unfold bp_enforce_target, co_enforce_target, co_index. cbn [bp_buf bp_off co_cur co_abs co_frames].
      destruct (s ?= c1); try (right; split; [reflexivity|discriminate]).
      change (tracks (mkBP p (mkCO (zlen p) fs c1)) (run (byte_h m) (k a) (mkBP p (mkCO (zlen p) fs c1)))
        (run (byte_h m) (k a) (mkBP (p ++ q) (mkCO (zlen (p ++ q)) fs c1)))).
      apply Hk; [exists fs, c1; repeat split; auto; lia|]. exact Ho.
Qed.

(** ** Numbers *)
Lemma sim_int out k : sim out (p_int k).
Proof. unfold p_int, p_take_fixed, p_consume_arr. repeat (apply sim_bind; [|intros]); try apply sim_consume; try apply sim_lift; apply sim_ret. Qed.
Lemma sim_fixed out n : sim out (p_take_fixed n).
Proof. unfold p_take_fixed, p_consume_arr. apply sim_bind; [apply sim_consume|intros; apply sim_lift]. Qed.
Lemma sim_bool out : sim out p_take_bool.
Proof. apply sim_bind; [apply sim_consume_byte|]. intros b. destruct (_ =? _); [apply sim_ret|]. destruct (_ =? _); [apply sim_ret|apply sim_err]. Qed.
Lemma sim_tagword out k tags : sim out (p_take_tagword k tags).
Proof. apply sim_bind; [apply sim_int|]. intros b. destruct (existsb _ _); [apply sim_ret|]. destruct tags; apply sim_err. Qed.
Lemma sim_ranged out cf k lo hi : sim out (p_ranged cf k lo hi).
Proof. apply sim_bind; [apply sim_int|]. intros; apply sim_lift. Qed.
Lemma sim_pref out cf s : sim out (p_pref cf s).
Proof. destruct s; cbn [p_pref]; try apply sim_int. apply sim_bind; [apply sim_ranged|intros; apply sim_ret]. Qed.

Lemma sim_self_loop term : forall k k' ret st st', R st st' ->
  (k = k' \/ (zlen p - co_cur (bp_off st) < Z.of_nat k /\ (k <= k')%nat)) ->
  tracks st (run (byte_h m) (p_self_terminating_loop k term ret) st) (run (byte_h m) (p_self_terminating_loop k' term ret) st').
Proof.
  induction k as [|k IH]; intros k' ret st st' HR Hk.
  - destruct Hk as [<- |[Hk _]].
    + right. split; [reflexivity|discriminate].
    + destruct HR as (fs & c & -> & -> & Hc & Hf). cbn in Hk. lia.
  - destruct k' as [|k']; [destruct Hk as [Hk|[_ Hk]]; [discriminate|lia]|]. cbn [p_self_terminating_loop run].
    destruct (byte_cases st st' HR) as [(b & s & s' & -> & -> & HR' & Hf & Hc)|(e & s & -> & _)].
    + destruct (term b).
      * right. cbn [fst snd run]. split; [reflexivity|]. auto.
      * unfold tracks. rewrite <- Hf. apply IH; [exact HR'|]. destruct Hk as [Hk|[Hk1 Hk2]]; [left; congruence|right]. rewrite Hc. lia.
    + left. reflexivity.
Qed.

Lemma sim_self out term : sim out (p_take_self_terminating term).
Proof.
  intros st st' HR Ho. pose proof HR as (fs & c & -> & -> & Hc & Hf). unfold p_take_self_terminating.
  destruct fs as [|t fs].
  - unfold tracks. rewrite !run_pbind. destruct (remainder_out c Hc) as [-> ->].
    pose proof (zlen_app p q) as Ha. pose proof (zlen_nonneg q) as Hq.
    replace (zlen p - c <=? isize_max) with true by lia. replace (zlen p + zlen q - c <=? isize_max) with true by lia.
    apply sim_self_loop; [exact HR|]. right. cbn [bp_off co_cur]. lia.
  - assert (Hne : frames (mkBP p (mkCO (zlen p) (t :: fs) c)) <> []) by discriminate.
    pose proof (sim_remainder _ _ HR (or_intror Hne)) as Hr. unfold tracks in *. rewrite !run_pbind.
    destruct (run (byte_h m) p_remainder (mkBP p (mkCO (zlen p) (t :: fs) c))) as [r s] eqn:E1.
    destruct (run (byte_h m) p_remainder (mkBP (p ++ q) (mkCO (zlen (p ++ q)) (t :: fs) c))) as [r' s'] eqn:E2.
    cbn [fst snd] in Hr. destruct Hr as [Hr|[<- Hr]].
    + destruct r; cbn in Hr; try contradiction; left; exact Hr.
    + destruct r as [a|e| | |]; try (right; split; [reflexivity|discriminate]).
      destruct (Hr a eq_refl) as [HR' <-]. destruct (a <=? isize_max); [|right; split; [reflexivity|discriminate]].
      apply sim_self_loop; auto.
Qed.

(** ** Sequences *)
Lemma sim_seq_loop {A} (e : prog A) : sim false e -> forall k seq, sim false (p_seq_loop k e seq).
Proof.
  intros He. induction k as [|k IH]; intros seq; cbn [p_seq_loop]; [apply sim_div|].
  apply sim_bind; [apply sim_remainder|]. intros rem. destruct (rem =? 0); [apply sim_ret|]. apply sim_bind; auto.
Qed.
Lemma sim_lim_loop {A} (e : prog A) n : sim false e -> forall k seq, sim false (p_lim_loop k n e seq).
Proof.
  intros He. induction k as [|k IH]; intros seq; cbn [p_lim_loop]; [apply sim_div|].
  apply sim_bind; [apply sim_remainder|]. intros rem. destruct (rem =? 0); [apply sim_ret|]. apply sim_bind; [auto|].
  intros. apply sim_bind; [apply sim_lift|]. auto.
Qed.
Lemma sim_fix_loop {A} (e : prog A) n out : sim out e -> forall k seq, sim out (p_fix_loop k n e seq).
Proof.
  intros He. induction k as [|k IH]; intros seq; cbn [p_fix_loop]; [apply sim_div|].
  intros st st' HR Ho. pose proof HR as (fs & c & -> & -> & Hc & Hf).
  destruct fs as [|t fs].
  - unfold tracks. rewrite !run_pbind. destruct (remainder_out c Hc) as [-> ->].
    pose proof (zlen_nonneg q) as Hq.
    destruct (Z.eqb_spec (zlen p - c) 0) as [E0|E0].
    + cbn [negb andb]. destruct (zlen seq =? n) eqn:En.
      * replace (zlen seq <? n) with false by lia. rewrite Bool.andb_false_r.
        right. cbn [run fst snd]. split; [reflexivity|]. auto.
      * left. reflexivity.
    + replace (zlen p + zlen q - c =? 0) with false by lia. cbn [negb andb].
      assert (G : sim out (if zlen seq <? n then v <- e ;; p_fix_loop k n e (seq ++ [v])
        else if zlen seq =? n then PRet seq else PErr (EExternal (LengthViolation (WrongLength n (zlen seq)))))).
      { destruct (zlen seq <? n); [apply sim_bind; auto|]. destruct (zlen seq =? n); [apply sim_ret|apply sim_err]. }
      apply G; assumption.
  - assert (G : sim false (rem <- p_remainder ;; (if negb (rem =? 0) && (zlen seq <? n) then v <- e ;; p_fix_loop k n e (seq ++ [v])
        else if zlen seq =? n then PRet seq else PErr (EExternal (LengthViolation (WrongLength n (zlen seq))))))).
    { apply sim_bind; [apply sim_remainder|]. intros rem. destruct (negb _ && _).
      - apply sim_bind; [destruct out; [apply sim_weak|]; assumption|]. intros a. destruct out; [apply sim_weak|]; apply IH.
      - destruct (zlen seq =? n); [apply sim_ret|apply sim_err]. }
    apply G; [exact HR|]. right. discriminate.
Qed.

Lemma sim_fields out (f : ty -> prog val) ts : Forall (fun t => sim out (f t)) ts -> sim out (p_fields f ts).
Proof.
  induction 1; cbn [p_fields]; [apply sim_ret|]. apply sim_bind; [assumption|]. intros. apply sim_bind; [assumption|]. intros; apply sim_ret.
Qed.

(** ** Types *)
Variables (cf : config) (D : list def).

Ltac prims := first [apply sim_ret|apply sim_err|apply sim_panic|apply sim_div|apply sim_lift|apply sim_consume|apply sim_consume_byte
  |apply sim_int|apply sim_fixed|apply sim_bool|apply sim_tagword|apply sim_ranged|apply sim_pref|apply sim_self].
Ltac walk := repeat first [prims|apply sim_bind; [|intros]|match goal with |- sim _ (if ?b then _ else _) => destruct b end].

Lemma parse_in : forall f t, sim false (parse cf D f t).
Proof.
  induction f as [|f IH]; intros t; cbn [parse]; [apply sim_div|].
  destruct t; try (walk; fail);
    try (repeat first [prims|apply sim_remainder|apply IH|apply sim_bind; [|intros]|match goal with |- sim _ (if ?b then _ else _) => destruct b end]; fail).
  - apply sim_bind; [apply sim_seq_loop; apply IH|intros; apply sim_ret].
  - apply sim_bind; [apply sim_lim_loop; apply IH|intros; apply sim_ret].
  - apply sim_bind; [apply sim_fix_loop; apply IH|intros; apply sim_ret].
  - apply sim_bind; [apply sim_pref|]. intros. apply (sim_window false _ (parse cf D f t) (fun v => PRet (VWrap v))); [apply IH|intros; apply sim_ret].
  - apply sim_bind; [apply sim_remainder|]. intros. apply sim_bind; [apply sim_lift|]. intros. apply sim_bind; [apply sim_lift|]. intros.
    apply (sim_window false _ (parse cf D f t) (fun v => PRet (VWrap v))); [apply IH|intros; apply sim_ret].
  - assert (G : forall ts, sim false (p_fields (parse cf D f) ts)) by (intros; apply sim_fields; apply Forall_forall; auto).
    destruct (nth_error D i) as [[ts|k tags|k alts]|]; walk; auto.
    + destruct (find_tag _ _); walk.
    + destruct (find_tag _ _); walk. destruct (nth_error _ _) as [[? ?]|]; walk; auto.
Qed.

Variable I : list tinfo.
Hypothesis HI : disciplined D I = true.

Lemma delim_fields ts : kind_fields I ts = Some Delim -> Forall (fun t => kind_of I t = Some Delim) ts.
Proof.
  induction ts as [|t ts IH]; intros H; constructor; cbn [kind_fields] in H.
  - destruct (kind_of I t) as [[|n]|]; auto; try discriminate. destruct (kind_fields I ts) as [[|]|]; try discriminate.
    destruct (len_fields I ts); try discriminate. destruct (_ && _); discriminate.
  - apply IH. destruct (kind_of I t) as [[|n]|]; auto; try discriminate. destruct (kind_fields I ts) as [[|]|]; try discriminate.
    reflexivity.
Qed.

Lemma delim_check ts : kind_check (kind_fields I ts) Delim = true -> kind_fields I ts = Some Delim.
Proof. destruct (kind_fields I ts) as [[|]|]; cbn; congruence. Qed.

Lemma parse_out : forall f t, kind_of I t = Some Delim -> sim true (parse cf D f t).
Proof.
  induction f as [|f IH]; intros t K; cbn [parse]; [apply sim_div|].
  destruct t; cbn [kind_of] in K; try discriminate K; try (walk; fail);
    try (repeat first [prims|apply IH; exact K|apply sim_bind; [|intros]|match goal with |- sim _ (if ?b then _ else _) => destruct b end]; fail).
  - exfalso. destruct (kind_of I t) as [k|]; [destruct (greedy_ok k && nonempty I t)|]; discriminate K.
  - exfalso. destruct (kind_of I t) as [[|]|]; [destruct (nonempty I t)| |]; discriminate K.
  - exfalso. destruct (kind_of I t) as [[|]|]; [destruct (nonempty I t)| |]; discriminate K.
  - apply sim_bind; [apply sim_fix_loop|intros; apply sim_ret]. apply IH.
    destruct (kind_of I t) as [[|]|]; try discriminate K. reflexivity.
  - apply sim_bind; [apply sim_pref|]. intros. apply (sim_window true _ (parse cf D f t) (fun v => PRet (VWrap v))); [apply parse_in|intros; apply sim_ret].
  - exfalso. destruct (kind_of I t) as [k|]; [destruct (greedy_ok k)|]; discriminate K.
  - assert (K' : kind_of I t = Some Delim) by (destruct (kind_of I t) as [[|]|]; [reflexivity| |]; [destruct (_ <=? _)|]; discriminate K).
    apply sim_bind; [apply IH; exact K'|]. intros. walk.
  - injection K as K.
    assert (G : forall ts, kind_check (kind_fields I ts) (ti_kind (info I i)) = true -> sim true (p_fields (parse cf D f) ts)).
    { intros ts Hts. rewrite K in Hts. apply sim_fields. apply delim_check, delim_fields in Hts. eapply Forall_impl; [|exact Hts]. auto. }
    destruct (nth_error D i) as [[ts|k tags|k alts]|] eqn:En; walk.
    + apply G. pose proof (disciplined_nth D I i _ HI En) as C. cbn [check_def] in C. lia.
    + destruct (find_tag _ _); walk.
    + destruct (find_tag _ _) as [ix|]; walk. destruct (nth_error alts ix) as [[? ts]|] eqn:Ea; walk. apply G.
      pose proof (disciplined_nth D I i _ HI En) as C. cbn [check_def] in C. rewrite forallb_forall in C.
      specialize (C _ (nth_error_In _ _ Ea)). cbn [snd] in C. lia.
Qed.
End Grow.

(** ** Whole inputs *)
Lemma start p q : R p q (bp_from_buffer p) (bp_from_buffer (p ++ q)).
Proof. exists [], 0. repeat split; auto; try lia. apply zlen_nonneg. Qed.

Lemma final_run cf D I f t p q e st :
  disciplined D I = true -> self_delimiting I t = true -> zlen (p ++ q) <= isize_max ->
  run (byte_h (cf_mode cf)) (parse cf D f t) (bp_from_buffer p) = (RErr e, st) -> may_be_short (zlen p) e = false ->
  fst (run (byte_h (cf_mode cf)) (parse cf D f t) (bp_from_buffer (p ++ q))) = RErr e.
Proof.
  intros HI HS HL Er Hs. assert (K : kind_of I t = Some Delim) by (unfold self_delimiting in HS; destruct (kind_of I t) as [[|]|]; congruence).
  destruct (parse_out (cf_mode cf) p q HL cf D I HI f t K _ _ (start p q) (or_introl eq_refl)) as [H|[H _]]; rewrite Er in H; cbn in H; congruence.
Qed.

Lemma final_errors cf D I t p e q :
  disciplined D I = true -> self_delimiting I t = true -> zlen (p ++ q) <= isize_max ->
  decodes WByte cf D t p (RErr (DParse e)) -> may_be_short (zlen p) e = false ->
  decodes WByte cf D t (p ++ q) (RErr (DParse e)).
Proof.
  intros HI HS HL [_ [f0 H]] Hs. split; [discriminate|]. exists f0. intros f Hf. specialize (H f Hf).
  cbn [decode_with] in *. unfold byte_decode, try_decode in *.
  destruct (run (byte_h (cf_mode cf)) (parse cf D f t) (bp_from_buffer p)) as [r st] eqn:Er.
  assert (r = RErr e) as ->.
  { destruct r as [v|e'| | |]; try discriminate H; [|congruence]. destruct (cf_complete cf); [|discriminate H].
    destruct (bp_cleanup _ _) as [lo|?| | |]; try discriminate H. destruct (lo_is_empty lo); discriminate H. }
  pose proof (final_run cf D I f t p q e st HI HS HL Er Hs) as E.
  destruct (run (byte_h (cf_mode cf)) (parse cf D f t) (bp_from_buffer (p ++ q))) as [r' st']. cbn [fst] in E. subst r'. reflexivity.
Qed.

Definition both (w : which_parser) (cf : config) (D : list def) (t : ty) : Prop :=
  match w with
  | WByte => True
  | WMemo => wf_defs D = true /\ wf_ty D t = true /\ pads_ok cf D t = true
  | WSlice => False
  end.
Lemma as_byte w cf D t input out : both w cf D t -> zlen input <= isize_max -> decodes w cf D t input out <-> decodes WByte cf D t input out.
Proof.
  destruct w; cbn [both]; intros H HL; [tauto| |contradiction]. destruct H as (HD & HW & HP).
  unfold decodes, settles. cbn [decode_with]. split; intros [Hn [f0 H]]; (split; [exact Hn|]); exists f0; intros f Hf; specialize (H f Hf);
    rewrite (memo_decode_same cf D t f input HD HW HP HL) in *; exact H.
Qed.

Lemma final_either w cf D I t p e q :
  wf_defs D = true -> disciplined D I = true -> wf_ty D t = true -> self_delimiting I t = true ->
  w <> WSlice -> pads_ok cf D t = true -> zlen (p ++ q) <= isize_max ->
  decodes w cf D t p (RErr (DParse e)) -> may_be_short (zlen p) e = false ->
  decodes w cf D t (p ++ q) (RErr (DParse e)).
Proof.
  intros HD HI HW HS Hw HP HL H Hs.
  assert (B : both w cf D t) by (destruct w; cbn; auto).
  pose proof (zlen_app p q). pose proof (zlen_nonneg q).
  rewrite as_byte in * by (auto; lia). eapply final_errors; eassumption.
Qed.

Lemma waiting w cf D I kf t v p q :
  wf_defs D = true -> disciplined D I = true -> wf_ty D t = true -> self_delimiting I t = true ->
  w <> WSlice -> pads_ok cf D t = true ->
  well_typed D v t = true -> to_bytes cf D kf v t = ROk (p ++ q) -> zlen (p ++ q) <= isize_max ->
  (cf_est_override cf = true -> zeros D v t = 0) -> q <> [] ->
  exists out, decodes w cf D t p out /\
    ((exists e, out = RErr (DParse e) /\ may_be_short (zlen p) e = true) \/ (out = RPanic /\ cf_mode cf = Debug)).
Proof.
  intros HD HI HW HS Hw HP HV HE HL HZ Hq.
  destruct (truncated_thm cf D I kf t v (p ++ q) w p q HD HI HW HS HV HE HL HZ eq_refl Hq) as (out & Ho & [[e ->]|(-> & Hm & _)]).
  - eexists. split; [exact Ho|]. left. exists e. split; [reflexivity|]. destruct (may_be_short (zlen p) e) eqn:Es; [reflexivity|exfalso].
    pose proof (final_either w cf D I t p e q HD HI HW HS Hw HP HL Ho Es) as H1.
    assert (Hd : decodable I t = true) by (unfold self_delimiting in HS; unfold decodable; destruct (kind_of I t) as [[|]|]; [reflexivity|discriminate HS|discriminate HS]).
    assert (Hsl : w = WSlice -> cf_complete cf = false) by congruence.
    pose proof (round_trip_thm cf D I kf t v (p ++ q) w HD HI HW Hd HV HE HL HZ Hsl) as H2.
    pose proof (settles_unique _ _ _ H1 H2) as E. discriminate E.
  - eexists. split; [exact Ho|]. right. auto.
Qed.

(** Tag 1: a byte and a u16; tag 2: a u16 behind a one-byte length. *)
Definition pair_defs : list def := [DData U8 [(1, [TInt U8; TInt U16]); (2, [TDyn PrefU8 (TInt U16)])]].
Definition pair_info : list tinfo := [mkInfo Delim true None].
Lemma same_error_both cf : cf_mode cf = Debug -> cf_complete cf = true ->
  exists p p' e q v,
    zlen p = zlen p' /\
    decodes WByte cf pair_defs (TNamed 0) p (RErr (DParse e)) /\
    decodes WByte cf pair_defs (TNamed 0) p' (RErr (DParse e)) /\
    decodes WByte cf pair_defs (TNamed 0) (p ++ q) (ROk v) /\
    forall q' v', zlen (p' ++ q') <= isize_max -> ~ decodes WByte cf pair_defs (TNamed 0) (p' ++ q') (ROk v').
Proof.
  intros Em Ec. exists [1; 1; 7], [2; 1; 7], (EWindow (ConsumeWouldExceedLimit 2 2 3)), [8], (VEnum 0 [VInt 1; VInt (7 * 256 + 8)]).
  assert (go : forall input out, (forall f, byte_decode cf pair_defs (S (S (S f))) (TNamed 0) input = out) -> out <> RDiv -> decodes WByte cf pair_defs (TNamed 0) input out).
  { intros input out H Hn. split; [exact Hn|]. exists 3%nat. intros f Hf. destruct f as [|[|[|f]]]; try lia. apply H. }
  assert (E2 : forall f, byte_decode cf pair_defs (S (S (S f))) (TNamed 0) [2; 1; 7] = RErr (DParse (EWindow (ConsumeWouldExceedLimit 2 2 3)))).
  { intros f. unfold byte_decode, try_decode. rewrite Em. reflexivity. }
  split; [reflexivity|]. split; [|split; [|split]].
  - apply go; [|discriminate]. intros f. unfold byte_decode, try_decode. rewrite Em. reflexivity.
  - apply go; [|discriminate]. exact E2.
  - apply go; [|discriminate]. intros f. unfold byte_decode, try_decode. rewrite Em, Ec. reflexivity.
  - intros q' v' HL H. destruct q' as [|x q'].
    + assert (E : decodes WByte cf pair_defs (TNamed 0) ([2; 1; 7] ++ []) (RErr (DParse (EWindow (ConsumeWouldExceedLimit 2 2 3))))) by (apply go; [exact E2|discriminate]).
      pose proof (settles_unique _ _ _ H E). discriminate.
    + assert (E : decodes WByte cf pair_defs (TNamed 0) (([2; 1; 7; x]) ++ q') (RErr (DParse (EWindow (ConsumeWouldExceedLimit 2 2 3))))).
      { apply final_errors with (I := pair_info); [reflexivity|reflexivity|exact HL| |reflexivity].
        apply go; [|discriminate]. intros f. unfold byte_decode, try_decode. rewrite Em. reflexivity. }
      pose proof (settles_unique _ _ _ H E). discriminate.
Qed.

Lemma no_better cf : cf_mode cf = Debug -> cf_complete cf = true ->
  exists D t p p' e q v,
    zlen p = zlen p' /\
    decodes WByte cf D t p (RErr (DParse e)) /\ decodes WByte cf D t p' (RErr (DParse e)) /\
    decodes WByte cf D t (p ++ q) (ROk v) /\
    forall q' v', zlen (p' ++ q') <= isize_max -> ~ decodes WByte cf D t (p' ++ q') (ROk v').
Proof. intros Hm Hc. exists pair_defs, (TNamed 0). exact (same_error_both cf Hm Hc). Qed.

(** ** Length prefixes are values of the prefix types *)
Lemma be_mod n z : big_endian n (z mod 256 ^ Z.of_nat n) = big_endian n z.
Proof.
  revert z. induction n as [|n IH]; intros z; [reflexivity|]. cbn [big_endian].
  rewrite Nat2Z.inj_succ, Z.pow_succ_r by lia.
  assert (Hp : 0 < 256 ^ Z.of_nat n) by (apply Z.pow_pos_nonneg; lia).
  rewrite Z.rem_mul_r by lia. f_equal.
  - replace ((z mod 256 + 256 * ((z / 256) mod 256 ^ Z.of_nat n)) / 256) with ((z / 256) mod 256 ^ Z.of_nat n); [apply IH|].
    rewrite Z.add_comm, Z.mul_comm, Z.div_add_l by lia. rewrite (Z.div_small (z mod 256)) by (apply Z.mod_pos_bound; lia). lia.
  - f_equal. rewrite Z.add_comm, Z.mul_comm, Z.add_comm, Z.mod_add by lia. apply Z.mod_mod. lia.
Qed.
Lemma prefix_values D s t v :
  valid D (VWrap v) (TDyn s t) = valid D v t && valid D (VInt (zlen (format D v t))) (pref_ty s) /\
  format D (VWrap v) (TDyn s t) = format D (VInt (zlen (format D v t))) (pref_ty s) ++ format D v t.
Proof.
  pose proof (zlen_nonneg (format D v t)) as H0.
  split.
  - unfold valid. cbn [valid_gen implb]. f_equal. destruct s; cbn [pref_ty pref_max u30_ty valid_gen].
    + unfold ik_in. change (ik_min U8) with 0. change (ik_max U8) with 255. lia.
    + unfold ik_in. change (ik_min U16) with 0. change (ik_max U16) with 65535. lia.
    + unfold ranged_ok, ik_in. change (ik_min U32) with 0. change (ik_max U32) with (2 ^ 32 - 1). change u30_max with (2 ^ 30 - 1).
      change (0 <? 0) with false. cbv iota. lia.
  - cbn [format]. f_equal. destruct s; cbn [pref_ty u30_ty format]; unfold pref_format, int_format; symmetry.
    + apply (be_mod 1).
    + apply (be_mod 2).
    + apply (be_mod 4).
Qed.
