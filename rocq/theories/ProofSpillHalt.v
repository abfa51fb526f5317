(** Decoding halts in release builds as well, wherever it reads (C30). *)
From Verif Require Import Base BaseLemmas ModelErrors ModelSplitVec ModelParser ModelInt ModelFloat ModelZarith
  ModelUtf8 ModelTarget ModelSchema SpecParser SpecCodec SpecNum SpecUtf8 SpecGrammar SpecPanic SpecSpill
  ProofParser ProofParserSim ProofParserProps ProofParserExact ProofInt ProofSafe ProofDec ProofCodec ProofMeta ProofTransfer
  ProofTyped ProofRoundTrip ProofSettle ProofView ProofBroken ProofNum ProofCodecThms ProofHalt ProofCodecProps ProofGrammar ProofPanic
  ProofSpill ProofSpillAll.
From Coq Require Import ZifyBool.

Lemma idle_empty D I t : nonempty_claims D I -> idle D t -> nonempty I t = false.
Proof.
  intros HC H. induction H using idle_mut with (P0 := fun ts _ => existsb (nonempty I) ts = false); cbn [nonempty existsb]; try reflexivity; try assumption.
  - rewrite IHidle. apply andb_false_r.
  - destruct (ti_nonempty (info I i)) eqn:E; [|reflexivity].
    match goal with H : nth_error D i = Some _ |- _ => pose proof (HC i ts H E) end. congruence.
  - rewrite IHidle, IHidle0. reflexivity.
Qed.

(** Neither a value nor a lack of fuel. *)
Definition ends {A} (r : pres A) : Prop := match r with ROk _ | RDiv => False | _ => True end.

Section Halting.
Context {P : Type} (h : handler P) (inv : P -> Prop) (alpha : P -> wstack) (B : Z -> Z -> P -> Prop) (edge : list (list byte) -> Z).
Hypothesis Href : refines_contract Release h inv alpha.
Hypothesis Hopen : forall p cur outer n, inv p -> alpha p = mkW cur outer -> zlen cur < n <= isize_max ->
  if n <=? edge outer then exists c p', h unit (OpSetFit (zlen cur - n + usize_mod)) p = (ROk tt, p') /\ B (edge outer - n) c p'
  else exists e p', h unit (OpSetFit (zlen cur - n + usize_mod)) p = (RErr e, p').
Hypothesis HBr : forall L c p, B L c p -> 0 <= L < c /\ c <= isize_max.
Hypothesis Hrem : forall L c p, B L c p -> h Z OpRemainder p = (ROk (L - c + usize_mod), p).
Hypothesis Hbyte : forall L c p, B L c p -> exists e p', h byte OpConsumeByte p = (RErr e, p').
Hypothesis Hcons : forall L c p n, B L c p -> 0 <= n <= isize_max -> exists e p', h (list byte) (OpConsume n) p = (RErr e, p').
Hypothesis Hall : forall L c p, B L c p -> fst (h (list byte) (OpConsume (L - c + usize_mod)) p) = RUB.
Hypothesis Hshift : forall L c p n, B L c p -> 0 <= n <= isize_max ->
  if n <=? L then exists p', h unit (OpSetFit (L - c + usize_mod - n)) p = (ROk tt, p') /\ B (L - n) c p'
  else exists e p', h unit (OpSetFit (L - c + usize_mod - n)) p = (RErr e, p').
Hypothesis Hclose : forall L c p, B L c p -> exists e p', h unit OpEnforceTarget p = (RErr e, p').
Variables (cf : config) (D : list def) (I : list tinfo) (R : list nat).
Hypothesis HD : wf_defs D = true.
Hypothesis HMo : cf_mode cf = Release.
Hypothesis HT : terminating D I R = true.
Variable M : Z.
Hypothesis HM : max_rounds D I <= M.

(** ** In a window that ends before the position *)
Definition lives {A} (x : pres A * P) : Prop := fst x <> RDiv.
Lemma lives_fails {A} (pg : prog A) p : fails h pg p -> lives (run h pg p).
Proof. intros (e & p' & E). rewrite E. discriminate. Qed.
Lemma lives_bind {A C} (pg : prog A) (k : A -> prog C) p : lives (run h pg p) ->
  (forall a p', run h pg p = (ROk a, p') -> lives (run h (k a) p')) -> lives (run h (pbind pg k) p).
Proof.
  intros H Hk. rewrite run_pbind. unfold lives in H. destruct (run h pg p) as [[a|e| | |] p']; try discriminate; [apply Hk; reflexivity|exfalso; apply H; reflexivity].
Qed.
Lemma says_now f t L c p a p' : wf_ty D t = true -> B L c p -> run h (parse cf D f t) p = (ROk a, p') -> idle D t /\ B L c p'.
Proof.
  intros HW H E. pose proof (broken_says h B HBr Hrem Hbyte Hcons Hall Hshift Hclose cf D HD HMo f t L c p HW H) as Hs. rewrite E in Hs. exact Hs.
Qed.
Lemma lives_once_seq f t L c p fl acc : wf_ty D t = true -> B L c p -> nonempty I t = true -> (0 < fl)%nat ->
  lives (run h (parse cf D f t) p) -> lives (run h (p_seq_loop fl (parse cf D f t) acc) p).
Proof.
  intros HW H N Hf He. destruct fl as [|fl]; [lia|]. cbn [p_seq_loop]. rewrite (run_rem h B Hrem L c _ p H), (huge B HBr L c p H).
  apply lives_bind; [exact He|]. intros a p' E. destruct (says_now f t L c p a p' HW H E) as [Hi _].
  pose proof (idle_empty D I t (term_claims D I R HT) Hi). congruence.
Qed.
Lemma lives_lim f t L c n : wf_ty D t = true -> (forall p, B L c p -> lives (run h (parse cf D f t) p)) ->
  forall fl acc p, B L c p -> (0 < fl)%nat -> nonempty I t = true \/ Z.max 0 (n - zlen acc) < Z.of_nat fl ->
  lives (run h (p_lim_loop fl n (parse cf D f t) acc) p).
Proof.
  intros HW He. induction fl as [|fl IH]; intros acc p H H0 Hf; [lia|]. cbn [p_lim_loop]. rewrite (run_rem h B Hrem L c _ p H), (huge B HBr L c p H).
  apply lives_bind; [apply He; exact H|]. intros a p' E. destruct (says_now f t L c p a p' HW H E) as [Hi H'].
  pose proof (idle_empty D I t (term_claims D I R HT) Hi) as N. destruct Hf as [Hf|Hf]; [congruence|].
  unfold try_push. destruct (Z.ltb_spec (zlen acc) n); cbn [ext_len plift pbind]; [|discriminate].
  apply IH; [exact H'|lia|]. right. rewrite zlen_app. change (zlen [a]) with 1. lia.
Qed.
Lemma lives_fix f t L c n : wf_ty D t = true -> (forall p, B L c p -> lives (run h (parse cf D f t) p)) ->
  forall fl acc p, B L c p -> (0 < fl)%nat -> nonempty I t = true \/ Z.max 0 (n - zlen acc) < Z.of_nat fl ->
  lives (run h (p_fix_loop fl n (parse cf D f t) acc) p).
Proof.
  intros HW He. induction fl as [|fl IH]; intros acc p H H0 Hf; [lia|]. cbn [p_fix_loop]. rewrite (run_rem h B Hrem L c _ p H), (huge B HBr L c p H).
  cbn [negb andb]. destruct (Z.ltb_spec (zlen acc) n); [|destruct (_ =? _); discriminate].
  apply lives_bind; [apply He; exact H|]. intros a p' E. destruct (says_now f t L c p a p' HW H E) as [Hi H'].
  pose proof (idle_empty D I t (term_claims D I R HT) Hi) as N. destruct Hf as [Hf|Hf]; [congruence|].
  apply IH; [exact H'|lia|]. right. rewrite zlen_app. change (zlen [a]) with 1. lia.
Qed.

Notation need := (need D R M).
Notation low := (low R).
Definition lives_at (f : nat) : Prop := forall t r L c p, wf_ty D t = true ->
  loops_ok I t = true -> rounds I t <= M -> low r (heads t) -> 0 <= r <= max_rank R + 1 ->
  need 0 r (depth t) <= Z.of_nat f -> B L c p -> lives (run h (parse cf D f t) p).

Lemma lives_fields f ts : lives_at f -> forallb (wf_ty D) ts = true -> forallb (loops_ok I) ts = true ->
  (forall t, In t ts -> depth t <= max_depth D /\ rounds I t <= M) ->
  forall r L c p, low r (field_heads I ts) -> 0 <= r <= max_rank R + 1 -> need 0 r (max_depth D) <= Z.of_nat f -> B L c p ->
  lives (run h (p_fields (parse cf D f) ts) p).
Proof.
  intros Hf. induction ts as [|t ts IH]; intros HW HL HM0 r L c p Hlow Hr Hn H; [discriminate|].
  cbn [forallb] in HW, HL. apply andb_prop in HL; destruct HL as [HL1 HL2]. apply andb_prop in HW; destruct HW as [HW1 HW2].
  cbn [field_heads] in Hlow. apply Forall_app in Hlow; destruct Hlow as [Hl1 Hl2].
  destruct (HM0 t (or_introl eq_refl)) as [Hd Hm].
  assert (HM' : forall t, In t ts -> depth t <= max_depth D /\ rounds I t <= M) by (intros; apply HM0; right; assumption).
  cbn [p_fields]. apply lives_bind; [apply (Hf t r L c p); try assumption; unfold need in *; lia|]. intros a p' E.
  destruct (says_now f t L c p a p' HW1 H E) as [Hi H'].
  rewrite (idle_empty D I t (term_claims D I R HT) Hi) in Hl2.
  apply lives_bind; [|intros; discriminate]. apply (IH HW2 HL2 HM' r L c p'); assumption.
Qed.

Lemma lives_all f : lives_at f.
Proof.
  pose proof (M_nonneg D I R HT M HM) as HM1. pose proof (P_pos D I R HT) as HP. pose proof (R_nonneg R) as HR.
  induction f as [|f IH]; intros t r L c p HW HL HMt Hlow Hr Hn H.
  - exfalso. pose proof (depth_pos t). unfold need in Hn. pose proof (Z.mul_nonneg_nonneg r (max_depth D + 1) ltac:(lia) ltac:(lia)). lia.
  - pose proof (Z.mul_nonneg_nonneg r (max_depth D + 1) ltac:(lia) ltac:(lia)) as HrP. unfold need in Hn.
    destruct t; cbn [wf_ty loops_ok heads depth rounds] in HW, HL, HMt, Hlow, Hn; cbn [parse].
    + discriminate.
    + apply lives_fails, fails_bind. unfold p_take_bool. apply fails_bind, fails_op. eapply Hbyte; exact H.
    + apply lives_fails, fails_bind. eapply fails_int; eassumption.
    + apply lives_fails, fails_bind. unfold p_ranged. apply fails_bind. eapply fails_int; eassumption.
    + apply lives_fails, fails_bind. eapply fails_int; eassumption.
    + apply lives_fails, fails_bind. eapply fails_int; eassumption.
    + rewrite run_pbind. pose proof (panics_st h B HBr Hrem L c p zarith_terminal H) as E.
      destruct (run h (p_take_self_terminating zarith_terminal) p) as [q p']. cbn [fst] in E. subst q. discriminate.
    + rewrite run_pbind. pose proof (panics_st h B HBr Hrem L c p zarith_terminal H) as E.
      destruct (run h (p_take_self_terminating zarith_terminal) p) as [q p']. cbn [fst] in E. subst q. discriminate.
    + rewrite (run_rem h B Hrem L c _ p H), run_pbind. unfold p_take_dynamic, p_consume. rewrite run_do_op.
      pose proof (Hall L c p H) as E. destruct (h _ _ p) as [q p']. cbn [fst] in E. subst q. discriminate.
    + rewrite (run_rem h B Hrem L c _ p H), run_pbind. unfold p_take_dynamic, p_consume. rewrite run_do_op.
      pose proof (Hall L c p H) as E. destruct (h _ _ p) as [q p']. cbn [fst] in E. subst q. discriminate.
    + unfold sizeb in HW. apply lives_fails, fails_bind. eapply fails_fixed; [eassumption..|lia].
    + unfold sizeb in HW. apply lives_fails, fails_bind. eapply fails_fixed; [eassumption..|lia].
    + apply lives_fails, fails_bind. eapply fails_tag; eassumption.
    + rewrite (run_rem h B Hrem L c _ p H), (huge B HBr L c p H). cbn [negb]. apply lives_bind; [|discriminate].
      apply (IH t r L c p); try assumption. unfold need; lia.
    + apply andb_prop in HL; destruct HL as [HL1 HL2]. apply lives_bind; [|discriminate]. pose proof (depth_pos t).
      eapply lives_once_seq; [assumption|exact H|assumption|lia|]. apply (IH t r L c p); try assumption. unfold need; lia.
    + apply andb_prop in HW as [_ HW]. apply lives_bind; [|discriminate]. pose proof (depth_pos t). pose proof (rounds_nonneg I t).
      eapply lives_lim; [assumption| |exact H|lia|].
      * intros q Hq. apply (IH t r L c q); try assumption; [lia|unfold need; lia].
      * destruct (nonempty I t); [left; reflexivity|right]. change (zlen (@nil val)) with 0. lia.
    + apply andb_prop in HW as [_ HW]. apply lives_bind; [|discriminate]. pose proof (depth_pos t). pose proof (rounds_nonneg I t).
      eapply lives_fix; [assumption| |exact H|lia|].
      * intros q Hq. apply (IH t r L c q); try assumption; [lia|unfold need; lia].
      * destruct (nonempty I t); [left; reflexivity|right]. change (zlen (@nil val)) with 0. lia.
    + apply lives_fails, fails_bind. eapply fails_pref; eassumption.
    + apply andb_prop in HW as [Hs HW]. unfold sizeb in Hs. rewrite (run_rem h B Hrem L c _ p H), HMo. cbn [debug_assert plift pbind].
      pose proof (HBr L c p H) as [H1 H2]. pose proof isize_max_lt.
      rewrite usub_ok by lia. cbn [plift pbind]. rewrite run_pbind. unfold p_set_fit. rewrite run_do_op.
      assert (Hn' : 0 <= n <= isize_max) by lia. pose proof (Hshift L c p n H Hn') as Hs'. destruct (Z.leb_spec n L) as [Hle|Hgt].
      * destruct Hs' as (p1 & E & Hb). rewrite E. apply lives_bind; [apply (IH t r (L - n) c p1); try assumption; unfold need; lia|].
        intros a p2 E2. destruct (says_now f t _ _ _ _ _ HW Hb E2) as [_ Hb2]. rewrite run_pbind. unfold p_enforce_target. rewrite run_do_op.
        destruct (Hclose _ _ _ Hb2) as (e & p3 & E3). rewrite E3. discriminate.
      * destruct Hs' as (e & p1 & E). rewrite E. discriminate.
    + apply andb_prop in HW as [Hs HW]. unfold sizeb in Hs.
      apply lives_bind; [apply (IH t r L c p); try assumption; unfold need; lia|]. intros a p' E.
      destruct (says_now f t _ _ _ _ _ HW H E) as [_ H']. apply lives_fails, fails_bind, fails_op. eapply Hcons; [exact H'|lia].
    + apply lives_bind; [|discriminate]. apply (IH t r L c p); try assumption; unfold need; lia.
    + destruct (nth_error D i) as [[ts|k tags|k alts]|] eqn:Ei.
      * apply lives_bind; [|discriminate].
        assert (Hr' : Z.of_nat (rank R i) < r) by (inversion Hlow; assumption).
        apply (lives_fields f ts IH) with (r := Z.of_nat (rank R i)) (L := L) (c := c).
        -- eapply wf_struct; eassumption.
        -- apply (fields_loops D I R HT i _ _ Ei). left; reflexivity.
        -- apply (fields_depth D I R HT M HM i _ _ Ei). left; reflexivity.
        -- pose proof (term_nth D I R HT _ _ Ei) as HD'. cbn [term_def] in HD'. apply andb_prop in HD'; destruct HD' as [_ HD'].
           apply andb_prop in HD'; destruct HD' as [_ HD']. rewrite forallb_forall in HD'. apply Forall_forall.
           intros j Hj. specialize (HD' j Hj). lia.
        -- pose proof (rank_le R i). lia.
        -- unfold need. assert ((Z.of_nat (rank R i) + 1) * (max_depth D + 1) <= r * (max_depth D + 1)) by (apply Z.mul_le_mono_nonneg_r; lia). lia.
        -- exact H.
      * apply lives_fails, fails_bind. eapply fails_tag; eassumption.
      * apply lives_fails, fails_bind. eapply fails_tag; eassumption.
      * discriminate.
Qed.

(** ** In an ordinary window of at most [n] bytes *)
Definition stops {A} (n : Z) (pg : prog A) (d : dm A) : Prop :=
  forall p cur outer, inv p -> alpha p = mkW cur outer -> good cur -> zlen cur <= n -> d cur = RUB -> ends (fst (run h pg p)).

Lemma stops_safe {A} n (pg : prog A) (d : dm A) : safe true d -> stops n pg d.
Proof. intros Hs p cur outer _ _ Hg _ Hd. exfalso. exact (proj2 (Hs cur Hg) Hd). Qed.
Lemma stops_ret {A} n (a : A) : stops n (PRet a) (d_ret a).
Proof. apply stops_safe, safe_ret. Qed.
Lemma stops_bind_with {A C} n n' (pg : prog A) (d : dm A) (q : A -> Prop) (k : A -> prog C) (kd : A -> dm C) :
  stops n pg d -> runs pg d -> try_bytes_only pg -> shrinks d ->
  (forall cur a rest, good cur -> d cur = ROk (a, rest) -> q a /\ (zlen cur <= n -> zlen rest <= n')) ->
  (forall a, q a -> stops n' (k a) (kd a)) -> stops n (pbind pg k) (d_bind d kd).
Proof.
  intros Hn Hr Ht Hs Hq Hk p cur outer Hi Ha Hg Hl Hd. rewrite run_pbind.
  unfold d_bind in Hd. destruct (d cur) as [[a0 rest]|e| | |] eqn:Ed; try discriminate Hd.
  - destruct (rel_ok h inv alpha Href pg d p cur outer a0 rest Hr Ht Hi Ha (proj2 Hg) Ed) as (p' & E & Hi' & Ha'). rewrite E.
    destruct (Hq _ _ _ Hg Ed) as [Hq1 Hq2]. apply (Hk a0 Hq1 p' rest outer Hi' Ha'); auto. eapply good_suffix; [eapply Hs; exact Ed|exact Hg].
  - specialize (Hn p cur outer Hi Ha Hg Hl Ed). destruct (run h pg p) as [[a|e| | |] p']; try exact Hn; destruct Hn.
Qed.
Lemma stops_bind {A C} n (pg : prog A) (d : dm A) (k : A -> prog C) (kd : A -> dm C) :
  stops n pg d -> runs pg d -> try_bytes_only pg -> shrinks d -> (forall a, stops n (k a) (kd a)) -> stops n (pbind pg k) (d_bind d kd).
Proof.
  intros Hn Hr Ht Hs Hk. apply (stops_bind_with n n pg d (fun _ => True)); auto. intros cur a rest _ E. split; [exact Logic.I|].
  pose proof (suffix_zlen _ _ (Hs _ _ _ E)). lia.
Qed.
Lemma stops_bind_lt {A C} n (pg : prog A) (d : dm A) (k : A -> prog C) (kd : A -> dm C) :
  stops n pg d -> runs pg d -> try_bytes_only pg -> consumes d -> shrinks d -> (forall a, stops (n - 1) (k a) (kd a)) -> stops n (pbind pg k) (d_bind d kd).
Proof.
  intros Hn Hr Ht Hc Hs Hk. apply (stops_bind_with n (n - 1) pg d (fun _ => True)); auto. intros cur a rest _ E. split; [exact Logic.I|].
  pose proof (Hc _ _ _ E). lia.
Qed.

Lemma stops_window {A C} m n (pg : prog A) (d : dm A) (f : A -> C) : 0 <= n <= isize_max -> stops m pg d ->
  stops m (pbind (p_set_fit n) (fun _ => pbind pg (fun v => pbind p_enforce_target (fun _ => PRet (f v)))))
       (d_bind (d_window n d) (fun v => d_ret (f v))).
Proof.
  intros Hn Hd p cur outer Hi Ha Hg Hl Hu. rewrite run_pbind. unfold p_set_fit. rewrite run_do_op.
  unfold d_bind, d_window in Hu. assert (Es : size_ok n = true) by (unfold size_ok; lia). rewrite Es in Hu.
  destruct (Z.leb_spec n (zlen cur)) as [Hle|]; [|discriminate Hu].
  assert (Hin : in_contract (OpSetFit n) (alpha p) = true) by (cbn [in_contract]; exact Es).
  assert (Hsp : spec_op Keep (OpSetFit n) (alpha p) = (Some tt, mkW (ztake n cur) (zdrop n cur :: outer))).
  { rewrite Ha. cbn [spec_op w_cur w_outer]. destruct (Z.leb_spec n (zlen cur)); [reflexivity|lia]. }
  destruct (h unit (OpSetFit n) p) as [r p1] eqn:E. pose proof (Href _ _ _ _ _ _ _ Hi Hin Hsp E) as Hst.
  destruct r as [u| | | |]; try contradiction; [|exact Logic.I|exact Logic.I].
  destruct Hst as (_ & Hi1 & Ha1). rewrite run_pbind.
  assert (Hg' : good (ztake n cur)) by (destruct Hg; split; [apply bytes_ok_ztake; assumption|rewrite zlen_ztake; lia]).
  assert (Hl' : zlen (ztake n cur) <= m) by (rewrite zlen_ztake by lia; lia).
  assert (Hu' : d (ztake n cur) = RUB) by (destruct (d (ztake n cur)) as [[? [|]]| | | |]; try discriminate Hu; reflexivity).
  specialize (Hd p1 _ _ Hi1 Ha1 Hg' Hl' Hu'). destruct (run h pg p1) as [[a|e| | |] p2]; try exact Hd; destruct Hd.
Qed.

Notation prs f := (parse cf D f).
Notation dcd f := (dec cf D f).
Lemma stops_vpad f m n t : 0 <= n <= isize_max -> wf_ty D t = true -> stops m (prs f t) (dcd f t) ->
  (forall L c p, B L c p -> lives (run h (prs f t) p)) ->
  stops m (pbind p_remainder (fun rem => pbind (plift (usub Release rem n)) (fun win =>
           pbind (p_set_fit win) (fun _ => pbind (prs f t) (fun v => pbind p_enforce_target (fun _ => PRet (VWrap v)))))))
        (d_bind d_rem (fun rem => d_bind (d_lift (usub Release rem n)) (fun win =>
           d_bind (d_window win (dcd f t)) (fun v => d_ret (VWrap v))))).
Proof.
  intros Hn HW Hd Hlv p cur outer Hi Ha Hg Hle Hu. unfold p_remainder. rewrite run_pbind, run_do_op.
  assert (Hsp : spec_op Keep OpRemainder (alpha p) = (Some (zlen cur), mkW cur outer)) by (rewrite Ha; reflexivity).
  destruct (h Z OpRemainder p) as [r p1] eqn:E.
  assert (Hin : in_contract OpRemainder (alpha p) = true) by reflexivity.
  pose proof (Href _ _ _ _ _ _ _ Hi Hin Hsp E) as Hst. destruct r as [rem| | | |]; try contradiction; [|exact Logic.I|exact Logic.I].
  destruct Hst as (E1 & Hi1 & Ha1). injection E1 as <-.
  unfold d_bind at 1, d_rem in Hu. pose proof (zlen_nonneg cur) as Hc0. destruct Hg as [Hb Hl]. pose proof isize_max_lt as HIM.
  destruct (Z_le_dec n (zlen cur)) as [Hfit|Hgt].
  - rewrite usub_ok in Hu |- * by lia. cbn [plift pbind]. unfold d_bind at 1 in Hu. cbn [d_lift] in Hu.
    refine (stops_window m (zlen cur - n) (prs f t) (dcd f t) VWrap _ Hd p1 cur outer Hi1 Ha1 (conj Hb Hl) Hle Hu). lia.
  - assert (EU : @usub parse_error Release (zlen cur) n = ROk (zlen cur - n + usize_mod)).
    { unfold usub. destruct (Z.leb_spec n (zlen cur)); [lia|]. f_equal.
      rewrite <- (Z.mod_add _ 1) by (unfold usize_mod; lia). rewrite Z.mul_1_l. apply Z.mod_small. lia. }
    rewrite EU. cbn [plift pbind]. rewrite run_pbind. unfold p_set_fit. rewrite run_do_op.
    assert (Hn' : zlen cur < n <= isize_max) by lia. pose proof (Hopen p1 cur outer n Hi1 Ha1 Hn') as Ho. destruct (n <=? edge outer).
    + destruct Ho as (c & p2 & E2 & Hb2). rewrite E2, run_pbind. specialize (Hlv _ _ _ Hb2). unfold lives in Hlv.
      destruct (run h (prs f t) p2) as [[a|e| | |] p3] eqn:E3; try exact Logic.I; [|destruct Hlv; reflexivity].
      destruct (says_now f t _ _ _ _ _ HW Hb2 E3) as [_ Hb3]. rewrite run_pbind. unfold p_enforce_target. rewrite run_do_op.
      destruct (Hclose _ _ _ Hb3) as (e & p4 & E4). rewrite E4. exact Logic.I.
    + destruct Ho as (e & p2 & E2). rewrite E2. exact Logic.I.
Qed.

#[local] Hint Resolve stops_ret : dec.
Lemma stops_seq n pe elem fuel : stops n pe elem -> runs pe elem -> try_bytes_only pe -> shrinks elem ->
  forall acc, stops n (p_seq_loop fuel pe acc) (d_seq fuel elem acc).
Proof.
  intros Hn Hr Ht Hs. induction fuel as [|fuel IH]; intros acc; cbn [p_seq_loop d_seq]; [apply stops_safe, safe_div|].
  apply stops_bind; [apply stops_safe, safe_rem|auto with dec|apply try_op|auto with dec|]. intros rem. destruct (rem =? 0); [apply stops_ret|].
  apply stops_bind; auto.
Qed.
Lemma stops_lim n k pe elem fuel : stops n pe elem -> runs pe elem -> try_bytes_only pe -> shrinks elem ->
  forall acc, stops n (p_lim_loop fuel k pe acc) (d_lim fuel k elem acc).
Proof.
  intros Hn Hr Ht Hs. induction fuel as [|fuel IH]; intros acc; cbn [p_lim_loop d_lim]; [apply stops_safe, safe_div|].
  apply stops_bind; [apply stops_safe, safe_rem|auto with dec|apply try_op|auto with dec|]. intros rem. destruct (rem =? 0); [apply stops_ret|].
  apply stops_bind; auto. intros v. apply stops_bind; auto with dec.
  apply stops_safe, safe_lift. unfold try_push. destruct (_ <? _); split; [intros _; discriminate|discriminate|intros _; discriminate|discriminate].
Qed.
Lemma stops_fix n k pe elem fuel : stops n pe elem -> runs pe elem -> try_bytes_only pe -> shrinks elem ->
  forall acc, stops n (p_fix_loop fuel k pe acc) (d_fix fuel k elem acc).
Proof.
  intros Hn Hr Ht Hs. induction fuel as [|fuel IH]; intros acc; cbn [p_fix_loop d_fix]; [apply stops_safe, safe_div|].
  apply stops_bind; [apply stops_safe, safe_rem|auto with dec|apply try_op|auto with dec|]. intros rem. destruct (_ && _).
  - apply stops_bind; auto.
  - destruct (_ =? _); [apply stops_ret|apply stops_safe, safe_fail].
Qed.

Definition stops_at (f : nat) : Prop := forall t n r, wf_ty D t = true ->
  loops_ok I t = true -> rounds I t <= M -> low r (heads t) -> 0 <= r <= max_rank R + 1 ->
  need n r (depth t) <= Z.of_nat f -> stops n (prs f t) (dcd f t).

Lemma stops_fields f ts : stops_at f -> forallb (wf_ty D) ts = true -> forallb (loops_ok I) ts = true ->
  (forall t, In t ts -> depth t <= max_depth D /\ rounds I t <= M) ->
  forall n r, low r (field_heads I ts) -> 0 <= r <= max_rank R + 1 -> need n r (max_depth D) <= Z.of_nat f ->
  stops n (p_fields (prs f) ts) (d_fields (dcd f) ts).
Proof.
  intros Hf. pose proof (try_parse cf D f) as Htry. pose proof (runs_dec cf D f) as Hruns. pose proof (shrinks_dec cf D f) as Hshr.
  assert (Hfields : forall ts, try_bytes_only (p_fields (parse cf D f) ts)).
  { intros us; induction us as [|u us IHl]; cbn [p_fields]; tries. }
  induction ts as [|t ts IH]; intros HW HL HM0 n r Hlow Hr Hn; [apply stops_ret|].
  cbn [forallb] in HW, HL. apply andb_prop in HL; destruct HL as [HL1 HL2]. apply andb_prop in HW; destruct HW as [HW1 HW2].
  cbn [field_heads] in Hlow. apply Forall_app in Hlow; destruct Hlow as [Hl1 Hl2].
  destruct (HM0 t (or_introl eq_refl)) as [Hd Hm]. pose proof (P_pos D I R HT). pose proof (R_nonneg R).
  assert (HM' : forall t, In t ts -> depth t <= max_depth D /\ rounds I t <= M) by (intros; apply HM0; right; assumption).
  cbn [p_fields d_fields].
  assert (Ht : stops n (prs f t) (dcd f t)) by (apply (Hf t n r); try assumption; unfold need in *; lia).
  destruct (nonempty I t) eqn:N.
  - apply stops_bind_lt; [exact Ht|auto|auto|apply (consumes_dec cf D I (term_claims D I R HT)); exact N|auto|]. intros v.
    apply stops_bind; [|auto with dec..].
    apply (IH HW2 HL2 HM' (n - 1) (max_rank R + 1)); [exact (low_top D I R HT _)|lia|].
    unfold need in *. pose proof (Z.mul_nonneg_nonneg r (max_depth D + 1) ltac:(lia) ltac:(lia)). lia.
  - apply stops_bind; [exact Ht|auto..|]. intros v.
    apply stops_bind; [|auto with dec..]. apply (IH HW2 HL2 HM' n r); assumption.
Qed.

Lemma stops_all f : stops_at f.
Proof.
  pose proof (M_nonneg D I R HT M HM) as HM1. pose proof (P_pos D I R HT) as HP. pose proof (R_nonneg R) as HR.
  induction f as [|f IH]; intros t n r HW HL HMt Hlow Hr Hn; [apply stops_safe, safe_div|].
  destruct (leaf t) eqn:EL; [apply stops_safe, safe_leaf; assumption|].
  intros p cur outer Hi Ha Hg Hle Hu. revert p cur outer Hi Ha Hg Hle Hu.
  pose proof (try_parse cf D f) as Htry. pose proof (runs_dec cf D f) as Hruns. pose proof (shrinks_dec cf D f) as Hshr.
  set (PP := max_depth D + 1) in *.
  pose proof (Z.mul_nonneg_nonneg r PP ltac:(lia) ltac:(lia)) as HrP.
  assert (HK : n * ((max_rank R + 2) * PP) = (n - 1) * ((max_rank R + 2) * PP) + (max_rank R + 1) * PP + PP) by lia.
  unfold need in Hn. fold PP in Hn.
  assert (Hneed : forall m q e, need m q e = m * ((max_rank R + 2) * PP) + q * PP + e + 1 + M) by reflexivity.
  change (stops n (prs (S f) t) (dcd (S f) t)).
  cbn [parse dec]. destruct t; try discriminate EL; cbn [wf_ty loops_ok heads depth rounds] in HW, HL, HMt, Hlow, Hn; clear EL.
  - (* option *)
    apply stops_bind_lt; [apply stops_safe, safe_tag'|auto with dec|apply try_tag|auto with dec..|]. intros tag.
    destruct (tag =? 255); [apply stops_bind; auto with dec|].
    { apply (IH t (n - 1) (max_rank R + 1)); [assumption..|exact (low_top D I R HT _)|lia|rewrite Hneed; lia]. }
    destruct (tag =? 0); [apply stops_ret|]. intros p cur outer _ _ _ _ Hu. discriminate Hu.
  - apply stops_bind; [apply stops_safe, safe_rem|auto with dec|apply try_op|auto with dec|]. intros rem. destruct (negb _); [|apply stops_ret].
    apply stops_bind; auto with dec. apply (IH t n r); try assumption; rewrite Hneed; lia.
  - apply andb_prop in HL; destruct HL as [HL1 HL2].
    assert (Hseq : forall (pe : prog val) fl seq, try_bytes_only pe -> try_bytes_only (p_seq_loop fl pe seq)).
    { intros pe fl; induction fl as [|fl IHl]; intros seq He; cbn [p_seq_loop]; [exact Logic.I|unfold p_remainder; tries]. }
    apply stops_bind; [apply stops_seq; auto|auto with dec..]. apply (IH t n r); try assumption; rewrite Hneed; lia.
  - apply andb_prop in HW; destruct HW as [_ HW]. pose proof (rounds_nonneg I t).
    assert (Hlim : forall (pe : prog val) n fl seq, try_bytes_only pe -> try_bytes_only (p_lim_loop fl n pe seq)).
    { intros pe k fl; induction fl as [|fl IHl]; intros seq He; cbn [p_lim_loop]; [exact Logic.I|unfold p_remainder; tries]. }
    apply stops_bind; [apply stops_lim; auto|auto with dec..]. apply (IH t n r); try assumption; [lia|rewrite Hneed; lia].
  - apply andb_prop in HW; destruct HW as [_ HW]. pose proof (rounds_nonneg I t).
    assert (Hfix : forall (pe : prog val) n fl seq, try_bytes_only pe -> try_bytes_only (p_fix_loop fl n pe seq)).
    { intros pe k fl; induction fl as [|fl IHl]; intros seq He; cbn [p_fix_loop]; [exact Logic.I|unfold p_remainder; tries]. }
    apply stops_bind; [apply stops_fix; auto|auto with dec..]. apply (IH t n r); try assumption; [lia|rewrite Hneed; lia].
  - (* dynamic *)
    apply (stops_bind_with n (n - 1) _ _ (fun n => 0 <= n <= isize_max)); [apply stops_safe, safe_pref|auto with dec|apply try_pref|auto with dec| |].
    + intros cur k rest Hg Hd. split; [exact (proj2 (safe_pref_with true cf s cur Hg) k rest Hd)|]. intros Hle.
      assert (Hc : consumes (d_pref cf s)) by auto with dec. pose proof (Hc _ _ _ Hd). lia.
    + intros k Hk. apply stops_window; auto. apply (IH t (n - 1) (max_rank R + 1)); [assumption..|exact (low_top D I R HT _)|lia|rewrite Hneed; lia].
  - (* vpadded *)
    apply andb_prop in HW; destruct HW as [Hs HW]. unfold sizeb in Hs. rewrite HMo.
    assert (Hst : stops n (prs f t) (dcd f t)) by (apply (IH t n r); try assumption; rewrite Hneed; lia).
    intros p cur outer Hi Ha Hg Hle Hu.
    refine (stops_vpad f n n0 t ltac:(lia) HW Hst _ p cur outer Hi Ha Hg Hle Hu).
    intros L c q Hq. apply (lives_all f t r L c q); try assumption. rewrite Hneed. pose proof (zlen_nonneg cur).
    assert (0 <= n * ((max_rank R + 2) * PP)) by (apply Z.mul_nonneg_nonneg; [lia|]; apply Z.mul_nonneg_nonneg; lia). lia.
  - (* padded *)
    apply andb_prop in HW; destruct HW as [Hs HW]. unfold sizeb in Hs.
    apply stops_bind; auto; [apply (IH t n r); try assumption; rewrite Hneed; lia|]. intros v.
    apply stops_bind; [apply stops_safe, safe_consume; lia|auto with dec|apply try_op|auto with dec|].
    intros padding. destruct (cf_check_padding cf && _); [apply stops_safe, safe_fail|apply stops_ret].
  - apply stops_bind; auto with dec. apply (IH t n r); try assumption; rewrite Hneed; lia.
  - (* named *)
    assert (Hfields : forall ts, try_bytes_only (p_fields (parse cf D f) ts)).
    { intros ts; induction ts as [|t ts IHl]; cbn [p_fields]; tries. }
    destruct (nth_error D i) as [[ts|k tags|k alts]|] eqn:Ei.
    + apply stops_bind; auto with dec. assert (Hr' : Z.of_nat (rank R i) < r) by (inversion Hlow; assumption).
      apply (stops_fields f ts IH) with (r := Z.of_nat (rank R i)).
      * eapply wf_struct; eassumption.
      * apply (fields_loops D I R HT i _ _ Ei). left; reflexivity.
      * apply (fields_depth D I R HT M HM i _ _ Ei). left; reflexivity.
      * pose proof (term_nth D I R HT _ _ Ei) as HD'. cbn [term_def] in HD'. apply andb_prop in HD'; destruct HD' as [_ HD'].
        apply andb_prop in HD'; destruct HD' as [_ HD']. rewrite forallb_forall in HD'. apply Forall_forall.
        intros j Hj. specialize (HD' j Hj). lia.
      * pose proof (rank_le R i). lia.
      * rewrite Hneed. assert ((Z.of_nat (rank R i) + 1) * PP <= r * PP) by (apply Z.mul_le_mono_nonneg_r; lia).
        replace (max_depth D) with (PP - 1) by (unfold PP; lia). lia.
    + apply stops_bind; [apply stops_safe, safe_tag'|auto with dec|apply try_tag|auto with dec|]. intros tag.
      destruct (find_tag tag tags); [apply stops_ret|]. intros p cur outer _ _ _ _ Hu. discriminate Hu.
    + apply stops_bind_lt; [apply stops_safe, safe_tag'|auto with dec|apply try_tag|auto with dec..|]. intros tag.
      destruct (find_tag tag (map fst alts)) as [ix|]; [|intros p cur outer _ _ _ _ Hu; discriminate Hu].
      destruct (nth_error alts ix) as [[tg ts]|] eqn:Ea; [|intros p cur outer _ _ _ _ Hu; discriminate Hu].
      apply stops_bind; auto with dec.
      assert (Hin : In ts (field_types (DData k alts))).
      { cbn [field_types]. apply in_map_iff. exists (tg, ts). split; [reflexivity|]. eapply nth_error_In; eassumption. }
      apply (stops_fields f ts IH) with (r := max_rank R + 1).
      * exact (wf_data D i k alts ix tg ts HD Ei Ea).
      * apply (fields_loops D I R HT i _ _ Ei Hin).
      * apply (fields_depth D I R HT M HM i _ _ Ei Hin).
      * exact (low_top D I R HT _).
      * lia.
      * rewrite Hneed. replace (max_depth D) with (PP - 1) by (unfold PP; lia). lia.
    + intros p cur outer _ _ _ _ Hu. discriminate Hu.
Qed.
End Halting.
