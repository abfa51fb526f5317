(** When a release build reads out of bounds or panics while decoding (C31), continued: in an
    ordinary window, and for the three parsers. *)
From Verif Require Import Base BaseLemmas ModelErrors ModelSplitVec ModelParser ModelInt ModelFloat ModelZarith
  ModelUtf8 ModelTarget ModelSchema SpecParser SpecCodec SpecNum SpecUtf8 SpecGrammar SpecPanic SpecSpill
  ProofParser ProofParserSim ProofParserProps ProofParserExact ProofInt ProofSafe ProofDec ProofCodec ProofMeta ProofTransfer
  ProofTyped ProofRoundTrip ProofSettle ProofView ProofBroken ProofNum ProofCodecThms ProofHalt ProofCodecProps ProofGrammar ProofPanic
  ProofSpill.
From Coq Require Import ZifyBool.

Section Spill.
Context {P : Type} (h : handler P) (inv : P -> Prop) (alpha : P -> wstack) (B : Z -> Z -> P -> Prop) (edge : list (list byte) -> Z).
Hypothesis Href : refines_contract Release h inv alpha.
Hypothesis Hedge : forall r outer, edge (r :: outer) = edge outer - zlen r.
Hypothesis Hopen : forall p cur outer n, inv p -> alpha p = mkW cur outer -> zlen cur < n <= isize_max ->
  if n <=? edge outer then exists c p', h unit (OpSetFit (zlen cur - n + usize_mod)) p = (ROk tt, p') /\ B (edge outer - n) c p'
  else exists e p', h unit (OpSetFit (zlen cur - n + usize_mod)) p = (RErr e, p').
Hypothesis HBr : forall L c p, B L c p -> 0 <= L < c /\ c <= isize_max.
Hypothesis Hrem : forall L c p, B L c p -> h Z OpRemainder p = (ROk (L - c + usize_mod), p).
Hypothesis Hbyte : forall L c p, B L c p -> exists e p', h byte OpConsumeByte p = (RErr e, p').
Hypothesis Hcons : forall L c p n, B L c p -> 0 <= n <= isize_max -> exists e p', h (list byte) (OpConsume n) p = (RErr e, p').
Hypothesis Hall : forall L c p, B L c p -> fst (h (list byte) (OpConsume (L - c + usize_mod)) p) = RUB.
Hypothesis Hshift : forall L c p n, B L c p -> 0 <= n <= isize_max ->
  if n <=? L then exists p', h unit (OpSetFit (L - c + usize_mod - n)) p = (ROk tt, p') /\ B (L - n) c p'
  else exists e p', h unit (OpSetFit (L - c + usize_mod - n)) p = (RErr e, p').
Hypothesis Hclose : forall L c p, B L c p -> exists e p', h unit OpEnforceTarget p = (RErr e, p').

Notation nev := (never h inv alpha).
(** One of the two ways to go wrong. *)
Variable wb : bool.
Definition bad {A} (pg : prog A) (p : P) : Prop := fst (run h pg p) = wrong wb.
Notation ub := bad.
Ltac same H := revert H; unfold wrong; destruct wb; solve [discriminate|reflexivity].
Ltac nope H := exfalso; unfold bad, wrong in H; destruct wb; discriminate H.

Lemma rel_ok {A} (pg : prog A) d p cur outer a rest : runs pg d -> try_bytes_only pg -> inv p -> alpha p = mkW cur outer ->
  zlen cur <= isize_max -> d cur = ROk (a, rest) -> exists p', run h pg p = (ROk a, p') /\ inv p' /\ alpha p' = mkW rest outer.
Proof.
  intros Hr Ht Hi Ha Hl Hd. pose proof (run_refines Release h inv alpha Href pg p Hi Ht) as Ho. specialize (Hr cur outer Hl).
  unfold outcome in Hr. rewrite Hd in Hr. rewrite Ha, Hr in Ho. cbn [outcome_rel fst snd] in Ho. destruct Ho as (H1 & H2 & H3).
  destruct (run h pg p) as [r p']. cbn [fst snd] in *. subst r. eauto.
Qed.
Lemma rel_ok_inv {A} (pg : prog A) d p cur outer a p' : nev pg d -> runs pg d -> try_bytes_only pg -> inv p -> alpha p = mkW cur outer ->
  good cur -> run h pg p = (ROk a, p') ->
  exists rest, d cur = ROk (a, rest) /\ inv p' /\ alpha p' = mkW rest outer.
Proof.
  intros Hn Hr Ht Hi Ha Hg E. pose proof (run_refines Release h inv alpha Href pg p Hi Ht) as Ho. specialize (Hr cur outer (proj2 Hg)).
  unfold outcome in Hr. rewrite Ha, E in Ho. unfold outcome_rel in Ho. destruct (d cur) as [[a' rest]|e| | |] eqn:Ed.
  - rewrite Hr in Ho. cbn [fst snd] in Ho. destruct Ho as (H1 & H2 & H3). injection H1 as <-. eauto.
  - destruct Hr as [e' Hr]. rewrite Hr in Ho. destruct Ho as [[? H]|[_ H]]; discriminate H.
  - rewrite Hr in Ho. discriminate Ho.
  - exfalso. exact (Hn p cur outer Hi Ha Hg Ed a p' E).
  - rewrite Hr in Ho. discriminate Ho.
Qed.

Lemma bad_bind {A C} (pg : prog A) d (k : A -> prog C) p cur outer : nev pg d -> runs pg d -> try_bytes_only pg -> inv p ->
  alpha p = mkW cur outer -> good cur -> bad (pbind pg k) p ->
  bad pg p \/ exists a rest p', d cur = ROk (a, rest) /\ inv p' /\ alpha p' = mkW rest outer /\ bad (k a) p'.
Proof.
  intros Hn Hr Ht Hi Ha Hg H. unfold bad in H |- *. rewrite run_pbind in H. destruct (run h pg p) as [[a|e| | |] p'] eqn:E; cbn [fst] in H |- *;
    [|nope H|left; same H|left; same H|nope H].
  right. destruct (rel_ok_inv pg d p cur outer a p' Hn Hr Ht Hi Ha Hg E) as (rest & H1 & H2 & H3). exists a, rest, p'. auto.
Qed.
Lemma ub_then {A C} (pg : prog A) d (k : A -> prog C) p cur outer a rest : runs pg d -> try_bytes_only pg -> inv p ->
  alpha p = mkW cur outer -> zlen cur <= isize_max -> d cur = ROk (a, rest) ->
  (forall p', inv p' -> alpha p' = mkW rest outer -> ub (k a) p') -> ub (pbind pg k) p.
Proof.
  intros Hr Ht Hi Ha Hl Hd Hk. destruct (rel_ok pg d p cur outer a rest Hr Ht Hi Ha Hl Hd) as (p' & E & Hi' & Ha').
  unfold bad. rewrite run_pbind, E. apply Hk; assumption.
Qed.
(** Programs whose every step is in order. *)
Lemma rel_calm {A} (pg : prog A) d p cur outer : runs pg d -> try_bytes_only pg -> inv p -> alpha p = mkW cur outer ->
  good cur -> ok_or_err false (d cur) -> ~ bad pg p.
Proof.
  intros Hr Ht Hi Ha [Hb Hl] [Hs1 Hs2] H. pose proof (run_refines Release h inv alpha Href pg p Hi Ht) as Ho.
  specialize (Hr cur outer Hl). unfold outcome in Hr. unfold outcome_rel in Ho. rewrite Ha in Ho. unfold bad in H.
  destruct (d cur) as [[a rest]|e| | |].
  - rewrite Hr in Ho. cbn [fst] in Ho. destruct Ho as (Ho & _). rewrite Ho in H. nope H.
  - destruct Hr as [e' Hr]. rewrite Hr in Ho. destruct Ho as [[e1 Ho]|[F _]]; [|discriminate F]. rewrite Ho in H. nope H.
  - apply Hs1; reflexivity.
  - apply Hs2; reflexivity.
  - rewrite Hr in Ho. rewrite Ho in H. nope H.
Qed.
Lemma bad_calm {A C} (pg : prog A) d (k : A -> prog C) p cur outer : runs pg d -> try_bytes_only pg -> inv p ->
  alpha p = mkW cur outer -> good cur -> safe false d -> bad (pbind pg k) p ->
  exists a rest p', d cur = ROk (a, rest) /\ inv p' /\ alpha p' = mkW rest outer /\ bad (k a) p'.
Proof.
  intros Hr Ht Hi Ha Hg Hs H. pose proof (Hs cur Hg) as Hok.
  assert (Hn : nev pg d).
  { intros q cur' outer' _ _ Hg' Hu. exfalso. exact (proj2 (Hs cur' Hg') Hu). }
  destruct (bad_bind pg d k p cur outer Hn Hr Ht Hi Ha Hg H) as [Hb|Hb]; [|exact Hb].
  exfalso. exact (rel_calm pg d p cur outer Hr Ht Hi Ha Hg Hok Hb).
Qed.
Lemma bad_wrap {A C} (pg : prog A) (g : A -> C) p : bad (pbind pg (fun x => PRet (g x))) p -> bad pg p.
Proof. unfold bad. rewrite run_pbind. destruct (run h pg p) as [[x|e| | |] q]; cbn [run fst]; intros H; [nope H|nope H|same H|same H|nope H]. Qed.
Lemma bad_ret {A} (a : A) p : ~ bad (PRet a) p. Proof. intros H. nope H. Qed.
Lemma bad_err {A} e p : ~ bad (@PErr A e) p. Proof. intros H. nope H. Qed.

(** ** Windows *)
Lemma bad_window {A C} n (pg : prog A) d (f : A -> C) p cur outer : nev pg d -> runs pg d -> try_bytes_only pg -> inv p ->
  alpha p = mkW cur outer -> good cur -> 0 <= n <= isize_max ->
  bad (pbind (p_set_fit n) (fun _ => pbind pg (fun v => pbind p_enforce_target (fun _ => PRet (f v))))) p ->
  n <= zlen cur /\ exists p', inv p' /\ alpha p' = mkW (ztake n cur) (zdrop n cur :: outer) /\ bad pg p'.
Proof.
  intros Hne Hr Ht Hi Ha Hg Hn H. assert (Hs : size_ok n = true) by (unfold size_ok; lia).
  unfold bad in H. rewrite run_pbind in H. unfold p_set_fit in H. rewrite run_do_op in H.
  destruct (h unit (OpSetFit n) p) as [r p1] eqn:E.
  assert (Hc : in_contract (OpSetFit n) (alpha p) = true) by exact Hs.
  destruct (spec_op Keep (OpSetFit n) (alpha p)) as [x w'] eqn:Es.
  pose proof (Href unit (OpSetFit n) p x w' r p1 Hi Hc Es E) as Hst. cbn [spec_op] in Es. rewrite Ha in Es. cbn [w_cur w_outer] in Es.
  destruct r as [[]|e| | |]; try contradiction.
  - destruct Hst as (-> & Hi1 & Ha1). destruct (Z.leb_spec n (zlen cur)); [|discriminate Es]. injection Es as <-.
    split; [assumption|]. exists p1. split; [exact Hi1|]. split; [exact Ha1|].
    assert (Hg' : good (ztake n cur)).
    { destruct Hg as [Hb Hl]. split; [|rewrite zlen_ztake by lia; lia]. rewrite <- (ztake_zdrop n cur) in Hb. apply bytes_ok_app in Hb; tauto. }
    destruct (bad_bind pg d _ p1 _ _ Hne Hr Ht Hi1 Ha1 Hg' H) as [Hb|(a & rest & p2 & _ & Hi2 & Ha2 & Hb)]; [exact Hb|].
    exfalso. unfold bad in Hb. rewrite run_pbind in Hb. unfold p_enforce_target in Hb. rewrite run_do_op in Hb.
    destruct (h unit OpEnforceTarget p2) as [r p3] eqn:E3. cbn [run] in Hb.
    assert (Hc3 : in_contract OpEnforceTarget (alpha p2) = true) by (rewrite Ha2; reflexivity).
    destruct (spec_op Keep OpEnforceTarget (alpha p2)) as [x3 w3] eqn:Es3.
    pose proof (Href unit OpEnforceTarget p2 x3 w3 r p3 Hi2 Hc3 Es3 E3) as Hst3.
    destruct r; cbn [fst] in Hb; try contradiction; try (nope Hb). destruct Hst3 as [F _]. discriminate F.
  - nope H.
  - destruct Hst as [F _]. discriminate F.
Qed.
Lemma ub_window {A C} n (pg : prog A) (k : A -> prog C) p cur outer : inv p -> alpha p = mkW cur outer -> 0 <= n <= isize_max ->
  n <= zlen cur ->
  (forall p', inv p' -> alpha p' = mkW (ztake n cur) (zdrop n cur :: outer) -> ub pg p') ->
  ub (pbind (p_set_fit n) (fun _ => pbind pg k)) p.
Proof.
  intros Hi Ha Hn Hle H. unfold bad. rewrite run_pbind. unfold p_set_fit. rewrite run_do_op.
  assert (Hs : size_ok n = true) by (unfold size_ok; lia).
  destruct (h unit (OpSetFit n) p) as [r p1] eqn:E.
  assert (Hc : in_contract (OpSetFit n) (alpha p) = true) by exact Hs.
  assert (Es : spec_op Keep (OpSetFit n) (alpha p) = (Some tt, mkW (ztake n cur) (zdrop n cur :: outer))).
  { cbn [spec_op]. rewrite Ha. cbn [w_cur w_outer]. replace (n <=? zlen cur) with true by lia. reflexivity. }
  pose proof (Href unit (OpSetFit n) p _ _ r p1 Hi Hc Es E) as Hst.
  destruct r as [[]|e| | |]; try contradiction.
  - destruct Hst as (_ & Hi1 & Ha1). apply ub_first. apply H; assumption.
  - destruct Hst as [Hst _]. discriminate Hst.
  - destruct Hst as [Hst _]. discriminate Hst.
Qed.

(** ** Loops *)
Lemma bad_rem {A} (k : Z -> prog A) p cur outer : inv p -> alpha p = mkW cur outer -> good cur -> bad (pbind p_remainder k) p ->
  exists p', inv p' /\ alpha p' = mkW cur outer /\ bad (k (zlen cur)) p'.
Proof.
  intros Hi Ha Hg H. eapply bad_calm in H; [|apply runs_rem|apply try_op|eassumption..|apply safe_rem].
  destruct H as (a & rest & p' & E & H). injection E as <- <-. eauto.
Qed.
Lemma ub_rem {A} (k : Z -> prog A) p cur outer : inv p -> alpha p = mkW cur outer -> good cur ->
  (forall p', inv p' -> alpha p' = mkW cur outer -> ub (k (zlen cur)) p') -> ub (pbind p_remainder k) p.
Proof. intros Hi Ha [_ Hl] H. eapply ub_then; [apply runs_rem|apply try_op|eassumption..|reflexivity|exact H]. Qed.

Section Loops.
Variables (pe : prog val) (d : dm val).
Hypothesis Hn : nev pe d.
Hypothesis Hr : runs pe d.
Hypothesis Ht : try_bytes_only pe.
Hypothesis Hs : shrinks d.

Definition amid (cur : list byte) outer (q : list val -> Prop) : Prop :=
  exists vs mid p, begun d cur vs mid /\ q vs /\ mid <> [] /\ inv p /\ alpha p = mkW mid outer /\ bad pe p.
Lemma amid_more cur outer (q : list val -> Prop) v r : cur <> [] -> d cur = ROk (v, r) -> amid r outer (fun vs => q (v :: vs)) -> amid cur outer q.
Proof.
  intros N E (vs & mid & p & Hb & Hq & H). exists (v :: vs), mid, p. split; [|split; assumption]. econstructor; eassumption.
Qed.
Lemma amid_here cur outer (q : list val -> Prop) p : cur <> [] -> q [] -> inv p -> alpha p = mkW cur outer -> bad pe p -> amid cur outer q.
Proof. intros. exists [], cur, p. repeat split; try assumption. constructor. Qed.
Lemma nonzero_nonempty (cur : list byte) : zlen cur =? 0 = false -> cur <> []. Proof. intros H ->. discriminate H. Qed.

Lemma bad_seq fl : forall acc p cur outer, inv p -> alpha p = mkW cur outer -> good cur ->
  bad (p_seq_loop fl pe acc) p -> amid cur outer (fun _ => True).
Proof.
  induction fl as [|fl IH]; intros acc p cur outer Hi Ha Hg H; [nope H|]. cbn [p_seq_loop] in H.
  apply (bad_rem _ p cur outer Hi Ha Hg) in H. clear p Hi Ha. destruct H as (p & Hi & Ha & H).
  destruct (zlen cur =? 0) eqn:E; [destruct (bad_ret _ _ H)|]. apply nonzero_nonempty in E.
  apply (bad_bind pe d _ p cur outer Hn Hr Ht Hi Ha Hg) in H. destruct H as [H|(v & r & p' & Ev & Hi' & Ha' & H)].
  - eapply amid_here; eauto.
  - eapply amid_more; [exact E|exact Ev|]. eapply IH; try eassumption. eapply good_suffix; [|exact Hg]. eapply Hs; eassumption.
Qed.
Lemma bad_lim n fl : forall acc p cur outer, inv p -> alpha p = mkW cur outer -> good cur -> zlen acc <= n ->
  bad (p_lim_loop fl n pe acc) p -> amid cur outer (fun vs => zlen acc + zlen vs <= n).
Proof.
  induction fl as [|fl IH]; intros acc p cur outer Hi Ha Hg Hm H; [nope H|]. cbn [p_lim_loop] in H.
  apply (bad_rem _ p cur outer Hi Ha Hg) in H. clear p Hi Ha. destruct H as (p & Hi & Ha & H).
  destruct (zlen cur =? 0) eqn:E; [destruct (bad_ret _ _ H)|]. apply nonzero_nonempty in E.
  apply (bad_bind pe d _ p cur outer Hn Hr Ht Hi Ha Hg) in H. destruct H as [H|(v & r & p' & Ev & Hi' & Ha' & H)].
  - eapply amid_here; eauto. change (zlen (@nil val)) with 0. lia.
  - eapply amid_more; [exact E|exact Ev|]. unfold try_push in H. destruct (Z.ltb_spec (zlen acc) n); [|destruct (bad_err _ _ H)].
    cbn [ext_len plift pbind] in H.
    assert (Hg' : good r) by (eapply good_suffix; [|exact Hg]; eapply Hs; eassumption).
    assert (Hn' : zlen (acc ++ [v]) <= n) by (rewrite zlen_app; change (zlen [v]) with 1; lia).
    destruct (IH (acc ++ [v]) p' r outer Hi' Ha' Hg' Hn' H) as (vs & mid & q & Hb & Hq & Hrest).
    exists vs, mid, q. split; [exact Hb|]. split; [|exact Hrest]. rewrite zlen_app in Hq. change (zlen [v]) with 1 in Hq. rewrite zlen_cons. lia.
Qed.
Lemma bad_fix n fl : forall acc p cur outer, inv p -> alpha p = mkW cur outer -> good cur ->
  bad (p_fix_loop fl n pe acc) p -> amid cur outer (fun vs => zlen acc + zlen vs < n).
Proof.
  induction fl as [|fl IH]; intros acc p cur outer Hi Ha Hg H; [nope H|]. cbn [p_fix_loop] in H.
  apply (bad_rem _ p cur outer Hi Ha Hg) in H. clear p Hi Ha. destruct H as (p & Hi & Ha & H).
  destruct (negb (zlen cur =? 0) && (zlen acc <? n)) eqn:E.
  2:{ destruct (zlen acc =? n); [destruct (bad_ret _ _ H)|destruct (bad_err _ _ H)]. }
  apply andb_prop in E. destruct E as [E En]. assert (E' : cur <> []) by (apply nonzero_nonempty; lia).
  apply (bad_bind pe d _ p cur outer Hn Hr Ht Hi Ha Hg) in H. destruct H as [H|(v & r & p' & Ev & Hi' & Ha' & H)].
  - eapply amid_here; eauto. change (zlen (@nil val)) with 0. lia.
  - eapply amid_more; [exact E'|exact Ev|].
    assert (Hg' : good r) by (eapply good_suffix; [|exact Hg]; eapply Hs; eassumption).
    destruct (IH (acc ++ [v]) p' r outer Hi' Ha' Hg' H) as (vs & mid & q & Hb & Hq & Hrest).
    exists vs, mid, q. split; [exact Hb|]. split; [|exact Hrest]. rewrite zlen_app in Hq. change (zlen [v]) with 1 in Hq. rewrite zlen_cons. lia.
Qed.

Definition ub_at (mid : list byte) outer : Prop := forall p, inv p -> alpha p = mkW mid outer -> ub pe p.
Lemma ub_seq outer cur vs mid : begun d cur vs mid -> mid <> [] -> ub_at mid outer -> good cur -> forall fl acc p, (length vs < fl)%nat ->
  inv p -> alpha p = mkW cur outer -> ub (p_seq_loop fl pe acc) p.
Proof.
  induction 1 as [cur|cur v r vs rest N Hv _ IH]; intros Nm Hm Hg fl acc p Hf Hi Ha; (destruct fl as [|fl]; [cbn in Hf; lia|]); cbn [p_seq_loop].
  - apply (ub_rem _ p cur outer Hi Ha Hg). intros p' Hi' Ha'. rewrite (zlen_nz _ Nm). apply ub_first. apply Hm; assumption.
  - apply (ub_rem _ p cur outer Hi Ha Hg). intros p' Hi' Ha'. rewrite (zlen_nz _ N).
    eapply ub_then; [exact Hr|exact Ht|exact Hi'|exact Ha'|apply Hg|exact Hv|]. intros q Hq Haq.
    apply IH; try assumption; [eapply good_suffix; [|exact Hg]; eapply Hs; eassumption|cbn [length] in Hf; lia].
Qed.
Lemma ub_lim n outer cur vs mid : begun d cur vs mid -> mid <> [] -> ub_at mid outer -> good cur -> forall fl acc p, (length vs < fl)%nat ->
  zlen acc + zlen vs <= n -> inv p -> alpha p = mkW cur outer -> ub (p_lim_loop fl n pe acc) p.
Proof.
  induction 1 as [cur|cur v r vs rest N Hv _ IH]; intros Nm Hm Hg fl acc p Hf Hk Hi Ha; (destruct fl as [|fl]; [cbn in Hf; lia|]); cbn [p_lim_loop].
  - apply (ub_rem _ p cur outer Hi Ha Hg). intros p' Hi' Ha'. rewrite (zlen_nz _ Nm). apply ub_first. apply Hm; assumption.
  - apply (ub_rem _ p cur outer Hi Ha Hg). intros p' Hi' Ha'. rewrite (zlen_nz _ N).
    eapply ub_then; [exact Hr|exact Ht|exact Hi'|exact Ha'|apply Hg|exact Hv|]. intros q Hq Haq.
    rewrite zlen_cons in Hk. pose proof (zlen_nonneg vs). unfold try_push. replace (zlen acc <? n) with true by lia. cbn [ext_len plift pbind].
    apply IH; try assumption; [eapply good_suffix; [|exact Hg]; eapply Hs; eassumption|cbn [length] in Hf; lia|].
    rewrite zlen_app. change (zlen [v]) with 1. lia.
Qed.
Lemma ub_fix n outer cur vs mid : begun d cur vs mid -> mid <> [] -> ub_at mid outer -> good cur -> forall fl acc p, (length vs < fl)%nat ->
  zlen acc + zlen vs < n -> inv p -> alpha p = mkW cur outer -> ub (p_fix_loop fl n pe acc) p.
Proof.
  induction 1 as [cur|cur v r vs rest N Hv _ IH]; intros Nm Hm Hg fl acc p Hf Hk Hi Ha; (destruct fl as [|fl]; [cbn in Hf; lia|]); cbn [p_fix_loop].
  - apply (ub_rem _ p cur outer Hi Ha Hg). intros p' Hi' Ha'. rewrite (zlen_nz _ Nm). change (zlen (@nil val)) with 0 in Hk.
    replace (zlen acc <? n) with true by lia. cbn [negb andb]. apply ub_first. apply Hm; assumption.
  - apply (ub_rem _ p cur outer Hi Ha Hg). intros p' Hi' Ha'. rewrite (zlen_nz _ N). rewrite zlen_cons in Hk. pose proof (zlen_nonneg vs).
    replace (zlen acc <? n) with true by lia. cbn [negb andb].
    eapply ub_then; [exact Hr|exact Ht|exact Hi'|exact Ha'|apply Hg|exact Hv|]. intros q Hq Haq.
    apply IH; try assumption; [eapply good_suffix; [|exact Hg]; eapply Hs; eassumption|cbn [length] in Hf; lia|].
    rewrite zlen_app. change (zlen [v]) with 1. lia.
Qed.
End Loops.

(** ** Types *)
Section Types.
Variables (cf : config) (D : list def).
Hypothesis HD : wf_defs D = true.
Hypothesis HM : cf_mode cf = Release.
Hypothesis Hnev : forall f t, wf_ty D t = true -> nev (parse cf D f t) (dec cf D f t).
Notation mny := (many (cf_check_padding cf) D).
Notation spl := (spills (culprit wb) (cf_check_padding cf) D).
Notation sptn := (spills_turn (culprit wb) (cf_check_padding cf) D).

Lemma scalar_fine f t p cur outer : scalarb t = true -> wf_ty [] t = true -> inv p -> alpha p = mkW cur outer -> good cur ->
  ~ bad (parse cf [] (S f) t) p.
Proof.
  intros HS HW Hi Ha Hg. eapply rel_calm; [apply runs_dec|apply try_parse|exact Hi|exact Ha|exact Hg|].
  apply safe_dec; try assumption; try reflexivity; unfold vpads; [apply orb_true_r|].
  destruct t; try discriminate HS; apply orb_true_r.
Qed.

(** The window of a VPadded that does not fit. *)
Lemma usub_wrap a n : 0 <= a < n -> n <= isize_max -> @usub parse_error Release a n = ROk (a - n + usize_mod).
Proof.
  intros H1 H2. unfold usub. pose proof isize_max_lt. destruct (Z.leb_spec n a); [lia|]. f_equal.
  rewrite <- (Z.mod_add _ 1) by (unfold usize_mod; lia). rewrite Z.mul_1_l. apply Z.mod_small. lia.
Qed.

Definition sound_bad f : Prop := forall t p cur outer, wf_ty D t = true -> inv p -> alpha p = mkW cur outer -> good cur ->
  bad (parse cf D f t) p -> spl (edge outer) t cur.

Lemma bad_fields f : sound_bad f -> forall ts, forallb (wf_ty D) ts = true -> forall p cur outer, inv p -> alpha p = mkW cur outer -> good cur ->
  bad (p_fields (parse cf D f) ts) p -> sptn (edge outer) ts cur.
Proof.
  intros IH. induction ts as [|t ts IHts]; intros HW p cur outer Hi Ha Hg H; [destruct (bad_ret _ _ H)|].
  cbn [forallb] in HW. apply andb_prop in HW. destruct HW as [HW1 HW2]. cbn [p_fields] in H.
  eapply (bad_bind (parse cf D f t)) in H; [|apply Hnev; exact HW1|apply runs_dec|apply try_parse|exact Hi|exact Ha|exact Hg].
  destruct H as [H|(v & r & p' & Ev & Hi' & Ha' & H)].
  - apply spill_now. eapply IH; eassumption.
  - eapply spill_later; [eapply (sound_all cf D HD); [exact HW1|exact Hg|exact Ev]|].
    apply bad_wrap in H. eapply IHts; try eassumption. eapply dec_good; eassumption.
Qed.

Lemma amid_many f t : wf_ty D t = true -> sound_bad f -> forall cur outer q, good cur ->
  amid (parse cf D f t) (dec cf D f t) cur outer q -> exists vs mid, mny t cur vs mid /\ q vs /\ mid <> [] /\ spl (edge outer) t mid.
Proof.
  intros HW IH cur outer q Hg (vs & mid & p & Hb & Hq & N & Hi & Ha & H). exists vs, mid. split; [|split; [exact Hq|split; [exact N|]]].
  - eapply begun_many; [|apply sound_all| | |]; eassumption.
  - eapply IH; try eassumption. eapply begun_good; eassumption.
Qed.

Lemma bad_tag {A} k tags (kk : Z -> prog A) p cur outer : inv p -> alpha p = mkW cur outer -> good cur -> bad (pbind (p_take_tagword k tags) kk) p ->
  exists tag r p', cur = int_format k tag ++ r /\ In tag tags /\ inv p' /\ alpha p' = mkW r outer /\ good r /\ bad (kk tag) p'.
Proof.
  intros Hi Ha Hg H. eapply bad_calm in H; [|apply runs_tag|apply ProofPanic.try_tag|eassumption..|apply safe_tag].
  destruct H as (tag & r & p' & Et & Hi' & Ha' & H). apply d_tag_ok in Et; [|apply Hg]. destruct Et as [E Ht].
  exists tag, r, p'. repeat split; try assumption; subst cur; apply (small_app D HD) in Hg; apply Hg.
Qed.

Lemma sound_bad_all f : sound_bad f.
Proof.
  induction f as [|f IH]; intros t p cur outer HW Hi Ha Hg H; [nope H|].
  destruct t; cbn [wf_ty] in HW;
    try (exfalso; lazymatch type of H with bad (parse _ _ _ ?t) _ => exact (scalar_fine f t p cur outer eq_refl HW Hi Ha Hg H) end);
    cbn [parse] in H.
  - apply (bad_tag _ _ _ p cur outer Hi Ha Hg) in H. destruct H as (tag & r & p' & -> & Ht & Hi' & Ha' & Hg' & H).
    destruct Ht as [<-|[<-|[]]]; cbn [Z.eqb Pos.eqb] in H; [destruct (bad_ret _ _ H)|]. apply bad_wrap in H.
    change (int_format U8 255 ++ r) with (255 :: r) in *. apply spill_some. eapply IH; eassumption.
  - apply (bad_rem _ p cur outer Hi Ha Hg) in H. clear p Hi Ha. destruct H as (p & Hi & Ha & H).
    destruct (zlen cur =? 0) eqn:E; cbn [negb] in H; [destruct (bad_ret _ _ H)|]. apply bad_wrap in H.
    apply spill_nonnull; [apply nonzero_nonempty; exact E|]. eapply IH; eassumption.
  - apply bad_wrap in H. eapply (bad_seq _ (dec cf D f t)) in H; try eassumption; [|apply Hnev; assumption|apply runs_dec|apply try_parse|apply shrinks_dec].
    apply amid_many in H; try assumption. destruct H as (vs & mid & Hm & _ & N & Ht). eapply spill_seq; eassumption.
  - apply andb_prop in HW as [Hn HW]. apply bad_wrap in H.
    eapply (bad_lim _ (dec cf D f t)) in H; try eassumption; [|apply Hnev; assumption|apply runs_dec|apply try_parse|apply shrinks_dec|].
    2:{ unfold sizeb in Hn. change (zlen (@nil val)) with 0. lia. }
    apply amid_many in H; try assumption. destruct H as (vs & mid & Hm & Hq & N & Ht). eapply spill_lim; eassumption.
  - apply andb_prop in HW as [Hn HW]. apply bad_wrap in H.
    eapply (bad_fix _ (dec cf D f t)) in H; try eassumption; [|apply Hnev; assumption|apply runs_dec|apply try_parse|apply shrinks_dec].
    apply amid_many in H; try assumption. destruct H as (vs & mid & Hm & Hq & N & Ht). eapply spill_fix; eassumption.
  - eapply bad_calm in H; [|apply runs_pref|apply ProofPanic.try_pref|eassumption..|apply safe_pref].
    destruct H as (n & r & p' & Ep & Hi' & Ha' & H). apply d_pref_ok in Ep; [|apply Hg]. destruct Ep as [-> Hn].
    assert (Hm : pref_max s <= isize_max) by (destruct s; vm_compute; discriminate).
    assert (Hg' : good r) by (apply (small_app D HD) in Hg; apply Hg).
    eapply (bad_window n (parse cf D f t) (dec cf D f t)) in H; [|apply Hnev; assumption|apply runs_dec|apply try_parse|eassumption..|lia].
    destruct H as (Hle & q & Hiq & Haq & H).
    rewrite <- (ztake_zdrop n r) in Hg' |- *. apply (small_app D HD) in Hg'. destruct Hg' as [Hg1 Hg2].
    replace n with (zlen (ztake n r)) at 1 by (rewrite zlen_ztake; lia).
    apply spill_payload; [rewrite zlen_ztake; lia|]. rewrite <- Hedge. eapply IH; eassumption.
  - apply andb_prop in HW as [Hn HW]. unfold sizeb in Hn.
    apply (bad_rem _ p cur outer Hi Ha Hg) in H. clear p Hi Ha. destruct H as (p & Hi & Ha & H).
    rewrite HM in H. cbn [debug_assert plift pbind] in H. destruct Hg as [Hb Hl]. pose proof (zlen_nonneg cur) as Hc0.
    destruct (Z_le_dec n (zlen cur)) as [Hle|Hlt].
    + rewrite usub_ok in H by (pose proof isize_max_lt; lia). cbn [plift pbind] in H.
      eapply (bad_window _ (parse cf D f t) (dec cf D f t)) in H; [|apply Hnev; assumption|apply runs_dec|apply try_parse|eassumption..|split; assumption|lia].
      assert (Hg : good cur) by (split; assumption). destruct H as (Hle' & q & Hiq & Haq & H).
      assert (Ez : zlen (zdrop (zlen cur - n) cur) = n) by (rewrite zlen_zdrop; lia).
      rewrite <- (ztake_zdrop (zlen cur - n) cur) in Hg |- *. apply (small_app D HD) in Hg. destruct Hg as [Hg1 Hg2].
      apply spill_body; [exact Ez|]. rewrite <- Ez at 1. rewrite <- Hedge. eapply IH; eassumption.
    + rewrite usub_wrap in H by lia. cbn [plift pbind] in H. unfold bad in H. rewrite run_pbind in H. unfold p_set_fit in H. rewrite run_do_op in H.
      assert (Hn' : zlen cur < n <= isize_max) by lia. pose proof (Hopen p cur outer n Hi Ha Hn') as Ho.
      destruct (Z.leb_spec n (edge outer)) as [Hle|Hgt].
      2:{ destruct Ho as (e & p1 & E). rewrite E in H. nope H. }
      destruct Ho as (c & p1 & E & HB). rewrite E, run_pbind in H.
      pose proof (broken_says h B HBr Hrem Hbyte Hcons Hall Hshift Hclose cf D HD HM f t _ c p1 HW HB) as S1. unfold says in S1.
      destruct (run h (parse cf D f t) p1) as [[v|e| | |] p2]; cbn [fst snd] in S1, H; try (nope H).
      * exfalso. destruct S1 as [_ HB2]. rewrite run_pbind in H. unfold p_enforce_target in H. rewrite run_do_op in H.
        destruct (Hclose _ _ _ HB2) as (e & p3 & E3). rewrite E3 in H. nope H.
      * destruct wb eqn:Ew; [discriminate H|]. apply spill_here; [lia|assumption|exact S1].
      * destruct wb eqn:Ew; [|discriminate H]. apply spill_here; [lia|assumption|exact S1].
  - apply andb_prop in HW as [Hn HW]. unfold sizeb in Hn.
    eapply (bad_bind (parse cf D f t)) in H; [|apply Hnev; exact HW|apply runs_dec|apply try_parse|exact Hi|exact Ha|exact Hg].
    apply spill_padded. destruct H as [H|(v & r & p' & Ev & Hi' & Ha' & H)]; [eapply IH; eassumption|exfalso].
    assert (Hg' : good r) by (eapply dec_good; eassumption).
    eapply bad_calm in H; [|apply runs_consume|apply try_op|eassumption..|apply safe_consume; lia].
    destruct H as (pad & r' & q & _ & _ & _ & H). destruct (_ && _) in H; [destruct (bad_err _ _ H)|destruct (bad_ret _ _ H)].
  - apply bad_wrap in H. apply spill_box. eapply IH; eassumption.
  - destruct (nth_error D i) as [[ts|k tags|k alts]|] eqn:Ei.
    + apply bad_wrap in H. eapply spill_struct; [exact Ei|]. eapply bad_fields; try eassumption. eapply wf_struct; eassumption.
    + exfalso. apply (bad_tag _ _ _ p cur outer Hi Ha Hg) in H. destruct H as (tag & r & p' & -> & Ht & Hi' & Ha' & Hg' & H).
      destruct (find_tag_in _ _ Ht) as (ix & E1 & E2). rewrite E1 in H. destruct (bad_ret _ _ H).
    + apply (bad_tag _ _ _ p cur outer Hi Ha Hg) in H. destruct H as (tag & r & p' & -> & Ht & Hi' & Ha' & Hg' & H).
      destruct (find_tag_in _ _ Ht) as (ix & E1 & E2). rewrite E1 in H. rewrite nth_error_map in E2.
      destruct (nth_error alts ix) as [[tg ts]|] eqn:Ea; [|discriminate E2]. cbn in E2. injection E2 as ->. apply bad_wrap in H.
      eapply spill_data; [exact Ei|exact Ea|]. eapply bad_fields; try eassumption. eapply wf_data; eassumption.
    + apply nth_error_None in Ei. apply Nat.ltb_lt in HW. lia.
Qed.

Definition goes_wrong (e : Z) (bs : list byte) (pg : nat -> prog val) : Prop :=
  exists f, forall f' p outer, (f <= f')%nat -> inv p -> alpha p = mkW bs outer -> edge outer = e -> ub (pg f') p.
Definition goes_wrong_turn (e : Z) (bs : list byte) (pg : nat -> prog (list val)) : Prop :=
  exists f, forall f' p outer, (f <= f')%nat -> inv p -> alpha p = mkW bs outer -> edge outer = e -> ub (pg f') p.

Lemma ub_tag {A} k tags tag r (kk : Z -> prog A) p outer : ik_in k tag = true -> In tag tags -> inv p -> alpha p = mkW (int_format k tag ++ r) outer ->
  good (int_format k tag ++ r) -> (forall p', inv p' -> alpha p' = mkW r outer -> ub (kk tag) p') -> ub (pbind (p_take_tagword k tags) kk) p.
Proof.
  intros Hk Hin Hi Ha Hg H. eapply ub_then; [apply runs_tag|apply ProofPanic.try_tag|exact Hi|exact Ha|apply Hg|apply d_tag_app; assumption|exact H].
Qed.

Ltac fuel f' := destruct f' as [|f']; [lia|]; cbn [parse].
Lemma complete_ub e t bs : spl e t bs -> wf_ty D t = true -> good bs -> goes_wrong e bs (fun f => parse cf D f t).
Proof.
  intros H.
  induction H using spills_mut with (P0 := fun e ts bs _ => forallb (wf_ty D) ts = true -> good bs -> goes_wrong_turn e bs (fun f => p_fields (parse cf D f) ts));
    cbn [wf_ty]; intros HW Hg.
  - apply andb_prop in HW as [Hn HW]. unfold sizeb in Hn.
    match goal with E : wild _ D _ t |- _ => destruct (wild_strays h B HBr Hrem Hall Hshift cf D HD HM wb _ t E HW) as [f Hf] end.
    exists (S f). intros f' p outer Hf' Hi Ha Ee. fuel f'.
    apply (ub_rem _ p bs outer Hi Ha Hg). intros p' Hi' Ha'. rewrite HM. cbn [debug_assert plift pbind]. pose proof (zlen_nonneg bs).
    rewrite usub_wrap by lia. cbn [plift pbind]. unfold bad. rewrite run_pbind. unfold p_set_fit. rewrite run_do_op.
    assert (Hn' : zlen bs < n <= isize_max) by lia. pose proof (Hopen p' bs outer n Hi' Ha' Hn') as Ho.
    replace (n <=? edge outer) with true in Ho by lia. destruct Ho as (c & p1 & E & HB). rewrite E. apply ub_first.
    apply (Hf f' c p1); [lia|]. rewrite Ee in HB. exact HB.
  - assert (Hm : pref_max s <= isize_max) by (destruct s; vm_compute; discriminate). pose proof (zlen_nonneg payload).
    pose proof (small_app D HD _ _ Hg) as [_ Hg']. pose proof (small_app D HD _ _ Hg') as [Hg1 _].
    destruct (IHspills HW Hg1) as [f Hf]. exists (S f). intros f' p outer Hf' Hi Ha Ee. fuel f'.
    eapply ub_then; [apply runs_pref|apply ProofPanic.try_pref|exact Hi|exact Ha|apply Hg|apply d_pref_app; lia|].
    intros p' Hi' Ha'. eapply ub_window; [exact Hi'|exact Ha'|lia|rewrite zlen_app; pose proof (zlen_nonneg r); lia|].
    rewrite ztake_app, zdrop_app. intros q Hq Haq. eapply Hf; [lia|exact Hq|exact Haq|rewrite Hedge; lia].
  - apply andb_prop in HW as [Hn HW]. unfold sizeb in Hn.
    pose proof (small_app D HD _ _ Hg) as [Hg1 _]. pose proof (zlen_nonneg body). destruct Hg as [Hb Hl]. rewrite zlen_app in Hl.
    destruct (IHspills HW Hg1) as [f Hf]. exists (S f). intros f' p outer Hf' Hi Ha Ee. fuel f'.
    apply (ub_rem _ p (body ++ r) outer Hi Ha); [split; [exact Hb|rewrite zlen_app; exact Hl]|]. intros p' Hi' Ha'. rewrite HM, zlen_app.
    cbn [debug_assert plift pbind]. rewrite usub_ok by (pose proof isize_max_lt; lia). cbn [plift pbind].
    replace (zlen body + zlen r - n) with (zlen body) by lia.
    eapply ub_window; [exact Hi'|exact Ha'|lia|rewrite zlen_app; lia|].
    rewrite ztake_app, zdrop_app. intros q Hq Haq. eapply Hf; [lia|exact Hq|exact Haq|rewrite Hedge; lia].
  - apply andb_prop in HW as [Hn HW]. destruct (IHspills HW Hg) as [f Hf]. exists (S f). intros f' p outer Hf' Hi Ha Ee. fuel f'.
    apply ub_first. eapply Hf; [lia|exact Hi|exact Ha|exact Ee].
  - destruct (IHspills HW Hg) as [f Hf]. exists (S f). intros f' p outer Hf' Hi Ha Ee. fuel f'. apply ub_first. eapply Hf; [lia|exact Hi|exact Ha|exact Ee].
  - destruct (IHspills HW (small_cons D HD _ _ Hg)) as [f Hf]. exists (S f). intros f' p outer Hf' Hi Ha Ee. fuel f'.
    eapply (ub_tag U8 _ 255 bs); [reflexivity|right; left; reflexivity|exact Hi|exact Ha|exact Hg|]. intros p' Hi' Ha'.
    cbn [Z.eqb Pos.eqb]. apply ub_first. eapply Hf; [lia|exact Hi'|exact Ha'|exact Ee].
  - destruct (IHspills HW Hg) as [f Hf]. exists (S f). intros f' p outer Hf' Hi Ha Ee. fuel f'.
    apply (ub_rem _ p bs outer Hi Ha Hg). intros p' Hi' Ha'. rewrite zlen_nz by assumption. cbn [negb]. apply ub_first. eapply Hf; [lia|eassumption..].
  - destruct (many_begun cf D HD t bs vs mid) as [g Hb]; try assumption. destruct (IHspills HW (begun_good cf D g t bs vs mid Hb Hg)) as [f Hf].
    exists (S (Nat.max (Nat.max f g) (S (length vs)))). intros f' p outer Hf' Hi Ha Ee. fuel f'. apply ub_first.
    eapply (ub_seq _ (dec cf D f' t)); [apply runs_dec|apply try_parse|apply shrinks_dec|eapply begun_more; [|exact Hb]; lia|assumption| |exact Hg|lia|exact Hi|exact Ha].
    intros q Hq Haq. eapply Hf; [lia|eassumption..].
  - apply andb_prop in HW as [Hn HW].
    destruct (many_begun cf D HD t bs vs mid) as [g Hb]; try assumption. destruct (IHspills HW (begun_good cf D g t bs vs mid Hb Hg)) as [f Hf].
    exists (S (Nat.max (Nat.max f g) (S (length vs)))). intros f' p outer Hf' Hi Ha Ee. fuel f'. apply ub_first.
    eapply (ub_lim _ (dec cf D f' t)); [apply runs_dec|apply try_parse|apply shrinks_dec|eapply begun_more; [|exact Hb]; lia|assumption| |exact Hg|lia|change (zlen (@nil val)) with 0; lia|exact Hi|exact Ha].
    intros q Hq Haq. eapply Hf; [lia|eassumption..].
  - apply andb_prop in HW as [Hn HW].
    destruct (many_begun cf D HD t bs vs mid) as [g Hb]; try assumption. destruct (IHspills HW (begun_good cf D g t bs vs mid Hb Hg)) as [f Hf].
    exists (S (Nat.max (Nat.max f g) (S (length vs)))). intros f' p outer Hf' Hi Ha Ee. fuel f'. apply ub_first.
    eapply (ub_fix _ (dec cf D f' t)); [apply runs_dec|apply try_parse|apply shrinks_dec|eapply begun_more; [|exact Hb]; lia|assumption| |exact Hg|lia|change (zlen (@nil val)) with 0; lia|exact Hi|exact Ha].
    intros q Hq Haq. eapply Hf; [lia|eassumption..].
  - match goal with E : nth_error D i = Some _ |- _ => rename E into Ei end.
    destruct (IHspills (wf_struct D i ts HD Ei) Hg) as [f Hf]. exists (S f). intros f' p outer Hf' Hi Ha Ee. fuel f'. rewrite Ei. apply ub_first.
    eapply Hf; [lia|eassumption..].
  - match goal with E : nth_error D i = Some _ |- _ => rename E into Ei end.
    match goal with E : nth_error alts ix = Some _ |- _ => rename E into Ea end.
    destruct (IHspills (wf_data D i k alts ix tag ts HD Ei Ea) (proj2 (small_app D HD _ _ Hg))) as [f Hf].
    exists (S f). intros f' p outer Hf' Hi Ha Ee. fuel f'. rewrite Ei.
    pose proof (wf_nth D _ _ HD Ei) as W. cbn [wf_def] in W. apply andb_prop in W; destruct W as [W _].
    apply andb_prop in W; destruct W as [W W3]. apply andb_prop in W; destruct W as [_ W2].
    assert (Et : nth_error (map fst alts) ix = Some tag) by (rewrite nth_error_map, Ea; reflexivity).
    eapply (ub_tag k _ tag bs); [rewrite forallb_forall in W3; apply W3| |exact Hi|exact Ha|exact Hg|]; [eapply nth_error_In; exact Et..|].
    intros p' Hi' Ha'. rewrite (find_tag_nth_error tag (map fst alts) ix W2 Et), Ea. apply ub_first. eapply Hf; [lia|eassumption..].
  - cbn [forallb] in HW. apply andb_prop in HW. destruct HW as [HW1 HW2]. destruct (IHspills HW1 Hg) as [f Hf].
    exists f. intros f' p outer Hf' Hi Ha Ee. cbn [p_fields]. apply ub_first. eapply Hf; eassumption.
  - cbn [forallb] in HW. apply andb_prop in HW. destruct HW as [HW1 HW2].
    match goal with E : denotes _ _ _ _ _ _ |- _ => rename E into Hd end.
    destruct (complete cf D HD _ _ _ _ Hd HW1 Hg) as [g Hgg]. destruct (IHspills HW2 (dec_good cf D _ _ _ _ _ Hg Hgg)) as [f Hf].
    exists (Nat.max f g). intros f' p outer Hf' Hi Ha Ee. cbn [p_fields].
    eapply (ub_then (parse cf D f' t)); [apply runs_dec|apply try_parse|exact Hi|exact Ha|apply Hg|eapply dec_more; [|exact Hgg]; lia|].
    intros p' Hi' Ha'. apply ub_first. eapply Hf; [lia|eassumption..].
Qed.
End Types.
End Spill.
