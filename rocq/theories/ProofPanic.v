(** When a debug build panics while decoding (C31). *)
From Verif Require Import Base BaseLemmas ModelErrors ModelSplitVec ModelParser ModelInt ModelFloat ModelZarith
  ModelUtf8 ModelTarget ModelSchema SpecParser SpecCodec SpecNum SpecUtf8 SpecGrammar SpecPanic
  ProofParser ProofParserSim ProofParserProps ProofParserExact ProofInt ProofSafe ProofDec ProofCodec ProofMeta ProofTransfer
  ProofTyped ProofRoundTrip ProofSettle ProofView ProofBroken ProofNum ProofCodecThms ProofHalt ProofCodecProps ProofGrammar.
From Coq Require Import ZifyBool.

Section Boom.
Context {P : Type} (h : handler P) (inv : P -> Prop) (alpha : P -> wstack) (alarm : Z -> Prop).
Hypothesis Href : refines_contract Debug h inv alpha.
Hypothesis Hno : forall (X : Set) (o : pop X) p r p', inv p -> in_contract o (alpha p) = true -> is_set_fit o = false ->
  h X o p = (r, p') -> r <> RPanic.
Hypothesis Hfit : forall n p, inv p -> size_ok n = true -> fst (h unit (OpSetFit n) p) = RPanic <-> alarm n.

Definition boom {A} (pg : prog A) (p : P) : Prop := fst (run h pg p) = RPanic.

Lemma run_ok {A} (pg : prog A) d p cur outer a rest : runs pg d -> try_bytes_only pg -> inv p -> alpha p = mkW cur outer ->
  zlen cur <= isize_max -> d cur = ROk (a, rest) -> exists p', run h pg p = (ROk a, p') /\ inv p' /\ alpha p' = mkW rest outer.
Proof.
  intros Hr Ht Hi Ha Hl Hd. pose proof (run_refines Debug h inv alpha Href pg p Hi Ht) as Ho. specialize (Hr cur outer Hl).
  unfold outcome in Hr. rewrite Hd in Hr. rewrite Ha, Hr in Ho. cbn [outcome_rel fst snd] in Ho. destruct Ho as (H1 & H2 & H3).
  destruct (run h pg p) as [r p']. cbn [fst snd] in *. subst r. eauto.
Qed.
Lemma run_ok_inv {A} (pg : prog A) d p cur outer a p' : runs pg d -> try_bytes_only pg -> inv p -> alpha p = mkW cur outer ->
  zlen cur <= isize_max -> d cur <> RUB -> run h pg p = (ROk a, p') ->
  exists rest, d cur = ROk (a, rest) /\ inv p' /\ alpha p' = mkW rest outer.
Proof.
  intros Hr Ht Hi Ha Hl Hd E. pose proof (run_refines Debug h inv alpha Href pg p Hi Ht) as Ho. specialize (Hr cur outer Hl).
  unfold outcome in Hr. rewrite Ha, E in Ho. unfold outcome_rel in Ho. destruct (d cur) as [[a' rest]|e| | |]; try congruence.
  - rewrite Hr in Ho. cbn [fst snd] in Ho. destruct Ho as (H1 & H2 & H3). injection H1 as <-. eauto.
  - destruct Hr as [e' Hr]. rewrite Hr in Ho. destruct Ho as [[? H]|[_ H]]; discriminate H.
  - rewrite Hr in Ho. discriminate Ho.
  - rewrite Hr in Ho. discriminate Ho.
Qed.

Lemma boom_bind {A B} (pg : prog A) d (k : A -> prog B) p cur outer : runs pg d -> try_bytes_only pg -> inv p ->
  alpha p = mkW cur outer -> zlen cur <= isize_max -> d cur <> RUB ->
  boom (pbind pg k) p ->
  boom pg p \/ exists a rest p', d cur = ROk (a, rest) /\ inv p' /\ alpha p' = mkW rest outer /\ boom (k a) p'.
Proof.
  intros Hr Ht Hi Ha Hl Hd H. unfold boom in *. rewrite run_pbind in H. destruct (run h pg p) as [[a|e| | |] p'] eqn:E; try discriminate H.
  - right. destruct (run_ok_inv pg d p cur outer a p' Hr Ht Hi Ha Hl Hd E) as (rest & H1 & H2 & H3). exists a, rest, p'. auto.
  - left. reflexivity.
Qed.
Lemma boom_first {A B} (pg : prog A) (k : A -> prog B) p : boom pg p -> boom (pbind pg k) p.
Proof. unfold boom. intros H. rewrite run_pbind. destruct (run h pg p) as [[a|e| | |] p']; try discriminate H. reflexivity. Qed.
Lemma boom_then {A B} (pg : prog A) d (k : A -> prog B) p cur outer a rest : runs pg d -> try_bytes_only pg -> inv p ->
  alpha p = mkW cur outer -> zlen cur <= isize_max -> d cur = ROk (a, rest) ->
  (forall p', inv p' -> alpha p' = mkW rest outer -> boom (k a) p') -> boom (pbind pg k) p.
Proof.
  intros Hr Ht Hi Ha Hl Hd Hk. destruct (run_ok pg d p cur outer a rest Hr Ht Hi Ha Hl Hd) as (p' & E & Hi' & Ha').
  unfold boom. rewrite run_pbind, E. apply Hk; assumption.
Qed.
(** Programs that open no window do not panic. *)
Lemma calm {A} (pg : prog A) d p cur outer : runs pg d -> try_bytes_only pg -> no_fit pg -> inv p -> alpha p = mkW cur outer ->
  good cur -> ok_or_err false (d cur) -> ~ boom pg p.
Proof.
  intros Hr Ht Hn Hi Ha [Hb Hl] [Hs1 Hs2] H. unfold boom in H. pose proof (run_refines Debug h inv alpha Href pg p Hi Ht) as Ho.
  specialize (Hr cur outer Hl). unfold outcome in Hr. unfold outcome_rel in Ho. rewrite Ha in Ho.
  destruct (d cur) as [[a rest]|e| | |].
  - rewrite Hr in Ho. cbn [fst] in Ho. destruct Ho as (Ho & _). congruence.
  - destruct (run_no_fit Debug h inv alpha Href Hno pg p Hi Ht Hn) as [e' E]; [rewrite Ha; exact Hr|congruence].
  - apply Hs1; reflexivity.
  - apply Hs2; reflexivity.
  - rewrite Hr in Ho. congruence.
Qed.
Lemma boom_calm {A B} (pg : prog A) d (k : A -> prog B) p cur outer : runs pg d -> try_bytes_only pg -> no_fit pg -> inv p ->
  alpha p = mkW cur outer -> good cur -> safe false d -> boom (pbind pg k) p ->
  exists a rest p', d cur = ROk (a, rest) /\ inv p' /\ alpha p' = mkW rest outer /\ boom (k a) p'.
Proof.
  intros Hr Ht Hn Hi Ha Hg Hs H. pose proof (Hs cur Hg) as Hok. destruct (boom_bind pg d k p cur outer Hr Ht Hi Ha (proj2 Hg) (proj2 Hok) H) as [Hb|Hb]; [|exact Hb].
  exfalso. exact (calm pg d p cur outer Hr Ht Hn Hi Ha Hg Hok Hb).
Qed.
Lemma ret_calm {A} (a : A) p : ~ boom (PRet a) p. Proof. discriminate. Qed.

(** ** Windows *)
Lemma boom_window {A B} n (pg : prog A) d (f : A -> B) p cur outer : runs pg d -> try_bytes_only pg -> inv p ->
  alpha p = mkW cur outer -> good cur -> 0 <= n <= isize_max -> (forall cur, good cur -> d cur <> RUB) ->
  boom (pbind (p_set_fit n) (fun _ => pbind pg (fun v => pbind p_enforce_target (fun _ => PRet (f v))))) p ->
  (zlen cur < n /\ alarm n) \/ n <= zlen cur /\ exists p', inv p' /\ alpha p' = mkW (ztake n cur) (zdrop n cur :: outer) /\ boom pg p'.
Proof.
  intros Hr Ht Hi Ha Hg Hn Hub H. assert (Hs : size_ok n = true) by (unfold size_ok; lia).
  unfold boom in H. rewrite run_pbind in H. unfold p_set_fit in H. rewrite run_do_op in H.
  destruct (h unit (OpSetFit n) p) as [r p1] eqn:E.
  assert (Hc : in_contract (OpSetFit n) (alpha p) = true) by exact Hs.
  destruct (spec_op Keep (OpSetFit n) (alpha p)) as [x w'] eqn:Es.
  pose proof (Href unit (OpSetFit n) p x w' r p1 Hi Hc Es E) as Hst. cbn [spec_op] in Es. rewrite Ha in Es. cbn [w_cur w_outer] in Es.
  destruct r as [[]|e| | |]; try contradiction; try discriminate H.
  - right. destruct Hst as (-> & Hi1 & Ha1). destruct (Z.leb_spec n (zlen cur)); [|discriminate Es]. injection Es as <-.
    split; [assumption|]. exists p1. split; [exact Hi1|]. split; [exact Ha1|].
    assert (Hg' : good (ztake n cur)).
    { destruct Hg as [Hb Hl]. split; [|rewrite zlen_ztake by lia; lia]. rewrite <- (ztake_zdrop n cur) in Hb. apply bytes_ok_app in Hb; tauto. }
    destruct (boom_bind pg d _ p1 _ _ Hr Ht Hi1 Ha1 (proj2 Hg') (Hub _ Hg') H) as [Hb|(a & rest & p2 & _ & Hi2 & Ha2 & Hb)]; [exact Hb|].
    exfalso. unfold boom in Hb. rewrite run_pbind in Hb. unfold p_enforce_target in Hb. rewrite run_do_op in Hb.
    destruct (h unit OpEnforceTarget p2) as [r p3] eqn:E3. cbn [run] in Hb.
    assert (Hc3 : in_contract OpEnforceTarget (alpha p2) = true) by (rewrite Ha2; reflexivity).
    pose proof (Hno unit OpEnforceTarget p2 r p3 Hi2 Hc3 eq_refl E3). destruct r; cbn [fst] in Hb; try discriminate Hb. congruence.
  - left. split; [|apply (Hfit n p Hi Hs); rewrite E; reflexivity].
    destruct Hst as (_ & -> & _). destruct (Z.leb_spec n (zlen cur)); [discriminate Es|assumption].
Qed.
Lemma window_alarm {A} n (k : unit -> prog A) p : inv p -> 0 <= n <= isize_max -> alarm n -> boom (pbind (p_set_fit n) k) p.
Proof.
  intros Hi Hn Ha. apply boom_first. unfold boom, p_set_fit. rewrite run_do_op. apply Hfit; [exact Hi|unfold size_ok; lia|exact Ha].
Qed.
Lemma window_inside {A} n (pg : prog A) {B} (k : A -> prog B) p cur outer : inv p -> alpha p = mkW cur outer -> 0 <= n <= isize_max ->
  n <= zlen cur ->
  (forall p', inv p' -> alpha p' = mkW (ztake n cur) (zdrop n cur :: outer) -> boom pg p') ->
  boom (pbind (p_set_fit n) (fun _ => pbind pg k)) p.
Proof.
  intros Hi Ha Hn Hle H. unfold boom. rewrite run_pbind. unfold p_set_fit. rewrite run_do_op.
  assert (Hs : size_ok n = true) by (unfold size_ok; lia).
  destruct (h unit (OpSetFit n) p) as [r p1] eqn:E.
  assert (Hc : in_contract (OpSetFit n) (alpha p) = true) by exact Hs.
  assert (Es : spec_op Keep (OpSetFit n) (alpha p) = (Some tt, mkW (ztake n cur) (zdrop n cur :: outer))).
  { cbn [spec_op]. rewrite Ha. cbn [w_cur w_outer]. replace (n <=? zlen cur) with true by lia. reflexivity. }
  pose proof (Href unit (OpSetFit n) p _ _ r p1 Hi Hc Es E) as Hst.
  destruct r as [[]|e| | |]; try contradiction.
  - destruct Hst as (_ & Hi1 & Ha1). apply boom_first. apply H; assumption.
  - destruct Hst as [Hst _]. discriminate Hst.
  - reflexivity.
Qed.

(** ** Loops *)
Lemma rem_step {A} (k : Z -> prog A) p cur outer : inv p -> alpha p = mkW cur outer -> good cur -> boom (pbind p_remainder k) p ->
  exists p', inv p' /\ alpha p' = mkW cur outer /\ boom (k (zlen cur)) p'.
Proof.
  intros Hi Ha Hg H. eapply boom_calm in H; [|apply runs_rem|apply try_op|apply nf_op; reflexivity|eassumption..|apply safe_rem].
  destruct H as (a & rest & p' & E & H). injection E as <- <-. eauto.
Qed.
Lemma rem_then {A} (k : Z -> prog A) p cur outer : inv p -> alpha p = mkW cur outer -> good cur ->
  (forall p', inv p' -> alpha p' = mkW cur outer -> boom (k (zlen cur)) p') -> boom (pbind p_remainder k) p.
Proof. intros Hi Ha [_ Hl] H. eapply boom_then; [apply runs_rem|apply try_op|eassumption..|reflexivity|exact H]. Qed.

Section Loops.
Variables (pe : prog val) (d : dm val).
Hypothesis Hr : runs pe d.
Hypothesis Ht : try_bytes_only pe.
Hypothesis Hs : shrinks d.
Hypothesis Hu : forall cur, good cur -> d cur <> RUB.

Definition within (cur : list byte) outer (q : list val -> Prop) : Prop :=
  exists vs mid p, begun d cur vs mid /\ q vs /\ mid <> [] /\ inv p /\ alpha p = mkW mid outer /\ boom pe p.
Lemma within_more cur outer (q : list val -> Prop) v r : cur <> [] -> d cur = ROk (v, r) -> within r outer (fun vs => q (v :: vs)) -> within cur outer q.
Proof.
  intros N E (vs & mid & p & Hb & Hq & H). exists (v :: vs), mid, p. split; [|split; assumption]. econstructor; eassumption.
Qed.
Lemma within_here cur outer (q : list val -> Prop) p : cur <> [] -> q [] -> inv p -> alpha p = mkW cur outer -> boom pe p -> within cur outer q.
Proof. intros. exists [], cur, p. repeat split; try assumption. constructor. Qed.
Lemma nz_nonempty (cur : list byte) : zlen cur =? 0 = false -> cur <> []. Proof. intros H ->. discriminate H. Qed.

Lemma boom_seq fl : forall acc p cur outer, inv p -> alpha p = mkW cur outer -> good cur ->
  boom (p_seq_loop fl pe acc) p -> within cur outer (fun _ => True).
Proof.
  induction fl as [|fl IH]; intros acc p cur outer Hi Ha Hg H; [discriminate H|]. cbn [p_seq_loop] in H.
  apply (rem_step _ p cur outer Hi Ha Hg) in H. clear p Hi Ha. destruct H as (p & Hi & Ha & H).
  destruct (zlen cur =? 0) eqn:E; [discriminate H|]. apply nz_nonempty in E.
  apply (boom_bind pe d _ p cur outer Hr Ht Hi Ha (proj2 Hg) (Hu _ Hg)) in H. destruct H as [H|(v & r & p' & Ev & Hi' & Ha' & H)].
  - eapply within_here; eauto.
  - eapply within_more; [exact E|exact Ev|]. eapply IH; try eassumption. eapply good_suffix; [|exact Hg]. eapply Hs; eassumption.
Qed.
Lemma boom_lim n fl : forall acc p cur outer, inv p -> alpha p = mkW cur outer -> good cur -> zlen acc <= n ->
  boom (p_lim_loop fl n pe acc) p -> within cur outer (fun vs => zlen acc + zlen vs <= n).
Proof.
  induction fl as [|fl IH]; intros acc p cur outer Hi Ha Hg Hn H; [discriminate H|]. cbn [p_lim_loop] in H.
  apply (rem_step _ p cur outer Hi Ha Hg) in H. clear p Hi Ha. destruct H as (p & Hi & Ha & H).
  destruct (zlen cur =? 0) eqn:E; [discriminate H|]. apply nz_nonempty in E.
  apply (boom_bind pe d _ p cur outer Hr Ht Hi Ha (proj2 Hg) (Hu _ Hg)) in H. destruct H as [H|(v & r & p' & Ev & Hi' & Ha' & H)].
  - eapply within_here; eauto. change (zlen (@nil val)) with 0. lia.
  - eapply within_more; [exact E|exact Ev|]. unfold try_push in H. destruct (Z.ltb_spec (zlen acc) n); [|discriminate H].
    cbn [ext_len plift pbind] in H.
    assert (Hg' : good r) by (eapply good_suffix; [|exact Hg]; eapply Hs; eassumption).
    assert (Hn' : zlen (acc ++ [v]) <= n) by (rewrite zlen_app; change (zlen [v]) with 1; lia).
    destruct (IH (acc ++ [v]) p' r outer Hi' Ha' Hg' Hn' H) as (vs & mid & q & Hb & Hq & Hrest).
    exists vs, mid, q. split; [exact Hb|]. split; [|exact Hrest]. rewrite zlen_app in Hq. change (zlen [v]) with 1 in Hq. rewrite zlen_cons. lia.
Qed.
Lemma boom_fix n fl : forall acc p cur outer, inv p -> alpha p = mkW cur outer -> good cur ->
  boom (p_fix_loop fl n pe acc) p -> within cur outer (fun vs => zlen acc + zlen vs < n).
Proof.
  induction fl as [|fl IH]; intros acc p cur outer Hi Ha Hg H; [discriminate H|]. cbn [p_fix_loop] in H.
  apply (rem_step _ p cur outer Hi Ha Hg) in H. clear p Hi Ha. destruct H as (p & Hi & Ha & H).
  destruct (negb (zlen cur =? 0) && (zlen acc <? n)) eqn:E; [|destruct (zlen acc =? n); discriminate H].
  apply andb_prop in E. destruct E as [E En]. assert (E' : cur <> []) by (apply nz_nonempty; lia).
  apply (boom_bind pe d _ p cur outer Hr Ht Hi Ha (proj2 Hg) (Hu _ Hg)) in H. destruct H as [H|(v & r & p' & Ev & Hi' & Ha' & H)].
  - eapply within_here; eauto. change (zlen (@nil val)) with 0. lia.
  - eapply within_more; [exact E'|exact Ev|].
    assert (Hg' : good r) by (eapply good_suffix; [|exact Hg]; eapply Hs; eassumption).
    destruct (IH (acc ++ [v]) p' r outer Hi' Ha' Hg' H) as (vs & mid & q & Hb & Hq & Hrest).
    exists vs, mid, q. split; [exact Hb|]. split; [|exact Hrest]. rewrite zlen_app in Hq. change (zlen [v]) with 1 in Hq. rewrite zlen_cons. lia.
Qed.

Definition booms_at (mid : list byte) outer : Prop := forall p, inv p -> alpha p = mkW mid outer -> boom pe p.
Lemma seq_boom outer cur vs mid : begun d cur vs mid -> mid <> [] -> booms_at mid outer -> good cur -> forall fl acc p, (length vs < fl)%nat ->
  inv p -> alpha p = mkW cur outer -> boom (p_seq_loop fl pe acc) p.
Proof.
  induction 1 as [cur|cur v r vs rest N Hv _ IH]; intros Nm Hm Hg fl acc p Hf Hi Ha; (destruct fl as [|fl]; [cbn in Hf; lia|]); cbn [p_seq_loop].
  - apply (rem_then _ p cur outer Hi Ha Hg). intros p' Hi' Ha'. rewrite (zlen_nz _ Nm). apply boom_first. apply Hm; assumption.
  - apply (rem_then _ p cur outer Hi Ha Hg). intros p' Hi' Ha'. rewrite (zlen_nz _ N).
    eapply boom_then; [exact Hr|exact Ht|exact Hi'|exact Ha'|apply Hg|exact Hv|]. intros q Hq Haq.
    apply IH; try assumption; [eapply good_suffix; [|exact Hg]; eapply Hs; eassumption|cbn [length] in Hf; lia].
Qed.
Lemma lim_boom n outer cur vs mid : begun d cur vs mid -> mid <> [] -> booms_at mid outer -> good cur -> forall fl acc p, (length vs < fl)%nat ->
  zlen acc + zlen vs <= n -> inv p -> alpha p = mkW cur outer -> boom (p_lim_loop fl n pe acc) p.
Proof.
  induction 1 as [cur|cur v r vs rest N Hv _ IH]; intros Nm Hm Hg fl acc p Hf Hn Hi Ha; (destruct fl as [|fl]; [cbn in Hf; lia|]); cbn [p_lim_loop].
  - apply (rem_then _ p cur outer Hi Ha Hg). intros p' Hi' Ha'. rewrite (zlen_nz _ Nm). apply boom_first. apply Hm; assumption.
  - apply (rem_then _ p cur outer Hi Ha Hg). intros p' Hi' Ha'. rewrite (zlen_nz _ N).
    eapply boom_then; [exact Hr|exact Ht|exact Hi'|exact Ha'|apply Hg|exact Hv|]. intros q Hq Haq.
    rewrite zlen_cons in Hn. pose proof (zlen_nonneg vs). unfold try_push. replace (zlen acc <? n) with true by lia. cbn [ext_len plift pbind].
    apply IH; try assumption; [eapply good_suffix; [|exact Hg]; eapply Hs; eassumption|cbn [length] in Hf; lia|].
    rewrite zlen_app. change (zlen [v]) with 1. lia.
Qed.
Lemma fix_boom n outer cur vs mid : begun d cur vs mid -> mid <> [] -> booms_at mid outer -> good cur -> forall fl acc p, (length vs < fl)%nat ->
  zlen acc + zlen vs < n -> inv p -> alpha p = mkW cur outer -> boom (p_fix_loop fl n pe acc) p.
Proof.
  induction 1 as [cur|cur v r vs rest N Hv _ IH]; intros Nm Hm Hg fl acc p Hf Hn Hi Ha; (destruct fl as [|fl]; [cbn in Hf; lia|]); cbn [p_fix_loop].
  - apply (rem_then _ p cur outer Hi Ha Hg). intros p' Hi' Ha'. rewrite (zlen_nz _ Nm). change (zlen (@nil val)) with 0 in Hn.
    replace (zlen acc <? n) with true by lia. cbn [negb andb]. apply boom_first. apply Hm; assumption.
  - apply (rem_then _ p cur outer Hi Ha Hg). intros p' Hi' Ha'. rewrite (zlen_nz _ N). rewrite zlen_cons in Hn. pose proof (zlen_nonneg vs).
    replace (zlen acc <? n) with true by lia. cbn [negb andb].
    eapply boom_then; [exact Hr|exact Ht|exact Hi'|exact Ha'|apply Hg|exact Hv|]. intros q Hq Haq.
    apply IH; try assumption; [eapply good_suffix; [|exact Hg]; eapply Hs; eassumption|cbn [length] in Hf; lia|].
    rewrite zlen_app. change (zlen [v]) with 1. lia.
Qed.
End Loops.

(** ** Types *)
Section Types.
Variables (cf : config) (D : list def).
Hypothesis HD : wf_defs D = true.
Hypothesis HM : cf_mode cf = Debug.
Notation den := (denotes (cf_check_padding cf) D).
Notation mny := (many (cf_check_padding cf) D).
Notation trp := (trips (cf_check_padding cf) D alarm).
Notation trn := (trips_turn (cf_check_padding cf) D alarm).

Lemma dec_nub f t cur : wf_ty D t = true -> good cur -> dec cf D f t cur <> RUB.
Proof.
  intros HW Hg. refine (proj2 (safe_dec true cf D HD _ f t HW _ cur Hg)); unfold vpads; rewrite HM; reflexivity.
Qed.
Lemma dec_good f t cur v rest : good cur -> dec cf D f t cur = ROk (v, rest) -> good rest.
Proof. intros Hg E. eapply good_suffix; [|exact Hg]. eapply shrinks_dec; exact E. Qed.
Lemma begun_good f t cur vs mid : begun (dec cf D f t) cur vs mid -> good cur -> good mid.
Proof. induction 1; intros Hg; [exact Hg|]. eauto using dec_good. Qed.

Lemma scalar_calm f t p cur outer : scalarb t = true -> wf_ty [] t = true -> inv p -> alpha p = mkW cur outer -> good cur ->
  ~ boom (parse cf [] (S f) t) p.
Proof.
  intros HS HW Hi Ha Hg. eapply calm; [apply runs_dec|apply try_parse| |exact Hi|exact Ha|exact Hg|].
  - apply nf_parse; [reflexivity|]. destruct t; try discriminate HS; reflexivity.
  - apply safe_dec; try assumption; try reflexivity; unfold vpads; [apply orb_true_r|].
    destruct t; try discriminate HS; apply orb_true_r.
Qed.

Definition sound_boom f : Prop := forall t p cur outer, wf_ty D t = true -> inv p -> alpha p = mkW cur outer -> good cur ->
  boom (parse cf D f t) p -> trp t cur.

Lemma boom_fields f : sound_boom f -> forall ts, forallb (wf_ty D) ts = true -> forall p cur outer, inv p -> alpha p = mkW cur outer -> good cur ->
  boom (p_fields (parse cf D f) ts) p -> trn ts cur.
Proof.
  intros IH. induction ts as [|t ts IHts]; intros HW p cur outer Hi Ha Hg H; [discriminate H|].
  cbn [forallb] in HW. apply andb_prop in HW. destruct HW as [HW1 HW2]. cbn [p_fields] in H.
  eapply (boom_bind (parse cf D f t)) in H; [|apply runs_dec|apply try_parse|exact Hi|exact Ha|apply Hg|apply dec_nub; assumption].
  destruct H as [H|(v & r & p' & Ev & Hi' & Ha' & H)].
  - apply turn_here. eapply IH; eassumption.
  - eapply turn_later; [eapply (sound_all cf D HD); [exact HW1|exact Hg|exact Ev]|].
    assert (H' : boom (p_fields (parse cf D f) ts) p').
    { unfold boom in H |- *. rewrite run_pbind in H. destruct (run h _ p') as [[x|e| | |] q]; cbn [run fst] in H |- *; congruence. }
    eapply IHts; try eassumption. eapply dec_good; eassumption.
Qed.
(** A result that is only wrapped. *)
Lemma boom_wrap {A B} (pg : prog A) (g : A -> B) p : boom (pbind pg (fun x => PRet (g x))) p -> boom pg p.
Proof. unfold boom. rewrite run_pbind. destruct (run h pg p) as [[x|e| | |] q]; cbn [run fst]; congruence. Qed.

Lemma within_many f t : wf_ty D t = true -> sound_boom f -> forall cur outer q, good cur ->
  within (parse cf D f t) (dec cf D f t) cur outer q -> exists vs mid, mny t cur vs mid /\ q vs /\ mid <> [] /\ trp t mid.
Proof.
  intros HW IH cur outer q Hg (vs & mid & p & Hb & Hq & N & Hi & Ha & H). exists vs, mid. split; [|split; [exact Hq|split; [exact N|]]].
  - eapply begun_many; [|apply sound_all| | |]; eassumption.
  - eapply IH; try eassumption. eapply begun_good; eassumption.
Qed.

Lemma try_tag k tags : try_bytes_only (p_take_tagword k tags).
Proof. unfold p_take_tagword, p_int, p_take_fixed, p_consume_arr, p_consume; tries. Qed.
Lemma nf_tag k tags : no_fit (p_take_tagword k tags).
Proof. unfold p_take_tagword, p_int, p_take_fixed, p_consume_arr, p_consume; nfs. Qed.
Lemma try_pref s : try_bytes_only (p_pref cf s).
Proof. unfold p_pref, p_ranged, p_int, p_take_fixed, p_consume_arr, p_consume; destruct s; tries. Qed.
Lemma nf_pref s : no_fit (p_pref cf s).
Proof. unfold p_pref, p_ranged, p_int, p_take_fixed, p_consume_arr, p_consume; destruct s; nfs. Qed.
Lemma tag_step {A} k tags (kk : Z -> prog A) p cur outer : inv p -> alpha p = mkW cur outer -> good cur -> boom (pbind (p_take_tagword k tags) kk) p ->
  exists tag r p', cur = int_format k tag ++ r /\ In tag tags /\ inv p' /\ alpha p' = mkW r outer /\ good r /\ boom (kk tag) p'.
Proof.
  intros Hi Ha Hg H. eapply boom_calm in H; [|apply runs_tag|apply try_tag|apply nf_tag|eassumption..|apply safe_tag].
  destruct H as (tag & r & p' & Et & Hi' & Ha' & H). apply d_tag_ok in Et; [|apply Hg]. destruct Et as [E Ht].
  exists tag, r, p'. repeat split; try assumption; subst cur; apply (small_app D HD) in Hg; apply Hg.
Qed.

Lemma sound_boom_all f : sound_boom f.
Proof.
  induction f as [|f IH]; intros t p cur outer HW Hi Ha Hg H; [discriminate H|].
  destruct t; cbn [wf_ty] in HW;
    try (exfalso; lazymatch type of H with boom (parse _ _ _ ?t) _ => exact (scalar_calm f t p cur outer eq_refl HW Hi Ha Hg H) end);
    cbn [parse] in H.
  - apply (tag_step _ _ _ p cur outer Hi Ha Hg) in H. destruct H as (tag & r & p' & -> & Ht & Hi' & Ha' & Hg' & H).
    destruct Ht as [<-|[<-|[]]]; cbn [Z.eqb Pos.eqb] in H; [discriminate H|]. apply boom_wrap in H.
    change (int_format U8 255 ++ r) with (255 :: r) in *. apply trip_some. eapply IH; eassumption.
  - apply (rem_step _ p cur outer Hi Ha Hg) in H. clear p Hi Ha. destruct H as (p & Hi & Ha & H).
    destruct (zlen cur =? 0) eqn:E; cbn [negb] in H; [discriminate H|]. apply boom_wrap in H.
    apply trip_nonnull; [apply nz_nonempty; exact E|]. eapply IH; eassumption.
  - apply boom_wrap in H. eapply (boom_seq _ (dec cf D f t)) in H; try eassumption; [|apply runs_dec|apply try_parse|apply shrinks_dec|intros; apply dec_nub; assumption].
    apply within_many in H; try assumption. destruct H as (vs & mid & Hm & _ & N & Ht). eapply trip_seq; eassumption.
  - apply andb_prop in HW as [Hn HW]. apply boom_wrap in H.
    eapply (boom_lim _ (dec cf D f t)) in H; try eassumption; [|apply runs_dec|apply try_parse|apply shrinks_dec|intros; apply dec_nub; assumption|].
    2:{ unfold sizeb in Hn. change (zlen (@nil val)) with 0. lia. }
    apply within_many in H; try assumption. destruct H as (vs & mid & Hm & Hq & N & Ht). eapply trip_lim; eassumption.
  - apply andb_prop in HW as [Hn HW]. apply boom_wrap in H.
    eapply (boom_fix _ (dec cf D f t)) in H; try eassumption; [|apply runs_dec|apply try_parse|apply shrinks_dec|intros; apply dec_nub; assumption].
    apply within_many in H; try assumption. destruct H as (vs & mid & Hm & Hq & N & Ht). eapply trip_fix; eassumption.
  - eapply boom_calm in H; [|apply runs_pref|apply try_pref|apply nf_pref|eassumption..|apply safe_pref].
    destruct H as (n & r & p' & Ep & Hi' & Ha' & H). apply d_pref_ok in Ep; [|apply Hg]. destruct Ep as [-> Hn].
    assert (Hm : pref_max s <= isize_max) by (destruct s; vm_compute; discriminate).
    assert (Hg' : good r) by (apply (small_app D HD) in Hg; apply Hg).
    eapply (boom_window n (parse cf D f t) (dec cf D f t)) in H; [|apply runs_dec|apply try_parse|eassumption..|lia|intros; apply dec_nub; assumption].
    destruct H as [[_ H]|(Hle & q & Hiq & Haq & H)]; [apply trip_announced; assumption|].
    rewrite <- (ztake_zdrop n r) in Hg' |- *. apply (small_app D HD) in Hg'. destruct Hg' as [Hg1 Hg2].
    replace n with (zlen (ztake n r)) at 1 by (rewrite zlen_ztake; lia).
    apply trip_payload; [rewrite zlen_ztake; lia|]. eapply IH; eassumption.
  - apply andb_prop in HW as [Hn HW]. unfold sizeb in Hn.
    apply (rem_step _ p cur outer Hi Ha Hg) in H. clear p Hi Ha. destruct H as (p & Hi & Ha & H).
    rewrite HM in H. unfold debug_assert in H. destruct (Z.leb_spec n (zlen cur)) as [Hle|Hlt]; [|apply trip_vpad; exact Hlt].
    destruct Hg as [Hb Hl]. rewrite usub_ok in H by (pose proof isize_max_lt; lia). cbn [plift pbind] in H.
    eapply (boom_window _ (parse cf D f t) (dec cf D f t)) in H; [|apply runs_dec|apply try_parse|eassumption..|split; assumption|lia|intros; apply dec_nub; assumption].
    assert (Hg : good cur) by (split; assumption).
    destruct H as [[H _]|(Hle' & q & Hiq & Haq & H)].
    + exfalso. lia.
    + rewrite <- (ztake_zdrop (zlen cur - n) cur) in Hg |- *. apply (small_app D HD) in Hg. destruct Hg as [Hg1 Hg2].
      apply trip_body; [rewrite zlen_zdrop; lia|]. eapply IH; eassumption.
  - apply andb_prop in HW as [Hn HW]. unfold sizeb in Hn.
    eapply (boom_bind (parse cf D f t)) in H; [|apply runs_dec|apply try_parse|exact Hi|exact Ha|apply Hg|apply dec_nub; assumption].
    apply trip_padded. destruct H as [H|(v & r & p' & Ev & Hi' & Ha' & H)]; [eapply IH; eassumption|exfalso].
    assert (Hg' : good r) by (eapply dec_good; eassumption).
    eapply boom_calm in H; [|apply runs_consume|apply try_op|apply nf_op; reflexivity|eassumption..|apply safe_consume; lia].
    destruct H as (pad & r' & q & _ & _ & _ & H). destruct (_ && _) in H; discriminate H.
  - apply boom_wrap in H. apply trip_box. eapply IH; eassumption.
  - destruct (nth_error D i) as [[ts|k tags|k alts]|] eqn:Ei.
    + apply boom_wrap in H. eapply trip_struct; [exact Ei|]. eapply boom_fields; try eassumption. eapply wf_struct; eassumption.
    + exfalso. apply (tag_step _ _ _ p cur outer Hi Ha Hg) in H. destruct H as (tag & r & p' & -> & Ht & Hi' & Ha' & Hg' & H).
      destruct (find_tag_in _ _ Ht) as (ix & E1 & E2). rewrite E1 in H. discriminate H.
    + apply (tag_step _ _ _ p cur outer Hi Ha Hg) in H. destruct H as (tag & r & p' & -> & Ht & Hi' & Ha' & Hg' & H).
      destruct (find_tag_in _ _ Ht) as (ix & E1 & E2). rewrite E1 in H. rewrite nth_error_map in E2.
      destruct (nth_error alts ix) as [[tg ts]|] eqn:Ea; [|discriminate E2]. cbn in E2. injection E2 as ->. apply boom_wrap in H.
      eapply trip_data; [exact Ei|exact Ea|]. eapply boom_fields; try eassumption. eapply wf_data; eassumption.
    + apply nth_error_None in Ei. apply Nat.ltb_lt in HW. lia.
Qed.

Scheme trips_mut := Induction for trips Sort Prop
with trips_turn_mut := Induction for trips_turn Sort Prop.

Definition goes_off (bs : list byte) (pg : nat -> prog val) : Prop :=
  exists f, forall f' p outer, (f <= f')%nat -> inv p -> alpha p = mkW bs outer -> boom (pg f') p.
Definition goes_off_turn (bs : list byte) (pg : nat -> prog (list val)) : Prop :=
  exists f, forall f' p outer, (f <= f')%nat -> inv p -> alpha p = mkW bs outer -> boom (pg f') p.

Lemma tag_boom {A} k tags tag r (kk : Z -> prog A) p outer : ik_in k tag = true -> In tag tags -> inv p -> alpha p = mkW (int_format k tag ++ r) outer ->
  good (int_format k tag ++ r) -> (forall p', inv p' -> alpha p' = mkW r outer -> boom (kk tag) p') -> boom (pbind (p_take_tagword k tags) kk) p.
Proof.
  intros Hk Hin Hi Ha Hg H. eapply boom_then; [apply runs_tag|apply try_tag|exact Hi|exact Ha|apply Hg|apply d_tag_app; assumption|exact H].
Qed.

Lemma many_begun t bs vs mid : mny t bs vs mid -> wf_ty D t = true -> good bs -> exists f, begun (dec cf D f t) bs vs mid.
Proof.
  induction 1 as [|t bs v mid vs r N Hd _ IH]; intros HW Hg; [exists O; constructor|].
  destruct (complete cf D HD _ _ _ _ Hd HW Hg) as [f Hf]. destruct (IH HW) as [g Hgg]; [eapply dec_good; eassumption|].
  exists (Nat.max f g). econstructor; [exact N|eapply dec_more; [|exact Hf]; lia|eapply begun_more; [|exact Hgg]; lia].
Qed.

Ltac fuel f' := destruct f' as [|f']; [lia|]; cbn [parse].
Lemma complete_boom t bs : trp t bs -> wf_ty D t = true -> good bs -> goes_off bs (fun f => parse cf D f t).
Proof.
  intros H.
  induction H using trips_mut with (P0 := fun ts bs _ => forallb (wf_ty D) ts = true -> good bs -> goes_off_turn bs (fun f => p_fields (parse cf D f) ts));
    cbn [wf_ty]; intros HW Hg.
  - exists 1%nat. intros f' p outer Hf Hi Ha. fuel f'.
    assert (Hm : pref_max s <= isize_max) by (destruct s; vm_compute; discriminate).
    eapply boom_then; [apply runs_pref|apply try_pref|exact Hi|exact Ha|apply Hg|apply d_pref_app; lia|].
    intros p' Hi' Ha'. apply window_alarm; [assumption|lia|assumption].
  - apply andb_prop in HW as [Hn HW]. exists 1%nat. intros f' p outer Hf Hi Ha. fuel f'.
    apply (rem_then _ p bs outer Hi Ha Hg). intros p' Hi' Ha'. rewrite HM. unfold debug_assert. replace (n <=? zlen bs) with false by lia. reflexivity.
  - assert (Hm : pref_max s <= isize_max) by (destruct s; vm_compute; discriminate). pose proof (zlen_nonneg payload).
    pose proof (small_app D HD _ _ Hg) as [_ Hg']. pose proof (small_app D HD _ _ Hg') as [Hg1 _].
    destruct (IHtrips HW Hg1) as [f Hf]. exists (S f). intros f' p outer Hf' Hi Ha. fuel f'.
    eapply boom_then; [apply runs_pref|apply try_pref|exact Hi|exact Ha|apply Hg|apply d_pref_app; lia|].
    intros p' Hi' Ha'. eapply window_inside; [exact Hi'|exact Ha'|lia|rewrite zlen_app; pose proof (zlen_nonneg r); lia|].
    rewrite ztake_app, zdrop_app. intros q Hq Haq. eapply Hf; [lia|exact Hq|exact Haq].
  - apply andb_prop in HW as [Hn HW]. unfold sizeb in Hn.
    pose proof (small_app D HD _ _ Hg) as [Hg1 _]. pose proof (zlen_nonneg body). destruct Hg as [Hb Hl]. rewrite zlen_app in Hl.
    destruct (IHtrips HW Hg1) as [f Hf]. exists (S f). intros f' p outer Hf' Hi Ha. fuel f'.
    apply (rem_then _ p (body ++ r) outer Hi Ha); [split; [exact Hb|rewrite zlen_app; exact Hl]|]. intros p' Hi' Ha'. rewrite HM, zlen_app.
    unfold debug_assert. replace (n <=? zlen body + zlen r) with true by lia. rewrite usub_ok by (pose proof isize_max_lt; lia). cbn [plift pbind].
    replace (zlen body + zlen r - n) with (zlen body) by lia.
    eapply window_inside; [exact Hi'|exact Ha'|lia|rewrite zlen_app; lia|].
    rewrite ztake_app, zdrop_app. intros q Hq Haq. eapply Hf; [lia|exact Hq|exact Haq].
  - apply andb_prop in HW as [Hn HW]. destruct (IHtrips HW Hg) as [f Hf]. exists (S f). intros f' p outer Hf' Hi Ha. fuel f'.
    apply boom_first. eapply Hf; [lia|exact Hi|exact Ha].
  - destruct (IHtrips HW Hg) as [f Hf]. exists (S f). intros f' p outer Hf' Hi Ha. fuel f'. apply boom_first. eapply Hf; [lia|exact Hi|exact Ha].
  - destruct (IHtrips HW (small_cons D HD _ _ Hg)) as [f Hf]. exists (S f). intros f' p outer Hf' Hi Ha. fuel f'.
    eapply (tag_boom U8 _ 255 bs); [reflexivity|right; left; reflexivity|exact Hi|exact Ha|exact Hg|]. intros p' Hi' Ha'.
    cbn [Z.eqb Pos.eqb]. apply boom_first. eapply Hf; [lia|exact Hi'|exact Ha'].
  - destruct (IHtrips HW Hg) as [f Hf]. exists (S f). intros f' p outer Hf' Hi Ha. fuel f'.
    apply (rem_then _ p bs outer Hi Ha Hg). intros p' Hi' Ha'. rewrite zlen_nz by assumption. cbn [negb]. apply boom_first. eapply Hf; [lia|eassumption..].
  - destruct (many_begun t bs vs mid) as [g Hb]; try assumption. destruct (IHtrips HW (begun_good g t bs vs mid Hb Hg)) as [f Hf].
    exists (S (Nat.max (Nat.max f g) (S (length vs)))). intros f' p outer Hf' Hi Ha. fuel f'. apply boom_first.
    eapply (seq_boom _ (dec cf D f' t)); [apply runs_dec|apply try_parse|apply shrinks_dec|eapply begun_more; [|exact Hb]; lia|assumption| |exact Hg|lia|exact Hi|exact Ha].
    intros q Hq Haq. eapply Hf; [lia|eassumption..].
  - apply andb_prop in HW as [Hn HW].
    destruct (many_begun t bs vs mid) as [g Hb]; try assumption. destruct (IHtrips HW (begun_good g t bs vs mid Hb Hg)) as [f Hf].
    exists (S (Nat.max (Nat.max f g) (S (length vs)))). intros f' p outer Hf' Hi Ha. fuel f'. apply boom_first.
    eapply (lim_boom _ (dec cf D f' t)); [apply runs_dec|apply try_parse|apply shrinks_dec|eapply begun_more; [|exact Hb]; lia|assumption| |exact Hg|lia|change (zlen (@nil val)) with 0; lia|exact Hi|exact Ha].
    intros q Hq Haq. eapply Hf; [lia|eassumption..].
  - apply andb_prop in HW as [Hn HW].
    destruct (many_begun t bs vs mid) as [g Hb]; try assumption. destruct (IHtrips HW (begun_good g t bs vs mid Hb Hg)) as [f Hf].
    exists (S (Nat.max (Nat.max f g) (S (length vs)))). intros f' p outer Hf' Hi Ha. fuel f'. apply boom_first.
    eapply (fix_boom _ (dec cf D f' t)); [apply runs_dec|apply try_parse|apply shrinks_dec|eapply begun_more; [|exact Hb]; lia|assumption| |exact Hg|lia|change (zlen (@nil val)) with 0; lia|exact Hi|exact Ha].
    intros q Hq Haq. eapply Hf; [lia|eassumption..].
  - match goal with E : nth_error D i = Some _ |- _ => rename E into Ei end.
    destruct (IHtrips (wf_struct D i ts HD Ei) Hg) as [f Hf]. exists (S f). intros f' p outer Hf' Hi Ha. fuel f'. rewrite Ei. apply boom_first.
    eapply Hf; [lia|eassumption..].
  - match goal with E : nth_error D i = Some _ |- _ => rename E into Ei end.
    match goal with E : nth_error alts ix = Some _ |- _ => rename E into Ea end.
    destruct (IHtrips (wf_data D i k alts ix tag ts HD Ei Ea) (proj2 (small_app D HD _ _ Hg))) as [f Hf].
    exists (S f). intros f' p outer Hf' Hi Ha. fuel f'. rewrite Ei.
    pose proof (wf_nth D _ _ HD Ei) as W. cbn [wf_def] in W. apply andb_prop in W; destruct W as [W _].
    apply andb_prop in W; destruct W as [W W3]. apply andb_prop in W; destruct W as [_ W2].
    assert (Et : nth_error (map fst alts) ix = Some tag) by (rewrite nth_error_map, Ea; reflexivity).
    eapply (tag_boom k _ tag bs); [rewrite forallb_forall in W3; apply W3| |exact Hi|exact Ha|exact Hg|]; [eapply nth_error_In; exact Et..|].
    intros p' Hi' Ha'. rewrite (find_tag_nth_error tag (map fst alts) ix W2 Et), Ea. apply boom_first. eapply Hf; [lia|eassumption..].
  - cbn [forallb] in HW. apply andb_prop in HW. destruct HW as [HW1 HW2]. destruct (IHtrips HW1 Hg) as [f Hf].
    exists f. intros f' p outer Hf' Hi Ha. cbn [p_fields]. apply boom_first. eapply Hf; eassumption.
  - cbn [forallb] in HW. apply andb_prop in HW. destruct HW as [HW1 HW2].
    match goal with E : denotes _ _ _ _ _ _ |- _ => rename E into Hd end.
    destruct (complete cf D HD _ _ _ _ Hd HW1 Hg) as [g Hgg]. destruct (IHtrips HW2 (dec_good _ _ _ _ _ Hg Hgg)) as [f Hf].
    exists (Nat.max f g). intros f' p outer Hf' Hi Ha. cbn [p_fields].
    eapply (boom_then (parse cf D f' t)); [apply runs_dec|apply try_parse|exact Hi|exact Ha|apply Hg|eapply dec_more; [|exact Hgg]; lia|].
    intros p' Hi' Ha'. apply boom_first. eapply Hf; [lia|eassumption..].
Qed.
End Types.
End Boom.

(** ** The three parsers *)
Section Input.
Variables (cf : config) (D : list def) (t : ty) (input : list byte).
Hypothesis HD : wf_defs D = true.
Hypothesis HW : wf_ty D t = true.
Hypothesis HB : bytes_ok input.
Hypothesis HL : zlen input <= isize_max.
Hypothesis HM : cf_mode cf = Debug.
Let trp (absurd : Z -> Prop) := trips (cf_check_padding cf) D absurd t input.

Lemma panics_from {P} w (h : handler P) inv alpha absurd cleanup init :
  refines_contract Debug h inv alpha ->
  (forall (X : Set) (o : pop X) p r p', inv p -> in_contract o (alpha p) = true -> is_set_fit o = false -> h X o p = (r, p') -> r <> RPanic) ->
  (forall n p, inv p -> size_ok n = true -> fst (h unit (OpSetFit n) p) = RPanic <-> absurd n) ->
  inv init -> alpha init = mkW input [] -> (forall f, decode_with w cf D f t input = try_decode h cleanup init cf D f t) ->
  decodes w cf D t input RPanic <-> trp absurd.
Proof.
  intros Href Hno Hfit Hi Ha Hw.
  assert (E : forall f, decode_with w cf D f t input = RPanic <-> boom h (parse cf D f t) init).
  { intros f. unfold boom. split.
    - intros H. pose proof H as H'. rewrite Hw in H. unfold try_decode in H. destruct (run h (parse cf D f t) init) as [r p] eqn:Er.
      destruct r as [v|e| | |]; try discriminate H; [exfalso|reflexivity].
      destruct (run_ok_inv h inv alpha Href _ _ init input [] v p (runs_dec cf D f t) (try_parse cf D f t) Hi Ha HL) as (rest & Ed & _).
      + apply dec_nub; try assumption. split; assumption.
      + exact Er.
      + pose proof (decode_cases w cf D t input HL f) as C. rewrite Ed in C. rewrite H' in C. unfold finished in C.
        destruct (_ && _) in C; [destruct C as (lo & C & _)|]; discriminate C.
    - intros H. rewrite Hw. unfold try_decode. destruct (run h (parse cf D f t) init) as [r p]. cbn [fst] in H. subst r. reflexivity. }
  split.
  - intros [_ [f Hf]]. specialize (Hf f (Nat.le_refl f)). apply E in Hf.
    eapply (sound_boom_all h inv alpha absurd Href Hno Hfit cf D HD HM f); try eassumption. split; assumption.
  - intros H. eapply (complete_boom h inv alpha absurd Href Hfit cf D HD HM) in H; [|exact HW|split; assumption].
    destruct H as [f Hf]. apply (decodes_at w cf D t input f); [|discriminate]. apply E. eapply Hf; [apply Nat.le_refl|exact Hi|exact Ha].
Qed.

Lemma fit_panics p n : bp_inv p -> bp_buf p = input -> size_ok n = true ->
  fst (byte_h Debug unit (OpSetFit n) p) = RPanic <-> zlen input < n.
Proof.
  intros Hi Hb Hn. rewrite (panics_iff Debug (OpSetFit n) p Hi).
  - cbn [overflows]. rewrite Hb. split; [intros [_ H]; lia|intros H; split; [reflexivity|lia]].
  - unfold arg_fits, arg_ok. unfold size_ok in Hn. pose proof isize_max_lt. unfold is_usize. lia.
Qed.
Lemma byte_panics : decodes WByte cf D t input RPanic <-> trp (fun n => zlen input < n).
Proof.
  apply (panics_from WByte (byte_h Debug) (fun p => bp_inv p /\ bp_buf p = input) bp_alpha _ (bp_cleanup Debug) (bp_from_buffer input)).
  - intros X o p x w' r p' [Hi Hb] Hc Es E. pose proof (byte_refines Debug X o p x w' r p' Hi Hc Es E) as H.
    pose proof (bp_buf_const Debug o p) as Hk. rewrite E in Hk. cbn [snd] in Hk. destruct r; intuition congruence.
  - intros X o p r p' [Hi Hb]. apply byte_no_panic; exact Hi.
  - intros n p [Hi Hb]. apply fit_panics; assumption.
  - split; [apply bp_init_inv; exact HL|reflexivity].
  - apply bp_init_alpha.
  - intros f. cbn [decode_with]. unfold byte_decode, memo_decode. rewrite HM. reflexivity.
Qed.
Lemma memo_panics : decodes WMemo cf D t input RPanic <-> trp (fun n => zlen input < n).
Proof.
  apply (panics_from WMemo (memo_h Debug) (fun p => mp_inv p /\ bp_buf (mp_bp p) = input) (fun p => bp_alpha (mp_bp p)) _ (mp_cleanup Debug) (mp_from_buffer input)).
  - intros X o p x w' r p' [Hi Hb] Hc Es E. pose proof (memo_refines Debug X o p x w' r p' Hi Hc Es E) as H.
    destruct (ProofParserSim.mp_step Debug o p Hi (in_contract_fits Debug o _ Hc) _ _ E) as [E' _].
    pose proof (bp_buf_const Debug o (mp_bp p)) as Hk. rewrite E' in Hk. cbn [snd] in Hk. destruct r; intuition congruence.
  - intros X o p r p' [Hi Hb]. apply memo_no_panic; exact Hi.
  - intros n p [Hi Hb] Hn. destruct (memo_h Debug unit (OpSetFit n) p) as [r p'] eqn:E.
    assert (Hc : in_contract (OpSetFit n) (bp_alpha (mp_bp p)) = true) by exact Hn.
    destruct (ProofParserSim.mp_step Debug _ p Hi (in_contract_fits Debug _ _ Hc) _ _ E) as [E' _].
    rewrite <- (fit_panics (mp_bp p) n (proj1 Hi) Hb Hn). rewrite E'. reflexivity.
  - split; [apply mp_init_inv; exact HL|reflexivity].
  - exact (bp_init_alpha input).
  - intros f. cbn [decode_with]. unfold byte_decode, memo_decode. rewrite HM. reflexivity.
Qed.
Lemma slice_panics : decodes WSlice cf D t input RPanic <-> trp (fun _ => False).
Proof.
  assert (N : forall (X : Set) (o : pop X) p r p', sp_inv p -> in_contract o (sp_alpha p) = true -> slice_h X o p = (r, p') -> r <> RPanic).
  { intros X o p r p' Hi Hc E ->. destruct (spec_op Keep o (sp_alpha p)) as [x w'] eqn:Es.
    destruct (slice_refines Release X o p x w' _ p' Hi Hc Es E) as [F _]. discriminate F. }
  apply (panics_from WSlice slice_h sp_inv sp_alpha _ sp_cleanup (sp_from_buffer input)).
  - apply slice_refines.
  - intros X o p r p' Hi Hc _. apply N; assumption.
  - intros n p Hi Hn. split; [|contradiction]. intros H. destruct (slice_h unit (OpSetFit n) p) as [r p'] eqn:E.
    exact (N _ (OpSetFit n) p r p' Hi Hn E H).
  - unfold sp_inv, sp_from_buffer; discriminate.
  - reflexivity.
  - reflexivity.
Qed.

Theorem panics_exactly w : decodes w cf D t input RPanic <-> trp (fun n => w <> WSlice /\ zlen input < n).
Proof.
  assert (M : forall a b : Z -> Prop, (forall n, a n <-> b n) -> trp a -> trp b).
  { intros a b Hab. unfold trp. generalize t, input. fix F 3. intros t' bs H.
    assert (G : forall ts bs, trips_turn (cf_check_padding cf) D a ts bs -> trips_turn (cf_check_padding cf) D b ts bs).
    { fix G 3. intros ts' bs' H'. destruct H' as [t0 ts0 bs0 H0|t0 ts0 bs0 v mid Hd H0].
      - apply turn_here. apply F. exact H0.
      - eapply turn_later; [exact Hd|apply G; exact H0]. }
    destruct H; [apply trip_announced; [assumption|apply Hab; assumption]| | | | | | | | | | | |];
      econstructor; try eassumption; first [apply F; assumption|apply G; assumption]. }
  destruct w.
  - rewrite byte_panics. split; apply M; intros n; split; intros H; try split; try tauto; discriminate.
  - rewrite memo_panics. split; apply M; intros n; split; intros H; try split; try tauto; discriminate.
  - rewrite slice_panics. split; apply M; intros n; split; intros H; try contradiction; destruct H as [H _]; congruence.
Qed.
End Input.

Theorem panics_iff_trips w cf D t input : wf_defs D = true -> wf_ty D t = true -> pads_ok cf D t = true -> bytes_ok input -> zlen input <= isize_max ->
  decodes w cf D t input RPanic <->
  cf_mode cf = Debug /\ trips (cf_check_padding cf) D (fun n => w <> WSlice /\ zlen input < n) t input.
Proof.
  intros HD HW HP HB HL. destruct (cf_mode cf) eqn:Em.
  - rewrite (panics_exactly cf D t input HD HW HB HL Em w). tauto.
  - split; [|intros [F _]; discriminate F]. intros [_ [f Hf]]. exfalso.
    unfold pads_ok in HP. rewrite Em in HP. apply andb_prop in HP. destruct HP as [P1 P2].
    destruct (no_panic_thm w cf D t input f HD HW P1 P2 ltac:(rewrite Em; discriminate) HB HL) as [NP _].
    apply NP. apply Hf. apply Nat.le_refl.
Qed.

Theorem answers_otherwise w cf D I R t input : wf_defs D = true -> wf_ty D t = true -> terminating D I R = true -> loops_ok I t = true ->
  pads_ok cf D t = true -> bytes_ok input -> zlen input <= isize_max ->
  ~ trips (cf_check_padding cf) D (fun n => w <> WSlice /\ zlen input < n) t input ->
  (exists v, decodes w cf D t input (ROk v)) \/ (exists e, decodes w cf D t input (RErr e)).
Proof.
  intros HD HW HT HLo HP HB HL N. destruct (decoding_answers w cf D I R t input HD HW HT HLo HP HB HL) as [out Ho].
  destruct out as [v|e| | |]; [left; eauto|right; eauto| | |].
  - destruct N. apply (panics_iff_trips w cf D t input HD HW HP HB HL). exact Ho.
  - destruct Ho as [_ [f Hf]]. exfalso. exact (no_ub_with w cf D t input f HD HW HP HB HL (Hf f (Nat.le_refl f))).
  - destruct Ho as [F _]. congruence.
Qed.
