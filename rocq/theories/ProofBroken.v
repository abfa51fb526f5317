(** In a release build the window of a VPadded that is wider than what is left is
    computed with wrapping subtraction (F7).  Such a window, if it opens at all, ends
    before the current position, and nothing that is read inside it succeeds in
    closing it: the decoder never returns a value from there. *)
From Verif Require Import Base BaseLemmas ModelErrors ModelSplitVec ModelParser ModelInt ModelSchema SpecParser
  SpecCodec ProofParser ProofParserSim ProofParserProps ProofParserClean ProofDec ProofCodec ProofMeta ProofTransfer
  ProofSafe ProofSettle ProofView.
From Coq Require Import ZifyBool.

Definition is_skip {X : Set} (o : pop X) : bool :=
  match o with OpSkip _ | OpSkipExactly _ | OpTestTarget => true | _ => false end.
Definition is_close {X : Set} (o : pop X) : bool :=
  match o with OpEnforceTarget => true | _ => false end.

Fixpoint no_skips {A} (pg : prog A) : Prop :=
  match pg with
  | POp o k => is_skip o = false /\ forall x, no_skips (k x)
  | PTry o k f => is_byte_op o = true /\ (forall x, no_skips (k x)) /\ no_skips f
  | _ => True
  end.

Lemma ns_bind {A B} (pg : prog A) (k : A -> prog B) : no_skips pg -> (forall a, no_skips (k a)) -> no_skips (pbind pg k).
Proof.
  induction pg as [a|e| | | |X o kk IH|X o kk IHk f IHf]; cbn [pbind no_skips]; intros Hp Hk; auto.
  - destruct Hp; split; auto.
  - destruct Hp as (H1 & H2 & H3). split; [exact H1|]. split; auto.
Qed.
Lemma ns_op {X : Set} (o : pop X) : is_skip o = false -> no_skips (do_op o). Proof. cbn; auto. Qed.
Lemma ns_lift {A} (r : pres A) : no_skips (plift r). Proof. destruct r; exact Logic.I. Qed.
Lemma ns_ret {A} (a : A) : no_skips (PRet a). Proof. exact Logic.I. Qed.
Lemma ns_err {A} e : no_skips (@PErr A e). Proof. exact Logic.I. Qed.
Lemma ns_panic {A} : no_skips (@PPanic A). Proof. exact Logic.I. Qed.
Lemma ns_div {A} : no_skips (@PDiv A). Proof. exact Logic.I. Qed.
Lemma ns_st_loop term fuel : forall acc, no_skips (p_self_terminating_loop fuel term acc).
Proof.
  induction fuel as [|fuel IH]; intros acc; cbn [p_self_terminating_loop no_skips]; auto.
  split; [reflexivity|]. split; [|exact Logic.I]. intros b. destruct (term b); cbn [no_skips]; auto.
Qed.
Create HintDb ns.
#[export] Hint Resolve ns_op ns_lift ns_ret ns_err ns_panic ns_div ns_st_loop : ns.
Ltac nss :=
  repeat first
    [ solve [auto with ns]
    | apply ns_bind; [|intros ?]
    | match goal with
      | |- no_skips (if ?b then _ else _) => destruct b
      | |- no_skips (match ?o with _ => _ end) => destruct o
      end ].
Lemma ns_parse cf D fuel : forall t, no_skips (parse cf D fuel t).
Proof.
  assert (Hseq : forall (pe : prog val) fl seq, no_skips pe -> no_skips (p_seq_loop fl pe seq)).
  { intros pe fl; induction fl as [|fl IHl]; intros seq He; cbn [p_seq_loop]; [exact Logic.I|unfold p_remainder; nss]. }
  assert (Hlim : forall (pe : prog val) n fl seq, no_skips pe -> no_skips (p_lim_loop fl n pe seq)).
  { intros pe n fl; induction fl as [|fl IHl]; intros seq He; cbn [p_lim_loop]; [exact Logic.I|unfold p_remainder; nss]. }
  assert (Hfix : forall (pe : prog val) n fl seq, no_skips pe -> no_skips (p_fix_loop fl n pe seq)).
  { intros pe n fl; induction fl as [|fl IHl]; intros seq He; cbn [p_fix_loop]; [exact Logic.I|unfold p_remainder; nss]. }
  assert (Hfields : forall pe ts, (forall t, no_skips (pe t)) -> no_skips (p_fields pe ts)).
  { intros pe ts He; induction ts as [|t ts IHl]; cbn [p_fields]; nss. }
  induction fuel as [|f IH]; intros t; cbn [parse]; [exact Logic.I|].
  destruct t; unfold p_take_bool, p_take_tagword, p_ranged, p_pref, p_ranged, p_int, p_take_fixed, p_consume_arr,
    p_take_dynamic, p_take_self_terminating, p_remainder, p_consume, p_consume_byte, p_set_fit, p_enforce_target; nss.
Qed.

Section Never.
Context {P : Type} (h : handler P) (inv : P -> Prop) (alpha : P -> wstack) (B : P -> Prop).
Hypothesis Href : refines_contract Release h inv alpha.
(** The only way into [B]: a window that ends before the position. *)
Hypothesis Hopen : forall p cur outer n p', inv p -> alpha p = mkW cur outer -> zlen cur < n <= isize_max ->
  zlen cur <= isize_max -> h unit (OpSetFit (zlen cur - n + usize_mod)) p = (ROk tt, p') -> B p'.
Hypothesis Hstep : forall (X : Set) (o : pop X) p x p', B p -> is_skip o = false -> h X o p = (ROk x, p') ->
  is_close o = false /\ B p'.
Hypothesis Hfail : forall (X : Set) (o : pop X) p e p', B p -> is_byte_op o = true -> h X o p = (RErr e, p') -> B p'.

Lemma stays_broken {A} (pg : prog A) : no_skips pg -> forall p a p', B p -> run h pg p = (ROk a, p') -> B p'.
Proof.
  induction pg as [a0|e| | | |X o k IH|X o k IHk f IHf]; cbn [no_skips run]; intros HN p a p' HB H; try discriminate H.
  - injection H as _ <-. exact HB.
  - destruct HN as [Hs Hk]. destruct (h X o p) as [r p1] eqn:E. destruct r; try discriminate H.
    apply (IH _ (Hk a0) p1 a p'); [|exact H]. exact (proj2 (Hstep _ _ _ _ _ HB Hs E)).
  - destruct HN as (Hs & Hk & Hf). destruct (h X o p) as [r p1] eqn:E. destruct r; try discriminate H.
    + apply (IHk _ (Hk a0) p1 a p'); [|exact H]. refine (proj2 (Hstep _ _ _ _ _ HB _ E)). destruct o; try discriminate Hs; reflexivity.
    + apply (IHf Hf p1 a p'); [|exact H]. exact (Hfail _ _ _ _ _ HB Hs E).
Qed.

(** Where the contract is left, the real parser gives no value. *)
Definition never {A} (pg : prog A) (d : dm A) : Prop :=
  forall p cur outer, inv p -> alpha p = mkW cur outer -> good cur -> d cur = RUB ->
  forall a p', run h pg p <> (ROk a, p').

Lemma never_safe {A} (pg : prog A) (d : dm A) : safe true d -> never pg d.
Proof. intros Hs p cur outer _ _ Hg Hd. exfalso. exact (proj2 (Hs cur Hg) Hd). Qed.

Lemma never_bind_with {A C} (pg : prog A) (d : dm A) (q : A -> Prop) (k : A -> prog C) (kd : A -> dm C) :
  never pg d -> runs pg d -> shrinks d -> try_bytes_only pg ->
  (forall cur a rest, good cur -> d cur = ROk (a, rest) -> q a) ->
  (forall a, q a -> never (k a) (kd a)) -> never (pbind pg k) (d_bind d kd).
Proof.
  intros Hn Hr Hs Ht Hq Hk p cur outer Hi Ha Hg Hd x p' Hrun. rewrite run_pbind in Hrun.
  destruct (run h pg p) as [r p1] eqn:E. destruct r as [a| | | |]; try discriminate Hrun.
  unfold d_bind in Hd. destruct (d cur) as [[a0 rest]|e| | |] eqn:Ed; try discriminate Hd.
  - pose proof (run_refines Release h inv alpha Href pg p Hi Ht) as Ho. pose proof (Hr cur outer (proj2 Hg)) as Hc.
    rewrite Ha in Ho. unfold outcome in Hc. rewrite Ed in Hc. rewrite Hc, E in Ho. cbn [outcome_rel fst snd] in Ho.
    destruct Ho as (E1 & Hi1 & Ha1). injection E1 as ->.
    apply (Hk a0 (Hq _ _ _ Hg Ed) p1 rest outer Hi1 Ha1) with (a := x) (p' := p'); auto.
    eapply good_suffix; [eapply Hs; exact Ed|exact Hg].
  - exact (Hn p cur outer Hi Ha Hg Ed a p1 E).
Qed.
Lemma never_bind {A C} (pg : prog A) (d : dm A) (k : A -> prog C) (kd : A -> dm C) :
  never pg d -> runs pg d -> shrinks d -> try_bytes_only pg ->
  (forall a, never (k a) (kd a)) -> never (pbind pg k) (d_bind d kd).
Proof. intros. apply (never_bind_with pg d (fun _ => True)); auto. Qed.
Lemma never_ret {A} (a : A) : never (PRet a) (d_ret a).
Proof. apply never_safe, safe_ret. Qed.

Lemma never_window {A C} n (pg : prog A) (d : dm A) (f : A -> C) : 0 <= n <= isize_max ->
  never pg d ->
  never (pbind (p_set_fit n) (fun _ => pbind pg (fun v => pbind p_enforce_target (fun _ => PRet (f v)))))
       (d_bind (d_window n d) (fun v => d_ret (f v))).
Proof.
  intros Hn Hd p cur outer Hi Ha Hg Hu x p' Hrun. rewrite run_pbind in Hrun. unfold p_set_fit in Hrun. rewrite run_do_op in Hrun.
  unfold d_bind, d_window in Hu. assert (Es : size_ok n = true) by (unfold size_ok; lia). rewrite Es in Hu.
  destruct (Z.leb_spec n (zlen cur)) as [Hle|]; [|discriminate Hu].
  assert (Hin : in_contract (OpSetFit n) (alpha p) = true) by (cbn [in_contract]; exact Es).
  assert (Hsp : spec_op Keep (OpSetFit n) (alpha p) = (Some tt, mkW (ztake n cur) (zdrop n cur :: outer))).
  { rewrite Ha. cbn [spec_op w_cur w_outer]. destruct (Z.leb_spec n (zlen cur)); [reflexivity|lia]. }
  destruct (h unit (OpSetFit n) p) as [r p1] eqn:E. destruct r as [u| | | |]; try discriminate Hrun.
  destruct (Href _ _ _ _ _ _ _ Hi Hin Hsp E) as (_ & Hi1 & Ha1).
  rewrite run_pbind in Hrun. destruct (run h pg p1) as [r2 p2] eqn:E2. destruct r2 as [a| | | |]; try discriminate Hrun.
  refine (Hd p1 _ _ Hi1 Ha1 _ _ a p2 E2).
  - destruct Hg. split; [apply bytes_ok_ztake; assumption|rewrite zlen_ztake; lia].
  - destruct (d (ztake n cur)) as [[? [|]]| | | |]; try discriminate Hu; reflexivity.
Qed.

(** The window of a VPadded, in a release build. *)
Lemma never_vpad {A C} n (pg : prog A) (d : dm A) (f : A -> C) : 0 <= n <= isize_max -> no_skips pg ->
  never pg d ->
  never (pbind p_remainder (fun rem => pbind (plift (usub Release rem n)) (fun win =>
           pbind (p_set_fit win) (fun _ => pbind pg (fun v => pbind p_enforce_target (fun _ => PRet (f v)))))))
        (d_bind d_rem (fun rem => d_bind (d_lift (usub Release rem n)) (fun win =>
           d_bind (d_window win d) (fun v => d_ret (f v))))).
Proof.
  intros Hn Hs Hd p cur outer Hi Ha Hg Hu x p' Hrun. unfold p_remainder in Hrun. rewrite run_pbind, run_do_op in Hrun.
  assert (Hsp : spec_op Keep OpRemainder (alpha p) = (Some (zlen cur), mkW cur outer)) by (rewrite Ha; reflexivity).
  destruct (h Z OpRemainder p) as [r p1] eqn:E. destruct r as [rem| | | |]; try discriminate Hrun.
  assert (Hin : in_contract OpRemainder (alpha p) = true) by reflexivity.
  destruct (Href _ _ _ _ _ _ _ Hi Hin Hsp E) as (E1 & Hi1 & Ha1). injection E1 as <-.
  unfold d_bind at 1, d_rem in Hu. pose proof (zlen_nonneg cur) as Hc0. destruct Hg as [Hb Hl].
  pose proof isize_max_lt as HIM.
  destruct (Z_le_dec n (zlen cur)) as [Hle|Hgt].
  - rewrite usub_ok in Hrun, Hu by lia. cbn [plift pbind] in Hrun. unfold d_bind at 1 in Hu. cbn [d_lift] in Hu.
    refine (never_window (zlen cur - n) pg d f _ Hd p1 cur outer Hi1 Ha1 (conj Hb Hl) Hu x p' Hrun). lia.
  - assert (EU : @usub parse_error Release (zlen cur) n = ROk (zlen cur - n + usize_mod)).
    { unfold usub. destruct (Z.leb_spec n (zlen cur)); [lia|]. f_equal.
      rewrite <- (Z.mod_add _ 1) by (unfold usize_mod; lia). rewrite Z.mul_1_l. apply Z.mod_small. lia. }
    rewrite EU in Hrun. cbn [plift pbind] in Hrun. rewrite run_pbind in Hrun. unfold p_set_fit in Hrun. rewrite run_do_op in Hrun.
    destruct (h unit _ p1) as [r2 p2] eqn:E2. destruct r2 as [[]| | | |]; try discriminate Hrun.
    assert (HB : B p2) by (eapply Hopen; [exact Hi1|exact Ha1| |exact Hl|exact E2]; lia).
    rewrite run_pbind in Hrun. destruct (run h pg p2) as [r3 p3] eqn:E3. destruct r3 as [a| | | |]; try discriminate Hrun.
    pose proof (stays_broken pg Hs p2 a p3 HB E3) as HB3.
    rewrite run_pbind in Hrun. unfold p_enforce_target in Hrun. rewrite run_do_op in Hrun.
    destruct (h unit OpEnforceTarget p3) as [r4 p4] eqn:E4. destruct r4 as [u| | | |]; try discriminate Hrun.
    assert (Hsk : is_skip OpEnforceTarget = false) by reflexivity.
    destruct (Hstep _ _ _ _ _ HB3 Hsk E4) as [F _]. discriminate F.
Qed.

#[local] Hint Resolve never_ret : dec.
Lemma never_seq pe elem fuel : never pe elem -> runs pe elem -> shrinks elem -> try_bytes_only pe ->
  forall seq, never (p_seq_loop fuel pe seq) (d_seq fuel elem seq).
Proof.
  intros Hn Hr Hs Ht. induction fuel as [|fuel IH]; intros seq; cbn [p_seq_loop d_seq]; [apply never_safe, safe_div|].
  apply never_bind; [apply never_safe, safe_rem|auto with dec..|apply try_op|]. intros rem. destruct (rem =? 0); [apply never_ret|].
  apply never_bind; auto.
Qed.
Lemma never_lim pe elem n fuel : never pe elem -> runs pe elem -> shrinks elem -> try_bytes_only pe ->
  forall seq, never (p_lim_loop fuel n pe seq) (d_lim fuel n elem seq).
Proof.
  intros Hn Hr Hs Ht. induction fuel as [|fuel IH]; intros seq; cbn [p_lim_loop d_lim]; [apply never_safe, safe_div|].
  apply never_bind; [apply never_safe, safe_rem|auto with dec..|apply try_op|]. intros rem. destruct (rem =? 0); [apply never_ret|].
  apply never_bind; auto. intros v. apply never_bind; auto with dec. apply never_safe, safe_lift.
  unfold try_push. destruct (_ <? _); split; [intros _; discriminate|discriminate|intros _; discriminate|discriminate].
Qed.
Lemma never_fix pe elem n fuel : never pe elem -> runs pe elem -> shrinks elem -> try_bytes_only pe ->
  forall seq, never (p_fix_loop fuel n pe seq) (d_fix fuel n elem seq).
Proof.
  intros Hn Hr Hs Ht. induction fuel as [|fuel IH]; intros seq; cbn [p_fix_loop d_fix]; [apply never_safe, safe_div|].
  apply never_bind; [apply never_safe, safe_rem|auto with dec..|apply try_op|]. intros rem. destruct (_ && _).
  - apply never_bind; auto.
  - destruct (_ =? _); [apply never_ret|apply never_safe, safe_fail].
Qed.
Lemma never_fields pe de (q : ty -> bool) ts : (forall t, q t = true -> never (pe t) (de t)) ->
  (forall t, runs (pe t) (de t)) -> (forall t, shrinks (de t)) -> (forall t, try_bytes_only (pe t)) ->
  forallb q ts = true -> never (p_fields pe ts) (d_fields de ts).
Proof.
  intros Hn Hr Hs Ht. induction ts as [|t ts IH]; cbn [forallb p_fields d_fields]; intros HF; [apply never_ret|].
  apply andb_prop in HF; destruct HF as [H1 H2].
  assert (Htf : try_bytes_only (p_fields pe ts)) by (clear - Ht; induction ts as [|t ts IH]; cbn [p_fields]; tries).
  apply never_bind; auto. intros v. apply never_bind; auto with dec.
Qed.

Variables (cf : config) (D : list def).
Hypothesis HD : wf_defs D = true.
Hypothesis HM : cf_mode cf = Release.

Lemma try_tag k tags : try_bytes_only (p_take_tagword k tags).
Proof. unfold p_take_tagword, p_int, p_take_fixed, p_consume_arr, p_consume; tries. Qed.
Lemma try_pref s : try_bytes_only (p_pref cf s).
Proof. destruct s; unfold p_pref, p_ranged, p_int, p_take_fixed, p_consume_arr, p_consume; tries. Qed.
Lemma safe_tag' k tags : safe true (d_tag k tags).
Proof. apply safe_tag. Qed.

Definition leaf (t : ty) : bool :=
  match t with
  | TOption _ | TNullable _ | TSeq _ | TLim _ _ | TFix _ _ | TDyn _ _ | TVPad _ _ | TPad _ _ | TBox _ | TNamed _ => false
  | _ => true
  end.
Lemma safe_leaf f t : leaf t = true -> wf_ty D t = true -> safe true (dec cf D f t).
Proof.
  intros HL HW. assert (E : dec cf D f t = dec cf [] f t) by (destruct f; [reflexivity|]; destruct t; try discriminate HL; reflexivity).
  rewrite E. apply safe_dec; try reflexivity.
  - unfold vpads. rewrite HM. reflexivity.
  - destruct t; try discriminate HL; exact HW.
  - unfold vpads. rewrite HM. destruct t; try discriminate HL; reflexivity.
Qed.

Lemma never_dec f : forall t, wf_ty D t = true -> never (parse cf D f t) (dec cf D f t).
Proof.
  induction f as [|f IH]; intros t HW; [apply never_safe, safe_div|].
  destruct (leaf t) eqn:EL; [apply never_safe, safe_leaf; assumption|].
  pose proof (try_parse cf D f) as Htry. pose proof (runs_dec cf D f) as Hruns. pose proof (shrinks_dec cf D f) as Hshr.
  cbn [parse dec]. destruct t; try discriminate EL; cbn [wf_ty] in HW; clear EL.
  - (* option *)
    apply never_bind; [apply never_safe, safe_tag'|auto with dec..|apply try_tag|]. intros tag.
    destruct (tag =? 255); [apply never_bind; auto with dec|]. destruct (tag =? 0); [apply never_ret|].
    intros p cur outer _ _ _ Hu. discriminate Hu.
  - apply never_bind; [apply never_safe, safe_rem|auto with dec..|apply try_op|]. intros rem. destruct (negb _); [|apply never_ret].
    apply never_bind; auto with dec.
  - apply never_bind; [apply never_seq; auto|auto with dec..|tries|auto with dec].
    assert (Hseq : forall (pe : prog val) fl seq, try_bytes_only pe -> try_bytes_only (p_seq_loop fl pe seq)).
    { intros pe fl; induction fl as [|fl IHl]; intros seq He; cbn [p_seq_loop]; [exact Logic.I|unfold p_remainder; tries]. }
    auto.
  - apply andb_prop in HW; destruct HW as [_ HW].
    apply never_bind; [apply never_lim; auto|auto with dec..|tries|auto with dec].
    assert (Hlim : forall (pe : prog val) n fl seq, try_bytes_only pe -> try_bytes_only (p_lim_loop fl n pe seq)).
    { intros pe k fl; induction fl as [|fl IHl]; intros seq He; cbn [p_lim_loop]; [exact Logic.I|unfold p_remainder; tries]. }
    auto.
  - apply andb_prop in HW; destruct HW as [_ HW].
    apply never_bind; [apply never_fix; auto|auto with dec..|tries|auto with dec].
    assert (Hfix : forall (pe : prog val) n fl seq, try_bytes_only pe -> try_bytes_only (p_fix_loop fl n pe seq)).
    { intros pe k fl; induction fl as [|fl IHl]; intros seq He; cbn [p_fix_loop]; [exact Logic.I|unfold p_remainder; tries]. }
    auto.
  - (* dynamic *)
    apply (never_bind_with _ _ (fun n => 0 <= n <= isize_max)); [apply never_safe, safe_pref|auto with dec..|apply try_pref| |].
    + intros cur n rest Hg Hd. exact (proj2 (safe_pref_with true cf s cur Hg) n rest Hd).
    + intros n Hn. apply never_window; auto.
  - (* vpadded *)
    apply andb_prop in HW; destruct HW as [Hs HW]. unfold sizeb in Hs. rewrite HM.
    assert (HN := never_vpad n (parse cf D f t) (dec cf D f t) VWrap ltac:(lia) (ns_parse cf D f t) (IH t HW)).
    intros p cur outer Hi Ha Hg Hu x p' Hrun. refine (HN p cur outer Hi Ha Hg Hu x p' _). exact Hrun.
  - (* padded *)
    apply andb_prop in HW; destruct HW as [Hn HW]. unfold sizeb in Hn.
    apply never_bind; auto. intros v. apply never_bind; [apply never_safe, safe_consume; lia|auto with dec..|apply try_op|].
    intros padding. destruct (cf_check_padding cf && _); [apply never_safe, safe_fail|apply never_ret].
  - apply never_bind; auto with dec.
  - (* named *)
    assert (Hfields : forall ts, try_bytes_only (p_fields (parse cf D f) ts)).
    { intros ts; induction ts as [|t ts IHl]; cbn [p_fields]; tries. }
    destruct (nth_error D i) as [[ts|k tags|k alts]|] eqn:Ei.
    + apply never_bind; auto with dec. apply (never_fields _ _ (wf_ty D)); auto. exact (wf_struct D i ts HD Ei).
    + apply never_bind; [apply never_safe, safe_tag'|auto with dec..|apply try_tag|]. intros tag.
      destruct (find_tag tag tags); [apply never_ret|]. intros p cur outer _ _ _ Hu. discriminate Hu.
    + apply never_bind; [apply never_safe, safe_tag'|auto with dec..|apply try_tag|]. intros tag.
      destruct (find_tag tag (map fst alts)) as [ix|]; [|intros p cur outer _ _ _ Hu; discriminate Hu].
      destruct (nth_error alts ix) as [[tg ts]|] eqn:Ea; [|intros p cur outer _ _ _ Hu; discriminate Hu].
      apply never_bind; auto with dec. apply (never_fields _ _ (wf_ty D)); auto. exact (wf_data D i k alts ix tg ts HD Ei Ea).
    + intros p cur outer _ _ _ Hu. discriminate Hu.
Qed.
End Never.

(** ** The three parsers *)

Definition co_broken (o : context_offset) : Prop :=
  exists tgt fs, co_frames o = tgt :: fs /\ tgt < co_cur o <= isize_max.

Lemma broken_advance n o ix adv o' : co_broken o -> @co_advance parse_error Release n o = ROk (ix, adv, o') ->
  ix = co_cur o /\ (adv = false -> co_broken o') /\
  (adv = true -> n <> 1 /\ forall s, @uadd parse_error Release ix n = ROk s -> s < ix).
Proof.
  intros (tgt & fs & Hf & Hc) H. unfold co_advance, increment_checked in H.
  assert (HL : co_limit o = tgt) by (unfold co_limit; rewrite Hf; reflexivity). rewrite HL in H.
  destruct (@uadd parse_error Release (co_cur o) n) as [s| | | |] eqn:Eu; try discriminate H. cbn [rbind] in H.
  destruct (Z.leb_spec s tgt) as [Hle|Hgt]; cbn [rbind rmap] in H; injection H as <- <- <-.
  - split; [reflexivity|]. split; [discriminate|]. intros _. split.
    + intros ->. pose proof isize_max_lt. assert (1 < isize_max) by reflexivity. unfold uadd in Eu. destruct (Z.ltb_spec (co_cur o + 1) usize_mod) as [Hlt|]; [|lia].
      injection Eu as <-. lia.
    + intros s0 E0. rewrite Eu in E0. injection E0 as <-. lia.
  - split; [reflexivity|]. split; [|discriminate]. intros _. exists tgt, fs. cbn [co_frames co_cur]. auto.
Qed.
Lemma broken_set_fit n o o' : co_broken o -> co_set_fit Release n o = (ROk tt, o') -> co_broken o'.
Proof.
  intros (tgt & fs & Hf & Hc) H. unfold co_set_fit in H. destruct (uadd _ _ _) as [s| | | |]; try discriminate H.
  destruct (_ <? _).
  - destruct (usub _ _ _); discriminate H.
  - unfold fs_push_frame in H. rewrite Hf in H. cbn [fs_peek hd_error detect_error] in H.
    destruct (Z.ltb_spec tgt s); [discriminate H|]. injection H as <-. exists s, (tgt :: fs). cbn [co_frames co_cur].
    split; [reflexivity|lia].
Qed.
Lemma broken_enforce o r o' : co_broken o -> co_enforce_target o = (r, o') -> r <> ROk tt.
Proof.
  intros (tgt & fs & Hf & Hc) H. unfold co_enforce_target in H. rewrite Hf in H. unfold co_index in H.
  destruct (Z.compare_spec tgt (co_cur o)); [lia|injection H as <- _; discriminate|lia].
Qed.
Lemma broken_slice ix n buf : (forall s, @uadd parse_error Release ix n = ROk s -> s < ix) ->
  forall x, @vb_get_slice_unchecked parse_error Release ix n buf <> ROk x.
Proof.
  intros Hs x. unfold vb_get_slice_unchecked. destruct (uadd _ _ _) as [s| | | |]; try discriminate. cbn [rbind].
  specialize (Hs s eq_refl). destruct (Z.leb_spec ix s); [lia|]. discriminate.
Qed.
Lemma broken_open o buf cur outer n o' : co_inv buf o -> co_alpha buf o = mkW cur outer -> zlen cur < n <= isize_max ->
  co_set_fit Release (zlen cur - n + usize_mod) o = (ROk tt, o') -> co_broken o'.
Proof.
  intros Hi Ha Hn H. pose proof (co_inv_limit _ _ Hi) as HL. pose proof (co_alpha_len _ _ Hi) as HC. rewrite Ha in HC. cbn [w_cur] in HC.
  unfold co_set_fit, co_index in H. pose proof isize_max_lt as HM. destruct Hi as (Hb & Hab & _ & _).
  unfold uadd in H. destruct (Z.ltb_spec (co_cur o + (zlen cur - n + usize_mod)) usize_mod) as [Hlt|Hge].
  - destruct (Z.ltb_spec (co_abs o) (co_cur o + (zlen cur - n + usize_mod))) as [|]; [|lia].
    destruct (usub _ _ _); discriminate H.
  - assert (E : (co_cur o + (zlen cur - n + usize_mod)) mod usize_mod = co_limit o - n).
    { rewrite HC. replace (co_cur o + (co_limit o - co_cur o - n + usize_mod)) with (co_limit o - n + 1 * usize_mod) by lia.
      rewrite Z.mod_add by (unfold usize_mod; lia). apply Z.mod_small. lia. }
    rewrite E in H. destruct (_ <? _); [destruct (usub _ _ _); discriminate H|].
    unfold fs_push_frame in H. destruct (detect_error _ _); [discriminate H|]. injection H as <-.
    eexists _, _. cbn [co_frames co_cur]. split; [reflexivity|]. lia.
Qed.

Definition bp_broken (p : byte_parser) : Prop := co_broken (bp_off p).
Definition mp_broken (p : memo_parser) : Prop := co_broken (mp_off p).

Lemma bp_open p cur outer n p' : bp_inv p -> bp_alpha p = mkW cur outer -> zlen cur < n <= isize_max ->
  zlen cur <= isize_max -> byte_h Release unit (OpSetFit (zlen cur - n + usize_mod)) p = (ROk tt, p') -> bp_broken p'.
Proof.
  intros Hi Ha Hn _ H. cbn [byte_h] in H. unfold bp_set_fit in H. destruct (co_set_fit _ _ _) as [r o] eqn:E. injection H as -> <-.
  exact (broken_open _ _ _ _ _ _ Hi Ha Hn E).
Qed.
Lemma mp_open p cur outer n p' : mp_inv p -> bp_alpha (mp_bp p) = mkW cur outer -> zlen cur < n <= isize_max ->
  zlen cur <= isize_max -> memo_h Release unit (OpSetFit (zlen cur - n + usize_mod)) p = (ROk tt, p') -> mp_broken p'.
Proof.
  intros Hi Ha Hn _ H. cbn [memo_h] in H. unfold mp_set_fit in H. destruct (co_set_fit _ _ _) as [r o] eqn:E. injection H as -> <-.
  exact (broken_open _ _ _ _ _ _ (proj1 Hi) Ha Hn E).
Qed.

Lemma bp_step (X : Set) (o : pop X) p x p' : bp_broken p -> is_skip o = false -> byte_h Release X o p = (ROk x, p') ->
  is_close o = false /\ bp_broken p'.
Proof.
  intros HB Hs H. destruct o; try discriminate Hs; cbn [byte_h] in H.
  - injection H as _ <-. split; [reflexivity|exact HB].
  - unfold bp_consume_byte in H. destruct (co_advance _ _ _) as [[[ix adv] off]| | | |] eqn:E; try discriminate H.
    destruct (broken_advance _ _ _ _ _ HB E) as (_ & _ & HT). destruct adv; [|discriminate H].
    destruct (proj1 (HT eq_refl) eq_refl).
  - unfold bp_consume in H. destruct (co_advance _ _ _) as [[[ix adv] off]| | | |] eqn:E; try discriminate H.
    destruct (broken_advance _ _ _ _ _ HB E) as (_ & _ & HT). destruct adv; [|discriminate H]. exfalso.
    injection H as H _. exact (broken_slice _ _ _ (proj2 (HT eq_refl)) _ H).
  - split; [reflexivity|]. unfold bp_set_fit in H. destruct (co_set_fit _ _ _) as [r off] eqn:E. injection H as -> <-. destruct x.
    exact (broken_set_fit _ _ _ HB E).
  - exfalso. unfold bp_enforce_target in H. destruct (co_enforce_target _) as [r off] eqn:E. injection H as -> _. destruct x.
    exact (broken_enforce _ _ _ HB E eq_refl).
Qed.
Lemma mp_step (X : Set) (o : pop X) p x p' : mp_broken p -> is_skip o = false -> memo_h Release X o p = (ROk x, p') ->
  is_close o = false /\ mp_broken p'.
Proof.
  intros HB Hs H. destruct o; try discriminate Hs; cbn [memo_h] in H.
  - injection H as _ <-. split; [reflexivity|exact HB].
  - unfold mp_consume_byte in H. destruct (co_advance _ _ _) as [[[ix adv] off]| | | |] eqn:E; try discriminate H.
    destruct (broken_advance _ _ _ _ _ HB E) as (_ & _ & HT). destruct adv.
    + destruct (proj1 (HT eq_refl) eq_refl).
    + destruct (mp_dump _ _); discriminate H.
  - unfold mp_consume in H. destruct (co_advance _ _ _) as [[[ix adv] off]| | | |] eqn:E; try discriminate H.
    destruct (broken_advance _ _ _ _ _ HB E) as (_ & _ & HT). exfalso. destruct adv.
    + injection H as H _. exact (broken_slice _ _ _ (proj2 (HT eq_refl)) _ H).
    + destruct (mp_dump _ _); discriminate H.
  - split; [reflexivity|]. unfold mp_set_fit in H. destruct (co_set_fit _ _ _) as [r off] eqn:E. injection H as -> <-. destruct x.
    exact (broken_set_fit _ _ _ HB E).
  - exfalso. unfold mp_enforce_target in H. destruct (co_enforce_target _) as [r off] eqn:E. injection H as -> _. destruct x.
    exact (broken_enforce _ _ _ HB E eq_refl).
Qed.
Lemma bp_fail (X : Set) (o : pop X) p e p' : bp_broken p -> is_byte_op o = true -> byte_h Release X o p = (RErr e, p') -> bp_broken p'.
Proof.
  intros HB Hs H. destruct o; try discriminate Hs; cbn [byte_h] in H.
  unfold bp_consume_byte in H. destruct (co_advance _ _ _) as [[[ix adv] off]| | | |] eqn:E; try discriminate H.
  destruct (broken_advance _ _ _ _ _ HB E) as (_ & HF & HT). destruct adv; [destruct (proj1 (HT eq_refl) eq_refl)|].
  injection H as _ <-. exact (HF eq_refl).
Qed.
Lemma mp_fail (X : Set) (o : pop X) p e p' : mp_broken p -> is_byte_op o = true -> memo_h Release X o p = (RErr e, p') -> mp_broken p'.
Proof.
  intros HB Hs H. destruct o; try discriminate Hs; cbn [memo_h] in H.
  unfold mp_consume_byte in H. destruct (co_advance _ _ _) as [[[ix adv] off]| | | |] eqn:E; try discriminate H.
  destruct (broken_advance _ _ _ _ _ HB E) as (_ & HF & HT). destruct adv; [destruct (proj1 (HT eq_refl) eq_refl)|].
  injection H as _ <-. exact (HF eq_refl).
Qed.
Lemma sp_open p cur outer n p' : sp_inv p -> sp_alpha p = mkW cur outer -> zlen cur < n <= isize_max ->
  zlen cur <= isize_max -> slice_h unit (OpSetFit (zlen cur - n + usize_mod)) p = (ROk tt, p') -> False.
Proof.
  intros Hi Ha Hn Hl H. destruct p as [|fr rest]; [destruct (Hi eq_refl)|]. unfold sp_alpha in Ha. cbn [hd tl] in Ha.
  injection Ha as -> _. cbn [slice_h] in H. unfold sp_set_fit in H. pose proof isize_max_lt. assert (0 < isize_max) by reflexivity.
  destruct (Z.leb_spec (zlen cur - n + usize_mod) (zlen cur)); [lia|discriminate H].
Qed.

(** ** A value is only ever read where the decoder reads it *)
Section All.
Variables (w : which_parser) (cf : config) (D : list def) (t : ty) (input : list byte).
Hypothesis HD : wf_defs D = true.
Hypothesis HW : wf_ty D t = true.
Hypothesis Hb : bytes_ok input.
Hypothesis HL : zlen input <= isize_max.

Lemma never_parse {C} f (k : val -> prog C) x : dec cf D f t input = RUB ->
  run_with w (cf_mode cf) (pbind (parse cf D f t) k) input <> ROk x.
Proof.
  intros Hu Hr. destruct (cf_mode cf) eqn:HM.
  { refine (proj2 (safe_dec true cf D HD _ f t HW _ input (conj Hb HL)) Hu); unfold vpads; rewrite HM; reflexivity. }
  destruct w; cbn [run_with] in Hr.
  - rewrite run_pbind in Hr. destruct (run (byte_h Release) (parse cf D f t) (bp_from_buffer input)) as [r p] eqn:E.
    destruct r as [v| | | |]; try discriminate Hr.
    refine (never_dec (byte_h Release) bp_inv bp_alpha bp_broken (byte_refines Release) bp_open bp_step bp_fail cf D HD HM f t HW
      _ input [] _ _ (conj Hb HL) Hu v p E); [apply bp_init_inv; exact HL|exact (bp_init_alpha input)].
  - rewrite run_pbind in Hr. destruct (run (memo_h Release) (parse cf D f t) (mp_from_buffer input)) as [r p] eqn:E.
    destruct r as [v| | | |]; try discriminate Hr.
    refine (never_dec (memo_h Release) mp_inv (fun p => bp_alpha (mp_bp p)) mp_broken (memo_refines Release) mp_open mp_step mp_fail cf D HD HM f t HW
      _ input [] _ _ (conj Hb HL) Hu v p E); [apply mp_init_inv; exact HL|exact (bp_init_alpha input)].
  - rewrite run_pbind in Hr. destruct (run slice_h (parse cf D f t) (sp_from_buffer input)) as [r p] eqn:E.
    destruct r as [v| | | |]; try discriminate Hr.
    refine (never_dec slice_h sp_inv sp_alpha (fun _ => False) (slice_refines Release) sp_open _ _ cf D HD HM f t HW
      _ input [] _ _ (conj Hb HL) Hu v p E); [contradiction|contradiction|discriminate|reflexivity].
Qed.

Lemma decode_gives_run f v : decode_with w cf D f t input = ROk v ->
  run_with w (cf_mode cf) (pbind (parse cf D f t) (fun v => PRet v)) input = ROk v.
Proof.
  assert (HH : forall P (h : handler P) c p0, try_decode h c p0 cf D f t = ROk v ->
    fst (run h (pbind (parse cf D f t) (fun v => PRet v)) p0) = ROk v).
  { intros P h c p0 H. unfold try_decode in H. rewrite run_pbind. destruct (run h (parse cf D f t) p0) as [[v'| | | |] p]; try discriminate H.
    cbn [run fst]. destruct (cf_complete cf); [|injection H as ->; reflexivity].
    destruct (c p) as [lo| | | |]; try discriminate H. destruct (lo_is_empty lo); [injection H as ->; reflexivity|discriminate H]. }
  destruct w; cbn [decode_with run_with]; unfold byte_decode, memo_decode, slice_decode; apply HH.
Qed.

Lemma decodes_inv v : decodes w cf D t input (ROk v) ->
  exists f rest, dec cf D f t input = ROk (v, rest) /\ finished w cf v rest (ROk v).
Proof.
  intros H. apply settles_at in H. destruct H as [f H]. exists f. pose proof (decode_cases w cf D t input HL f) as C. cbv zeta in C.
  rewrite H in C. destruct (dec cf D f t input) as [[v' rest]| | | |] eqn:E; try discriminate C; try contradiction.
  - exists rest. unfold finished in *. destruct (_ && _); [destruct C as (lo & C & _); discriminate|].
    injection C as <-. split; reflexivity.
  - destruct C as [[? C]|[_ C]]; discriminate C.
  - exfalso. exact (never_parse f _ _ E (decode_gives_run f v H)).
Qed.

Lemma reads_inv v rest : reads w cf D t input (ROk (v, rest)) -> exists f, dec cf D f t input = ROk (v, rest).
Proof.
  intros H. apply settles_at in H. destruct H as [f H]. exists f. pose proof (reads_seen w cf D t input HL f) as R. cbv zeta in R.
  rewrite H in R. destruct (dec cf D f t input) as [[v' rest']| | | |] eqn:E; try congruence.
  - destruct R as [[? R]|[_ R]]; discriminate R.
  - exfalso. exact (never_parse f _ _ E H).
Qed.
End All.
