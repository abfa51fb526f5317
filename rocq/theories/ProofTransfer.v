(** From [dec] to decoding with each of the library's parsers. *)
From Verif Require Import Base BaseLemmas ModelErrors ModelSplitVec ModelParser ModelInt ModelSchema SpecParser
  SpecCodec ProofParser ProofParserSim ProofParserProps ProofParserClean ProofDec.
From Coq Require Import ZifyBool.

(** ** Only opening a window can panic *)
Definition is_set_fit {X : Set} (o : pop X) : bool := match o with OpSetFit _ => true | _ => false end.
Fixpoint no_fit {A} (pg : prog A) : Prop :=
  match pg with
  | POp o k => is_set_fit o = false /\ forall x, no_fit (k x)
  | PTry o k f => is_set_fit o = false /\ (forall x, no_fit (k x)) /\ no_fit f
  | _ => True
  end.

Lemma byte_no_panic m {X : Set} (o : pop X) p r p' : bp_inv p -> in_contract o (bp_alpha p) = true ->
  is_set_fit o = false -> byte_h m X o p = (r, p') -> r <> RPanic.
Proof.
  intros Hinv Hc Hf Hb ->. pose proof isize_max_lt as HM.
  destruct (spec_op Keep o (bp_alpha p)) as [x w'] eqn:Es.
  destruct (byte_refines m X o p x w' RPanic p' Hinv Hc Es Hb) as (-> & -> & Hbo).
  unfold bp_inv in Hinv. destruct p as [buf off]. cbn [bp_buf bp_off] in *.
  pose proof (co_inv_limit _ _ Hinv) as HL.
  destruct o; cbn [byte_h in_contract is_set_fit is_byte_op spec_op] in *; try discriminate.
  - unfold bp_consume in Hb; cbn [bp_off bp_buf] in Hb. unfold size_ok in Hc.
    assert (Hsz : size_fits Debug n) by (unfold size_fits, is_usize; lia).
    destruct (@co_advance_spec parse_error Debug n buf off Hinv Hsz) as [[Hle Ha]|[[Hle Ha]|(_ & ? & _)]]; try lia.
    + rewrite Ha in Hb. rewrite vb_get_slice_unchecked_ok in Hb by lia. discriminate Hb.
    + rewrite Ha in Hb. discriminate Hb.
  - unfold bp_enforce_target, co_enforce_target in Hb. cbn [bp_off] in Hb.
    destruct (co_frames off) as [|t fs]; [discriminate Hb|]. cbn [fs_peek hd_error] in Hb.
    destruct (Z.compare t (co_index off)); discriminate Hb.
  - unfold bp_skip_exactly in Hb; cbn [bp_off bp_buf] in Hb. unfold size_ok in Hc.
    assert (Hsz : size_fits Debug n) by (unfold size_fits, is_usize; lia).
    destruct (@co_advance_spec parse_error Debug n buf off Hinv Hsz) as [[Hle Ha]|[[Hle Ha]|(_ & ? & _)]]; try lia;
      rewrite Ha in Hb; discriminate Hb.
Qed.

Lemma memo_no_panic m {X : Set} (o : pop X) p r p' : mp_inv p -> in_contract o (bp_alpha (mp_bp p)) = true ->
  is_set_fit o = false -> memo_h m X o p = (r, p') -> r <> RPanic.
Proof.
  intros Hinv Hc Hf Hb. pose proof (in_contract_fits m o _ Hc) as Hfit.
  destruct (mp_step m o p Hinv Hfit _ _ Hb) as [Hb' Hi].
  apply (byte_no_panic m o (mp_bp p) r (mp_bp p') (proj1 Hinv) Hc Hf Hb').
Qed.

Lemma run_no_fit {P} m (h : handler P) inv alpha :
  refines_contract m h inv alpha ->
  (forall (X : Set) (o : pop X) p r p', inv p -> in_contract o (alpha p) = true -> is_set_fit o = false ->
     h X o p = (r, p') -> r <> RPanic) ->
  forall {A} (pg : prog A) p, inv p -> try_bytes_only pg -> no_fit pg ->
  (exists e, fst (run contract_h pg (alpha p)) = RErr e) -> exists e, fst (run h pg p) = RErr e.
Proof.
  intros Href Hnp A pg.
  induction pg as [a|e| | | |X o k IH|X o k IHk f IHf]; intros p Hinv Htry Hnf [e0 He]; cbn [run fst] in *;
    try discriminate He; eauto.
  - destruct Hnf as [Hf Hnf]. unfold contract_h at 1 in He.
    destruct (in_contract o (alpha p)) eqn:Ec; [|discriminate He].
    destruct (spec_op Keep o (alpha p)) as [x w'] eqn:Es. rewrite (spec_h_eq _ _ _ _ _ Es) in He.
    destruct (h X o p) as [r p'] eqn:Eh.
    pose proof (Href X o p x w' r p' Hinv Ec Es Eh) as Hst.
    pose proof (Hnp X o p r p' Hinv Ec Hf Eh) as Hn.
    destruct r; try contradiction; try congruence.
    + destruct Hst as (-> & Hi & <-). apply IH; eauto.
    + eexists; reflexivity.
  - destruct Htry as (Hbop & Hk & Hf). destruct Hnf as (Hf1 & Hnk & Hnf). unfold contract_h at 1 in He.
    destruct (in_contract o (alpha p)) eqn:Ec; [|discriminate He].
    destruct (spec_op Keep o (alpha p)) as [x w'] eqn:Es. rewrite (spec_h_eq _ _ _ _ _ Es) in He.
    destruct (h X o p) as [r p'] eqn:Eh.
    pose proof (Href X o p x w' r p' Hinv Ec Es Eh) as Hst.
    pose proof (Hnp X o p r p' Hinv Ec Hf1 Eh) as Hn.
    destruct r; try contradiction; try congruence.
    + destruct Hst as (-> & Hi & <-). apply IHk; eauto.
    + destruct Hst as (-> & Hi). destruct (Hi Hbop) as [Hi1 <-]. apply IHf; eauto.
Qed.

(** ** The outcome of decoding *)
Lemma w_init_eq input : w_init input = mkW input []. Proof. reflexivity. Qed.

(** What the caller of a decoder sees, given what [dec] says; [strict] is the
    option check_complete_parse. *)
Definition seen (m : mode) (strict : bool) (r : pres (val * list byte)) (out : res decode_error val) : Prop :=
  match r with
  | ROk (v, rest) =>
      if strict && negb (zlen rest =? 0) then exists lo, out = RErr (DNonEmpty lo) /\ lo_bytes lo = rest
      else out = ROk v
  | RErr _ => (exists e, out = RErr (DParse e)) \/ (m = Debug /\ out = RPanic)
  | RPanic => out = RPanic
  | RDiv => out = RDiv
  | RUB => True
  end.

Lemma bp_cleanup_at m p rest : bp_inv p -> bp_alpha p = mkW rest [] ->
  bp_cleanup m p = ROk (lo_add LEmpty rest).
Proof.
  intros Hi Ha. destruct p as [b [abs fs cur]]. unfold bp_inv, bp_alpha in *; cbn [bp_buf bp_off] in *.
  assert (Ho : w_outer (co_alpha b (mkCO abs fs cur)) = []) by (rewrite Ha; reflexivity).
  apply pieces_outer_nil in Ho. cbn [co_frames] in Ho; subst fs.
  unfold bp_cleanup; cbn [bp_off co_frames]. rewrite bp_cleanup_loop by exact Hi.
  cbn [app pieces lo_collect]. f_equal. f_equal.
  unfold co_alpha in Ha. cbn [bp_bounds co_frames co_abs app co_cur pieces hd tl] in Ha. injection Ha as Ha. exact Ha.
Qed.

Lemma lo_add_empty rest : lo_is_empty (lo_add LEmpty rest) = (zlen rest =? 0) /\ lo_bytes (lo_add LEmpty rest) = rest.
Proof.
  unfold lo_add. destruct (Z.eqb_spec (zlen rest) 0) as [E|E].
  - apply zlen_0_nil in E; subst. split; reflexivity.
  - cbn. destruct rest; [exfalso; apply E; reflexivity|]. split; reflexivity.
Qed.

Lemma outcome_seen {P} m (h : handler P) inv alpha cleanup (p0 : P) cf D fuel t input :
  refines_contract m h inv alpha -> inv p0 -> alpha p0 = mkW input [] -> zlen input <= isize_max ->
  (cf_complete cf = true -> forall p rest, inv p -> alpha p = mkW rest [] -> cleanup p = ROk (lo_add LEmpty rest)) ->
  seen m (cf_complete cf) (dec cf D fuel t input) (try_decode h cleanup p0 cf D fuel t).
Proof.
  intros Href Hi Ha Hl Hc.
  pose proof (runs_dec cf D fuel t input [] Hl) as Hr. rewrite <- Ha in Hr.
  pose proof (run_refines m h inv alpha Href (parse cf D fuel t) p0 Hi (try_parse cf D fuel t)) as Ho.
  unfold outcome_rel in Ho. unfold try_decode. destruct (run h (parse cf D fuel t) p0) as [r p] eqn:Er.
  cbn [fst snd] in Ho. unfold outcome in Hr. unfold seen.
  destruct (dec cf D fuel t input) as [[v rest]| | | |].
  - rewrite Hr in Ho. cbn [fst snd] in Ho. destruct Ho as (-> & Hip & Hap).
    destruct (cf_complete cf); [|reflexivity]. rewrite (Hc eq_refl p rest Hip Hap).
    destruct (lo_add_empty rest) as [-> Hb]. cbn [andb].
    destruct (zlen rest =? 0); cbn [negb]; [reflexivity|]. eexists; split; [reflexivity|exact Hb].
  - destruct Hr as [e1 Hr]. rewrite Hr in Ho. destruct Ho as [[e2 ->]|[-> ->]]; [left; eexists; reflexivity|right; auto].
  - rewrite Hr in Ho. rewrite Ho. reflexivity.
  - exact Logic.I.
  - rewrite Hr in Ho. rewrite Ho. reflexivity.
Qed.

Definition parser_mode (w : which_parser) (cf : config) : mode :=
  match w with WSlice => Release | _ => cf_mode cf end.

Lemma decode_seen w cf D fuel t input : zlen input <= isize_max -> (w = WSlice -> cf_complete cf = false) ->
  seen (parser_mode w cf) (cf_complete cf) (dec cf D fuel t input) (decode_with w cf D fuel t input).
Proof.
  intros Hl Hw. destruct w; cbn [decode_with parser_mode].
  - apply (outcome_seen _ _ bp_inv bp_alpha); auto using byte_refines, bp_init_inv, bp_init_alpha.
    + exact (bp_init_alpha input).
    + intros _ p rest Hi Ha. apply bp_cleanup_at; assumption.
  - apply (outcome_seen _ _ mp_inv (fun p => bp_alpha (mp_bp p))); auto using memo_refines, mp_init_inv.
    + exact (bp_init_alpha input).
    + intros _ p rest Hi Ha. unfold mp_cleanup. rewrite mp_cleanup_loop by exact Hi.
      apply (bp_cleanup_at (cf_mode cf) (mp_bp p) rest (proj1 Hi) Ha).
  - apply (outcome_seen _ _ sp_inv sp_alpha); auto using slice_refines.
    + unfold sp_inv, sp_from_buffer; discriminate.
    + intros E. rewrite (Hw eq_refl) in E. discriminate E.
Qed.

(** With check_complete_parse a SliceParser reports leftovers every time. *)
Lemma slice_complete cf D fuel t input : zlen input <= isize_max -> cf_complete cf = true ->
  match dec cf D fuel t input with
  | ROk (v, rest) => exists lo, slice_decode cf D fuel t input = RErr (DNonEmpty lo) /\ lo_bytes lo = rest
  | RErr _ => exists e, slice_decode cf D fuel t input = RErr (DParse e)
  | _ => True
  end.
Proof.
  intros Hl Hc.
  assert (Hinit : sp_inv (sp_from_buffer input)) by discriminate.
  pose proof (runs_dec cf D fuel t input [] Hl) as Hr.
  pose proof (run_refines Release slice_h sp_inv sp_alpha (slice_refines Release) (parse cf D fuel t)
    (sp_from_buffer input) Hinit (try_parse cf D fuel t)) as Ho.
  change (sp_alpha (sp_from_buffer input)) with (mkW input []) in Ho.
  unfold outcome_rel in Ho. unfold slice_decode, try_decode.
  destruct (run slice_h (parse cf D fuel t) (sp_from_buffer input)) as [r p] eqn:Er.
  cbn [fst snd] in Ho. unfold outcome in Hr.
  destruct (dec cf D fuel t input) as [[v rest]| | | |]; auto.
  - rewrite Hr in Ho. cbn [fst snd] in Ho. destruct Ho as (-> & Hip & Hap). rewrite Hc.
    unfold sp_cleanup. rewrite sp_cleanup_loop_ok.
    unfold sp_inv in Hip. destruct p as [|s p]; [congruence|]. unfold sp_alpha in Hap; cbn [hd tl] in Hap.
    injection Hap as -> ->. cbn [app].
    destruct (collect_empty [rest; []]) as [Hb _]; [discriminate|]. cbn [concat app] in Hb. rewrite app_nil_r in Hb.
    assert (He : lo_is_empty (lo_collect LEmpty [rest; []]) = false).
    { cbn [lo_collect]. unfold lo_add. destruct (zlen rest =? 0) eqn:E; [|]; cbn; [reflexivity|].
      destruct rest; reflexivity. }
    rewrite He. eexists; split; [reflexivity|exact Hb].
  - destruct Hr as [e1 Hr]. rewrite Hr in Ho. destruct Ho as [[e2 ->]|[E _]]; [eexists; reflexivity|discriminate E].
Qed.

(** ** Types that open no windows *)
Lemma nf_bind {A B} (pg : prog A) (k : A -> prog B) : no_fit pg -> (forall a, no_fit (k a)) -> no_fit (pbind pg k).
Proof.
  induction pg as [a|e| | | |X o kk IH|X o kk IHk f IHf]; cbn [pbind no_fit]; intros Hp Hk; auto.
  - destruct Hp; split; auto.
  - destruct Hp as (H1 & H2 & H3); repeat split; auto.
Qed.
Lemma nf_op {X : Set} (o : pop X) : is_set_fit o = false -> no_fit (do_op o). Proof. cbn; auto. Qed.
Lemma nf_lift {A} (r : pres A) : no_fit (plift r). Proof. destruct r; exact Logic.I. Qed.
Lemma nf_ret {A} (a : A) : no_fit (PRet a). Proof. exact Logic.I. Qed.
Lemma nf_err {A} e : no_fit (@PErr A e). Proof. exact Logic.I. Qed.
Lemma nf_panic {A} : no_fit (@PPanic A). Proof. exact Logic.I. Qed.
Lemma nf_div {A} : no_fit (@PDiv A). Proof. exact Logic.I. Qed.
Lemma nf_st_loop term fuel : forall acc, no_fit (p_self_terminating_loop fuel term acc).
Proof.
  induction fuel as [|fuel IH]; intros acc; cbn [p_self_terminating_loop no_fit]; auto.
  repeat split; auto. intros b. destruct (term b); cbn [no_fit]; auto.
Qed.
Create HintDb nf.
#[export] Hint Resolve nf_op nf_lift nf_ret nf_err nf_panic nf_div nf_st_loop : nf.
Ltac nfs :=
  repeat first
    [ solve [auto with nf]
    | apply nf_bind; [|intros ?]
    | match goal with
      | |- no_fit (if ?b then _ else _) => destruct b
      | |- no_fit (match ?o with _ => _ end) => destruct o
      end ].

Lemma nf_parse cf D fuel : window_free_defs D = true -> forall t, window_free t = true -> no_fit (parse cf D fuel t).
Proof.
  intros HD.
  assert (Hseq : forall (pe : prog val) fl seq, no_fit pe -> no_fit (p_seq_loop fl pe seq)).
  { intros pe fl; induction fl as [|fl IHl]; intros seq He; cbn [p_seq_loop]; [exact Logic.I|unfold p_remainder; nfs]. }
  assert (Hlim : forall (pe : prog val) n fl seq, no_fit pe -> no_fit (p_lim_loop fl n pe seq)).
  { intros pe n fl; induction fl as [|fl IHl]; intros seq He; cbn [p_lim_loop]; [exact Logic.I|unfold p_remainder; nfs]. }
  assert (Hfix : forall (pe : prog val) n fl seq, no_fit pe -> no_fit (p_fix_loop fl n pe seq)).
  { intros pe n fl; induction fl as [|fl IHl]; intros seq He; cbn [p_fix_loop]; [exact Logic.I|unfold p_remainder; nfs]. }
  assert (Hfields : forall pe ts, (forall t, window_free t = true -> no_fit (pe t)) ->
    forallb window_free ts = true -> no_fit (p_fields pe ts)).
  { intros pe ts He; induction ts as [|t ts IHl]; intros Hts; cbn [p_fields]; [exact Logic.I|].
    cbn [forallb] in Hts. apply andb_prop in Hts; destruct Hts as [H1 H2]. nfs. }
  induction fuel as [|f IH]; intros t HW; cbn [parse]; [exact Logic.I|].
  destruct t; cbn [window_free] in HW; try discriminate HW;
    unfold p_take_bool, p_take_tagword, p_ranged, p_int, p_take_fixed, p_consume_arr, p_take_dynamic,
    p_take_self_terminating, p_remainder, p_consume, p_consume_byte, p_set_fit, p_enforce_target; try (nfs; fail).
  - destruct (nth_error D i) as [d|] eqn:Ei; [|nfs].
    assert (Hd : forallb (forallb window_free) (field_types d) = true).
    { unfold window_free_defs in HD. rewrite forallb_forall in HD. apply HD. eapply nth_error_In; eassumption. }
    destruct d as [ts|k tags|k alts]; cbn [field_types forallb] in Hd.
    + rewrite andb_true_r in Hd. nfs.
    + nfs.
    + apply nf_bind; [nfs|]. intros tag. destruct (find_tag tag (map fst alts)) as [ix|]; [|nfs].
      destruct (nth_error alts ix) as [[tg ts]|] eqn:Ea; [|nfs].
      assert (Hts : forallb window_free ts = true).
      { rewrite forallb_forall in Hd. apply Hd. apply in_map_iff. exists (tg, ts). split; [reflexivity|].
        eapply nth_error_In; eassumption. }
      nfs.
Qed.

(** An error of [dec] is an error of the decoder, unless windows are opened in
    a debug build. *)
Lemma decode_error_seen w cf D fuel t input : zlen input <= isize_max ->
  (parser_mode w cf = Debug -> window_free t = true /\ window_free_defs D = true) ->
  (exists e, dec cf D fuel t input = RErr e) -> exists e, decode_with w cf D fuel t input = RErr (DParse e).
Proof.
  intros Hl Hw [e0 He].
  pose proof (runs_dec cf D fuel t input [] Hl) as Hr. unfold outcome in Hr. rewrite He in Hr.
  assert (HH : forall P (h : handler P) inv alpha cleanup (p0 : P),
    refines_contract (parser_mode w cf) h inv alpha ->
    (parser_mode w cf = Debug -> forall (X : Set) (o : pop X) p r p', inv p -> in_contract o (alpha p) = true ->
       is_set_fit o = false -> h X o p = (r, p') -> r <> RPanic) ->
    inv p0 -> alpha p0 = mkW input [] ->
    exists e, try_decode h cleanup p0 cf D fuel t = RErr (DParse e)).
  { intros P h inv alpha cleanup p0 Href Hnp Hi Ha. rewrite <- Ha in Hr.
    assert (HE : exists e, fst (run h (parse cf D fuel t) p0) = RErr e).
    { destruct (parser_mode w cf) eqn:Em.
      - destruct (Hw eq_refl) as [W1 W2].
        apply (run_no_fit Debug h inv alpha Href (Hnp eq_refl)); auto using try_parse, nf_parse.
      - pose proof (run_refines _ h inv alpha Href (parse cf D fuel t) p0 Hi (try_parse cf D fuel t)) as Ho.
        unfold outcome_rel in Ho. destruct Hr as [e1 Hr]. rewrite Hr in Ho.
        destruct Ho as [Ho|[Ho _]]; [exact Ho|discriminate Ho]. }
    destruct HE as [e HE]. unfold try_decode. destruct (run h (parse cf D fuel t) p0) as [r p]. cbn [fst] in HE.
    subst r. eexists; reflexivity. }
  destruct w; cbn [decode_with parser_mode] in *.
  - apply (HH _ _ bp_inv bp_alpha); auto using byte_refines, bp_init_inv; [|exact (bp_init_alpha input)].
    intros _ X o p r p'. apply byte_no_panic.
  - apply (HH _ _ mp_inv (fun p => bp_alpha (mp_bp p))); auto using memo_refines, mp_init_inv; [|exact (bp_init_alpha input)].
    intros _ X o p r p'. apply memo_no_panic.
  - apply (HH _ _ sp_inv sp_alpha); auto using slice_refines; [discriminate|unfold sp_inv, sp_from_buffer; discriminate].
Qed.
