(** Decoding through the library's parsers, in terms of [dec]. *)
From Verif Require Import Base BaseLemmas ModelErrors ModelSplitVec ModelParser ModelInt ModelSchema SpecParser
  SpecCodec ProofParser ProofParserSim ProofParserProps ProofParserClean ProofDec ProofTransfer ProofSafe ProofSettle.
From Coq Require Import ZifyBool.

Definition pm_of (w : which_parser) (m : mode) : mode := match w with WSlice => Release | _ => m end.

Lemma with_seen {A} w m (pg : prog A) d input : runs pg d -> try_bytes_only pg -> zlen input <= isize_max ->
  match d input with
  | ROk (a, _) => run_with w m pg input = ROk a
  | RErr _ => (exists e, run_with w m pg input = RErr e) \/ (pm_of w m = Debug /\ run_with w m pg input = RPanic)
  | RPanic => run_with w m pg input = RPanic
  | RDiv => run_with w m pg input = RDiv
  | RUB => True
  end.
Proof.
  intros Hr Ht Hl. specialize (Hr input [] Hl).
  assert (HH : forall P (h : handler P) inv alpha (p0 : P), refines_contract (pm_of w m) h inv alpha -> inv p0 ->
    alpha p0 = mkW input [] ->
    match d input with
    | ROk (a, _) => fst (run h pg p0) = ROk a
    | RErr _ => (exists e, fst (run h pg p0) = RErr e) \/ (pm_of w m = Debug /\ fst (run h pg p0) = RPanic)
    | RPanic => fst (run h pg p0) = RPanic
    | RDiv => fst (run h pg p0) = RDiv
    | RUB => True
    end).
  { intros P h inv alpha p0 Href Hi Ha. pose proof (run_refines _ h inv alpha Href pg p0 Hi Ht) as Ho.
    rewrite Ha in Ho. unfold outcome_rel in Ho. unfold outcome in Hr. destruct (d input) as [[a r]| | | |].
    - rewrite Hr in Ho. cbn [fst] in Ho. tauto.
    - destruct Hr as [e1 Hr]. rewrite Hr in Ho. exact Ho.
    - rewrite Hr in Ho. exact Ho.
    - exact Logic.I.
    - rewrite Hr in Ho. exact Ho. }
  destruct w; cbn [run_with].
  - apply (HH _ _ bp_inv bp_alpha); auto using byte_refines, bp_init_inv. exact (bp_init_alpha input).
  - apply (HH _ _ mp_inv (fun p => bp_alpha (mp_bp p))); auto using memo_refines, mp_init_inv. exact (bp_init_alpha input).
  - apply (HH _ _ sp_inv sp_alpha); auto using slice_refines. unfold sp_inv, sp_from_buffer; discriminate.
Qed.

Definition d_then {A} (d : dm A) : dm (A * list byte) :=
  d_bind d (fun v => d_bind d_rem (fun n => d_bind (d_consume n) (fun r => d_ret (v, r)))).
Lemma d_then_eq {A} (d : dm A) input : shrinks d -> zlen input <= isize_max ->
  d_then d input =
  match d input with
  | ROk (a, rest) => ROk ((a, rest), [])
  | RErr e => RErr e | RPanic => RPanic | RUB => RUB | RDiv => RDiv
  end.
Proof.
  intros Hs Hl. unfold d_then, d_bind at 1. destruct (d input) as [[a rest]| | | |] eqn:E; try reflexivity.
  apply Hs, suffix_zlen in E. unfold d_bind, d_rem, d_consume, size_ok. pose proof (zlen_nonneg rest).
  destruct (_ && _) eqn:B; [|lia]. destruct (Z.leb_spec (zlen rest) (zlen rest)); [|lia].
  rewrite ztake_all, zdrop_all by lia. reflexivity.
Qed.
Lemma runs_then {A} (pg : prog A) d : runs pg d -> shrinks d -> runs (then_rest pg) (d_then d).
Proof. intros H Hs. unfold then_rest, d_then. rns. Qed.
Lemma try_then {A} (pg : prog A) : try_bytes_only pg -> try_bytes_only (then_rest pg).
Proof.
  intros H. unfold then_rest. apply try_bind; [exact H|]. intros a. apply try_bind; [apply try_op|]. intros n.
  apply try_bind; [apply try_op|]. intros r. exact Logic.I.
Qed.

Section View.
Variables (w : which_parser) (cf : config) (D : list def) (t : ty) (input : list byte).
Hypothesis HL : zlen input <= isize_max.

Lemma reads_seen f :
  let out := run_with w (cf_mode cf) (then_rest (parse cf D f t)) input in
  match dec cf D f t input with
  | ROk (v, rest) => out = ROk (v, rest)
  | RErr _ => (exists e, out = RErr e) \/ (parser_mode w cf = Debug /\ out = RPanic)
  | RPanic => out = RPanic
  | RDiv => out = RDiv
  | RUB => True
  end.
Proof.
  cbv zeta. pose proof (with_seen w (cf_mode cf) _ _ input (runs_then _ _ (runs_dec cf D f t) (shrinks_dec cf D f t))
    (try_then _ (try_parse cf D f t)) HL) as H.
  rewrite d_then_eq in H by auto with dec. destruct (dec cf D f t input) as [[v rest]| | | |]; exact H.
Qed.

Lemma reads_ok f v rest : dec cf D f t input = ROk (v, rest) -> reads w cf D t input (ROk (v, rest)).
Proof.
  intros H. pose proof (reads_seen f) as R. rewrite H in R. cbv zeta in R. eapply reads_at; [exact R|discriminate].
Qed.

Lemma reads_inv_in v rest : (forall f, dec cf D f t input <> RUB) -> reads w cf D t input (ROk (v, rest)) ->
  exists f, dec cf D f t input = ROk (v, rest).
Proof.
  intros HN H. apply settles_at in H. destruct H as [f H]. exists f. pose proof (reads_seen f) as R. cbv zeta in R.
  rewrite H in R. pose proof (HN f) as N. destruct (dec cf D f t input) as [[v' rest']| | | |]; try congruence.
  destruct R as [[? R]|[_ R]]; discriminate R.
Qed.

(** What [try_decode] says when [dec] succeeds. *)
Definition finished (v : val) (rest : list byte) (out : res decode_error val) : Prop :=
  if cf_complete cf && (match w with WSlice => true | _ => negb (zlen rest =? 0) end)
  then exists lo, out = RErr (DNonEmpty lo) /\ lo_bytes lo = rest
  else out = ROk v.

Lemma decode_finished f v rest : dec cf D f t input = ROk (v, rest) -> finished v rest (decode_with w cf D f t input).
Proof.
  intros H. unfold finished. destruct w eqn:Ew.
  - pose proof (decode_seen w cf D f t input HL ltac:(rewrite Ew; discriminate)) as S. rewrite H, Ew in S. exact S.
  - pose proof (decode_seen w cf D f t input HL ltac:(rewrite Ew; discriminate)) as S. rewrite H, Ew in S. exact S.
  - destruct (cf_complete cf) eqn:Ec; cbn [andb].
    + pose proof (slice_complete cf D f t input HL Ec) as S. rewrite H in S. exact S.
    + pose proof (decode_seen w cf D f t input HL ltac:(auto)) as S. rewrite H, Ew, Ec in S. exact S.
Qed.

Lemma decodes_finished f v rest : dec cf D f t input = ROk (v, rest) ->
  exists out, decodes w cf D t input out /\ finished v rest out.
Proof.
  intros H. apply decode_finished in H. eexists; split; [|exact H]. eapply decodes_at; [reflexivity|].
  unfold finished in H. destruct (_ && _); [destruct H as (lo & -> & _)|rewrite H]; discriminate.
Qed.

Lemma decode_cases f :
  match dec cf D f t input with
  | ROk (v, rest) => finished v rest (decode_with w cf D f t input)
  | RErr _ => (exists e, decode_with w cf D f t input = RErr (DParse e)) \/
              (parser_mode w cf = Debug /\ decode_with w cf D f t input = RPanic)
  | RPanic => decode_with w cf D f t input = RPanic
  | RDiv => decode_with w cf D f t input = RDiv
  | RUB => True
  end.
Proof.
  pose proof (decode_finished f) as F.
  destruct (dec cf D f t input) as [[v rest]|e| | |] eqn:E; [apply F; reflexivity| | |exact Logic.I|].
  all: clear F; destruct (bool_dec (cf_complete cf) false) as [Ec|Ec];
    [pose proof (decode_seen w cf D f t input HL ltac:(auto)) as S; rewrite E in S; exact S|];
    destruct w; try (pose proof (decode_seen WByte cf D f t input HL ltac:(discriminate)) as S; rewrite E in S; exact S);
    try (pose proof (decode_seen WMemo cf D f t input HL ltac:(discriminate)) as S; rewrite E in S; exact S).
  all: pose proof (runs_dec cf D f t input [] HL) as Hr; unfold outcome in Hr; rewrite E in Hr;
    assert (Hinit : sp_inv (sp_from_buffer input)) by discriminate;
    pose proof (run_refines Release slice_h sp_inv sp_alpha (slice_refines Release) (parse cf D f t)
      (sp_from_buffer input) Hinit (try_parse cf D f t)) as Ho;
    change (sp_alpha (sp_from_buffer input)) with (mkW input []) in Ho;
    unfold outcome_rel in Ho; cbn [decode_with]; unfold slice_decode, try_decode;
    destruct (run slice_h (parse cf D f t) (sp_from_buffer input)) as [r p]; cbn [fst] in Ho.
  - destruct Hr as [e1 Hr]. rewrite Hr in Ho. destruct Ho as [[e2 ->]|[H _]]; [left; eexists; reflexivity|discriminate].
  - rewrite Hr in Ho. rewrite Ho. reflexivity.
  - rewrite Hr in Ho. rewrite Ho. reflexivity.
Qed.
End View.

(** The contract of the parsers is kept. *)
Lemma dec_no_ub cf D t input f : wf_defs D = true -> wf_ty D t = true -> pads_ok cf D t = true ->
  bytes_ok input -> zlen input <= isize_max -> dec cf D f t input <> RUB.
Proof.
  intros HD HW HP Hb Hl.
  assert (V : vpads true cf (vpad_free t) = true /\ vpads true cf (vpad_free_defs D) = true).
  { unfold pads_ok, vpads in *. destruct (cf_mode cf); [split; reflexivity|]. cbn [orb]. apply andb_prop in HP. exact HP. }
  exact (proj2 (safe_dec true cf D HD (proj2 V) f t HW (proj1 V) input (conj Hb Hl))).
Qed.
