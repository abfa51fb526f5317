(** What decoders made of decoders written elsewhere accept (C86). *)
From Verif Require Import Base BaseLemmas ModelErrors ModelParser ModelInt ModelTarget ModelSchema ModelOpen
  SpecParser SpecTarget SpecCodec SpecOpen SpecAccept ProofInt ProofDec ProofCodec ProofMeta ProofSafe ProofRoundTrip
  ModelSplitVec ProofParser ProofParserSim ProofParserProps ProofParserClean ProofTransfer ProofView ProofOpen.
From Coq Require Import ZifyBool.

(** ** Tidy programs are functions of their window *)
Definition den {A} (pg : prog A) : dm A := fun cur =>
  match run contract_h pg (mkW cur []) with
  | (ROk a, w) => ROk (a, w_cur w)
  | (RErr e, _) => RErr e | (RPanic, _) => RPanic | (RUB, _) => RUB | (RDiv, _) => RDiv
  end.

Lemma contract_frame {X : Set} (o : pop X) cur outer more : fst (contract_h X o (mkW cur outer)) <> RUB ->
  contract_h X o (mkW cur (outer ++ more)) =
  (fst (contract_h X o (mkW cur outer)), mkW (w_cur (snd (contract_h X o (mkW cur outer)))) (w_outer (snd (contract_h X o (mkW cur outer))) ++ more)).
Proof.
  unfold contract_h. destruct (in_contract o (mkW cur outer)) eqn:E; [|intros H; exfalso; apply H; reflexivity]. intros _.
  assert (E' : in_contract o (mkW cur (outer ++ more)) = true).
  { destruct o; cbn [in_contract w_outer] in *; try exact E; destruct outer; try discriminate E; reflexivity. }
  rewrite E'. unfold spec_h. destruct o; cbn [spec_op w_cur w_outer in_contract] in *.
  - reflexivity.
  - destruct cur; reflexivity.
  - destruct (n <=? zlen cur); reflexivity.
  - destruct (n <=? zlen cur); reflexivity.
  - destruct outer as [|x outer]; [discriminate E|]. destruct cur; reflexivity.
  - destruct outer as [|x outer]; [discriminate E|]. destruct cur; reflexivity.
  - reflexivity.
  - destruct (n <=? zlen cur); reflexivity.
Qed.
Lemma frame {A} (pg : prog A) more : forall cur outer, fst (run contract_h pg (mkW cur outer)) <> RUB ->
  run contract_h pg (mkW cur (outer ++ more)) =
  (fst (run contract_h pg (mkW cur outer)), mkW (w_cur (snd (run contract_h pg (mkW cur outer)))) (w_outer (snd (run contract_h pg (mkW cur outer))) ++ more)).
Proof.
  induction pg as [a|e| | | |X o k IH|X o k IHk f IHf]; intros cur outer H; cbn [run] in *; try reflexivity.
  - destruct (contract_h X o (mkW cur outer)) as [r s] eqn:E.
    rewrite contract_frame by (rewrite E; destruct r; cbn in *; congruence). rewrite E. cbn [fst snd].
    destruct s as [c1 o1]. cbn [w_cur w_outer]. destruct r; try reflexivity. apply IH. exact H.
  - destruct (contract_h X o (mkW cur outer)) as [r s] eqn:E.
    rewrite contract_frame by (rewrite E; destruct r; cbn in *; congruence). rewrite E. cbn [fst snd].
    destruct s as [c1 o1]. cbn [w_cur w_outer]. destruct r; try reflexivity; auto.
Qed.
(** Nothing comes back. *)
Lemma contract_suffix {X : Set} (o : pop X) w : suffix (w_rest (snd (contract_h X o w))) (w_rest w).
Proof.
  unfold contract_h. destruct (in_contract o w) eqn:E; [|apply suffix_refl]. destruct w as [cur outer].
  assert (HC : forall a b, cur = a ++ b -> suffix (b ++ concat outer) (cur ++ concat outer)).
  { intros a b ->. exists a. rewrite <- app_assoc. reflexivity. }
  unfold spec_h, w_rest. destruct o; cbn [spec_op w_cur w_outer in_contract] in *; try apply suffix_refl.
  - destruct cur as [|b cur]; cbn [snd w_cur w_outer]; [apply suffix_refl|]. apply (HC [b]). reflexivity.
  - destruct (n <=? zlen cur); cbn [snd w_cur w_outer]; [|apply suffix_refl]. apply (HC (ztake n cur)). symmetry. apply ztake_zdrop.
  - destruct (n <=? zlen cur); cbn [snd w_cur w_outer concat]; [|apply suffix_refl]. rewrite app_assoc, ztake_zdrop. apply suffix_refl.
  - destruct outer as [|x outer]; [apply suffix_refl|]. destruct cur; cbn [snd w_cur w_outer concat app]; apply suffix_refl.
  - cbn [snd w_cur w_outer]. apply (HC (ztake (Z.min (zlen cur) n) cur)). symmetry. apply ztake_zdrop.
  - destruct (n <=? zlen cur); cbn [snd w_cur w_outer]; [|apply suffix_refl]. apply (HC (ztake n cur)). symmetry. apply ztake_zdrop.
Qed.
Lemma run_suffix {A} (pg : prog A) : forall w, suffix (w_rest (snd (run contract_h pg w))) (w_rest w).
Proof.
  induction pg as [a|e| | | |X o k IH|X o k IHk f IHf]; intros w; cbn [run snd]; try apply suffix_refl.
  - pose proof (contract_suffix o w) as H. destruct (contract_h X o w) as [r s]. cbn [snd] in H.
    destruct r; try exact H. eapply suffix_trans; [apply IH|exact H].
  - pose proof (contract_suffix o w) as H. destruct (contract_h X o w) as [r s]. cbn [snd] in H.
    destruct r; try exact H; (eapply suffix_trans; [|exact H]); auto.
Qed.

(** [gruns] is [runs] on lists of bytes. *)
Definition gruns {A} (pg : prog A) (d : dm A) : Prop :=
  forall cur outer, good cur -> outcome (d cur) outer (run contract_h pg (mkW cur outer)).
Definition gshrinks {A} (d : dm A) : Prop := forall cur a rest, good cur -> d cur = ROk (a, rest) -> suffix rest cur.
Lemma gr {A} (pg : prog A) d : runs pg d -> gruns pg d.
Proof. intros H cur outer [_ L]. apply H, L. Qed.
Lemma gs {A} (d : dm A) : shrinks d -> gshrinks d.
Proof. intros H cur a rest _. apply H. Qed.
Lemma gshrinks_bind {A B} (d : dm A) (k : A -> dm B) : gshrinks d -> (forall a, gshrinks (k a)) -> gshrinks (d_bind d k).
Proof.
  intros Hd Hk cur x rest G H. unfold d_bind in H. destruct (d cur) as [[a r]| | | |] eqn:E; try discriminate.
  pose proof (Hd _ _ _ G E) as S. eapply suffix_trans; [eapply Hk; [|exact H]|exact S]. eapply good_suffix; eassumption.
Qed.
Lemma gruns_bind {A B} (pg : prog A) (d : dm A) (k : A -> prog B) (kd : A -> dm B) :
  gruns pg d -> gshrinks d -> (forall a, gruns (k a) (kd a)) -> gruns (pbind pg k) (d_bind d kd).
Proof.
  intros Hr Hs Hk cur outer Hc. rewrite run_pbind. specialize (Hr cur outer Hc). unfold d_bind.
  destruct (d cur) as [[a rest]|e| | |] eqn:Ed; unfold outcome in Hr.
  - rewrite Hr. apply Hk. eapply good_suffix; [eapply Hs; eassumption|exact Hc].
  - destruct Hr as [e' Hr]. destruct (run contract_h pg _) as [r s]; cbn [fst] in Hr; subst r. exists e'; reflexivity.
  - destruct (run contract_h pg _) as [r s]; cbn [fst] in Hr; subst r; reflexivity.
  - destruct (run contract_h pg _) as [r s]; cbn [fst] in Hr; subst r; reflexivity.
  - destruct (run contract_h pg _) as [r s]; cbn [fst] in Hr; subst r; reflexivity.
Qed.
Lemma gruns_window {A} n (pg : prog A) (d : dm A) : gruns pg d ->
  gruns (p_set_fit n ;;; v <- pg ;; p_enforce_target ;;; PRet v) (d_bind (d_window n d) d_ret).
Proof.
  intros Hr cur outer [Hb Hc]. rewrite run_pbind. unfold p_set_fit. rewrite run_do_op, contract_set_fit.
  unfold d_bind, d_window. destruct (size_ok n) eqn:Es; [|reflexivity].
  destruct (n <=? zlen cur) eqn:El; [|cbn; eauto]. rewrite run_pbind.
  assert (Hz : good (ztake n cur)).
  { split; [apply bytes_ok_ztake; exact Hb|]. rewrite zlen_ztake; [|unfold size_ok in Es; lia]. lia. }
  specialize (Hr (ztake n cur) (zdrop n cur :: outer) Hz).
  destruct (d (ztake n cur)) as [[a rest]|e| | |]; unfold outcome in Hr.
  - rewrite Hr. rewrite run_pbind. destruct rest as [|b rest]; [reflexivity|]. cbn. eauto.
  - destruct Hr as [e' Hr]. destruct (run contract_h pg _) as [r s]; cbn [fst] in Hr; subst r. exists e'; reflexivity.
  - destruct (run contract_h pg _) as [r s]; cbn [fst] in Hr; subst r; reflexivity.
  - destruct (run contract_h pg _) as [r s]; cbn [fst] in Hr; subst r; reflexivity.
  - destruct (run contract_h pg _) as [r s]; cbn [fst] in Hr; subst r; reflexivity.
Qed.

(** never outside the contract *)
Definition clean {A} (d : dm A) : Prop := forall cur, good cur -> d cur <> RUB.
Lemma clean_safe {A} (d : dm A) : safe true d -> clean d. Proof. intros H cur G. apply (H cur G). Qed.
Lemma clean_bind {A B} (d : dm A) (k : A -> dm B) : clean d -> gshrinks d ->
  (forall cur a rest, good cur -> d cur = ROk (a, rest) -> clean (k a)) -> clean (d_bind d k).
Proof.
  intros Hd Hs Hk cur G. unfold d_bind. pose proof (Hd cur G). destruct (d cur) as [[a r]| | | |] eqn:E; try congruence.
  eapply Hk; [exact G|exact E|]. eapply good_suffix; [eapply Hs; eassumption|exact G].
Qed.
Lemma clean_window {A} n (d : dm A) : 0 <= n <= isize_max -> clean d -> clean (d_window n d).
Proof.
  intros Hn Hd cur [Hb Hc]. unfold d_window, size_ok. destruct (_ && _) eqn:E; [|lia].
  destruct (Z.leb_spec n (zlen cur)); [|discriminate].
  assert (G : good (ztake n cur)) by (split; [apply bytes_ok_ztake; assumption|rewrite zlen_ztake; lia]).
  pose proof (Hd _ G). destruct (d (ztake n cur)) as [[a [|]]| | | |]; congruence.
Qed.

(** ** Tidiness and its meaning *)
Lemma tidy_runs {A} (pg : prog A) : tidy pg -> gruns pg (den pg) /\ gshrinks (den pg) /\ clean (den pg).
Proof.
  intros [_ Hw]. split; [|split].
  - intros cur outer [Hb Hl]. specialize (Hw cur Hb Hl). unfold w_init in Hw. unfold den.
    pose proof (frame pg outer cur []) as HF. destruct (run contract_h pg (mkW cur [])) as [r s]. cbn [fst snd app] in HF.
    destruct r; try contradiction; cbn [outcome]; rewrite HF by discriminate; cbn [fst]; eauto.
    rewrite Hw. reflexivity.
  - intros cur a rest [Hb Hl] E. specialize (Hw cur Hb Hl). unfold w_init in Hw. unfold den in E.
    pose proof (run_suffix pg (mkW cur [])) as HS. destruct (run contract_h pg (mkW cur [])) as [r s]. destruct r; try discriminate E.
    injection E as _ <-. unfold w_rest in HS. cbn [snd w_cur w_outer] in HS. rewrite Hw in HS. cbn [concat] in HS. rewrite !app_nil_r in HS. exact HS.
  - intros cur [Hb Hl] E. specialize (Hw cur Hb Hl). unfold w_init in Hw. unfold den in E.
    destruct (run contract_h pg (mkW cur [])) as [r s]. destruct r; try discriminate E. exact Hw.
Qed.
Lemma runs_tidy {A} (pg : prog A) (d : dm A) : try_bytes_only pg -> gruns pg d -> clean d -> tidy pg.
Proof.
  intros Ht Hr Hc. split; [exact Ht|]. intros input Hb Hl. specialize (Hr input [] (conj Hb Hl)). specialize (Hc input (conj Hb Hl)).
  unfold w_init. destruct (d input) as [[a rest]|e| | |]; cbn [outcome] in Hr; try congruence.
  - rewrite Hr. reflexivity.
  - destruct Hr as [e' Hr]. destruct (run contract_h pg _) as [r s]; cbn [fst] in Hr; subst r. exact Logic.I.
  - destruct (run contract_h pg _) as [r s]; cbn [fst] in Hr; subst r. exact Logic.I.
  - destruct (run contract_h pg _) as [r s]; cbn [fst] in Hr; subst r. exact Logic.I.
Qed.

(** [takes] in these terms *)
Lemma gwith_seen {A} w m (pg : prog A) (d : dm A) input : gruns pg d -> try_bytes_only pg -> good input ->
  match d input with
  | ROk (a, _) => run_with w m pg input = ROk a
  | RUB => True
  | _ => forall a, run_with w m pg input <> ROk a
  end.
Proof.
  intros Hr Ht G. specialize (Hr input [] G).
  assert (HH : forall P (h : handler P) inv alpha (p0 : P) m, refines_contract m h inv alpha -> inv p0 -> alpha p0 = mkW input [] ->
    match d input with
    | ROk (a, _) => fst (run h pg p0) = ROk a
    | RUB => True
    | _ => forall a, fst (run h pg p0) <> ROk a
    end).
  { clear m. intros P h inv alpha p0 m Href Hi Ha. pose proof (run_refines _ h inv alpha Href pg p0 Hi Ht) as Ho.
    rewrite Ha in Ho. unfold outcome_rel in Ho. unfold outcome in Hr. destruct (d input) as [[a r]| | | |].
    - rewrite Hr in Ho. cbn [fst] in Ho. tauto.
    - destruct Hr as [e1 Hr]. rewrite Hr in Ho. destruct Ho as [[e2 ->]|[_ ->]]; discriminate.
    - rewrite Hr in Ho. rewrite Ho. discriminate.
    - exact Logic.I.
    - rewrite Hr in Ho. rewrite Ho. discriminate. }
  destruct w; cbn [run_with].
  - apply (HH _ _ bp_inv bp_alpha _ m); [apply byte_refines|apply bp_init_inv, G|exact (bp_init_alpha input)].
  - apply (HH _ _ mp_inv (fun p => bp_alpha (mp_bp p)) _ m); [apply memo_refines|apply mp_init_inv, G|exact (bp_init_alpha input)].
  - apply (HH _ _ sp_inv sp_alpha _ Release); auto using slice_refines. unfold sp_inv, sp_from_buffer; discriminate.
Qed.

(** ** The programs of the wrappers *)
Record means {A} (pg : prog A) (d : dm A) : Prop := {
  me_try : try_bytes_only pg;
  me_runs : gruns pg d;
  me_shr : gshrinks d;
  me_clean : clean d
}.
Lemma tidy_means {A} (pg : prog A) : tidy pg -> means pg (den pg).
Proof. intros H. destruct (tidy_runs pg H) as (H1 & H2 & H3). split; auto. apply (td_errors _ H). Qed.
Lemma means_tidy {A} (pg : prog A) d : means pg d -> tidy pg.
Proof. intros [H1 H2 H3 H4]. eapply runs_tidy; eauto. Qed.

Lemma gruns_then {A} (pg : prog A) d : gruns pg d -> gshrinks d -> gruns (then_rest pg) (d_then d).
Proof.
  intros H Hs. unfold then_rest, d_then. apply gruns_bind; [exact H|exact Hs|]. intros a. apply gr. rns.
Qed.
Lemma d_then_ok {A} (d : dm A) input a rest : gshrinks d -> good input -> d input = ROk (a, rest) ->
  d_then d input = ROk ((a, rest), []).
Proof.
  intros Hs G E. unfold d_then, d_bind at 1. rewrite E. pose proof (suffix_zlen _ _ (Hs _ _ _ G E)) as L. destruct G as [_ Hl].
  unfold d_bind, d_rem, d_consume, size_ok. pose proof (zlen_nonneg rest).
  destruct (_ && _) eqn:B; [|lia]. destruct (Z.leb_spec (zlen rest) (zlen rest)); [|lia].
  rewrite ztake_all, zdrop_all by lia. reflexivity.
Qed.
Lemma takes_at {A} w m (pg : prog A) (d : dm A) input v rest : try_bytes_only pg -> gruns pg d -> gshrinks d -> good input ->
  d input <> RUB -> (run_with w m (then_rest pg) input = ROk (v, rest) <-> d input = ROk (v, rest)).
Proof.
  intros Ht Hr Hs G N. pose proof (gwith_seen w m _ _ input (gruns_then pg d Hr Hs) (try_then pg Ht) G) as S.
  destruct (d input) as [[a r]| | | |] eqn:E; try congruence.
  - rewrite (d_then_ok d input a r Hs G E) in S. rewrite S. split; intros X; injection X as -> ->; reflexivity.
  - unfold d_then, d_bind at 1 in S. rewrite E in S. split; [|discriminate]. intros X. destruct (S _ X).
  - unfold d_then, d_bind at 1 in S. rewrite E in S. split; [|discriminate]. intros X. destruct (S _ X).
  - unfold d_then, d_bind at 1 in S. rewrite E in S. split; [|discriminate]. intros X. destruct (S _ X).
Qed.
Lemma takes_means {A} w m (pg : prog A) (d : dm A) input v rest : means pg d -> good input ->
  (run_with w m (then_rest pg) input = ROk (v, rest) <-> d input = ROk (v, rest)).
Proof. intros [H1 H2 H3 H4] G. apply takes_at; auto. Qed.

Lemma means_bind {A B} (pg : prog A) d (k : A -> prog B) kd : means pg d -> (forall a, means (k a) (kd a)) ->
  means (pbind pg k) (d_bind d kd).
Proof.
  intros [H1 H2 H3 H4] Hk. split.
  - apply try_bind; [exact H1|]. intros a. apply (Hk a).
  - apply gruns_bind; auto. intros a. apply (Hk a).
  - apply gshrinks_bind; auto. intros a. apply (Hk a).
  - apply clean_bind; auto. intros. apply (Hk a).
Qed.
(** With what is known about the first result. *)
Lemma means_bind_with {A B} (pg : prog A) d (k : A -> prog B) kd (p : A -> Prop) : means pg d ->
  (forall cur a rest, good cur -> d cur = ROk (a, rest) -> p a) ->
  (forall a, try_bytes_only (k a)) -> (forall a, gruns (k a) (kd a)) -> (forall a, gshrinks (kd a)) -> (forall a, p a -> clean (kd a)) ->
  means (pbind pg k) (d_bind d kd).
Proof.
  intros [H1 H2 H3 H4] Hp Ht Hr Hs Hc. split.
  - apply try_bind; assumption.
  - apply gruns_bind; assumption.
  - apply gshrinks_bind; assumption.
  - apply clean_bind; eauto.
Qed.
Lemma means_ret {A} (a : A) : means (PRet a) (d_ret a).
Proof. split; [exact Logic.I|apply gr, runs_ret|apply gs, shrinks_ret|intros cur _; discriminate]. Qed.
Lemma means_err {A} e : means (@PErr A e) (d_fail e).
Proof. split; [exact Logic.I|apply gr, runs_err|apply gs, shrinks_fail|intros cur _; discriminate]. Qed.
Lemma means_panic {A} : means (@PPanic A) d_panic.
Proof. split; [exact Logic.I|apply gr, runs_panic|apply gs, shrinks_panic|intros cur _; discriminate]. Qed.
Lemma means_div {A} : means (@PDiv A) d_div.
Proof. split; [exact Logic.I|apply gr, runs_div|apply gs, shrinks_div|intros cur _; discriminate]. Qed.
Lemma means_lift {A} (r : pres A) : r <> RUB -> means (plift r) (d_lift r).
Proof. intros N. split; [apply try_lift|apply gr, runs_lift|apply gs, shrinks_lift|]. intros cur _. destruct r; cbn [d_lift]; congruence. Qed.
Lemma means_rem : means p_remainder d_rem.
Proof. split; [apply try_op|apply gr, runs_rem|apply gs, shrinks_rem|intros cur _; discriminate]. Qed.
Lemma means_consume n : 0 <= n <= isize_max -> means (p_consume n) (d_consume n).
Proof.
  intros Hn. split; [apply try_op|apply gr, runs_consume|apply gs, shrinks_consume|]. intros cur _. unfold d_consume, size_ok.
  destruct (_ && _) eqn:E; [|lia]. destruct (n <=? zlen cur); discriminate.
Qed.
Lemma means_tag k tags : means (p_take_tagword k tags) (d_tag k tags).
Proof. split; [apply try_tag|apply gr, runs_tag|apply gs, shrinks_tag|apply clean_safe, safe_tag]. Qed.
Lemma means_pref cf s : means (p_pref cf s) (d_pref cf s).
Proof. split; [apply try_pref|apply gr, runs_pref|apply gs, shrinks_pref|apply clean_safe, safe_pref]. Qed.

Lemma gruns_window_tail {A} n (pg : prog A) (d : dm A) : gruns pg d ->
  gruns (p_set_fit n ;;; v <- pg ;; p_enforce_target ;;; PRet v) (d_window n d).
Proof.
  intros H cur outer G. pose proof (gruns_window n pg d H cur outer G) as W. unfold d_bind in W.
  destruct (d_window n d cur) as [[a r]| | | |]; exact W.
Qed.
Lemma try_window {A} n (pg : prog A) : try_bytes_only pg -> try_bytes_only (p_set_fit n ;;; v <- pg ;; p_enforce_target ;;; PRet v).
Proof. intros H. unfold p_set_fit, p_enforce_target. tries. Qed.

Fixpoint e_seq {A : Type} (fuel : nat) (elem : dm A) (seq : list A) : dm (list A) :=
  match fuel with
  | O => d_div
  | S fuel => d_bind d_rem (fun rem => if rem =? 0 then d_ret seq else d_bind elem (fun v => e_seq fuel elem (seq ++ [v])))
  end.
Fixpoint e_lim {A : Type} (fuel : nat) (n : Z) (elem : dm A) (seq : list A) : dm (list A) :=
  match fuel with
  | O => d_div
  | S fuel => d_bind d_rem (fun rem => if rem =? 0 then d_ret seq
      else d_bind elem (fun v => d_bind (d_lift (ext_len (try_push n seq v))) (fun seq' => e_lim fuel n elem seq')))
  end.
Fixpoint e_fix {A : Type} (fuel : nat) (n : Z) (elem : dm A) (seq : list A) : dm (list A) :=
  match fuel with
  | O => d_div
  | S fuel => d_bind d_rem (fun rem => if negb (rem =? 0) && (zlen seq <? n)
      then d_bind elem (fun v => e_fix fuel n elem (seq ++ [v]))
      else if zlen seq =? n then d_ret seq else d_fail (EExternal (LengthViolation (WrongLength n (zlen seq)))))
  end.
Ltac mns := repeat first
  [ assumption | apply means_ret | apply means_err | apply means_panic | apply means_div | apply means_rem | apply means_tag | apply means_pref
  | apply means_bind; [|intros ?]
  | match goal with |- means (if ?b then _ else _) _ => destruct b end ].
Lemma means_seq {A} (pg : prog A) d : means pg d -> forall fuel acc, means (p_seq_loop fuel pg acc) (e_seq fuel d acc).
Proof. intros H. induction fuel as [|fuel IH]; intros acc; cbn [p_seq_loop e_seq]; mns. apply IH. Qed.
Lemma means_lim {A} n (pg : prog A) d : means pg d -> forall fuel acc, means (p_lim_loop fuel n pg acc) (e_lim fuel n d acc).
Proof.
  intros H. induction fuel as [|fuel IH]; intros acc; cbn [p_lim_loop e_lim]; mns; [|apply IH].
  apply means_lift. unfold try_push. destruct (_ <? _); discriminate.
Qed.
Lemma means_fix {A} n (pg : prog A) d : means pg d -> forall fuel acc, means (p_fix_loop fuel n pg acc) (e_fix fuel n d acc).
Proof. intros H. induction fuel as [|fuel IH]; intros acc; cbn [p_fix_loop e_fix]; mns. apply IH. Qed.

Section One.
Context (w : which_parser) (cf : config) {A : Type} (c : codec A) (f : nat) (HT : tidy (c_parse c f)).
Local Notation e := (den (c_parse c f)).
Lemma me : means (c_parse c f) e. Proof. apply tidy_means, HT. Qed.
Lemma takes_e input v rest : good input -> (takes w cf c f input v rest <-> e input = ROk (v, rest)).
Proof. intros G. unfold takes. apply takes_means; [apply me|exact G]. Qed.
Lemma e_good input v rest : good input -> e input = ROk (v, rest) -> good rest.
Proof. intros G E. eapply good_suffix; [|exact G]. eapply (me_shr _ _ me); eassumption. Qed.
Lemma good_app a b : good (a ++ b) -> good a /\ good b.
Proof.
  intros [Hb Hl]. apply bytes_ok_app in Hb. rewrite zlen_app in Hl. pose proof (zlen_nonneg a). pose proof (zlen_nonneg b).
  repeat split; try tauto; lia.
Qed.

(** Option *)
Definition e_option : dm (option A) := d_bind (d_tag U8 [0; 255]) (fun tag =>
  if tag =? 255 then d_bind e (fun v => d_ret (Some v)) else if tag =? 0 then d_ret None else d_panic).
Lemma means_option : means (c_parse (c_option cf c) f) e_option.
Proof. pose proof me. unfold e_option, c_option, with_blanket; cbn [c_parse]. mns. Qed.
Theorem accept_option input v rest : good input ->
  (takes w cf (c_option cf c) f input v rest <->
   match v with None => input = 0 :: rest | Some v => exists mid, input = 255 :: mid /\ takes w cf c f mid v rest end).
Proof.
  intros G. unfold takes at 1. rewrite (takes_means w (cf_mode cf) _ _ input v rest means_option G). unfold e_option. split.
  - intros H. apply d_bind_ok in H. destruct H as (tag & mid & H1 & H2). apply d_tag_ok in H1; [|apply G]. destruct H1 as [-> Hi].
    pose proof (proj2 (good_app _ _ G)) as Gm. destruct Hi as [<-|[<-|[]]]; cbn [Z.eqb Pos.eqb] in H2.
    + apply d_ret_ok in H2. destruct H2 as [-> ->]. reflexivity.
    + apply d_bind_ok in H2. destruct H2 as (a & r & H1 & H2). apply d_ret_ok in H2. destruct H2 as [-> ->].
      exists mid. split; [reflexivity|]. apply takes_e; assumption.
  - destruct v as [v|].
    + intros (mid & -> & Hm). pose proof (proj2 (good_app [255] mid G)) as Gm. apply takes_e in Hm; [|exact Gm].
      change (255 :: mid) with (int_format U8 255 ++ mid). unfold d_bind at 1. rewrite d_tag_app; [|reflexivity|right; left; reflexivity].
      cbn [Z.eqb Pos.eqb]. unfold d_bind. rewrite Hm. reflexivity.
    + intros ->. change (0 :: rest) with (int_format U8 0 ++ rest). unfold d_bind at 1. rewrite d_tag_app; [|reflexivity|left; reflexivity]. reflexivity.
Qed.

(** Nullable *)
Definition e_nullable : dm (option A) := d_bind d_rem (fun rem =>
  if negb (rem =? 0) then d_bind e (fun v => d_ret (Some v)) else d_ret None).
Lemma means_nullable : means (c_parse (c_nullable cf c) f) e_nullable.
Proof. pose proof me. unfold e_nullable, c_nullable, with_blanket; cbn [c_parse]. mns. Qed.
Lemma zlen_eqb0 (l : list byte) : (zlen l =? 0) = match l with [] => true | _ => false end.
Proof. destruct l; [reflexivity|]. rewrite zlen_cons. pose proof (zlen_nonneg l). lia. Qed.
Theorem accept_nullable input v rest : good input ->
  (takes w cf (c_nullable cf c) f input v rest <->
   match v with None => input = [] /\ rest = [] | Some v => input <> [] /\ takes w cf c f input v rest end).
Proof.
  intros G. unfold takes at 1. rewrite (takes_means w (cf_mode cf) _ _ input v rest means_nullable G). unfold e_nullable, d_bind at 1, d_rem.
  rewrite zlen_eqb0. destruct input as [|b input]; cbn [negb].
  - split.
    + intros H. apply d_ret_ok in H. destruct H as [-> ->]. auto.
    + destruct v; [tauto|]. intros [_ ->]. reflexivity.
  - split.
    + intros H. apply d_bind_ok in H. destruct H as (a & r & H1 & H2). apply d_ret_ok in H2. destruct H2 as [-> ->].
      split; [discriminate|]. apply takes_e; assumption.
    + destruct v as [v|]; [|intros [H _]; discriminate H]. intros [_ H]. apply takes_e in H; [|exact G]. unfold d_bind. rewrite H. reflexivity.
Qed.

(** Sequences *)
Lemma seq_ok fl : forall acc input vs rest, good input ->
  (e_seq fl e acc input = ROk (vs, rest) <->
   exists ws, vs = acc ++ ws /\ rest = [] /\ takes_all w cf c f input ws [] /\ (List.length ws < fl)%nat).
Proof.
  induction fl as [|fl IH]; intros acc input vs rest G; cbn [e_seq].
  { split; [discriminate|]. intros (ws & _ & _ & _ & L). lia. }
  unfold d_bind at 1, d_rem. rewrite zlen_eqb0. destruct input as [|b input].
  - split.
    + intros H. apply d_ret_ok in H. destruct H as [-> ->]. exists []. rewrite app_nil_r. repeat split; [constructor|cbn; lia].
    + intros (ws & -> & -> & H & _). inversion H as [|? ? ? ? ? N]; [|destruct (N eq_refl)]. rewrite app_nil_r. reflexivity.
  - split.
    + intros H. apply d_bind_ok in H. destruct H as (a & r & H1 & H2). pose proof (e_good _ _ _ G H1) as Gr.
      apply IH in H2; [|exact Gr]. destruct H2 as (ws & -> & -> & H2 & L). exists (a :: ws). rewrite <- app_assoc.
      split; [reflexivity|]. split; [reflexivity|]. split; [|cbn; lia]. econstructor; [discriminate| |exact H2]. apply takes_e; assumption.
    + intros (ws & -> & -> & H & L). inversion H as [|? a mid ws' ? _ H1 H2]; subst. apply takes_e in H1; [|exact G].
      unfold d_bind. rewrite H1. apply IH; [eapply e_good; eassumption|]. exists ws'. rewrite <- app_assoc. cbn in L.
      repeat split; [exact H2|lia].
Qed.
Theorem accept_seq input vs rest : good input ->
  (takes w cf (c_seq cf c) f input vs rest <-> rest = [] /\ takes_all w cf c f input vs [] /\ (List.length vs < f)%nat).
Proof.
  intros G. unfold takes. rewrite (takes_means w (cf_mode cf) _ _ input vs rest (means_seq _ _ me f []) G). rewrite seq_ok by exact G. split.
  - intros (ws & -> & H). exact H.
  - intros H. exists vs. auto.
Qed.
Lemma lim_ok n fl : forall acc input vs rest, good input -> zlen acc <= n ->
  (e_lim fl n e acc input = ROk (vs, rest) <->
   exists ws, vs = acc ++ ws /\ rest = [] /\ takes_all w cf c f input ws [] /\ zlen vs <= n /\ (List.length ws < fl)%nat).
Proof.
  induction fl as [|fl IH]; intros acc input vs rest G Ha; cbn [e_lim].
  { split; [discriminate|]. intros (ws & _ & _ & _ & _ & L). lia. }
  unfold d_bind at 1, d_rem. rewrite zlen_eqb0. destruct input as [|b input].
  - split.
    + intros H. apply d_ret_ok in H. destruct H as [-> ->]. exists []. rewrite app_nil_r. repeat split; [constructor|exact Ha|cbn; lia].
    + intros (ws & -> & -> & H & _). inversion H as [|? ? ? ? ? N]; [|destruct (N eq_refl)]. rewrite app_nil_r. reflexivity.
  - split.
    + intros H. apply d_bind_ok in H. destruct H as (a & r & H1 & H2). pose proof (e_good _ _ _ G H1) as Gr.
      apply d_bind_ok in H2. destruct H2 as (seq' & r' & H2 & H3). apply d_lift_ok in H2. destruct H2 as [H2 ->]. unfold try_push in H2.
      destruct (Z.ltb_spec (zlen acc) n) as [Hlt|]; [|discriminate H2]. injection H2 as <-.
      apply IH in H3; [|exact Gr|rewrite zlen_app; change (zlen [a]) with 1; lia]. destruct H3 as (ws & -> & -> & H3 & Hn & L). exists (a :: ws).
      rewrite <- app_assoc in *. split; [reflexivity|]. split; [reflexivity|]. split; [|split; [exact Hn|cbn; lia]].
      econstructor; [discriminate| |exact H3]. apply takes_e; assumption.
    + intros (ws & -> & -> & H & Hn & L). inversion H as [|? a mid ws' ? _ H1 H2]; subst. apply takes_e in H1; [|exact G].
      rewrite zlen_app, zlen_cons in Hn. pose proof (zlen_nonneg ws').
      unfold d_bind at 1. rewrite H1. unfold d_bind, d_lift, try_push. replace (zlen acc <? n) with true by lia. cbn [ext_len].
      apply IH; [eapply e_good; eassumption|rewrite zlen_app; change (zlen [a]) with 1; lia|].
      exists ws'. rewrite <- app_assoc. cbn in L. repeat split; [exact H2| |lia]. cbn [app]. rewrite zlen_app, zlen_cons. lia.
Qed.
Theorem accept_lim n input vs rest : 0 <= n -> good input ->
  (takes w cf (c_lim cf n c) f input vs rest <->
   rest = [] /\ takes_all w cf c f input vs [] /\ zlen vs <= n /\ (List.length vs < f)%nat).
Proof.
  intros Hn G. unfold takes. rewrite (takes_means w (cf_mode cf) _ _ input vs rest (means_lim n _ _ me f []) G). rewrite lim_ok by (exact G || exact Hn). split.
  - intros (ws & -> & H). exact H.
  - intros H. exists vs. auto.
Qed.
Lemma fix_ok n fl : forall acc input vs rest, good input ->
  (e_fix fl n e acc input = ROk (vs, rest) <->
   exists ws, vs = acc ++ ws /\ takes_all w cf c f input ws rest /\ zlen vs = n /\ (List.length ws < fl)%nat).
Proof.
  induction fl as [|fl IH]; intros acc input vs rest G; cbn [e_fix].
  { split; [discriminate|]. intros (ws & _ & _ & _ & L). lia. }
  unfold d_bind at 1, d_rem. rewrite zlen_eqb0. destruct (negb _ && _) eqn:B.
  - split.
    + intros H. apply d_bind_ok in H. destruct H as (a & r & H1 & H2). pose proof (e_good _ _ _ G H1) as Gr.
      apply IH in H2; [|exact Gr]. destruct H2 as (ws & -> & H2 & Hn & L). exists (a :: ws). rewrite <- app_assoc in *.
      split; [reflexivity|]. split; [|split; [exact Hn|cbn; lia]].
      econstructor; [destruct input; [discriminate B|discriminate]| |exact H2]. apply takes_e; assumption.
    + intros (ws & -> & H & Hn & L). destruct ws as [|a ws].
      { rewrite app_nil_r in Hn. lia. }
      inversion H as [|? ? mid ? ? _ H1 H2]; subst. apply takes_e in H1; [|exact G].
      unfold d_bind. rewrite H1. apply IH; [eapply e_good; eassumption|]. exists ws. rewrite <- app_assoc. cbn in L.
      repeat split; [exact H2|lia].
  - split.
    + destruct (Z.eqb_spec (zlen acc) n) as [E|]; [|discriminate]. intros H. apply d_ret_ok in H. destruct H as [-> ->].
      exists []. rewrite app_nil_r. repeat split; [constructor|exact E|cbn; lia].
    + intros (ws & -> & H & Hn & L). destruct ws as [|a ws].
      * rewrite app_nil_r in *. inversion H; subst. rewrite Z.eqb_refl. reflexivity.
      * inversion H as [|? ? mid ? ? N]; subst. rewrite zlen_app, zlen_cons in B. pose proof (zlen_nonneg ws).
        destruct input; [destruct (N eq_refl)|]. cbn [negb] in B. lia.
Qed.
Theorem accept_fix n input vs rest : good input ->
  (takes w cf (c_fix cf n c) f input vs rest <-> takes_all w cf c f input vs rest /\ zlen vs = n /\ (List.length vs < f)%nat).
Proof.
  intros G. unfold takes. rewrite (takes_means w (cf_mode cf) _ _ input vs rest (means_fix n _ _ me f []) G). rewrite fix_ok by exact G. split.
  - intros (ws & -> & H). exact H.
  - intros H. exists vs. auto.
Qed.

(** Length prefixes *)
Definition e_dyn (s : len_pref) : dm A := d_bind (d_pref cf s) (fun n => d_window n e).
Lemma means_dyn s : means (c_parse (c_dyn cf s c) f) (e_dyn s).
Proof.
  pose proof me as M. unfold e_dyn, c_dyn, with_blanket; cbn [c_parse].
  apply (means_bind_with _ _ _ _ (fun n => 0 <= n <= isize_max)).
  - apply means_pref.
  - intros cur n rest Gc H. destruct (safe_pref_with true cf s cur Gc) as [_ P]. eapply P, H.
  - intros n. apply try_window, M.
  - intros n. apply gruns_window_tail, M.
  - intros n. apply gs, shrinks_window.
  - intros n Hn. apply clean_window; [exact Hn|apply M].
Qed.
Theorem accept_dyn s input v rest : good input ->
  (takes w cf (c_dyn cf s c) f input v rest <->
   exists payload, input = pref_format s (zlen payload) ++ payload ++ rest /\ zlen payload <= pref_max s /\ takes w cf c f payload v []).
Proof.
  intros G. unfold takes at 1. rewrite (takes_means w (cf_mode cf) _ _ input v rest (means_dyn s) G). unfold e_dyn. split.
  - intros H. apply d_bind_ok in H. destruct H as (n & r & H1 & H2). apply d_pref_ok in H1; [|apply G]. destruct H1 as [-> Hn].
    apply d_window_ok in H2. destruct H2 as (p & -> & <- & _ & H2). exists p. split; [reflexivity|]. split; [lia|].
    apply takes_e; [|exact H2]. apply good_app in G. destruct G as [_ G]. apply good_app in G. tauto.
  - intros (p & -> & Hp & H). pose proof (proj1 (good_app _ _ (proj2 (good_app _ _ G)))) as Gp. apply takes_e in H; [|exact Gp].
    pose proof (zlen_nonneg p). unfold d_bind. rewrite d_pref_app by lia. unfold d_window. destruct Gp as [_ Lp].
    unfold size_ok. destruct (_ && _) eqn:B; [|lia]. rewrite zlen_app. pose proof (zlen_nonneg rest).
    destruct (Z.leb_spec (zlen p) (zlen p + zlen rest)); [|lia]. rewrite ztake_app, zdrop_app, H. reflexivity.
Qed.

(** VPadded *)
Definition e_vpad (n : Z) : dm A := d_bind d_rem (fun rem => d_bind (d_lift (debug_assert (cf_mode cf) (n <=? rem))) (fun _ =>
  d_bind (d_lift (usub (cf_mode cf) rem n)) (fun win => d_window win e))).
Lemma vpad_parts n : try_bytes_only (c_parse (c_vpad cf n c) f) /\ gruns (c_parse (c_vpad cf n c) f) (e_vpad n) /\ gshrinks (e_vpad n).
Proof.
  pose proof me as M. unfold e_vpad, c_vpad, with_blanket; cbn [c_parse]. split; [|split].
  - pose proof (me_try _ _ M). unfold p_remainder, p_set_fit, p_enforce_target. tries.
  - repeat (apply gruns_bind; [apply gr; auto with dec|apply gs; auto with dec|intros ?]). apply gruns_window_tail, M.
  - repeat (apply gshrinks_bind; [apply gs; auto with dec|intros ?]). apply gs, shrinks_window.
Qed.
Lemma vpad_window n input : n <= zlen input -> e_vpad n input = d_window (zlen input - n) e input.
Proof.
  intros H. unfold e_vpad, d_bind, d_rem, d_lift, debug_assert, rassert, usub. destruct (Z.leb_spec n (zlen input)); [|lia].
  destruct (cf_mode cf); reflexivity.
Qed.
Lemma vpad_short n input : cf_mode cf = Debug -> zlen input < n -> e_vpad n input = RPanic.
Proof.
  intros Hm H. unfold e_vpad, d_bind, d_rem, d_lift, debug_assert, rassert. rewrite Hm. destruct (Z.leb_spec n (zlen input)); [lia|]. reflexivity.
Qed.
Lemma means_vpad n : cf_mode cf = Debug -> 0 <= n -> means (c_parse (c_vpad cf n c) f) (e_vpad n).
Proof.
  intros Hm Hn. destruct (vpad_parts n) as (H1 & H2 & H3). split; auto. intros cur Gc. destruct (Z.ltb_spec (zlen cur) n).
  - rewrite vpad_short by assumption. discriminate.
  - rewrite vpad_window by assumption. apply clean_window; [destruct Gc; lia|apply me|exact Gc].
Qed.
Theorem accept_vpad n input v rest : good input -> 0 <= n <= zlen input ->
  (takes w cf (c_vpad cf n c) f input v rest <->
   exists payload, input = payload ++ rest /\ zlen rest = n /\ takes w cf c f payload v []).
Proof.
  intros G Hn. destruct (vpad_parts n) as (H1 & H2 & H3). pose proof (vpad_window n input ltac:(lia)) as EW. unfold takes at 1.
  rewrite (takes_at w (cf_mode cf) _ _ input v rest H1 H2 H3 G).
  - rewrite EW. split.
    + intros H. apply d_window_ok in H. destruct H as (p & -> & Hp & _ & H). exists p. split; [reflexivity|]. rewrite zlen_app in *.
      split; [lia|]. apply takes_e; [|exact H]. apply good_app in G; tauto.
    + intros (p & -> & Hr & H). pose proof (proj1 (good_app _ _ G)) as Gp. apply takes_e in H; [|exact Gp]. rewrite zlen_app.
      replace (zlen p + zlen rest - n) with (zlen p) by lia. destruct Gp as [_ Lp]. pose proof (zlen_nonneg p). pose proof (zlen_nonneg rest).
      unfold d_window, size_ok. destruct (_ && _) eqn:B; [|lia]. rewrite zlen_app.
      destruct (Z.leb_spec (zlen p) (zlen p + zlen rest)); [|lia]. rewrite ztake_app, zdrop_app, H. reflexivity.
  - rewrite EW. apply clean_window; [destruct G; lia|apply me|exact G].
Qed.

(** Padded *)
Definition e_pad (n : Z) : dm A := d_bind e (fun v => d_bind (d_consume n) (fun padding =>
  if cf_check_padding cf && negb (forallb (Z.eqb 0) padding) then d_fail (EToken (NonNullPaddingByte padding)) else d_ret v)).
Lemma means_pad n : 0 <= n <= isize_max -> means (c_parse (c_pad cf n c) f) (e_pad n).
Proof.
  intros Hn. pose proof me. unfold e_pad, c_pad, with_blanket; cbn [c_parse]. mns. apply means_consume, Hn.
Qed.
Theorem accept_pad n input v rest : good input -> 0 <= n <= isize_max ->
  (takes w cf (c_pad cf n c) f input v rest <->
   exists padding, takes w cf c f input v (padding ++ rest) /\ zlen padding = n /\
     (cf_check_padding cf = true -> Forall (fun b => b = 0) padding)).
Proof.
  intros G Hn. unfold takes at 1. rewrite (takes_means w (cf_mode cf) _ _ input v rest (means_pad n Hn) G). unfold e_pad. split.
  - intros H. apply d_bind_ok in H. destruct H as (a & r & H1 & H2). apply d_bind_ok in H2. destruct H2 as (p & r' & H2 & H3).
    apply d_consume_ok in H2. destruct H2 as [-> Hp]. destruct (_ && _) eqn:B; [discriminate H3|]. apply d_ret_ok in H3. destruct H3 as [-> ->].
    exists p. split; [apply takes_e; assumption|]. split; [exact Hp|]. intros Hc. rewrite Hc in B. cbn [andb] in B.
    apply negb_false_iff in B. rewrite forallb_forall in B. apply Forall_forall. intros b Hb. specialize (B b Hb). lia.
  - intros (p & H & Hp & Hz). apply takes_e in H; [|exact G]. unfold d_bind at 1. rewrite H. pose proof (zlen_nonneg rest).
    unfold d_bind, d_consume, size_ok. destruct (_ && _) eqn:B; [|lia]. rewrite zlen_app. destruct (Z.leb_spec n (zlen p + zlen rest)); [|lia].
    rewrite <- Hp, ztake_app, zdrop_app. destruct (cf_check_padding cf); [|reflexivity]. cbn [andb].
    replace (forallb (Z.eqb 0) p) with true; [reflexivity|]. symmetry. apply forallb_forall. intros b Hb.
    specialize (Hz eq_refl). rewrite Forall_forall in Hz. rewrite (Hz b Hb). reflexivity.
Qed.

(** AutoBox *)
Lemma means_box : means (c_parse (c_box cf c) f) (d_bind e d_ret).
Proof. pose proof me. unfold c_box, with_blanket; cbn [c_parse]. mns. Qed.
Theorem accept_box input v rest : good input -> (takes w cf (c_box cf c) f input v rest <-> takes w cf c f input v rest).
Proof.
  intros G. unfold takes at 1. rewrite (takes_means w (cf_mode cf) _ _ input v rest means_box G). rewrite takes_e by exact G. unfold d_bind.
  destruct (e input) as [[a r]| | | |]; reflexivity.
Qed.

(** [try_decode] *)
Lemma open_not {P} m (h : handler P) inv alpha cleanup (p0 : P) input v : refines_contract m h inv alpha -> inv p0 -> alpha p0 = mkW input [] ->
  good input -> (cf_complete cf = true -> forall p rest, inv p -> alpha p = mkW rest [] -> cleanup p = ROk (lo_add LEmpty rest)) ->
  c_decode h cleanup p0 cf c f = ROk v ->
  exists rest, e input = ROk (v, rest) /\ (cf_complete cf = true -> rest = []).
Proof.
  intros Href Hi Ha G Hc H. pose proof (run_refines m h inv alpha Href (c_parse c f) p0 Hi (td_errors _ HT)) as Ho.
  unfold outcome_rel in Ho. rewrite Ha in Ho. pose proof (me_runs _ _ me input [] G) as R. pose proof (me_clean _ _ me input G) as N.
  unfold c_decode in H. destruct (run h (c_parse c f) p0) as [r p]. cbn [fst snd] in Ho.
  destruct (e input) as [[a rest]|er| | |] eqn:E; cbn [outcome] in R.
  - rewrite R in Ho. cbn [fst snd] in Ho. destruct Ho as (-> & Hip & Hap). destruct (cf_complete cf).
    + rewrite (Hc eq_refl p rest Hip Hap) in H. destruct rest as [|b rest]; [|discriminate H]. injection H as <-. exists []. auto.
    + injection H as <-. exists rest. split; [reflexivity|discriminate].
  - destruct R as [e1 R]. rewrite R in Ho. destruct Ho as [[e2 ->]|[_ ->]]; discriminate H.
  - rewrite R in Ho. subst r. discriminate H.
  - congruence.
  - rewrite R in Ho. subst r. discriminate H.
Qed.
Theorem accept_decode input v : good input -> (w = WSlice -> cf_complete cf = false) ->
  (c_decode_with w cf c f input = ROk v <-> exists rest, takes w cf c f input v rest /\ (cf_complete cf = true -> rest = [])).
Proof.
  intros G Hw. split.
  - intros H. assert (HE : exists rest, e input = ROk (v, rest) /\ (cf_complete cf = true -> rest = [])).
    { destruct w; cbn [c_decode_with] in H.
      - eapply (open_not _ _ bp_inv bp_alpha); [apply byte_refines|apply bp_init_inv, G|exact (bp_init_alpha input)|exact G| |exact H].
        intros _ p r Hi Ha. apply bp_cleanup_at; assumption.
      - eapply (open_not _ _ mp_inv (fun p => bp_alpha (mp_bp p))); [apply memo_refines|apply mp_init_inv, G|exact (bp_init_alpha input)|exact G| |exact H].
        intros _ p r Hi Ha. unfold mp_cleanup. rewrite mp_cleanup_loop by exact Hi. apply (bp_cleanup_at (cf_mode cf) (mp_bp p) r (proj1 Hi) Ha).
      - eapply (open_not Release _ sp_inv sp_alpha sp_cleanup (sp_from_buffer input)); [apply slice_refines|unfold sp_inv, sp_from_buffer; discriminate|reflexivity|exact G| |exact H].
        intros E. rewrite (Hw eq_refl) in E. discriminate E. }
    destruct HE as (rest & E & Hr). exists rest. split; [apply takes_e; assumption|exact Hr].
  - intros (rest & H & Hr). apply takes_e in H; [|exact G]. eapply open_decode; [apply G|exact Hw|apply HT| |exact Hr].
    pose proof (me_runs _ _ me input [] G) as R. rewrite H in R. exact R.
Qed.
End One.

(** ** Structs and enums *)
Fixpoint e_fields {B} (fs : fields B) (f : nat) : dm B :=
  match fs in fields B return dm B with
  | FNil => d_ret tt
  | FCons c fs => d_bind (den (c_parse c f)) (fun v => d_bind (e_fields fs f) (fun vs => d_ret (v, vs)))
  end.
Lemma means_fields f {B} (fs : fields B) : tidy_fields fs f -> means (fields_parse fs f) (e_fields fs f).
Proof.
  induction fs as [|A B c fs IH]; cbn [tidy_fields fields_parse e_fields]; [intros _; mns|]. intros [Hc Hf]. specialize (IH Hf).
  apply tidy_means in Hc. mns.
Qed.
Lemma fields_ok w cf f {B} (fs : fields B) : tidy_fields fs f -> forall input v rest, good input ->
  (e_fields fs f input = ROk (v, rest) <-> takes_fields w cf f fs input v rest).
Proof.
  induction fs as [|A B c fs IH]; cbn [tidy_fields takes_fields e_fields]; intros Hf input v rest G.
  - split; [intros H; apply d_ret_ok in H; apply H|]. intros ->. destruct v. reflexivity.
  - destruct Hf as [Hc Hf]. specialize (IH Hf). split.
    + intros H. apply d_bind_ok in H. destruct H as (a & r & H1 & H2). pose proof (e_good c f Hc _ _ _ G H1) as Gr.
      apply d_bind_ok in H2. destruct H2 as (b & r' & H2 & H3). apply d_ret_ok in H3. destruct H3 as [-> ->]. exists r.
      split; [apply takes_e; assumption|]. apply IH; assumption.
    + intros (mid & H1 & H2). apply takes_e in H1; [|assumption..]. pose proof (e_good c f Hc _ _ _ G H1) as Gr. apply IH in H2; [|exact Gr].
      unfold d_bind. rewrite H1, H2. destruct v; reflexivity.
Qed.
Lemma means_struct cf f {B S} (fs : fields B) (build : B -> S) split : tidy_fields fs f ->
  means (c_parse (c_struct cf fs build split) f) (d_bind (e_fields fs f) (fun vs => d_ret (build vs))).
Proof. intros H. apply means_fields in H. unfold c_struct, with_blanket; cbn [c_parse]. mns. Qed.
Theorem accept_struct w cf f {B S} (fs : fields B) (build : B -> S) split input s rest : tidy_fields fs f -> good input ->
  (takes w cf (c_struct cf fs build split) f input s rest <-> exists b, s = build b /\ takes_fields w cf f fs input b rest).
Proof.
  intros Hf G. unfold takes. rewrite (takes_means w (cf_mode cf) _ _ input s rest (means_struct cf f fs build split Hf) G). split.
  - intros H. apply d_bind_ok in H. destruct H as (b & r & H1 & H2). apply d_ret_ok in H2. destruct H2 as [-> ->].
    exists b. split; [reflexivity|]. apply fields_ok; assumption.
  - intros (b & -> & H). apply fields_ok in H; [|assumption..]. unfold d_bind. rewrite H. reflexivity.
Qed.

Definition e_data {S} (k : int_kind) (vs : list (variant S)) (f : nat) : dm S :=
  d_bind (d_tag k (map va_tag vs)) (fun tag => on_tag vs tag d_panic (fun va => d_bind (e_fields (va_fields va) f) (fun x => d_ret (va_build va x)))).
Lemma means_data cf {S} k (vs : list (variant S)) f : Forall (fun va => tidy_fields (va_fields va) f) vs ->
  means (c_parse (c_data cf k vs) f) (e_data k vs f).
Proof.
  intros H. unfold c_data, with_blanket, e_data; cbn [c_parse]. apply means_bind; [apply means_tag|]. intros tag.
  induction H as [|va vs Hv _ IH]; cbn [on_tag]; [apply means_panic|]. apply means_fields in Hv. destruct (tag =? va_tag va); [mns|exact IH].
Qed.
Lemma on_tag_at {S R} (vs : list (variant S)) (va : variant S) (bad : R) k : NoDup (map va_tag vs) -> In va vs ->
  on_tag vs (va_tag va) bad k = k va.
Proof.
  induction vs as [|va' vs IH]; cbn [map In on_tag]; [tauto|]. intros N [->|Hi]; [rewrite Z.eqb_refl; reflexivity|].
  inversion N as [|? ? N1 N2]; subst. destruct (Z.eqb_spec (va_tag va) (va_tag va')) as [E|]; [|apply IH; assumption].
  exfalso. apply N1. rewrite <- E. apply in_map, Hi.
Qed.
Theorem accept_data w cf {S} k (vs : list (variant S)) f input s rest :
  Forall (fun va => tidy_fields (va_fields va) f) vs -> NoDup (map va_tag vs) -> Forall (fun va => ik_in k (va_tag va) = true) vs -> good input ->
  (takes w cf (c_data cf k vs) f input s rest <->
   exists va x mid, In va vs /\ s = va_build va x /\ input = int_format k (va_tag va) ++ mid /\ takes_fields w cf f (va_fields va) mid x rest).
Proof.
  intros Hf N Hk G. unfold takes. rewrite (takes_means w (cf_mode cf) _ _ input s rest (means_data cf k vs f Hf) G). unfold e_data.
  rewrite Forall_forall in Hf, Hk. split.
  - intros H. apply d_bind_ok in H. destruct H as (tag & mid & H1 & H2). apply d_tag_ok in H1; [|apply G]. destruct H1 as [-> Hi].
    apply in_map_iff in Hi. destruct Hi as (va & <- & Hi). rewrite on_tag_at in H2 by assumption.
    apply d_bind_ok in H2. destruct H2 as (x & r & H1 & H2). apply d_ret_ok in H2. destruct H2 as [-> ->].
    exists va, x, mid. repeat split; auto. apply fields_ok; auto. apply good_app in G; tauto.
  - intros (va & x & mid & Hi & -> & -> & H). apply fields_ok in H; [|auto|apply good_app in G; tauto].
    unfold d_bind at 1. rewrite d_tag_app; [|auto|apply in_map, Hi]. rewrite on_tag_at by assumption. unfold d_bind. rewrite H. reflexivity.
Qed.

(** ** The types of the library *)
Lemma tidy_schema cf D kf t f : wf_defs D = true -> wf_ty D t = true -> pads_ok cf D t = true -> tidy (c_parse (c_schema cf D kf t) f).
Proof.
  intros HD HW HP. cbn [c_schema c_parse]. apply (runs_tidy _ (dec cf D f t)); [apply try_parse|apply gr, runs_dec|].
  apply clean_safe. unfold pads_ok in HP. apply safe_dec; [exact HD| |exact HW|]; unfold vpads;
    (destruct (cf_mode cf); [reflexivity|]); apply andb_prop in HP; tauto.
Qed.

(** ** Writing tidy decoders *)
Lemma tidy_bind {A B} (pg : prog A) (k : A -> prog B) : tidy pg -> (forall a, tidy (k a)) -> tidy (pbind pg k).
Proof. intros H Hk. eapply means_tidy. apply means_bind; [apply tidy_means, H|]. intros a. apply tidy_means, Hk. Qed.
Lemma tidy_window {A} n (pg : prog A) : 0 <= n <= isize_max -> tidy pg -> tidy (p_set_fit n ;;; v <- pg ;; p_enforce_target ;;; PRet v).
Proof.
  intros Hn H. apply tidy_means in H. apply (means_tidy _ (d_window n (den pg))). split.
  - apply try_window, H.
  - apply gruns_window_tail, H.
  - apply gs, shrinks_window.
  - apply clean_window; [exact Hn|apply H].
Qed.
Lemma tidy_byte : tidy p_consume_byte.
Proof. apply (means_tidy _ d_byte). split; [apply try_op|apply gr, runs_byte|apply gs, shrinks_byte|]. intros [|b l] _; discriminate. Qed.
Lemma tidy_ops : tidy p_consume_byte /\ tidy p_remainder /\ (forall n, 0 <= n <= isize_max -> tidy (p_consume n)) /\
  (forall A (a : A), tidy (PRet a)) /\ (forall A e, tidy (@PErr A e)) /\ (forall A, tidy (@PPanic A)).
Proof.
  repeat split; try apply tidy_byte; try (eapply means_tidy; apply means_rem); try (eapply means_tidy; apply means_ret);
  try (eapply means_tidy; apply means_err); try (eapply means_tidy; apply means_panic);
  try (eapply means_tidy; apply means_consume; assumption).
Qed.
Lemma tidy_string cf f : tidy (c_parse (c_string cf) f).
Proof.
  cbn [c_string with_blanket c_parse]. generalize (@nil byte). induction f as [|f IH]; intros seen; cbn [until_zero].
  - eapply means_tidy, means_div.
  - apply tidy_bind; [apply tidy_byte|]. intros b. destruct (b =? 0); [eapply means_tidy, means_ret|apply IH].
Qed.

(** ** The wrappers are tidy *)
Lemma tidy_wrappers cf {A} (c : codec A) f : tidy (c_parse c f) ->
  tidy (c_parse (c_option cf c) f) /\ tidy (c_parse (c_nullable cf c) f) /\ tidy (c_parse (c_seq cf c) f) /\
  (forall n, tidy (c_parse (c_lim cf n c) f)) /\ (forall n, tidy (c_parse (c_fix cf n c) f)) /\
  (forall s, tidy (c_parse (c_dyn cf s c) f)) /\
  (forall n, 0 <= n -> cf_mode cf = Debug -> tidy (c_parse (c_vpad cf n c) f)) /\
  (forall n, 0 <= n <= isize_max -> tidy (c_parse (c_pad cf n c) f)) /\
  tidy (c_parse (c_box cf c) f).
Proof.
  intros H. pose proof (tidy_means _ H) as M.
  refine (conj _ (conj _ (conj _ (conj _ (conj _ (conj _ (conj _ (conj _ _)))))))).
  - eapply means_tidy, means_option, H.
  - eapply means_tidy, means_nullable, H.
  - eapply means_tidy, (means_seq _ _ M).
  - intros n. eapply means_tidy, (means_lim n _ _ M).
  - intros n. eapply means_tidy, (means_fix n _ _ M).
  - intros s. eapply means_tidy, means_dyn, H.
  - intros n Hn Hm. eapply means_tidy, means_vpad; assumption.
  - intros n Hn. eapply means_tidy, means_pad; assumption.
  - eapply means_tidy, means_box, H.
Qed.
Lemma tidy_struct cf f {B S} (fs : fields B) (build : B -> S) split : tidy_fields fs f -> tidy (c_parse (c_struct cf fs build split) f).
Proof. intros H. eapply means_tidy, means_struct, H. Qed.
Lemma tidy_data cf {S} k (vs : list (variant S)) f : Forall (fun va => tidy_fields (va_fields va) f) vs -> tidy (c_parse (c_data cf k vs) f).
Proof. intros H. eapply means_tidy, means_data, H. Qed.

(** ** All the ways in which [try_decode] ends *)
Lemma decode_fails w cf A (c : codec A) f input : cf_complete cf = false ->
  c_decode_with w cf c f input =
  match run_with w (cf_mode cf) (c_parse c f) input with
  | ROk v => ROk v | RErr e => RErr (DParse e) | RPanic => RPanic | RUB => RUB | RDiv => RDiv
  end.
Proof.
  intros H. destruct w; unfold c_decode_with, c_decode, run_with; cbv zeta.
  1: destruct (run (byte_h (cf_mode cf)) (c_parse c f) (bp_from_buffer input)) as [[]]; cbn [fst]; rewrite ?H; reflexivity.
  1: destruct (run (memo_h (cf_mode cf)) (c_parse c f) (mp_from_buffer input)) as [[]]; cbn [fst]; rewrite ?H; reflexivity.
  destruct (run slice_h (c_parse c f) (sp_from_buffer input)) as [[]]; cbn [fst]; rewrite ?H; reflexivity.
Qed.
Lemma decode_schema w cf D kf t f input : c_decode_with w cf (c_schema cf D kf t) f input = decode_with w cf D f t input.
Proof. destruct w; reflexivity. Qed.
