(** Decoding accepts exactly the wire grammar (C60). *)
From Verif Require Import Base BaseLemmas ModelErrors ModelSplitVec ModelParser ModelInt ModelFloat ModelZarith
  ModelUtf8 ModelTarget ModelSchema SpecParser SpecCodec SpecNum SpecUtf8 SpecGrammar
  ProofInt ProofZarith ProofUtf8 ProofFloat ProofSafe ProofDec ProofCodec ProofMeta ProofTyped ProofRoundTrip
  ProofSettle ProofHalt ProofView ProofBroken ProofNum ProofCodecProps ProofCodecThms ProofEncBytes ProofLossy.
From Coq Require Import ZifyBool.

(** Elements each begun before the end of the window. *)
Inductive begun (elem : dm val) : list byte -> list val -> list byte -> Prop :=
| begun_nil cur : begun elem cur [] cur
| begun_cons cur v r vs rest : cur <> [] -> elem cur = ROk (v, r) -> begun elem r vs rest -> begun elem cur (v :: vs) rest.

Lemma zlen_nz {A} (l : list A) : l <> [] -> zlen l =? 0 = false.
Proof. destruct l; [congruence|]. intros _. rewrite zlen_cons. pose proof (zlen_nonneg l). lia. Qed.

Lemma d_seq_begun elem f : forall acc cur vs rest, d_seq f elem acc cur = ROk (vs, rest) ->
  exists new, vs = acc ++ new /\ begun elem cur new rest /\ rest = [].
Proof.
  induction f as [|f IH]; intros acc cur vs rest H; [discriminate H|]. cbn [d_seq] in H.
  apply d_bind_ok in H. destruct H as (n & r & Hr & H). injection Hr as <- <-.
  destruct (Z.eqb_spec (zlen cur) 0) as [E|E].
  - apply d_ret_ok in H. destruct H as [-> ->]. exists []. rewrite app_nil_r.
    split; [reflexivity|]. split; [constructor|]. apply zlen_0_nil; exact E.
  - apply d_bind_ok in H. destruct H as (v & r & Hv & H). apply IH in H. destruct H as (new & -> & Hs & Hn).
    exists (v :: new). rewrite <- app_assoc. split; [reflexivity|]. split; [|exact Hn].
    econstructor; [|eassumption..]. intros ->. apply E; reflexivity.
Qed.
Lemma d_lim_begun elem n f : forall acc cur vs rest, d_lim f n elem acc cur = ROk (vs, rest) -> zlen acc <= n ->
  exists new, vs = acc ++ new /\ begun elem cur new rest /\ rest = [] /\ zlen vs <= n.
Proof.
  induction f as [|f IH]; intros acc cur vs rest H Ha; [discriminate H|]. cbn [d_lim] in H.
  apply d_bind_ok in H. destruct H as (m & r & Hr & H). injection Hr as <- <-.
  destruct (Z.eqb_spec (zlen cur) 0) as [E|E].
  - apply d_ret_ok in H. destruct H as [-> ->]. exists []. rewrite app_nil_r.
    split; [reflexivity|]. split; [constructor|]. split; [apply zlen_0_nil; exact E|exact Ha].
  - apply d_bind_ok in H. destruct H as (v & r & Hv & H). apply d_bind_ok in H. destruct H as (acc' & r' & Hp & H).
    apply d_lift_ok in Hp. destruct Hp as [Hp ->]. unfold try_push in Hp.
    destruct (Z.ltb_spec (zlen acc) n); [|discriminate]. injection Hp as <-.
    apply IH in H; [|rewrite zlen_app; change (zlen [v]) with 1; lia]. destruct H as (new & -> & Hs & Hn & Hl).
    exists (v :: new). rewrite <- app_assoc in *. split; [reflexivity|]. split; [|split; [exact Hn|exact Hl]].
    econstructor; [|eassumption..]. intros ->. apply E; reflexivity.
Qed.
Lemma d_fix_begun elem n f : forall acc cur vs rest, d_fix f n elem acc cur = ROk (vs, rest) ->
  exists new, vs = acc ++ new /\ begun elem cur new rest /\ zlen vs = n.
Proof.
  induction f as [|f IH]; intros acc cur vs rest H; [discriminate H|]. cbn [d_fix] in H.
  apply d_bind_ok in H. destruct H as (m & r & Hr & H). injection Hr as <- <-.
  destruct (negb (zlen cur =? 0) && (zlen acc <? n)) eqn:E.
  - apply d_bind_ok in H. destruct H as (v & r & Hv & H). apply IH in H. destruct H as (new & -> & Hs & Hn).
    exists (v :: new). rewrite <- app_assoc in *. split; [reflexivity|]. split; [|exact Hn].
    econstructor; [|eassumption..]. intros ->. discriminate E.
  - destruct (Z.eqb_spec (zlen acc) n); [|discriminate]. apply d_ret_ok in H. destruct H as [-> ->].
    exists []. rewrite app_nil_r. split; [reflexivity|]. split; [constructor|assumption].
Qed.

Lemma begun_seq elem cur vs rest : begun elem cur vs rest -> rest = [] -> forall f acc, (length vs < f)%nat ->
  d_seq f elem acc cur = ROk (acc ++ vs, []).
Proof.
  induction 1 as [cur|cur v r vs rest N Hv _ IH]; intros Er f acc Hf; (destruct f as [|f]; [cbn in Hf; lia|]); cbn [d_seq].
  - subst cur. unfold d_bind, d_rem. cbn. rewrite app_nil_r. reflexivity.
  - unfold d_bind, d_rem. rewrite (zlen_nz _ N), Hv. rewrite IH by (cbn [length] in Hf; auto with arith; lia).
    rewrite <- app_assoc. reflexivity.
Qed.
Lemma begun_lim elem n cur vs rest : begun elem cur vs rest -> rest = [] -> forall f acc, (length vs < f)%nat -> zlen acc + zlen vs <= n ->
  d_lim f n elem acc cur = ROk (acc ++ vs, []).
Proof.
  induction 1 as [cur|cur v r vs rest N Hv _ IH]; intros Er f acc Hf Hn; (destruct f as [|f]; [cbn in Hf; lia|]); cbn [d_lim].
  - subst cur. unfold d_bind, d_rem. cbn. rewrite app_nil_r. reflexivity.
  - rewrite zlen_cons in Hn. pose proof (zlen_nonneg vs).
    unfold d_bind, d_rem. rewrite (zlen_nz _ N), Hv. unfold try_push. replace (zlen acc <? n) with true by lia. cbn [ext_len d_lift].
    rewrite IH; [rewrite <- app_assoc; reflexivity|exact Er|cbn [length] in Hf; lia|].
    rewrite zlen_app. change (zlen [v]) with 1. lia.
Qed.
Lemma begun_fix elem n cur vs rest : begun elem cur vs rest -> forall f acc, (length vs < f)%nat -> zlen acc + zlen vs = n ->
  d_fix f n elem acc cur = ROk (acc ++ vs, rest).
Proof.
  induction 1 as [cur|cur v r vs rest N Hv _ IH]; intros f acc Hf Hn; (destruct f as [|f]; [cbn in Hf; lia|]); cbn [d_fix].
  - change (zlen (@nil val)) with 0 in Hn. unfold d_bind, d_rem.
    replace (zlen acc <? n) with false by lia. rewrite andb_false_r. replace (zlen acc =? n) with true by lia.
    rewrite app_nil_r. reflexivity.
  - rewrite zlen_cons in Hn. pose proof (zlen_nonneg vs).
    unfold d_bind, d_rem. rewrite (zlen_nz _ N). replace (zlen acc <? n) with true by lia. cbn [negb andb]. rewrite Hv.
    rewrite IH; [rewrite <- app_assoc; reflexivity|cbn [length] in Hf; lia|].
    rewrite zlen_app. change (zlen [v]) with 1. lia.
Qed.

Section Grammar.
Variables (cf : config) (D : list def).
Hypothesis HD : wf_defs D = true.
Notation den := (denotes (cf_check_padding cf) D).
Notation mny := (many (cf_check_padding cf) D).
Notation trn := (in_turn (cf_check_padding cf) D).

Definition small_ok (l : list byte) : Prop := bytes_ok l /\ zlen l <= isize_max.
Lemma small_app a b : small_ok (a ++ b) -> small_ok a /\ small_ok b.
Proof.
  intros [Hb Hl]. apply bytes_ok_app in Hb. rewrite zlen_app in Hl. pose proof (zlen_nonneg a). pose proof (zlen_nonneg b).
  repeat split; try tauto; lia.
Qed.
Lemma small_cons b l : small_ok (b :: l) -> small_ok l.
Proof. intros H. apply (small_app [b] l) in H. tauto. Qed.
Lemma small_rest f t cur v rest : small_ok cur -> dec cf D f t cur = ROk (v, rest) -> small_ok rest.
Proof. intros H E. apply (shrinks_dec cf D f t) in E. destruct E as [p ->]. apply small_app in H. tauto. Qed.

(** Scalars, through their own theorems. *)
Lemma scalar_iff f t cur v rest : scalarb t = true -> wf_ty [] t = true -> small_ok cur ->
  dec cf D (S f) t cur = ROk (v, rest) <-> reads WByte cf D t cur (ROk (v, rest)).
Proof.
  intros HS HW [HB HL]. rewrite scalar_dec_env by exact HS. symmetry. apply scalar_reads; assumption.
Qed.

Definition sound_at (f : nat) : Prop := forall t cur v rest, wf_ty D t = true -> small_ok cur ->
  dec cf D f t cur = ROk (v, rest) -> den t cur v rest.

Lemma begun_many f t : sound_at f -> wf_ty D t = true -> forall cur vs rest, begun (dec cf D f t) cur vs rest -> small_ok cur ->
  mny t cur vs rest.
Proof.
  intros IH HW cur vs rest H. induction H as [cur|cur v r vs rest N Hv _ IHb]; intros HS; [constructor|].
  econstructor; [exact N|apply IH; eassumption|]. apply IHb. eapply small_rest; eassumption.
Qed.
Lemma fields_turn f : sound_at f -> forall ts, forallb (wf_ty D) ts = true -> forall cur vs rest,
  d_fields (dec cf D f) ts cur = ROk (vs, rest) -> small_ok cur -> trn ts cur vs rest.
Proof.
  intros IH. induction ts as [|t ts IHts]; intros HW cur vs rest H HS.
  - apply d_ret_ok in H. destruct H as [-> ->]. constructor.
  - cbn [forallb] in HW. apply andb_prop in HW. destruct HW as [HW1 HW2]. cbn [d_fields] in H.
    apply d_bind_ok in H. destruct H as (v & r & Hv & H). apply d_bind_ok in H. destruct H as (vs' & r' & Hvs & H).
    apply d_ret_ok in H. destruct H as [-> ->]. econstructor; [apply IH; eassumption|]. apply IHts; try assumption.
    eapply small_rest; eassumption.
Qed.

Lemma ik_bounds k z : ik_in k z = true <-> ik_min k <= z <= ik_max k.
Proof. apply ik_in_spec. Qed.

Lemma zeros_forall pad : forallb (Z.eqb 0) pad = true <-> Forall (fun b => b = 0) pad.
Proof. rewrite forallb_forall, Forall_forall. split; intros H x Hx; specialize (H x Hx); lia. Qed.

Lemma sound_all f : sound_at f.
Proof.
  induction f as [|f IH]; intros t cur v rest HW HS H; [discriminate H|].
  pose proof HS as [HB HL].
  destruct t; cbn [wf_ty] in HW.
  - cbn [dec] in H. apply d_ret_ok in H. destruct H as [-> ->]. constructor.
  - apply scalar_iff in H; [|reflexivity|reflexivity|exact HS]. apply bool_decode in H; [|assumption..].
    destruct H as [[-> ->]|[-> ->]]; constructor.
  - apply scalar_iff in H; [|reflexivity|reflexivity|exact HS]. apply int_decode in H; [|assumption..].
    destruct H as (z & -> & Hz & ->). constructor. apply ik_bounds; exact Hz.
  - apply scalar_iff in H; [|reflexivity|exact HW|exact HS]. apply ranged_decode in H; [|assumption..].
    destruct H as (z & -> & Hz & -> & Hr). constructor; [apply ik_bounds; exact Hz|exact Hr].
  - cbn [dec] in H. apply d_bind_ok in H. destruct H as (z & r & Hz & H). apply d_ret_ok in H. destruct H as [-> ->].
    apply d_int_ok in Hz; [|exact HB]. destruct Hz as [-> Hz]. apply ik_bounds in Hz.
    change (ik_min U64) with 0 in Hz. change (ik_max U64) with (2 ^ 64 - 1) in Hz.
    rewrite <- (be8_int z) by (unfold is_u64; lia). constructor. lia.
  - apply andb_prop in HW as HW'. destruct HW' as [H1 H2].
    apply scalar_iff in H; [|reflexivity|exact HW|exact HS]. apply ranged_float_decode in H; [|assumption..].
    destruct H as (z & -> & Hz & -> & Hr). constructor; tauto.
  - apply scalar_iff in H; [|reflexivity|reflexivity|exact HS]. apply n_decode in H; [|assumption..].
    destruct H as (bs & -> & Hm & ->). constructor; exact Hm.
  - apply scalar_iff in H; [|reflexivity|reflexivity|exact HS]. apply z_decode in H; [|assumption..].
    destruct H as (bs & -> & Hm & ->). constructor; exact Hm.
  - cbn [dec] in H. apply d_bind_ok in H. destruct H as (n & r & Hr & H). injection Hr as <- <-.
    apply d_bind_ok in H. destruct H as (bs & r & Hc & H). apply d_ret_ok in H. destruct H as [-> ->].
    apply d_consume_ok in Hc. destruct Hc as [E Hl]. assert (r = []) as ->.
    { apply zlen_0_nil. apply (f_equal (@zlen byte)) in E. rewrite zlen_app in E. lia. }
    rewrite app_nil_r in E. subst bs. constructor.
  - cbn [dec] in H. apply d_bind_ok in H. destruct H as (n & r & Hr & H). injection Hr as <- <-.
    apply d_bind_ok in H. destruct H as (bs & r & Hc & H). apply d_ret_ok in H. destruct H as [-> ->].
    apply d_consume_ok in Hc. destruct Hc as [E Hl]. assert (r = []) as ->.
    { apply zlen_0_nil. apply (f_equal (@zlen byte)) in E. rewrite zlen_app in E. lia. }
    rewrite app_nil_r in E. subst bs. destruct (lossy_exact cur HB) as (cs & Hs & _ & ->). constructor; exact Hs.
  - cbn [dec] in H. apply d_bind_ok in H. destruct H as (bs & r & Hc & H). apply d_ret_ok in H. destruct H as [-> ->].
    apply d_fixed_ok in Hc. destruct Hc as [-> Hl]. constructor; exact Hl.
  - cbn [dec] in H. apply d_bind_ok in H. destruct H as (bs & r & Hc & H). apply d_ret_ok in H. destruct H as [-> ->].
    apply d_fixed_ok in Hc. destruct Hc as [-> Hl]. constructor; exact Hl.
  - cbn [dec] in H. apply d_bind_ok in H. destruct H as (tag & r & Ht & H). apply d_tag_ok in Ht; [|exact HB].
    destruct Ht as [-> Ht]. destruct Ht as [<-|[<-|[]]]; cbn [Z.eqb Pos.eqb] in H.
    + apply d_ret_ok in H. destruct H as [-> ->]. change (int_format U8 0 ++ r) with (0 :: r). constructor.
    + apply d_bind_ok in H. destruct H as (x & r' & Hx & H). apply d_ret_ok in H. destruct H as [-> ->].
      change (int_format U8 255 ++ r) with (255 :: r) in *. constructor. apply IH; try assumption. eapply small_cons; exact HS.
  - cbn [dec] in H. apply d_bind_ok in H. destruct H as (n & r & Hr & H). injection Hr as <- <-.
    destruct (Z.eqb_spec (zlen cur) 0) as [E|E]; cbn [negb] in H.
    + apply d_ret_ok in H. destruct H as [-> ->]. apply zlen_0_nil in E. subst cur. constructor.
    + apply d_bind_ok in H. destruct H as (x & r' & Hx & H). apply d_ret_ok in H. destruct H as [-> ->].
      constructor; [intros ->; apply E; reflexivity|]. apply IH; assumption.
  - cbn [dec] in H. apply d_bind_ok in H. destruct H as (vs & r & Hs & H). apply d_ret_ok in H. destruct H as [-> ->].
    apply d_seq_begun in Hs. destruct Hs as (new & -> & Hb & ->). constructor. eapply begun_many; eassumption.
  - apply andb_prop in HW as [Hn HW].
    cbn [dec] in H. apply d_bind_ok in H. destruct H as (vs & r & Hs & H). apply d_ret_ok in H. destruct H as [-> ->].
    apply d_lim_begun in Hs; [|unfold sizeb in Hn; change (zlen (@nil val)) with 0; lia]. destruct Hs as (new & -> & Hb & -> & Hl).
    constructor; [eapply begun_many; eassumption|exact Hl].
  - apply andb_prop in HW as [Hn HW].
    cbn [dec] in H. apply d_bind_ok in H. destruct H as (vs & r & Hs & H). apply d_ret_ok in H. destruct H as [-> ->].
    apply d_fix_begun in Hs. destruct Hs as (new & -> & Hb & Hl).
    constructor; [eapply begun_many; eassumption|exact Hl].
  - cbn [dec] in H. apply d_bind_ok in H. destruct H as (n & r & Hp & H). apply d_pref_ok in Hp; [|exact HB]. destruct Hp as [-> Hn].
    apply d_bind_ok in H. destruct H as (x & r' & Hwin & H). apply d_ret_ok in H. destruct H as [-> ->].
    apply d_window_ok in Hwin. destruct Hwin as (p & -> & <- & _ & Hd). constructor; [lia|].
    apply IH; try assumption. apply small_app in HS. destruct HS as [_ HS]. apply small_app in HS. tauto.
  - assert (HR : reads WByte cf D (TVPad n t) cur (ROk (v, rest))) by (eapply reads_ok; eassumption).
    apply andb_prop in HW as HW'. destruct HW' as [Hn HW'].
    assert (exists x, v = VWrap x) as [x ->].
    { cbn [dec] in H. apply d_bind_ok in H. destruct H as (? & ? & _ & H). apply d_bind_ok in H. destruct H as (? & ? & _ & H).
      apply d_bind_ok in H. destruct H as (? & ? & _ & H). apply d_bind_ok in H. destruct H as (xv & ? & _ & H).
      apply d_ret_ok in H. exists xv. tauto. }
    apply vpadded_decode in HR; try assumption. destruct HR as (b & E & Hl & _).
    cbn [dec] in H. subst cur. unfold d_bind at 1, d_rem in H. rewrite zlen_app in H, HL. pose proof (zlen_nonneg b).
    rewrite usub_ok in H by lia. unfold debug_assert in H. replace (n <=? zlen b + zlen rest) with true in H by lia.
    assert (H' : d_bind (d_window (zlen b + zlen rest - n) (dec cf D f t)) (fun v => d_ret (VWrap v)) (b ++ rest) = ROk (VWrap x, rest))
      by (destruct (cf_mode cf); exact H). clear H.
    apply d_bind_ok in H'. destruct H' as (y & r & Hwin & H). apply d_ret_ok in H. destruct H as [Ey <-]. injection Ey as ->.
    apply d_window_ok in Hwin. destruct Hwin as (p & E & _ & _ & Hd). apply app_inv_tail in E. subst p.
    constructor; [exact Hl|]. apply IH; try assumption. apply small_app in HS. tauto.
  - apply andb_prop in HW as [Hn HW].
    cbn [dec] in H. apply d_bind_ok in H. destruct H as (x & r & Hx & H). apply d_bind_ok in H. destruct H as (pad & r' & Hc & H).
    apply d_consume_ok in Hc. destruct Hc as [-> Hl].
    destruct (cf_check_padding cf && negb (forallb (Z.eqb 0) pad)) eqn:Ec; [discriminate H|].
    apply d_ret_ok in H. destruct H as [-> ->]. econstructor; [apply IH; eassumption|exact Hl|].
    intros E. rewrite E in Ec. apply zeros_forall. destruct (forallb (Z.eqb 0) pad); [reflexivity|discriminate Ec].
  - cbn [dec] in H. apply d_bind_ok in H. destruct H as (x & r & Hx & H). apply d_ret_ok in H. destruct H as [-> ->].
    constructor. apply IH; assumption.
  - cbn [dec] in H. destruct (nth_error D i) as [[ts|k tags|k alts]|] eqn:Ei; [| | |discriminate H].
    + apply d_bind_ok in H. destruct H as (vs & r & Hv & H). apply d_ret_ok in H. destruct H as [-> ->].
      econstructor; [exact Ei|]. eapply fields_turn; try eassumption. eapply wf_struct; eassumption.
    + apply d_bind_ok in H. destruct H as (tag & r & Ht & H). apply d_tag_ok in Ht; [|exact HB]. destruct Ht as [-> Ht].
      destruct (find_tag_in _ _ Ht) as (ix & E1 & E2). rewrite E1 in H. apply d_ret_ok in H. destruct H as [-> ->].
      econstructor; eassumption.
    + apply d_bind_ok in H. destruct H as (tag & r & Ht & H). apply d_tag_ok in Ht; [|exact HB]. destruct Ht as [-> Ht].
      destruct (find_tag_in _ _ Ht) as (ix & E1 & E2). rewrite E1 in H. rewrite nth_error_map in E2.
      destruct (nth_error alts ix) as [[tg ts]|] eqn:Ea; [|discriminate H]. cbn in E2. injection E2 as ->.
      apply d_bind_ok in H. destruct H as (vs & r' & Hv & H). apply d_ret_ok in H. destruct H as [-> ->].
      econstructor; [exact Ei|exact Ea|]. eapply fields_turn; try eassumption; [eapply wf_data; eassumption|].
      apply small_app in HS. tauto.
Qed.

(** The other direction. *)
Scheme denotes_mut := Induction for denotes Sort Prop
with many_mut := Induction for many Sort Prop
with in_turn_mut := Induction for in_turn Sort Prop.

Lemma dec_more f f' t cur v rest : (f <= f')%nat -> dec cf D f t cur = ROk (v, rest) -> dec cf D f' t cur = ROk (v, rest).
Proof. intros Hf H. rewrite (dec_mono cf D f f' t Hf cur); [exact H|rewrite H; discriminate]. Qed.
Lemma begun_more f f' t cur vs rest : (f <= f')%nat -> begun (dec cf D f t) cur vs rest -> begun (dec cf D f' t) cur vs rest.
Proof. intros Hf. induction 1; econstructor; try eassumption. eapply dec_more; eassumption. Qed.
Lemma fields_more f f' ts cur vs rest : (f <= f')%nat -> d_fields (dec cf D f) ts cur = ROk (vs, rest) ->
  d_fields (dec cf D f') ts cur = ROk (vs, rest).
Proof.
  intros Hf H. assert (L : d_le (d_fields (dec cf D f) ts) (d_fields (dec cf D f') ts)).
  { apply d_le_fields. intros t. apply dec_mono. exact Hf. }
  rewrite (L cur) by (rewrite H; discriminate). exact H.
Qed.

Lemma complete t bs v rest : den t bs v rest -> wf_ty D t = true -> small_ok bs -> exists f, dec cf D f t bs = ROk (v, rest).
Proof.
  pose (P := fun t bs v rest => wf_ty D t = true -> small_ok bs -> exists f, dec cf D f t bs = ROk (v, rest)).
  pose (Q := fun t bs vs rest => wf_ty D t = true -> small_ok bs -> exists f, begun (dec cf D f t) bs vs rest).
  pose (R := fun ts bs vs rest => forallb (wf_ty D) ts = true -> small_ok bs -> exists f, d_fields (dec cf D f) ts bs = ROk (vs, rest)).
  intros H. change (P t bs v rest).
  induction H using denotes_mut with (P0 := fun t bs vs r _ => Q t bs vs r) (P1 := fun ts bs vs r _ => R ts bs vs r);
    unfold P, Q, R in *; cbn [wf_ty]; intros HW HS; pose proof HS as [HB HL].
  - exists 1%nat. reflexivity.
  - exists 1%nat. reflexivity.
  - exists 1%nat. reflexivity.
  - exists 1%nat. cbn [dec]. unfold d_bind. rewrite d_int_app by (apply ik_bounds; assumption). reflexivity.
  - exists 1%nat. cbn [dec]. unfold d_bind. rewrite d_ranged_app; [reflexivity|exact HW|].
    apply ranged_ok_value. split; [apply ik_bounds; assumption|assumption].
  - exists 1%nat. cbn [dec]. unfold d_bind. rewrite (be8_int z) by (unfold is_u64; lia).
    rewrite d_int_app by (apply ik_bounds; change (ik_min U64) with 0; change (ik_max U64) with (2 ^ 64 - 1); lia). reflexivity.
  - exists 1%nat. apply andb_prop in HW as HW'. destruct HW' as [H1 H2]. apply scalar_iff; [reflexivity|exact HW|exact HS|].
    apply ranged_float_decode; try assumption. exists z. tauto.
  - exists 1%nat. apply scalar_iff; [reflexivity|reflexivity|exact HS|]. apply n_decode; try assumption. exists bs. auto.
  - exists 1%nat. apply scalar_iff; [reflexivity|reflexivity|exact HS|]. apply z_decode; try assumption. exists bs. auto.
  - exists 1%nat. cbn [dec]. unfold d_bind, d_rem. rewrite <- (app_nil_r bs) at 2.
    rewrite d_consume_app by (reflexivity || assumption). reflexivity.
  - exists 1%nat. cbn [dec]. unfold d_bind, d_rem. rewrite <- (app_nil_r bs) at 2.
    rewrite d_consume_app by (reflexivity || assumption). unfold d_ret. rewrite (substituted_lossy bs cs HB) by assumption. reflexivity.
  - exists 1%nat. cbn [dec]. unfold d_bind. rewrite d_fixed_app; [reflexivity|assumption|unfold sizeb in HW; lia].
  - exists 1%nat. cbn [dec]. unfold d_bind. rewrite d_fixed_app; [reflexivity|assumption|unfold sizeb in HW; lia].
  - exists 1%nat. cbn [dec]. unfold d_bind at 1.
    change (0 :: r) with (int_format U8 0 ++ r). rewrite d_tag_app by (reflexivity || (left; reflexivity)). reflexivity.
  - destruct (IHdenotes HW (small_cons _ _ HS)) as [f Hf]. exists (S f). cbn [dec]. unfold d_bind at 1.
    change (255 :: bs) with (int_format U8 255 ++ bs). rewrite d_tag_app by (reflexivity || (right; left; reflexivity)).
    cbn [Z.eqb Pos.eqb]. unfold d_bind. rewrite Hf. reflexivity.
  - exists 1%nat. reflexivity.
  - destruct (IHdenotes HW HS) as [f Hf]. exists (S f). cbn [dec]. unfold d_bind, d_rem. rewrite zlen_nz by assumption.
    cbn [negb]. rewrite Hf. reflexivity.
  - destruct (IHdenotes HW HS) as [f Hf]. exists (S (Nat.max f (S (length vs)))). cbn [dec]. unfold d_bind.
    erewrite begun_seq; [reflexivity|eapply begun_more; [|exact Hf]|reflexivity|]; lia.
  - apply andb_prop in HW as [Hn HW]. destruct (IHdenotes HW HS) as [f Hf]. exists (S (Nat.max f (S (length vs)))). cbn [dec]. unfold d_bind.
    erewrite begun_lim; [reflexivity|eapply begun_more; [|exact Hf]|reflexivity| |change (zlen (@nil val)) with 0]; lia.
  - apply andb_prop in HW as [Hn HW]. destruct (IHdenotes HW HS) as [f Hf]. exists (S (Nat.max f (S (length vs)))). cbn [dec]. unfold d_bind.
    erewrite begun_fix; [reflexivity|eapply begun_more; [|exact Hf]| |change (zlen (@nil val)) with 0]; lia.
  - assert (HP : small_ok payload) by (apply small_app in HS; destruct HS as [_ HS]; apply small_app in HS; tauto).
    destruct (IHdenotes HW HP) as [f Hf]. exists (S f). cbn [dec]. unfold d_bind at 1.
    pose proof (zlen_nonneg payload). rewrite d_pref_app by lia. unfold d_bind.
    rewrite (d_window_app (zlen payload) (dec cf D f t) payload r v eq_refl (proj2 HP) Hf). reflexivity.
  - apply andb_prop in HW as HW'. destruct HW' as [Hn HW']. assert (HP : small_ok body) by (apply small_app in HS; tauto).
    destruct (IHdenotes HW' HP) as [f Hf].
    assert (HR : reads WByte cf D (TVPad n t) (body ++ r) (ROk (VWrap v, r))).
    { apply vpadded_decode; try assumption. exists body. split; [reflexivity|]. split; [assumption|]. eapply reads_ok; [apply HP|exact Hf]. }
    apply reads_inv in HR; assumption.
  - apply andb_prop in HW as [Hn HW]. destruct (IHdenotes HW HS) as [g Hf]. exists (S g). cbn [dec]. unfold d_bind. rewrite Hf.
    rewrite d_consume_app by (assumption || (unfold sizeb in Hn; lia)).
    destruct (cf_check_padding cf); [|reflexivity]. rewrite (proj2 (zeros_forall padding)) by auto. reflexivity.
  - destruct (IHdenotes HW HS) as [f Hf]. exists (S f). cbn [dec]. unfold d_bind. rewrite Hf. reflexivity.
  - match goal with E : nth_error D i = Some _ |- _ => rename E into Ei end.
    destruct (IHdenotes (wf_struct D i ts HD Ei) HS) as [f Hf]. exists (S f). cbn [dec]. rewrite Ei. unfold d_bind. rewrite Hf. reflexivity.
  - match goal with E : nth_error D i = Some _ |- _ => rename E into Ei end.
    assert (HI : (i < length D)%nat) by (apply nth_error_Some; congruence).
    assert (HR : reads WByte cf D (TNamed i) (int_format k tag ++ r) (ROk (VEnum ix [], r))).
    { eapply cstyle_decode; try eassumption. exists ix, tag. auto. }
    apply reads_inv in HR; assumption.
  - match goal with E : nth_error D i = Some _ |- _ => rename E into Ei end.
    match goal with E : nth_error alts ix = Some _ |- _ => rename E into Ea end.
    assert (HP : small_ok bs) by (apply small_app in HS; tauto).
    destruct (IHdenotes (wf_data D i k alts ix tag ts HD Ei Ea) HP) as [f Hf]. exists (S f). cbn [dec]. rewrite Ei.
    pose proof (wf_nth D _ _ HD Ei) as W. cbn [wf_def] in W. apply andb_prop in W; destruct W as [W _].
    apply andb_prop in W; destruct W as [W W3]. apply andb_prop in W; destruct W as [_ W2].
    assert (Et : nth_error (map fst alts) ix = Some tag) by (rewrite nth_error_map, Ea; reflexivity).
    unfold d_bind at 1. rewrite d_tag_app; [|rewrite forallb_forall in W3; apply W3|]; [|eapply nth_error_In; exact Et..].
    rewrite (find_tag_nth_error tag (map fst alts) ix W2 Et), Ea. unfold d_bind. rewrite Hf. reflexivity.
  - exists O. constructor.
  - destruct (IHdenotes HW HS) as [f Hf]. assert (HM : small_ok mid) by (eapply small_rest; eassumption).
    destruct (IHdenotes0 HW HM) as [g Hg]. exists (Nat.max f g). econstructor; [assumption|eapply dec_more; [|exact Hf]; lia|].
    eapply begun_more; [|exact Hg]; lia.
  - exists O. reflexivity.
  - cbn [forallb] in HW. apply andb_prop in HW. destruct HW as [HW1 HW2].
    destruct (IHdenotes HW1 HS) as [f Hf]. assert (HM : small_ok mid) by (eapply small_rest; eassumption).
    destruct (IHdenotes0 HW2 HM) as [g Hg]. exists (Nat.max f g). cbn [d_fields]. unfold d_bind.
    rewrite (dec_more f (Nat.max f g) t bs v mid) by (exact Hf || lia).
    rewrite (fields_more g (Nat.max f g) ts mid vs r) by (exact Hg || lia). reflexivity.
Qed.

Theorem grammar_exact w t input v rest : wf_ty D t = true -> bytes_ok input -> zlen input <= isize_max ->
  reads w cf D t input (ROk (v, rest)) <-> den t input v rest.
Proof.
  intros HW HB HL. split.
  - intros H. apply reads_inv in H; try assumption. destruct H as [f Hf]. eapply sound_all; try eassumption. split; assumption.
  - intros H. apply complete in H; [|assumption|split; assumption]. destruct H as [f Hf]. eapply reads_ok; eassumption.
Qed.
End Grammar.

Section Thms.
Variables (cf : config) (D : list def) (t : ty) (input : list byte).
Hypothesis HD : wf_defs D = true.
Hypothesis HW : wf_ty D t = true.
Hypothesis HB : bytes_ok input.
Hypothesis HL : zlen input <= isize_max.
Notation den := (denotes (cf_check_padding cf) D t input).

Lemma grammar_unambiguous v rest v' rest' : den v rest -> den v' rest' -> v = v' /\ rest = rest'.
Proof.
  intros H H'. apply (complete cf D HD) in H; [|assumption|split; assumption]. apply (complete cf D HD) in H'; [|assumption|split; assumption].
  destruct H as [f H]. destruct H' as [g H']. apply (dec_more cf D f (Nat.max f g)) in H; [|lia].
  apply (dec_more cf D g (Nat.max f g)) in H'; [|lia]. rewrite H in H'. injection H' as -> ->. split; reflexivity.
Qed.

Lemma grammar_decodes w v : decodes w cf D t input (ROk v) <->
  exists rest, den v rest /\ (cf_complete cf = true -> w <> WSlice /\ rest = []).
Proof.
  split.
  - intros H. apply decodes_inv in H; try assumption. destruct H as (f & rest & Hf & F). exists rest. split.
    + eapply (sound_all cf D HD); [exact HW|split; assumption|exact Hf].
    + intros Ec. unfold finished in F. rewrite Ec in F. cbn [andb] in F.
      destruct w; try (destruct F as (lo & F & _); discriminate F);
        (split; [discriminate|]); destruct (Z.eqb_spec (zlen rest) 0) as [E|E]; cbn [negb] in F;
        try (apply zlen_0_nil; exact E); destruct F as (lo & F & _); discriminate F.
  - intros (rest & H & Hc). apply (complete cf D HD) in H; [|assumption|split; assumption]. destruct H as [f Hf].
    destruct (decodes_finished w cf D t input HL f v rest Hf) as (out & Ho & F). unfold finished in F.
    replace (cf_complete cf && _) with false in F; [rewrite F in Ho; exact Ho|].
    destruct (cf_complete cf); [|reflexivity]. destruct (Hc eq_refl) as [Hw ->]. destruct w; try reflexivity. congruence.
Qed.

Lemma outside_rejected I R w : terminating D I R = true -> loops_ok I t = true -> pads_ok cf D t = true ->
  (forall v rest, ~ den v rest) ->
  (exists e, decodes w cf D t input (RErr (DParse e))) \/ (cf_mode cf = Debug /\ decodes w cf D t input RPanic).
Proof.
  intros HT HLo HP N. destruct (decoding_answers w cf D I R t input HD HW HT HLo HP HB HL) as [out Ho].
  apply settles_at in Ho as Hf. destruct Hf as [f Hf].
  pose proof (decode_cases w cf D t input HL f) as C. pose proof (dec_no_ub cf D t input f HD HW HP HB HL) as NU.
  destruct (dec cf D f t input) as [[v rest]|e| | |] eqn:E; [|destruct C as [[e' C]|[C1 C]]| |contradiction|].
  - destruct (N v rest). eapply (sound_all cf D HD); [exact HW|split; assumption|exact E].
  - left. exists e'. rewrite Hf in C. rewrite C in Ho. exact Ho.
  - right. rewrite Hf in C. rewrite C in Ho. split; [|exact Ho]. destruct w; try exact C1; discriminate C1.
  - right. rewrite Hf in C. rewrite C in Ho. split; [|exact Ho]. destruct (cf_mode cf) eqn:Em; [reflexivity|exfalso].
    unfold pads_ok in HP. rewrite Em in HP. apply andb_prop in HP. destruct HP as [P1 P2].
    destruct (no_panic_thm w cf D t input f HD HW P1 P2 ltac:(rewrite Em; discriminate) HB HL) as [NP _]. congruence.
  - exfalso. rewrite Hf in C. rewrite C in Ho. destruct Ho as [Ho _]. congruence.
Qed.
End Thms.

Lemma byteb_bytes l : forallb byteb l = true -> bytes_ok l.
Proof. unfold bytes_ok. rewrite forallb_forall, Forall_forall. intros H x Hx. apply H in Hx. unfold byteb in Hx. apply andb_prop in Hx. destruct Hx. unfold is_byte. lia. Qed.
Lemma integer_format_bytes z : bytes_ok (integer_format z).
Proof.
  unfold integer_format. cbv zeta. destruct (Z.ltb_spec (Z.abs z) 64).
  - constructor; [unfold is_byte; destruct (z <? 0); lia|constructor].
  - constructor; [pose proof (Z.mod_pos_bound (Z.abs z) 64 ltac:(lia)); unfold is_byte; destruct (z <? 0); lia|].
    apply natural_format_props. apply Z.div_pos; lia.
Qed.
Lemma concat2_bytes D vs : Forall (fun v => forall t, well_typed D v t = true -> bytes_ok (format D v t)) vs ->
  forall ts, all2 (valid_gen false D) vs ts = true -> bytes_ok (concat2 (format D) vs ts).
Proof.
  induction 1 as [|v vs Hv _ IH]; intros [|t ts] H; try constructor. cbn in H. apply andb_prop in H. destruct H as [H1 H2].
  cbn. apply bytes_ok_app. split; [apply Hv; exact H1|apply IH; exact H2].
Qed.
Lemma format_bytes D v : forall t, well_typed D v t = true -> bytes_ok (format D v t).
Proof.
  assert (ONE : forall x, 0 <= x < 256 -> bytes_ok [x]) by (intros; constructor; [assumption|constructor]).
  induction v as [| | | | |v IHv|vs IHvs|vs IHvs|ix vs IHvs|v IHv] using val_ind'; intros t H;
    destruct t; unfold well_typed in H; cbn [valid_gen] in H; try discriminate H; cbn [format];
    try (destruct (nth_error D i) as [[]|]; discriminate H); auto using int_format_bytes, big_endian_bytes, integer_format_bytes;
    try apply (Forall_nil is_byte).
  all: try (apply natural_format_props; lia).
  all: try (apply ONE; destruct b; lia); try (apply ONE; lia).
  all: repeat match goal with H : _ && _ = true |- _ => apply andb_prop in H; destruct H end; try (apply byteb_bytes; assumption).
  all: try match goal with H : forallb _ _ = true |- bytes_ok (concat _) =>
     clear - H IHvs; induction IHvs as [|v vs Hv _ IH]; [constructor|]; cbn [forallb] in H; apply andb_prop in H; destruct H;
     cbn [map concat]; apply bytes_ok_app; split; [apply Hv; assumption|apply IH; assumption] end.
  - constructor; [unfold is_byte; lia|apply IHv; exact H].
  - destruct (nth_error D i) as [[ts| |]|]; try discriminate H. apply concat2_bytes; assumption.
  - destruct (nth_error D i) as [[ts|k tags|k alts]|]; try discriminate H; [apply int_format_bytes|].
    destruct (nth_error alts ix) as [[tag ts]|] eqn:E; [|discriminate H]. rewrite (nth_error_nth _ _ _ E). cbn [fst snd].
    apply bytes_ok_app. split; [apply int_format_bytes|apply concat2_bytes; assumption].
  - apply bytes_ok_app. split; [apply big_endian_bytes|apply IHv; assumption].
  - apply bytes_ok_app. split; [apply IHv; assumption|]. unfold bytes_ok. rewrite Forall_forall. intros x Hx. apply repeat_spec in Hx. subst x.
    unfold is_byte. lia.
Qed.

Lemma encoded_denotes cf D I kf t v bs : wf_defs D = true -> disciplined D I = true -> wf_ty D t = true -> decodable I t = true ->
  well_typed D v t = true -> to_bytes cf D kf v t = ROk bs -> zlen bs <= isize_max ->
  (cf_est_override cf = true -> zeros D v t = 0) -> bytes_ok bs /\ denotes (cf_check_padding cf) D t bs v [].
Proof.
  intros HD HI HW Hd Ht He Hl Hz.
  assert (Hb : bytes_ok bs) by (destruct (to_bytes_format cf D kf HD v t bs HW Ht He Hl Hz) as [-> _]; apply format_bytes; exact Ht).
  split; [exact Hb|].
  apply decodable_kind in Hd. destruct Hd as (k & HK & HG).
  destruct (dec_own cf D I kf t v bs HD HI HW Ht He Hz k [] HK (adm_greedy k HG)) as [f Hf]; [rewrite app_nil_r; exact Hl|].
  rewrite app_nil_r in Hf. eapply sound_all; [exact HD|exact HW|split; assumption|exact Hf].
Qed.

Lemma string_substituted w cf D input cs : bytes_ok input -> zlen input <= isize_max -> (w = WSlice -> cf_complete cf = false) ->
  substituted input cs -> decodes w cf D TString input (ROk (VBytes (utf8_string cs))).
Proof. intros HB HL HS H. rewrite <- (substituted_lossy input cs HB H). apply string_lossy; assumption. Qed.
Lemma string_has_substitution input : bytes_ok input -> exists cs, substituted input cs /\ Forall scalar cs /\
  forall cs', substituted input cs' -> utf8_string cs' = utf8_string cs.
Proof.
  intros HB. destruct (lossy_exact input HB) as (cs & H1 & H2 & H3). exists cs. repeat split; try assumption.
  intros cs' H. rewrite <- H3. symmetry. apply substituted_lossy; assumption.
Qed.
