(** Decoding through the MemoParser and the ByteParser: the same result, errors and panics
    included. *)
From Coq Require Import Lia.
From Verif Require Import Base BaseLemmas ModelErrors ModelParser ModelInt ModelFloat ModelUtf8 ModelTarget ModelSchema
  SpecParser SpecCodec ProofParser ProofParserSim ProofParserClean ProofInt ProofDec ProofCodec.
From Coq Require Import ZifyBool.

Section Memo.
Variable m : mode.

Definition msim {A} (Q : A -> Prop) (pg : prog A) : Prop :=
  forall s r s1, mp_inv s -> run (memo_h m) pg s = (r, s1) ->
  run (byte_h m) pg (mp_bp s) = (r, mp_bp s1) /\ (forall a, r = ROk a -> mp_inv s1 /\ Q a).

Definition any {A} (_ : A) : Prop := True.

Lemma msim_fits {A} (pg : prog A) : prog_fits m pg -> msim any pg.
Proof.
  intros H s r s1 Hs E. destruct (mp_run m pg s Hs H r s1 E) as [E' Hi]. split; [exact E'|].
  intros a ->. split; [apply Hi; discriminate|exact I].
Qed.
Lemma msim_lift {A} (r : pres A) : msim (fun a => r = ROk a) (plift r).
Proof. destruct r; intros s r s1 Hs E; cbn in *; injection E as <- <-; (split; [reflexivity|]); intros x Ex; try discriminate. injection Ex as <-. auto. Qed.
Lemma msim_bind {A B} (Q : A -> Prop) (Q' : B -> Prop) pg k :
  msim Q pg -> (forall a, Q a -> msim Q' (k a)) -> msim Q' (pbind pg k).
Proof.
  intros H Hk s r s1 Hs E. rewrite run_pbind in E. rewrite run_pbind. destruct (run (memo_h m) pg s) as [r0 s0] eqn:E0.
  destruct (H s r0 s0 Hs E0) as [E1 H1]. rewrite E1.
  destruct r0 as [a|e| | |]; try (injection E as <- <-; split; [reflexivity|discriminate]).
  destruct (H1 a eq_refl) as [Hi HQ]. exact (Hk a HQ s0 r s1 Hi E).
Qed.
Lemma msim_weak {A} (Q Q' : A -> Prop) pg : (forall a, Q a -> Q' a) -> msim Q pg -> msim Q' pg.
Proof. intros HQ H s r s1 Hs E. destruct (H s r s1 Hs E) as [E1 H1]. split; [exact E1|]. intros a Ea. destruct (H1 a Ea). auto. Qed.
Lemma msim_any {A} (Q : A -> Prop) pg : msim Q pg -> msim any pg.
Proof. apply msim_weak. intros; exact I. Qed.

Lemma msim_ret {A} (a : A) : msim any (PRet a).
Proof. apply msim_fits; exact I. Qed.
Lemma msim_err {A} e : @msim A any (PErr e).
Proof. apply msim_fits; exact I. Qed.
Lemma msim_panic {A} : @msim A any PPanic.
Proof. apply msim_fits; exact I. Qed.
Lemma msim_div {A} : @msim A any PDiv.
Proof. apply msim_fits; exact I. Qed.

Lemma small_fits n : 0 <= n <= isize_max -> size_fits m n.
Proof. intros H. pose proof isize_max_lt. destruct m; unfold size_fits, is_usize; lia. Qed.
Lemma msim_consume n : 0 <= n <= isize_max -> msim any (p_consume n).
Proof. intros H. apply small_fits in H. apply msim_fits. split; [destruct m; exact H|]. intros; exact I. Qed.
Lemma msim_set_fit n : 0 <= n <= isize_max -> msim any (p_set_fit n).
Proof. intros H. apply small_fits in H. apply msim_fits. split; [destruct m; exact H|]. intros; exact I. Qed.
Lemma msim_enforce : msim any p_enforce_target.
Proof. apply msim_fits. split; [destruct m; exact I|]. intros; exact I. Qed.
Lemma msim_byte : msim any p_consume_byte.
Proof. apply msim_fits. split; [destruct m; exact I|]. intros; exact I. Qed.

Lemma msim_remainder : msim (fun n => 0 <= n <= isize_max) p_remainder.
Proof.
  intros s r s1 Hs E. unfold p_remainder in *. rewrite run_do_op in E. rewrite run_do_op.
  destruct (mp_step m OpRemainder s Hs ltac:(destruct m; exact I) r s1 E) as [E1 _]. split; [exact E1|].
  intros a ->. cbn [memo_h] in E. unfold mp_remainder in E. pose proof (f_equal fst E) as Ea. pose proof (f_equal snd E) as Eb. cbn [fst snd] in Ea, Eb. subst s1.
  split; [exact Hs|]. destruct Hs as [Hc _]. pose proof (co_inv_limit _ _ Hc). unfold usub, mp_view_len, mp_offset, co_index in Ea.
  replace (co_cur (mp_off s) <=? co_limit (mp_off s)) with true in Ea by lia. injection Ea as <-. lia.
Qed.

Lemma msim_fixed n : 0 <= n <= isize_max -> msim any (p_take_fixed n).
Proof. intros H. unfold p_take_fixed, p_consume_arr. eapply msim_bind; [apply msim_consume; exact H|]. intros. eapply msim_any, msim_lift. Qed.
Lemma msim_int k : msim (fun z => ik_in k z = true) (p_int k).
Proof.
  unfold p_int. eapply msim_bind; [apply msim_fixed; destruct k; vm_compute; split; discriminate|].
  intros bs _. eapply msim_weak; [|exact (msim_lift (ROk (from_be_bytes k bs)))].
  intros a Ea. injection Ea as <-. apply from_be_bytes_in.
Qed.
Lemma msim_bool : msim any p_take_bool.
Proof. eapply msim_bind; [apply msim_byte|]. intros b _. destruct (_ =? _); [apply msim_ret|]. destruct (_ =? _); [apply msim_ret|apply msim_err]. Qed.
Lemma msim_tagword k tags : msim any (p_take_tagword k tags).
Proof. eapply msim_bind; [apply msim_int|]. intros b _. destruct (existsb _ _); [apply msim_ret|]. destruct tags; apply msim_err. Qed.
Lemma msim_ranged cf k lo hi : msim any (p_ranged cf k lo hi).
Proof. eapply msim_bind; [apply msim_int|]. intros. eapply msim_any, msim_lift. Qed.

Lemma msim_pref cf s : msim (fun n => 0 <= n <= isize_max) (p_pref cf s).
Proof.
  destruct s; cbn [p_pref].
  - eapply msim_weak; [|apply msim_int]. intros a Ha. apply ik_in_spec in Ha. cbn in Ha. assert (255 <= isize_max) by (vm_compute; discriminate). lia.
  - eapply msim_weak; [|apply msim_int]. intros a Ha. apply ik_in_spec in Ha. cbn in Ha. assert (65535 <= isize_max) by (vm_compute; discriminate). lia.
  - unfold p_ranged. eapply msim_bind with (Q := fun z => 0 <= z <= u30_max).
    + eapply msim_bind; [apply msim_int|]. intros x _. eapply msim_weak; [|apply msim_lift]. intros a Ha.
      unfold ri_try_from_underlying in Ha. destruct (ri_check _ _ _) as [?|?| | |]; cbn [rbind ext_int] in Ha; try discriminate Ha.
      unfold restrict in Ha. cbn [Z.ltb Z.compare] in Ha.
      destruct (0 <=? x) eqn:L1; [destruct (x <=? u30_max) eqn:L2|]; cbn [ext_int] in Ha; try discriminate Ha.
      injection Ha as <-. lia.
    + intros x Hx. eapply msim_weak; [|exact (msim_lift (ROk (ri_into U64 x)))]. intros a Ea. injection Ea as <-.
      assert (u30_max <= isize_max) by (vm_compute; discriminate). unfold ri_into. rewrite ik_wrap_id; [lia|].
      apply ik_in_spec. change (ik_min U64) with 0. change (ik_max U64) with (2 ^ 64 - 1). assert (u30_max <= 2 ^ 64 - 1) by (vm_compute; discriminate). lia.
Qed.

Lemma msim_self term : msim any (p_take_self_terminating term).
Proof.
  unfold p_take_self_terminating. eapply msim_bind; [apply msim_remainder|]. intros rem _. destruct (rem <=? isize_max); [|apply msim_panic].
  apply msim_fits. generalize (S (Z.to_nat rem)) (@nil byte). intros k. induction k as [|k IH]; intros ret; cbn [p_self_terminating_loop]; [exact I|].
  split; [destruct m; exact I|]. split; [|exact I]. intros b. destruct (term b); [exact I|apply IH].
Qed.

Lemma msim_seq_loop {A} (e : prog A) : msim any e -> forall k seq, msim any (p_seq_loop k e seq).
Proof.
  intros He. induction k as [|k IH]; intros seq; cbn [p_seq_loop]; [apply msim_div|].
  eapply msim_bind; [apply msim_remainder|]. intros rem _. destruct (rem =? 0); [apply msim_ret|]. eapply msim_bind; eauto.
Qed.
Lemma msim_lim_loop {A} (e : prog A) n : msim any e -> forall k seq, msim any (p_lim_loop k n e seq).
Proof.
  intros He. induction k as [|k IH]; intros seq; cbn [p_lim_loop]; [apply msim_div|].
  eapply msim_bind; [apply msim_remainder|]. intros rem _. destruct (rem =? 0); [apply msim_ret|]. eapply msim_bind; [eauto|].
  intros. eapply msim_bind; [apply msim_lift|]. auto.
Qed.
Lemma msim_fix_loop {A} (e : prog A) n : msim any e -> forall k seq, msim any (p_fix_loop k n e seq).
Proof.
  intros He. induction k as [|k IH]; intros seq; cbn [p_fix_loop]; [apply msim_div|].
  eapply msim_bind; [apply msim_remainder|]. intros rem _. destruct (negb _ && _); [eapply msim_bind; eauto|].
  destruct (_ =? _); [apply msim_ret|apply msim_err].
Qed.
Lemma msim_fields (f : ty -> prog val) ts : Forall (fun t => msim any (f t)) ts -> msim any (p_fields f ts).
Proof.
  induction 1; cbn [p_fields]; [apply msim_ret|]. eapply msim_bind; [eassumption|]. intros. eapply msim_bind; [eassumption|]. intros; apply msim_ret.
Qed.

Variables (cf : config) (D : list def).
Hypothesis Hm : cf_mode cf = m.
Hypothesis HD : wf_defs D = true.
Definition pads (t : ty) : Prop := m = Release -> vpad_free t = true.
Hypothesis HP : m = Release -> vpad_free_defs D = true.

Ltac prims := first [apply msim_ret|apply msim_err|apply msim_panic|apply msim_div|eapply msim_any, msim_lift|apply msim_byte
  |eapply msim_any, msim_int|apply msim_bool|apply msim_tagword|apply msim_ranged|apply msim_self].
Ltac walk := intros; repeat first [prims|eapply msim_bind; [|intros]|match goal with |- msim _ (if ?b then _ else _) => destruct b end].

Lemma parse_memo : forall f t, wf_ty D t = true -> pads t -> msim any (parse cf D f t).
Proof.
  induction f as [|f IH]; intros t HW Hp; cbn [parse]; [apply msim_div|].
  assert (IHs : forall ts, forallb (wf_ty D) ts = true -> (m = Release -> forallb vpad_free ts = true) -> msim any (p_fields (parse cf D f) ts)).
  { intros ts H1 H2. apply msim_fields. apply Forall_forall. intros t' Hin. apply IH.
    - rewrite forallb_forall in H1. auto.
    - intros Em. specialize (H2 Em). rewrite forallb_forall in H2. auto. }
  destruct t; cbn [wf_ty] in HW; try (walk; fail).
  - eapply msim_bind; [apply msim_remainder|]. intros. eapply msim_bind; [apply msim_consume; assumption|]. walk.
  - eapply msim_bind; [apply msim_remainder|]. intros. eapply msim_bind; [apply msim_consume; assumption|]. walk.
  - eapply msim_bind; [apply msim_fixed|walk]. unfold sizeb in HW. lia.
  - eapply msim_bind; [apply msim_fixed|walk]. unfold sizeb in HW. lia.
  - eapply msim_bind; [apply msim_tagword|]. intros. destruct (_ =? _); [|walk]. eapply msim_bind; [apply IH; assumption|]. walk.
  - eapply msim_bind; [apply msim_remainder|]. intros. destruct (negb _); [|walk]. eapply msim_bind; [apply IH; assumption|]. walk.
  - eapply msim_bind; [apply msim_seq_loop, IH; assumption|]. walk.
  - eapply msim_bind; [apply msim_lim_loop, IH; [lia|assumption]|]. walk.
  - eapply msim_bind; [apply msim_fix_loop, IH; [lia|assumption]|]. walk.
  - eapply msim_bind; [apply msim_pref|]. intros. eapply msim_bind; [apply msim_set_fit; assumption|]. intros.
    eapply msim_bind; [apply IH; assumption|]. intros. eapply msim_bind; [apply msim_enforce|]. walk.
  - eapply msim_bind; [apply msim_remainder|]. intros rem Hr. cbn beta in Hr. eapply msim_bind; [apply msim_lift|]. intros u Hu. cbn beta in Hu.
    eapply msim_bind; [apply msim_lift|]. intros win Hwin. cbn beta in Hwin.
    assert (Hwn : 0 <= win <= isize_max).
    { unfold sizeb in HW. destruct (Z.leb_spec n rem) as [Hn|Hn].
      - unfold usub in Hwin. replace (n <=? rem) with true in Hwin by lia. injection Hwin as <-. lia.
      - unfold usub in Hwin. replace (n <=? rem) with false in Hwin by lia. rewrite Hm in Hwin. destruct m eqn:Em; [discriminate Hwin|].
        specialize (Hp Em). cbn in Hp. lia. }
    eapply msim_bind; [apply msim_set_fit; assumption|]. intros. eapply msim_bind; [apply IH; [lia|]|].
    { intros Em. specialize (Hp Em). cbn in Hp. lia. }
    intros. eapply msim_bind; [apply msim_enforce|]. walk.
  - eapply msim_bind; [apply IH; [lia|assumption]|]. intros. eapply msim_bind; [apply msim_consume; unfold sizeb in HW; lia|]. intros.
    destruct (_ && _); walk.
  - eapply msim_bind; [apply IH; assumption|]. walk.
  - destruct (nth_error D i) as [d|] eqn:En; [|walk]. pose proof (wf_nth D i d HD En) as Hd.
    assert (Hv : m = Release -> forallb (forallb vpad_free) (field_types d) = true).
    { intros Em. specialize (HP Em). unfold vpad_free_defs in HP. rewrite forallb_forall in HP. apply HP. eapply nth_error_In; eauto. }
    destruct d as [ts|k tags|k alts]; cbn [wf_def field_types] in Hd, Hv.
    + eapply msim_bind; [apply IHs|walk]; [exact Hd|]. intros Em. specialize (Hv Em). cbn in Hv. lia.
    + eapply msim_bind; [apply msim_tagword|]. intros. destruct (find_tag _ _); walk.
    + eapply msim_bind; [apply msim_tagword|]. intros. destruct (find_tag _ _) as [ix|]; [|walk].
      destruct (nth_error alts ix) as [[tg ts]|] eqn:Ea; [|walk]. apply nth_error_In in Ea.
      eapply msim_bind; [apply IHs|walk].
      * assert (Hd' : forallb (fun a => forallb (wf_ty D) (snd a)) alts = true) by lia.
        rewrite forallb_forall in Hd'. exact (Hd' _ Ea).
      * intros Em. specialize (Hv Em). rewrite forallb_forall in Hv. apply Hv. apply in_map_iff. exists (tg, ts). auto.
Qed.
End Memo.

Lemma memo_decode_same cf D t f input :
  wf_defs D = true -> wf_ty D t = true -> pads_ok cf D t = true -> zlen input <= isize_max ->
  memo_decode cf D f t input = byte_decode cf D f t input.
Proof.
  intros HD HW HP HL. unfold memo_decode, byte_decode, try_decode.
  destruct (run (memo_h (cf_mode cf)) (parse cf D f t) (mp_from_buffer input)) as [r s] eqn:E.
  destruct (parse_memo (cf_mode cf) cf D eq_refl HD) with (f := f) (t := t) (s := mp_from_buffer input) (r := r) (s1 := s) as [E1 H1].
  - intros Em. unfold pads_ok in HP. rewrite Em in HP. lia.
  - exact HW.
  - intros Em. unfold pads_ok in HP. rewrite Em in HP. lia.
  - apply mp_init_inv; exact HL.
  - exact E.
  - change (mp_bp (mp_from_buffer input)) with (bp_from_buffer input) in E1. rewrite E1.
    destruct r as [v|e| | |]; try reflexivity. destruct (cf_complete cf); [|reflexivity].
    destruct (H1 v eq_refl) as [Hi _]. unfold mp_cleanup. rewrite (mp_cleanup_loop _ _ _ _ Hi). reflexivity.
Qed.
