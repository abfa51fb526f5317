(** A SliceParser inside a window does what it does with the contents of the window as
    its whole input. *)
From Coq Require Import Lia.
From Verif Require Import Base BaseLemmas ModelErrors ModelParser ModelInt ModelFloat ModelUtf8 ModelTarget ModelSchema
  SpecParser SpecCodec ProofDec.
From Coq Require Import ZifyBool.

Section Alone.
Variable rest : slice_parser.

Definition both {A} (d : nat) (pg : prog A) (st : slice_parser) : Prop :=
  exists r st', run slice_h pg st = (r, st') /\ run slice_h pg (st ++ rest) = (r, st' ++ rest) /\ (forall x, r = ROk x -> length st' = S d).
Definition sim {A} (pg : prog A) : Prop := forall d st, length st = S d -> both d pg st.

Lemma sim_lift {A} (r : pres A) : sim (plift r).
Proof. intros d st H. destruct r; do 2 eexists; cbn [plift run]; repeat split; intros; congruence. Qed.
Lemma sim_ret {A} (a : A) : sim (PRet a).
Proof. exact (sim_lift (ROk a)). Qed.
Lemma sim_err {A} e : @sim A (PErr e).
Proof. exact (sim_lift (RErr e)). Qed.
Lemma sim_panic {A} : @sim A PPanic.
Proof. exact (sim_lift RPanic). Qed.
Lemma sim_div {A} : @sim A PDiv.
Proof. exact (sim_lift RDiv). Qed.
Lemma sim_bind {A B} (pg : prog A) (k : A -> prog B) : sim pg -> (forall a, sim (k a)) -> sim (pbind pg k).
Proof.
  intros H Hk d st Hd. destruct (H d st Hd) as (r & s & E & E' & Hl). unfold both. rewrite !run_pbind, E, E'.
  destruct r as [a|e| | |]; try (do 2 eexists; repeat split; discriminate). exact (Hk a d s (Hl a eq_refl)).
Qed.

Lemma sim_consume n : sim (p_consume n).
Proof.
  intros d [|w ws] Hd; [discriminate Hd|]. unfold both, p_consume. rewrite !run_do_op. cbn [slice_h app sp_consume]. unfold slb_take_unchecked.
  destruct (n <=? zlen w); do 2 eexists; repeat split; try discriminate. intros x _. exact Hd.
Qed.
Lemma sim_byte : sim p_consume_byte.
Proof.
  intros d [|w ws] Hd; [discriminate Hd|]. unfold both, p_consume_byte. rewrite !run_do_op. cbn [slice_h app sp_consume_byte].
  destruct w as [|x w]; cbn [slb_cut_first]; do 2 eexists; repeat split; try discriminate. intros y _. exact Hd.
Qed.
Lemma sim_remainder : sim p_remainder.
Proof.
  intros d [|w ws] Hd; [discriminate Hd|]. unfold both, p_remainder. rewrite !run_do_op. cbn [slice_h app].
  do 2 eexists; repeat split. intros y _. exact Hd.
Qed.
Lemma sim_window {A} n (body : prog A) (k : A -> prog A) :
  sim body -> (forall a, sim (k a)) -> sim (p_set_fit n ;;; v <- body ;; p_enforce_target ;;; k v).
Proof.
  intros Hb Hk d [|w ws] Hd; [discriminate Hd|]. unfold both, p_set_fit, p_enforce_target. rewrite !run_pbind, !run_do_op.
  cbn [slice_h app sp_set_fit]. unfold slb_split_unchecked. destruct (n <=? zlen w); [|do 2 eexists; repeat split; discriminate].
  assert (Hd' : length (ztake n w :: zdrop n w :: ws) = S (S d)) by (cbn [length] in *; lia).
  destruct (Hb (S d) _ Hd') as (r & s & E & E' & Hl). cbn [app] in E'. rewrite !run_pbind, E, E'.
  destruct r as [a|e| | |]; try (do 2 eexists; repeat split; discriminate).
  specialize (Hl a eq_refl). destruct s as [|x s]; [discriminate Hl|]. rewrite !run_pbind, !run_do_op. cbn [slice_h app sp_enforce_target].
  destruct (zlen x =? 0); [|do 2 eexists; repeat split; discriminate]. apply Hk. injection Hl as Hl. exact Hl.
Qed.
Lemma sim_self_loop term : forall n ret, sim (p_self_terminating_loop n term ret).
Proof.
  induction n as [|n IH]; intros ret; cbn [p_self_terminating_loop]; [apply sim_div|].
  intros d [|w ws] Hd; [discriminate Hd|]. unfold both. cbn [run slice_h app sp_consume_byte].
  destruct w as [|x w]; cbn [slb_cut_first]; [do 2 eexists; repeat split; discriminate|].
  destruct (term x); [apply sim_ret; exact Hd|exact (IH _ d (w :: ws) Hd)].
Qed.

Ltac prims := first [apply sim_ret|apply sim_err|apply sim_panic|apply sim_div|apply sim_lift|apply sim_byte|apply sim_consume|apply sim_remainder|apply sim_self_loop].
Ltac walk := intros; repeat first [prims|apply sim_bind; [|intros]|match goal with |- sim (if ?b then _ else _) => destruct b end].
Lemma sim_int k : sim (p_int k).
Proof. unfold p_int, p_take_fixed, p_consume_arr. walk. Qed.
Lemma sim_tagword k tags : sim (p_take_tagword k tags).
Proof. apply sim_bind; [apply sim_int|]. walk. Qed.
Lemma sim_pref cf s : sim (p_pref cf s).
Proof. destruct s; cbn [p_pref]; try apply sim_int. apply sim_bind; [apply sim_bind; [apply sim_int|]|]; walk. Qed.
Lemma sim_seq_loop {A} (e : prog A) : sim e -> forall k seq, sim (p_seq_loop k e seq).
Proof. intros He. induction k as [|k IH]; intros seq; cbn [p_seq_loop]; walk; auto. Qed.
Lemma sim_lim_loop {A} (e : prog A) n : sim e -> forall k seq, sim (p_lim_loop k n e seq).
Proof. intros He. induction k as [|k IH]; intros seq; cbn [p_lim_loop]; walk; auto. Qed.
Lemma sim_fix_loop {A} (e : prog A) n : sim e -> forall k seq, sim (p_fix_loop k n e seq).
Proof. intros He. induction k as [|k IH]; intros seq; cbn [p_fix_loop]; walk; auto. Qed.
Lemma sim_fields (f : ty -> prog val) ts : (forall t, sim (f t)) -> sim (p_fields f ts).
Proof. intros H. induction ts; cbn [p_fields]; walk; auto. Qed.

Lemma parse_alone cf D : forall f t, sim (parse cf D f t).
Proof.
  induction f as [|f IH]; intros t; cbn [parse]; [apply sim_div|].
  destruct t; try (unfold p_take_bool, p_ranged, p_take_self_terminating, p_take_fixed, p_consume_arr, p_take_dynamic; walk;
    first [apply sim_int|apply sim_tagword|apply IH|apply sim_seq_loop; apply IH|apply sim_lim_loop; apply IH|apply sim_fix_loop; apply IH]; fail);
    try (unfold p_take_bool, p_ranged, p_take_self_terminating, p_take_fixed, p_consume_arr, p_take_dynamic; walk; fail).
  - apply sim_bind; [apply sim_pref|]. intros. apply (sim_window _ (parse cf D f t) (fun v => PRet (VWrap v))); [apply IH|walk].
  - apply sim_bind; [apply sim_remainder|]. intros. apply sim_bind; [apply sim_lift|]. intros. apply sim_bind; [apply sim_lift|]. intros.
    apply (sim_window _ (parse cf D f t) (fun v => PRet (VWrap v))); [apply IH|walk].
  - destruct (nth_error D i) as [[ts|k tags|k alts]|]; [| | |walk].
    + apply sim_bind; [apply sim_fields; apply IH|walk].
    + apply sim_bind; [apply sim_tagword|]. intros. destruct (find_tag _ _); walk.
    + apply sim_bind; [apply sim_tagword|]. intros. destruct (find_tag _ _) as [ix|]; [|walk]. destruct (nth_error alts ix) as [[tg ts]|]; [|walk].
      apply sim_bind; [apply sim_fields; apply IH|walk].
Qed.
End Alone.

Lemma slice_alone cf D t f p n p1 r s :
  slice_h unit (OpSetFit n) p = (ROk tt, p1) -> p <> [] ->
  run slice_h (parse cf D f t) (sp_from_buffer (ztake n (hd [] p))) = (r, s) ->
  run slice_h (parse cf D f t) p1 = (r, s ++ zdrop n (hd [] p) :: tl p).
Proof.
  intros E Hp Er. destruct p as [|w ws]; [congruence|]. cbn [slice_h sp_set_fit] in E. unfold slb_split_unchecked in E.
  destruct (n <=? zlen w); [|discriminate E]. injection E as <-. cbn [hd tl] in *.
  destruct (parse_alone (zdrop n w :: ws) cf D f t 0%nat [ztake n w] eq_refl) as (r0 & s0 & E0 & E1 & _).
  unfold sp_from_buffer in Er. rewrite Er in E0. injection E0 as <- <-. exact E1.
Qed.
