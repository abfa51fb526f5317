(** How deeply the calls of an encoder nest (C88), and the frames that decoding a
    value takes (C82). *)
From Verif Require Import Base BaseLemmas ModelErrors ModelParser ModelInt ModelFloat ModelZarith ModelUtf8 ModelTarget ModelSchema
  ModelStack ModelWriteStack SpecParser SpecCodec SpecStack ProofCodec ProofDec ProofMeta ProofParserSim ProofHalt ProofSettle ProofCodecThms ProofStack.
From Coq Require Import ZifyBool.
Local Open Scope list_scope.

Lemma nesting_pos v : 1 <= nesting v.
Proof.
  assert (H : forall l : list val, 0 <= zmax_list (map nesting l)) by (intros; apply zmax_list_nonneg).
  induction v as [|b|z|bs| |v IHv|vs IHvs|vs IHvs|ix vs IHvs|v IHv] using val_ind'; cbn [nesting]; try lia; specialize (H vs); lia.
Qed.
Lemma nesting_in v vs : In v vs -> nesting v <= zmax_list (map nesting vs).
Proof. intros H. apply zmax_list_ge. apply in_map. exact H. Qed.

(** ** Decoding a value takes as many frames as the value has levels *)
Definition gets {A} (Q : A -> Prop) (pg pg' : prog A) : Prop := forall P (h : handler P) p a p',
  run h pg p = (ROk a, p') -> Q a -> run h pg' p = (ROk a, p').
Lemma gets_refl {A} (Q : A -> Prop) pg : gets Q pg pg. Proof. intros P h p a p' H _. exact H. Qed.
Lemma gets_bind {A B} (Q : A -> Prop) (S : B -> Prop) (pg pg' : prog A) (k k' : A -> prog B) :
  gets Q pg pg' -> (forall a, rets (fun b => S b -> Q a) (k a)) -> (forall a, gets S (k a) (k' a)) ->
  gets S (pbind pg k) (pbind pg' k').
Proof.
  intros Hp Hr Hk P h p b p' H HS. rewrite run_pbind in *. destruct (run h pg p) as [r q] eqn:E. destruct r as [a| | | |]; try discriminate H.
  pose proof (rets_run h _ _ (Hr a) _ _ _ H HS) as HQ. rewrite (Hp _ _ _ _ _ E HQ). apply Hk; assumption.
Qed.
Lemma gets_bind_same {A B} (S : B -> Prop) (pg : prog A) (k k' : A -> prog B) :
  (forall a, gets S (k a) (k' a)) -> gets S (pbind pg k) (pbind pg k').
Proof.
  intros Hk. apply (gets_bind (fun _ => True)); [apply gets_refl| |exact Hk].
  intros a. generalize (k a). clear. intros pg. induction pg; cbn [rets]; auto.
Qed.

Definition grows (acc : list val) (b : list val) : Prop := exists more, b = acc ++ more.
Lemma grows_refl acc : grows acc acc. Proof. exists []. rewrite app_nil_r. reflexivity. Qed.
Lemma grows_snoc acc v b : grows (acc ++ [v]) b -> grows acc b.
Proof. intros [m ->]. exists (v :: m). rewrite <- app_assoc. reflexivity. Qed.
Lemma rets_weaken {A} (Q S : A -> Prop) (pg : prog A) : (forall a, Q a -> S a) -> rets Q pg -> rets S pg.
Proof. intros H. induction pg; cbn [rets]; auto. intros [H1 H2]. split; auto. Qed.
Lemma grows_seq e r : forall acc, rets (grows acc) (p_seq_loop r e acc).
Proof.
  induction r as [|r IH]; intros acc; cbn [p_seq_loop]; [exact Logic.I|]. apply rets_bind_any. intros rem.
  destruct (_ =? _); [apply grows_refl|]. apply rets_bind_any. intros v. eapply rets_weaken; [apply grows_snoc|apply IH].
Qed.
Lemma grows_lim e n r : forall acc, rets (grows acc) (p_lim_loop r n e acc).
Proof.
  induction r as [|r IH]; intros acc; cbn [p_lim_loop]; [exact Logic.I|]. apply rets_bind_any. intros rem.
  destruct (_ =? _); [apply grows_refl|]. apply rets_bind_any. intros v.
  destruct (try_push n acc v) as [acc'|er| | |] eqn:E; cbn [ext_len plift pbind rets]; try exact Logic.I.
  apply try_push_ok in E. subst acc'. eapply rets_weaken; [apply grows_snoc|apply IH].
Qed.
Lemma grows_fix e n r : forall acc, rets (grows acc) (p_fix_loop r n e acc).
Proof.
  induction r as [|r IH]; intros acc; cbn [p_fix_loop]; [exact Logic.I|]. apply rets_bind_any. intros rem.
  destruct (_ && _); [|destruct (_ =? _); [apply grows_refl|exact Logic.I]]. apply rets_bind_any. intros v. eapply rets_weaken; [apply grows_snoc|apply IH].
Qed.
Lemma flat_grows n acc v b : grows (acc ++ [v]) b -> flat_to n b -> nesting v <= n.
Proof. intros [m ->] H. apply Forall_app in H. destruct H as [H _]. apply Forall_app in H. destruct H as [_ H]. inversion H. assumption. Qed.

Lemma gets_seq n e e' r : gets (fun v => nesting v <= n) e e' -> forall acc, gets (flat_to n) (p_seq_loop r e acc) (p_seq_loop r e' acc).
Proof.
  intros He. induction r as [|r IH]; intros acc; cbn [p_seq_loop]; [apply gets_refl|]. apply gets_bind_same. intros rem.
  destruct (_ =? _); [apply gets_refl|]. apply (gets_bind (fun v => nesting v <= n)); [exact He| |intros v; apply IH].
  intros v. eapply rets_weaken; [|apply grows_seq]. intros b H Hb. exact (flat_grows n acc v b H Hb).
Qed.
Lemma gets_lim n k e e' r : gets (fun v => nesting v <= n) e e' -> forall acc, gets (flat_to n) (p_lim_loop r k e acc) (p_lim_loop r k e' acc).
Proof.
  intros He. induction r as [|r IH]; intros acc; cbn [p_lim_loop]; [apply gets_refl|]. apply gets_bind_same. intros rem.
  destruct (_ =? _); [apply gets_refl|]. apply (gets_bind (fun v => nesting v <= n)); [exact He| |intros v; apply gets_bind_same; intros acc'; apply IH].
  intros v. destruct (try_push k acc v) as [acc'|er| | |] eqn:E; cbn [ext_len plift pbind rets]; try exact Logic.I.
  apply try_push_ok in E. subst acc'. eapply rets_weaken; [|apply grows_lim]. intros b H Hb. exact (flat_grows n acc v b H Hb).
Qed.
Lemma gets_fix n k e e' r : gets (fun v => nesting v <= n) e e' -> forall acc, gets (flat_to n) (p_fix_loop r k e acc) (p_fix_loop r k e' acc).
Proof.
  intros He. induction r as [|r IH]; intros acc; cbn [p_fix_loop]; [apply gets_refl|]. apply gets_bind_same. intros rem.
  destruct (_ && _); [|destruct (_ =? _); apply gets_refl].
  apply (gets_bind (fun v => nesting v <= n)); [exact He| |intros v; apply IH].
  intros v. eapply rets_weaken; [|apply grows_fix]. intros b H Hb. exact (flat_grows n acc v b H Hb).
Qed.
Lemma gets_fields n (pe pe' : ty -> prog val) ts : (forall t, gets (fun v => nesting v <= n) (pe t) (pe' t)) ->
  gets (flat_to n) (p_fields pe ts) (p_fields pe' ts).
Proof.
  intros H. induction ts as [|t ts IH]; cbn [p_fields]; [apply gets_refl|].
  apply (gets_bind (fun v => nesting v <= n)); [apply H| |].
  - intros v. apply rets_bind_any. intros vs. cbn [rets]. intros Hv. inversion Hv. assumption.
  - intros v. apply (gets_bind (flat_to n)); [exact IH| |intros vs; apply gets_refl].
    intros vs. cbn [rets]. intros Hv. inversion Hv. assumption.
Qed.

Lemma flat_of n vs : zmax_list (map nesting vs) <= n -> flat_to n vs.
Proof. intros H. apply Forall_forall. intros v Hv. apply nesting_in in Hv. lia. Qed.
Lemma gets_in cf D r f : forall f' t, gets (fun v => nesting v <= Z.of_nat f') (parse_in cf D r f t) (parse_in cf D r f' t).
Proof.
  induction f as [|f IH]; intros f' t; cbn [parse_in]; [intros P h p a p' H; discriminate H|].
  destruct f' as [|f'].
  { intros P h p a p' _ Ha. pose proof (nesting_pos a). lia. }
  cbn [parse_in].
  assert (Hw : forall v, nesting (VWrap v) <= Z.of_nat (S f') -> nesting v <= Z.of_nat f') by (intros v; cbn [nesting]; lia).
  assert (Hs : forall v, nesting (VSome v) <= Z.of_nat (S f') -> nesting v <= Z.of_nat f') by (intros v; cbn [nesting]; lia).
  assert (Hl : forall vs, nesting (VSeq vs) <= Z.of_nat (S f') -> flat_to (Z.of_nat f') vs) by (intros vs; cbn [nesting]; intros; apply flat_of; lia).
  assert (Ht : forall vs, nesting (VStruct vs) <= Z.of_nat (S f') -> flat_to (Z.of_nat f') vs) by (intros vs; cbn [nesting]; intros; apply flat_of; lia).
  assert (He : forall ix vs, nesting (VEnum ix vs) <= Z.of_nat (S f') -> flat_to (Z.of_nat f') vs) by (intros ix vs; cbn [nesting]; intros; apply flat_of; lia).
  destruct t;
  repeat match goal with
  | |- gets _ ?p ?p => apply gets_refl
  | |- gets _ (if ?b then _ else _) _ => destruct b
  | |- gets _ (pbind (parse_in _ _ _ _ ?t) _) _ => eapply gets_bind; [apply IH| |intros ?]
  | |- gets _ (pbind (p_seq_loop _ _ _) _) _ => eapply gets_bind; [apply gets_seq; apply IH| |intros ?]
  | |- gets _ (pbind (p_lim_loop _ _ _ _) _) _ => eapply gets_bind; [apply gets_lim; apply IH| |intros ?]
  | |- gets _ (pbind (p_fix_loop _ _ _ _) _) _ => eapply gets_bind; [apply gets_fix; apply IH| |intros ?]
  | |- gets _ (pbind (p_fields _ _) _) _ => eapply gets_bind; [apply gets_fields; apply IH| |intros ?]
  | |- gets _ (pbind _ _) _ => apply gets_bind_same; intros ?
  | |- gets _ (match ?o with _ => _ end) _ => destruct o
  | |- forall _, rets _ _ => intros ?
  | |- rets _ (PRet _) => cbn [rets]; first [apply Hw|apply Hs|apply Hl|apply Ht|apply He]
  | |- rets _ (PErr _) => exact Logic.I
  | |- rets _ (if ?b then _ else _) => destruct b
  | |- rets _ (pbind _ _) => apply rets_bind_any; intros ?
  end.
Qed.
Lemma frames_exact f w cf D t input v : decodes w cf D t input (ROk v) ->
  (decodes_in f w cf D t input (ROk v) <-> nesting v <= Z.of_nat f).
Proof.
  intros H. split; [apply frames_value|]. intros Hf. apply in_iff in H. destruct H as [f1 H]. apply decodes_in_inv in H. destruct H as [_ [r H]].
  apply (decodes_in_at w cf D f r t input (ROk v)); [|discriminate].
  pose proof (gets_in cf D r f1 f t) as G.
  destruct w; cbn [decode_in] in *; unfold try_decode_in in *;
    match type of H with context [run ?h ?pg ?p] => destruct (run h pg p) as [x p'] eqn:E end;
    (destruct x as [v'| | | |]; try discriminate);
    (assert (v' = v) by (destruct (cf_complete cf); [match type of H with context [match ?c with _ => _ end] => destruct c as [lo| | | |]; try discriminate end; destruct (lo_is_empty lo); congruence|congruence]));
    subst v'; rewrite (G _ _ _ _ _ E Hf); exact H.
Qed.

(** ** Encoding *)
(** Equal, or out of frames, which happens only if [b]. *)
Definition ra {X A} (b : Prop) (x y : res X A) : Prop := x = y \/ (b /\ x = RDiv).
Lemma ra_refl {X A} b (x : res X A) : ra b x x. Proof. left. reflexivity. Qed.
Lemma ra_div {X A} (b : Prop) (y : res X A) : b -> ra b RDiv y. Proof. right. auto. Qed.
Lemma ra_weaken {X A} (b b' : Prop) (x y : res X A) : (b -> b') -> ra b x y -> ra b' x y.
Proof. intros H [->|[Hb ->]]; [left; reflexivity|right; auto]. Qed.
Lemma ra_bind {X A B} b (x x' : res X A) (k k' : A -> res X B) :
  ra b x x' -> (forall a, ra b (k a) (k' a)) -> ra b (rbind x k) (rbind x' k').
Proof. intros [->|[Hb ->]] Hk; [destruct x'; cbn [rbind]; auto; left; reflexivity|right; auto]. Qed.
Lemma ra_map {X A B} b (f : A -> B) (x x' : res X A) : ra b x x' -> ra b (rmap f x) (rmap f x').
Proof. intros [->|[Hb ->]]; [left; reflexivity|right; auto]. Qed.
Lemma ra_estimate b k x x' : ra b x x' -> ra b (estimate_with k x) (estimate_with k x').
Proof. intros H. destruct k as [[n|]|]; cbn [estimate_with]; auto using ra_refl. Qed.
Lemma ra_usum b m l l' : Forall2 (ra b) l l' -> forall acc, ra b (usum m acc l) (usum m acc l').
Proof.
  intros H. induction H as [|x x' l l' Hx _ IH]; intros acc; cbn [usum]; [apply ra_refl|].
  apply ra_bind; [exact Hx|]. intros n. apply ra_bind; [apply ra_refl|]. intros s. apply IH.
Qed.
Lemma f2_map {A B} (R : B -> B -> Prop) (f g : A -> B) l : (forall a, In a l -> R (f a) (g a)) -> Forall2 R (map f l) (map g l).
Proof. induction l as [|a l IH]; cbn [map]; intros H; constructor; [apply H; left; reflexivity|apply IH; intros; apply H; right; assumption]. Qed.
Lemma f2_map2 {A B C} (R : C -> C -> Prop) (f g : A -> B -> C) bad l : R bad bad -> (forall a b, In a l -> R (f a b) (g a b)) ->
  forall l', Forall2 R (map2 f bad l l') (map2 g bad l l').
Proof.
  intros Hb. induction l as [|a l IH]; intros H [|b l']; cbn [map2]; repeat constructor; auto.
  - apply H. left. reflexivity.
  - apply IH. intros. apply H. right. assumption.
Qed.
(** The same for writers. *)
Definition wa {U} (b : Prop) (w w' : writer U) : Prop := forall u, ra b (w u) (w' u).
Lemma wa_refl {U} b (w : writer U) : wa b w w. Proof. intros u. apply ra_refl. Qed.
Lemma wa_add {U} b cf (w w' x x' : writer U) : wa b w w' -> wa b x x' -> wa b (w_add cf w x) (w_add cf w' x').
Proof.
  intros H H' u. unfold w_add. apply ra_bind; [apply H|]. intros r. apply ra_bind; [apply H'|]. intros r'. apply ra_refl.
Qed.
Lemma wa_sum {U} b cf (l l' : list (writer U)) : Forall2 (wa b) l l' -> forall acc, wa b (w_sum cf acc l) (w_sum cf acc l').
Proof.
  intros H. induction H as [|x x' l l' Hx _ IH]; intros acc u; cbn [w_sum]; [apply ra_refl|].
  apply ra_bind; [apply Hx|]. intros r. apply ra_bind; [apply ra_refl|]. intros n. apply IH.
Qed.

Section Enc.
Variables (cf : config) (D : list def) (kf : nat).

Lemma unknown_frames f : forall v t, ra (Z.of_nat f < 2 * nesting v - 1) (unknown_in cf D kf f v t) (unknown cf D kf v t).
Proof.
  induction f as [f IH] using lt_wf_ind. intros v t. destruct f as [|f]; [apply ra_div; pose proof (nesting_pos v); lia|].
  assert (IHu : forall v t, ra (Z.of_nat f < 2 * nesting v - 1) (unknown_in cf D kf f v t) (unknown cf D kf v t)) by (apply IH; lia).
  assert (IHe : forall v t, ra (Z.of_nat f < 2 * nesting v)
    (match f with O => RDiv | S f => estimate_with (known cf D kf t) (unknown_in cf D kf f v t) end)
    (estimate_with (known cf D kf t) (unknown cf D kf v t))).
  { clear v t. intros v t. destruct f as [|g]; [apply ra_div; pose proof (nesting_pos v); lia|].
    apply ra_estimate. eapply ra_weaken; [|apply IH; lia]. lia. }
  clear IH.
  assert (Hone : forall w n, nesting v = 1 + n -> nesting w <= n ->
    forall t, ra (Z.of_nat (S f) < 2 * nesting v - 1) (unknown_in cf D kf f w t) (unknown cf D kf w t)).
  { intros w n Hv Hw t'. eapply ra_weaken; [|apply IHu]. lia. }
  assert (Hest : forall w n, nesting v = 1 + n -> nesting w <= n ->
    forall t, ra (Z.of_nat (S f) < 2 * nesting v - 1)
      (match f with O => RDiv | S f => estimate_with (known cf D kf t) (unknown_in cf D kf f w t) end)
      (estimate_with (known cf D kf t) (unknown cf D kf w t))).
  { intros w n Hv Hw t'. eapply ra_weaken; [|apply IHe]. lia. }
  clear IHu IHe.
  destruct t, v; cbn [unknown_in unknown]; try apply ra_refl;
  try (apply ra_bind; [|intros ?; apply ra_refl]);
  try (eapply Hest; [reflexivity|apply Z.le_refl]);
  try (eapply Hone; [reflexivity|apply Z.le_refl]);
  try (apply ra_usum; apply f2_map; intros w Hw; first [eapply Hest; [reflexivity|]|eapply Hone; [reflexivity|]]; apply nesting_in; exact Hw).
  all: destruct (nth_error D _) as [[ts|k tags|k alts]|]; try apply ra_refl.
  - apply ra_usum. apply f2_map2; [apply ra_refl|]. intros w t Hw. eapply Hone; [reflexivity|apply nesting_in; exact Hw].
  - destruct (nth_error alts _) as [[tag ts]|]; [|apply ra_refl]. apply ra_bind; [|intros ?; apply ra_refl].
    apply ra_estimate. apply ra_usum. apply f2_map2; [apply ra_refl|]. intros w t Hw. eapply Hone; [reflexivity|apply nesting_in; exact Hw].
Qed.
Lemma estimate_frames f v t : ra (Z.of_nat f < 2 * nesting v) (estimate_in cf D kf f v t) (estimate cf D kf v t).
Proof.
  destruct f as [|f]; [apply ra_div; pose proof (nesting_pos v); lia|]. cbn [estimate_in]. apply ra_estimate.
  eapply ra_weaken; [|apply unknown_frames]. lia.
Qed.

Lemma write_frames f : forall v U (T : target U) t, wa (Z.of_nat f < 2 * nesting v) (write_in cf D kf f v U T t) (write_to cf D kf v U T t).
Proof.
  induction f as [f IH] using lt_wf_ind. intros v U T t. destruct f as [|f]; [intros u; apply ra_div; pose proof (nesting_pos v); lia|].
  assert (IHl : forall v t, ra (Z.of_nat f < 2 * nesting v + 1) (enc_len_in cf D kf f v t) (enc_len cf D kf v t)).
  { clear v t. intros v t. destruct f as [|g]; [apply ra_div; pose proof (nesting_pos v); lia|]. cbn [enc_len_in]. unfold enc_len.
    destruct (cf_est_override cf); [eapply ra_weaken; [|apply estimate_frames]; lia|]. apply ra_map.
    eapply ra_weaken; [|apply IH; lia]. lia. }
  assert (Hone : forall w n, nesting v = 1 + n -> nesting w <= n ->
    forall t, wa (Z.of_nat (S f) < 2 * nesting v) (write_in cf D kf f w U T t) (write_to cf D kf w U T t)).
  { intros w n Hv Hw t' u. eapply ra_weaken; [|apply IH; lia]. lia. }
  assert (Hlen : forall w n, nesting v = 1 + n -> nesting w <= n ->
    forall t, ra (Z.of_nat (S f) < 2 * nesting v) (enc_len_in cf D kf f w t) (enc_len cf D kf w t)).
  { intros w n Hv Hw t'. eapply ra_weaken; [|apply IHl]. lia. }
  clear IH IHl.
  destruct t, v; cbn [write_in write_to]; try apply wa_refl;
  try (repeat apply wa_add; first [apply wa_refl|eapply Hone; [reflexivity|apply Z.le_refl]
        |apply wa_sum; apply f2_map; intros w Hw; eapply Hone; [reflexivity|apply nesting_in; exact Hw]]).
  all: try (destruct (nth_error D _) as [[ts|k tags|k alts]|]; try apply wa_refl).
  - intros u. apply ra_bind; [eapply Hlen; [reflexivity|apply Z.le_refl]|]. intros l. apply ra_bind; [apply ra_refl|]. intros _.
    destruct (pref_try_from cf s l); [|apply ra_refl]. apply ra_bind; [apply ra_refl|]. intros ll. apply ra_bind; [apply ra_refl|]. intros total.
    apply wa_add; [|apply wa_refl]. apply wa_add; [apply wa_refl|]. eapply Hone; [reflexivity|apply Z.le_refl].
  - apply wa_add; [|apply wa_refl]. apply wa_sum. apply f2_map2; [apply wa_refl|]. intros w t Hw. eapply Hone; [reflexivity|apply nesting_in; exact Hw].
  - destruct (nth_error alts _) as [[tag ts]|]; [|apply wa_refl]. repeat apply wa_add; try apply wa_refl.
    apply wa_sum. apply f2_map2; [apply wa_refl|]. intros w t Hw. eapply Hone; [reflexivity|apply nesting_in; exact Hw].
Qed.
Lemma enc_len_frames f v t : ra (Z.of_nat f < 2 * nesting v + 1) (enc_len_in cf D kf f v t) (enc_len cf D kf v t).
Proof.
  destruct f as [|f]; [apply ra_div; pose proof (nesting_pos v); lia|]. cbn [enc_len_in]. unfold enc_len.
  destruct (cf_est_override cf); [eapply ra_weaken; [|apply estimate_frames]; lia|]. apply ra_map.
  eapply ra_weaken; [|apply write_frames]. lia.
Qed.
Lemma to_bytes_frames f v t : ra (Z.of_nat f < 2 * nesting v) (to_bytes_in cf D kf f v t) (to_bytes cf D kf v t).
Proof. apply ra_map. apply write_frames. Qed.

(** Every level of the value takes a frame. *)
Lemma add_ok {U} (w x : writer U) u r : w_add cf w x u = ROk r -> (exists r', w u = ROk r') /\ (exists u' r', x u' = ROk r').
Proof.
  unfold w_add. intros H. destruct (w u) as [r1| | | |] eqn:E; try discriminate H. cbn [rbind] in H.
  destruct (x (snd r1)) as [r2| | | |] eqn:E2; try discriminate H. split; [exists r1; reflexivity|exists (snd r1), r2; exact E2].
Qed.
Lemma sum_ok {U} (l : list (writer U)) : forall acc u r, w_sum cf acc l u = ROk r -> Forall (fun w => exists u r, w u = ROk r) l.
Proof.
  induction l as [|w l IH]; intros acc u r H; constructor; cbn [w_sum] in H;
    (destruct (w u) as [r1| | | |] eqn:E; try discriminate H); cbn [rbind] in H; [exists u, r1; exact E|].
  destruct (uadd (cf_mode cf) acc (fst r1)); try discriminate H. cbn [rbind] in H. exact (IH _ _ _ H).
Qed.
Lemma map2_ok {U} (g : val -> ty -> writer U) vs : forall ts, Forall (fun w => exists u r, w u = ROk r) (map2 g w_bad vs ts) ->
  forall v, In v vs -> exists t u r, g v t u = ROk r.
Proof.
  induction vs as [|v vs IH]; intros [|t ts] H w []; cbn [map2] in H; inversion H as [|? ? [u [r Hr]] Ht]; subst; try discriminate Hr.
  - exists t, u, r. exact Hr.
  - eapply IH; eassumption.
Qed.
Lemma write_needs f : forall v U (T : target U) t u r, write_in cf D kf f v U T t u = ROk r -> nesting v <= Z.of_nat f.
Proof.
  induction f as [|f IH]; intros v U T t u r H; [discriminate H|].
  assert (Hl : forall vs, (forall w, In w vs -> exists t u r, write_in cf D kf f w U T t u = ROk r) -> 1 + zmax_list (map nesting vs) <= Z.of_nat (S f)).
  { intros vs Hv. enough (zmax_list (map nesting vs) <= Z.of_nat f) by lia. apply flat_to_max; [lia|]. apply Forall_forall.
    intros w Hw. destruct (Hv w Hw) as [t' [u' [r' Hr]]]. exact (IH _ _ _ _ _ _ Hr). }
  assert (Hm : forall t vs acc u r, w_sum cf acc (map (fun w => write_in cf D kf f w U T t) vs) u = ROk r -> 1 + zmax_list (map nesting vs) <= Z.of_nat (S f)).
  { intros t' vs acc u' r' Hs. apply Hl. intros w Hw. apply sum_ok in Hs. rewrite Forall_map in Hs. rewrite Forall_forall in Hs.
    destruct (Hs w Hw) as [u2 [r2 Hr]]. exists t', u2, r2. exact Hr. }
  assert (Hm2 : forall ts vs acc u r, w_sum cf acc (map2 (fun w t => write_in cf D kf f w U T t) w_bad vs ts) u = ROk r -> 1 + zmax_list (map nesting vs) <= Z.of_nat (S f)).
  { intros ts vs acc u' r' Hs. apply Hl. intros w Hw. apply sum_ok in Hs. destruct (map2_ok _ _ _ Hs w Hw) as [t' [u2 [r2 Hr]]]. exists t', u2, r2. exact Hr. }
  destruct v; try (cbn [nesting]; lia); cbn [nesting].
  - assert (exists t u r, write_in cf D kf f v U T t u = ROk r) as [t' [u' [r' Hr]]]; [|apply IH in Hr; lia].
    destruct t; try discriminate H; cbn [write_in] in H.
    + apply add_ok in H. destruct H as [[r1 H] _]. apply add_ok in H. destruct H as [_ [u' [r' H]]]. eauto.
    + apply add_ok in H. destruct H as [[r1 H] _]. eauto.
    + destruct (nth_error D _) as [[]|]; discriminate H.
  - destruct t; try discriminate H; cbn [write_in] in H; try (apply add_ok in H; destruct H as [[r1 H] _]; exact (Hm _ _ _ _ _ H)).
    destruct (nth_error D _) as [[]|]; discriminate H.
  - destruct t; try discriminate H; cbn [write_in] in H. destruct (nth_error D _) as [[ts|k tags|k alts]|]; try discriminate H.
    apply add_ok in H; destruct H as [[r1 H] _]. exact (Hm2 _ _ _ _ _ H).
  - destruct t; try discriminate H; cbn [write_in] in H. destruct (nth_error D _) as [[ts|k tags|k alts]|]; try discriminate H.
    + destruct vs; [cbn; lia|discriminate H].
    + destruct (nth_error alts _) as [[tag ts]|]; [|discriminate H]. apply add_ok in H; destruct H as [[r1 H] _]. apply add_ok in H.
      destruct H as [_ [u1 [r2 H]]]. apply add_ok in H. destruct H as [[r3 H] _]. exact (Hm2 _ _ _ _ _ H).
  - assert (exists t u r, write_in cf D kf f v U T t u = ROk r) as [t' [u' [r' Hr]]]; [|apply IH in Hr; lia].
    destruct t; try discriminate H; cbn [write_in] in H; eauto.
    + match type of H with rbind ?x _ = _ => destruct x as [l| | | |]; try discriminate H end. cbn [rbind] in H.
      destruct (rassert _) as [[]| | | |]; try discriminate H. cbn [rbind] in H.
      destruct (pref_try_from cf s l); [|discriminate H]. match type of H with rbind ?x _ = _ => destruct x as [ll| | | |]; try discriminate H end. cbn [rbind] in H.
      destruct (uadd (cf_mode cf) l ll); try discriminate H. cbn [rbind] in H.
      apply add_ok in H. destruct H as [[r1 H] _]. apply add_ok in H. destruct H as [_ [u' [r' H]]]. eauto.
    + apply add_ok in H. destruct H as [[r1 H] _]. apply add_ok in H. destruct H as [[r2 H] _]. eauto.
    + destruct (nth_error D _) as [[]|]; discriminate H.
Qed.
End Enc.

(** ** Answers *)
Lemma ra_enough {X A} b (x y : res X A) : ra b x y -> ~ b -> x = y.
Proof. intros [H|[H _]] Hb; [exact H|contradiction]. Qed.
Lemma ra_answer {X A} b (x y : res X A) : ra b x y -> x <> RDiv -> x = y.
Proof. intros [H|[_ H]] Hb; [exact H|contradiction]. Qed.

Lemma write_enough cf D kf f v U (T : target U) t u : 2 * nesting v <= Z.of_nat f ->
  write_in cf D kf f v U T t u = write_to cf D kf v U T t u.
Proof. intros H. eapply ra_enough; [apply write_frames|lia]. Qed.
Lemma write_same cf D kf f v U (T : target U) t u : write_in cf D kf f v U T t u <> RDiv ->
  write_in cf D kf f v U T t u = write_to cf D kf v U T t u.
Proof. intros H. eapply ra_answer; [apply write_frames|exact H]. Qed.
Lemma length_enough cf D kf f v t : 2 * nesting v + 1 <= Z.of_nat f ->
  enc_len_in cf D kf f v t = enc_len cf D kf v t /\ estimate_in cf D kf f v t = estimate cf D kf v t.
Proof. intros H. split; eapply ra_enough; [apply enc_len_frames|lia|apply estimate_frames|lia]. Qed.
Lemma bytes_enough cf D kf f v t : 2 * nesting v <= Z.of_nat f -> to_bytes_in cf D kf f v t = to_bytes cf D kf v t.
Proof. intros H. eapply ra_enough; [apply to_bytes_frames|lia]. Qed.
Lemma bytes_needs cf D kf f v t bs : to_bytes_in cf D kf f v t = ROk bs -> nesting v <= Z.of_nat f.
Proof.
  unfold to_bytes_in. destruct (write_in cf D kf f v (list byte) tg_vec t []) as [r| | | |] eqn:E; intros H; try discriminate H.
  exact (write_needs _ _ _ _ _ _ _ _ _ _ E).
Qed.
Lemma decoded_enough w cf D kf f g t input v : decodes_in f w cf D t input (ROk v) -> (2 * f <= g)%nat ->
  to_bytes_in cf D kf g v t = to_bytes cf D kf v t.
Proof. intros H Hg. apply frames_value in H. apply bytes_enough. lia. Qed.

(** ** Payloads within payloads *)
Definition nested_defs : list def := [DStruct [TDyn PrefU30 (TNullable (TBox (TNamed 0)))]].
Fixpoint nested_val (n : nat) : val :=
  match n with O => VStruct [VWrap VNone] | S n => VStruct [VWrap (VSome (VWrap (nested_val n)))] end.
Lemma nested_nesting n : nesting (nested_val n) = 4 * Z.of_nat n + 3.
Proof. induction n as [|n IH]; [reflexivity|]. cbn [nested_val nesting map zmax_list fold_right]. unfold zmax_list. cbn [fold_right]. rewrite IH. lia. Qed.
Lemma nested_format n : zlen (format nested_defs (nested_val n) (TNamed 0)) = 4 * Z.of_nat n + 4.
Proof.
  induction n as [|n IH]; [reflexivity|]. cbn [nested_val format nested_defs nth_error concat2]. rewrite app_nil_r, zlen_app.
  fold nested_defs. rewrite IH. change (zlen (pref_format PrefU30 (4 * Z.of_nat n + 4))) with 4. lia.
Qed.
Lemma nested_valid b n : 4 * Z.of_nat n <= u30_max -> valid_gen b nested_defs (nested_val n) (TNamed 0) = true.
Proof.
  induction n as [|n IH]; intros Hn; [destruct b; reflexivity|]. cbn [nested_val valid_gen nested_defs nth_error all2]. fold nested_defs.
  rewrite IH by lia. cbn [andb format]. rewrite nested_format. cbn [pref_max]. rewrite andb_true_r. destruct b; cbn [implb]; lia.
Qed.
Lemma nested_writes cf kf n : cf_est_override cf = false -> forall f U (T : target U) u r,
  write_in cf nested_defs kf f (nested_val n) U T (TNamed 0) u = ROk r -> 5 * Z.of_nat n + 4 <= Z.of_nat f.
Proof.
  intros Hc. induction n as [|n IH]; intros f U T u r H.
  - do 4 (destruct f as [|f]; [cbn in H; rewrite ?Hc in H; discriminate H|]). lia.
  - destruct f as [|f]; [discriminate H|]. cbn [nested_val write_in nested_defs nth_error map2] in H. fold nested_defs in H.
    apply add_ok in H. destruct H as [[r1 H] _]. apply sum_ok in H. inversion H as [|? ? [u1 [r2 H1]] _]; subst. clear H.
    destruct f as [|f]; [discriminate H1|]. cbn [write_in] in H1. rewrite Hc in H1.
    destruct f as [|f]; [discriminate H1|]. 
    destruct f as [|f]; [discriminate H1|]. cbn [write_in] in H1.
    match type of H1 with rbind ?x _ = _ => destruct x as [l| | | |] eqn:E1; try discriminate H1 end. clear H1.
    match type of E1 with rmap _ ?x = _ => destruct x as [l1| | | |] eqn:E2; try discriminate E1 end. clear E1.
    apply add_ok in E2. destruct E2 as [[r3 E2] _].
    destruct f as [|f]; [discriminate E2|]. cbn [write_in] in E2. apply IH in E2. lia.
Qed.
Lemma nested_refuted cf kf w : cf_est_override cf = false -> (w = WSlice -> cf_complete cf = false) -> exists D I t,
  wf_defs D = true /\ wf_ty D t = true /\ disciplined D I = true /\ decodable I t = true /\
  forall n, 4 * Z.of_nat n <= 2 ^ 30 - 1 -> exists v bs,
    to_bytes cf D kf v t = ROk bs /\ zlen bs = 4 * Z.of_nat n + 4 /\
    decodes_in (4 * n + 3) w cf D t bs (ROk v) /\
    forall f, (f < 5 * n + 4)%nat -> to_bytes_in cf D kf f v t = RDiv.
Proof.
  intros Hc Hw. exists nested_defs, [mkInfo Delim true None], (TNamed 0).
  split; [reflexivity|]. split; [reflexivity|]. split; [reflexivity|]. split; [reflexivity|].
  intros n Hn. fold u30_max in Hn. assert (Hu : u30_max = 1073741823) by reflexivity. assert (Hi : 2147483647 <= isize_max) by (unfold isize_max; lia).
  pose proof (nested_format n) as Hf.
  exists (nested_val n), (format nested_defs (nested_val n) (TNamed 0)).
  assert (Ht : well_typed nested_defs (nested_val n) (TNamed 0) = true) by (apply nested_valid; lia).
  assert (He : to_bytes cf nested_defs kf (nested_val n) (TNamed 0) = ROk (format nested_defs (nested_val n) (TNamed 0))).
  { rewrite encode_is_format; try reflexivity; try assumption; [|lia]. replace (valid nested_defs (nested_val n) (TNamed 0)) with true; [reflexivity|].
    symmetry. apply nested_valid. lia. }
  split; [exact He|]. split; [exact Hf|]. split.
  - apply frames_exact; [|rewrite nested_nesting; lia].
    eapply round_trip_thm with (I := [mkInfo Delim true None]) (kf := kf); try reflexivity; try assumption; [lia|].
    intros H. rewrite H in Hc. discriminate Hc.
  - intros f Hl. pose proof (to_bytes_frames cf nested_defs kf f (nested_val n) (TNamed 0)) as [R|[_ R]]; [|exact R].
    exfalso. rewrite He in R. unfold to_bytes_in in R.
    destruct (write_in cf nested_defs kf f (nested_val n) (list byte) tg_vec (TNamed 0) []) as [r| | | |] eqn:E; try discriminate R.
    apply nested_writes in E; [lia|exact Hc].
Qed.
