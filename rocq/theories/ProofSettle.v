(** More steps never change an answer. *)
From Verif Require Import Base BaseLemmas ModelErrors ModelParser ModelInt ModelFloat ModelZarith
  ModelUtf8 ModelSchema SpecParser SpecCodec ProofDec.
From Coq Require Import ZifyBool.

(** [pg'] answers like [pg] wherever [pg] answers. *)
Definition approx {A} (pg pg' : prog A) : Prop := forall P (h : handler P) p r p',
  run h pg p = (r, p') -> r <> RDiv -> run h pg' p = (r, p').

Lemma ap_refl {A} (pg : prog A) : approx pg pg. Proof. intros P h p r p' H _; exact H. Qed.
Lemma ap_div {A} (pg : prog A) : approx PDiv pg.
Proof. intros P h p r p' H Hr. injection H as <- <-. congruence. Qed.
Lemma ap_bind {A B} (pg pg' : prog A) (k k' : A -> prog B) :
  approx pg pg' -> (forall a, approx (k a) (k' a)) -> approx (pbind pg k) (pbind pg' k').
Proof.
  intros Hp Hk P h p r p' H Hr. rewrite run_pbind in *. destruct (run h pg p) as [r0 p0] eqn:E0.
  assert (H0 : r0 <> RDiv) by (intros ->; injection H as <- _; congruence).
  rewrite (Hp P h p r0 p0 E0 H0). destruct r0; auto. apply (Hk a); assumption.
Qed.
Create HintDb ap.
#[export] Hint Resolve ap_refl ap_div : ap.
Ltac aps :=
  repeat first
    [ solve [auto with ap]
    | apply ap_bind; [|intros ?]
    | match goal with
      | |- approx (if ?b then _ else _) _ => destruct b
      | |- approx (match ?o with _ => _ end) _ => destruct o
      end ].

Lemma ap_seq {A} (e e' : prog A) f : forall f', (f <= f')%nat -> approx e e' -> forall acc, approx (p_seq_loop f e acc) (p_seq_loop f' e' acc).
Proof.
  induction f as [|f IH]; intros f' Hf He acc; cbn [p_seq_loop]; [aps|]. destruct f' as [|f']; [lia|].
  cbn [p_seq_loop]. assert (Hf' : (f <= f')%nat) by lia. aps.
Qed.
Lemma ap_lim {A} (e e' : prog A) n f : forall f', (f <= f')%nat -> approx e e' -> forall acc, approx (p_lim_loop f n e acc) (p_lim_loop f' n e' acc).
Proof.
  induction f as [|f IH]; intros f' Hf He acc; cbn [p_lim_loop]; [aps|]. destruct f' as [|f']; [lia|].
  cbn [p_lim_loop]. assert (Hf' : (f <= f')%nat) by lia. aps.
Qed.
Lemma ap_fix {A} (e e' : prog A) n f : forall f', (f <= f')%nat -> approx e e' -> forall acc, approx (p_fix_loop f n e acc) (p_fix_loop f' n e' acc).
Proof.
  induction f as [|f IH]; intros f' Hf He acc; cbn [p_fix_loop]; [aps|]. destruct f' as [|f']; [lia|].
  cbn [p_fix_loop]. assert (Hf' : (f <= f')%nat) by lia. aps.
Qed.
Lemma ap_fields (pe pe' : ty -> prog val) ts : (forall t, approx (pe t) (pe' t)) -> approx (p_fields pe ts) (p_fields pe' ts).
Proof. intros H. induction ts as [|t ts IH]; cbn [p_fields]; aps. Qed.
#[export] Hint Resolve ap_seq ap_lim ap_fix ap_fields : ap.

Lemma ap_parse cf D f : forall f' t, (f <= f')%nat -> approx (parse cf D f t) (parse cf D f' t).
Proof.
  induction f as [|f IH]; intros f' t Hf; [apply ap_div|]. destruct f' as [|f']; [lia|].
  assert (Hf' : (f <= f')%nat) by lia. cbn [parse]. destruct t; aps.
Qed.

Lemma run_with_mono {A} w m (pg pg' : prog A) input r : approx pg pg' -> run_with w m pg input = r -> r <> RDiv ->
  run_with w m pg' input = r.
Proof.
  intros Ha H Hr. destruct w; cbn [run_with] in *;
    match goal with H : fst (run ?h pg ?p) = r |- _ => destruct (run h pg p) as [r0 p0] eqn:E end;
    cbn [fst] in H; subst r0; rewrite (Ha _ _ _ _ _ E Hr); reflexivity.
Qed.
Lemma ap_then {A} (pg pg' : prog A) : approx pg pg' -> approx (then_rest pg) (then_rest pg').
Proof. intros H. unfold then_rest. aps. Qed.

Lemma try_decode_mono {P} (h : handler P) cl p cf D f f' t out : (f <= f')%nat ->
  try_decode h cl p cf D f t = out -> out <> RDiv -> try_decode h cl p cf D f' t = out.
Proof.
  intros Hf H Ho. unfold try_decode in *. destruct (run h (parse cf D f t) p) as [r p'] eqn:E.
  assert (Hr : r <> RDiv) by (intros ->; congruence).
  rewrite (ap_parse cf D f f' t Hf _ _ _ _ _ E Hr). exact H.
Qed.
Lemma decode_with_mono w cf D f f' t input out : (f <= f')%nat ->
  decode_with w cf D f t input = out -> out <> RDiv -> decode_with w cf D f' t input = out.
Proof. destruct w; cbn [decode_with]; apply try_decode_mono. Qed.

Lemma settles_unique {E A} (r : nat -> res E A) o1 o2 : settles r o1 -> settles r o2 -> o1 = o2.
Proof.
  intros [_ [f1 H1]] [_ [f2 H2]]. rewrite <- (H1 (Nat.max f1 f2)) by lia. apply H2. lia.
Qed.
Lemma decodes_at w cf D t input f out : decode_with w cf D f t input = out -> out <> RDiv -> decodes w cf D t input out.
Proof. intros H Ho. split; [exact Ho|]. exists f. intros f' Hf. eapply decode_with_mono; eassumption. Qed.
Lemma reads_at w cf D t input f out :
  run_with w (cf_mode cf) (then_rest (parse cf D f t)) input = out -> out <> RDiv -> reads w cf D t input out.
Proof.
  intros H Ho. split; [exact Ho|]. exists f. intros f' Hf. eapply run_with_mono; [|exact H|exact Ho].
  apply ap_then, ap_parse; exact Hf.
Qed.
Lemma settles_at {E A} (r : nat -> res E A) out : settles r out -> exists f, r f = out.
Proof. intros [_ [f H]]. exists f. apply H. lia. Qed.
