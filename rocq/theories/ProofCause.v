(** C80: causes of errors. *)
From Coq Require Import String.
From Verif Require Import Base BaseLemmas ModelErrors ModelParser ModelSchema ModelHex ModelInput ModelDisplay ModelCause
  SpecCodec SpecError SpecCause ProofError.

Lemma ends_refl t : ends_in t t.
Proof. exists []. reflexivity. Qed.
Lemma ends_trans a b c : ends_in a b -> ends_in b c -> ends_in a c.
Proof. intros [x ->] [y ->]. exists (x ++ y). apply app_assoc. Qed.

Section Causes.
Variables (utf8 slice : list byte) (boxed : list byte * list (list byte)).
Notation src := (source_of utf8 slice boxed).

Lemma foreign_chain text causes : exists l, chain src (AForeign text causes) l /\ zlen l = 1 + zlen causes.
Proof.
  revert text. induction causes as [|c causes IH]; intros text.
  - exists [AForeign text []]. split; [apply chain_root; reflexivity|reflexivity].
  - destruct (IH c) as (l & H & E). exists (AForeign text (c :: causes) :: l). split; [eapply chain_cause; [reflexivity|exact H]|].
    rewrite !zlen_cons. lia.
Qed.

Local Ltac len := rewrite ?zlen_cons; change (zlen (@nil any_error)) with 0; lia.
Local Ltac stop := eexists; split; [apply chain_root; reflexivity|].
Local Ltac step H := let l := fresh "l" in let C := fresh "C" in let L := fresh "L" in
  destruct H as (l & C & L); eexists; split; [eapply chain_cause; [reflexivity|exact C]|rewrite zlen_cons].

Lemma core_chain t : exists l, chain src (ACore t) l /\ zlen l <= 1.
Proof. stop. len. Qed.
Lemma short l (e : any_error) n : l = [e] -> 1 <= n -> zlen l <= n. Proof. intros ->. change (zlen [e]) with 1. trivial. Qed.
Lemma bounds_chain f e : exists l, chain src (ABounds f e) l /\ zlen l <= 2.
Proof.
  destruct e; try (stop; eapply short; [reflexivity|lia]). step (core_chain try_from_int_text). lia.
Qed.
Lemma external_chain e : exists l, chain src (AExternal e) l /\ zlen l <= 3 + zlen (snd boxed).
Proof.
  pose proof (zlen_nonneg (snd boxed)). destruct e.
  - step (core_chain utf8). lia.
  - step (bounds_chain false e). lia.
  - step (bounds_chain true e). lia.
  - eexists. split; [eapply chain_cause; [reflexivity|apply chain_root; reflexivity]|]. len.
  - eexists. split; [eapply chain_cause; [reflexivity|apply chain_root; reflexivity]|]. len.
  - step (foreign_chain (fst boxed) (snd boxed)). lia.
Qed.
Lemma parse_chain e : exists l, chain src (AParse e) l /\ zlen l <= 4 + zlen (snd boxed).
Proof.
  pose proof (zlen_nonneg (snd boxed)). destruct e as [e|e|e|e].
  - eexists. split; [eapply chain_cause; [reflexivity|apply chain_root; reflexivity]|]. len.
  - destruct e.
    + eexists. split; [eapply chain_cause; [reflexivity|eapply chain_cause; [reflexivity|apply chain_root; reflexivity]]|]. len.
    + eexists. split; [eapply chain_cause; [reflexivity|apply chain_root; reflexivity]|]. len.
  - step (external_chain e). lia.
  - destruct e; try (eexists; split; [eapply chain_cause; [reflexivity|apply chain_root; reflexivity]|]; len).
    eexists. split; [eapply chain_cause; [reflexivity|eapply chain_cause; [reflexivity|apply chain_root; reflexivity]]|]. len.
Qed.
Lemma invariant_chain e : exists l, chain src (AInvariant e) l /\ zlen l <= 5 + zlen (snd boxed).
Proof.
  pose proof (zlen_nonneg (snd boxed)). destruct e as [e|e|e].
  - eexists. split; [eapply chain_cause; [reflexivity|apply chain_root; reflexivity]|]. len.
  - step (parse_chain e). lia.
  - step (parse_chain e). lia.
Qed.

Lemma chain_unique e l : chain src e l -> forall l', chain src e l' -> l = l'.
Proof.
  induction 1 as [e H|e c l H C IH]; intros l' C'; inversion C'; subst; try congruence.
  f_equal. apply IH. congruence.
Qed.

Lemma decode_chain e : exists l, chain src (ADecode e) l /\ (forall l', chain src (ADecode e) l' -> l' = l) /\
  zlen l <= 6 + zlen (snd boxed).
Proof.
  assert (H : exists l, chain src (ADecode e) l /\ zlen l <= 6 + zlen (snd boxed)).
  { pose proof (zlen_nonneg (snd boxed)). destruct e as [e|[e|e|lo]].
    - eexists. split; [eapply chain_cause; [reflexivity|apply chain_root; reflexivity]|]. len.
    - step (parse_chain e). lia.
    - step (invariant_chain e). lia.
    - stop. len. }
  destruct H as (l & C & L). exists l. split; [exact C|]. split; [|exact L]. intros l' C'. eapply chain_unique; eassumption.
Qed.


Lemma chain_raised e l : chain src (ADecode (IDecode (DParse e))) l ->
  In (AParse e) l /\ In (raised e) l.
Proof.
  intros C. destruct e as [e|[|]|[|e|e|e|e|]|[b|w a ex|b|p]]; inversion C as [? H1|? ? l1 H1 C1]; subst; try discriminate H1; cbn in H1; injection H1 as <-;
    inversion C1 as [? H2|? ? l2 H2 C2]; subst; try discriminate H2; cbn in H2; injection H2 as <-;
    inversion C2 as [? H3|? ? l3 H3 C3]; subst; try discriminate; cbn [raised]; cbn [In]; auto 8;
    cbn in H3; injection H3 as <-; (split; [auto|]); inversion C3; subst; cbn [In]; auto 8.
Qed.

Lemma justified_quotes cf D t input e l : justified cf D t input e -> chain src (ADecode (IDecode (DParse e))) l ->
  Forall (fun c => quotes c = true) l.
Proof.
  intros J C. destruct e as [e|[|]|[|e|e|e|e|]|[b|w a ex|b|p]]; try contradiction J; inversion C as [? H1|? ? l1 H1 C1]; subst; try discriminate H1; cbn in H1; injection H1 as <-;
    inversion C1 as [? H2|? ? l2 H2 C2]; subst; try discriminate H2; cbn in H2; injection H2 as <-;
    inversion C2 as [? H3|? ? l3 H3 C3]; subst; try discriminate; repeat (constructor; [reflexivity|]); try constructor;
    cbn in H3; injection H3 as <-; inversion C3 as [? H4|? ? l4 H4 C4]; subst; try discriminate; repeat (constructor; [reflexivity|]); try constructor;
    cbn in H4; try discriminate H4.
  all: destruct e; try discriminate H4; injection H4 as <-; inversion C4; subst; try discriminate; repeat constructor.
Qed.
End Causes.

Section Texts.
Variables (for_type utf8 slice : list byte) (boxed : list byte * list (list byte))
  (num64 : Z -> list byte) (debug_leftover : leftover -> list byte).
Notation src := (source_of utf8 slice boxed).
Notation txt_of := (text_of for_type utf8 boxed num64 debug_leftover).

Lemma text_ends e c : src e = Some c -> quotes e = true -> ends_in (txt_of e) (txt_of c).
Proof.
  intros H Q. destruct e as [[e|[e|e|lo]]|[e|e|e]|[e|e|e|e]|e|[|]|[|e|e|e|e|]|[b|w a ex|b|p]|w a|f [| | | |]|e|e|e|t|t [|c0 cs]];
    cbn in H; try discriminate H; try discriminate Q; injection H as <-; cbn [text_of show_decode show_invariant show_parse show_external show_token show_bounds];
    try apply ends_refl; try (eexists; reflexivity).
Qed.

Lemma chain_ends e l : chain src e l -> Forall (fun c => quotes c = true) (removelast l) ->
  Forall (fun c => ends_in (txt_of e) (txt_of c)) l.
Proof.
  induction 1 as [e H|e c l H C IH]; intros F.
  - constructor; [apply ends_refl|constructor].
  - constructor; [apply ends_refl|]. destruct l as [|c0 l]; [inversion C|].
    change (removelast (e :: c0 :: l)) with (e :: removelast (c0 :: l)) in F. inversion F as [|? ? Q F']; subst.
    eapply Forall_impl; [|apply IH; exact F']. intros x Hx. eapply ends_trans; [|exact Hx]. apply text_ends; assumption.
Qed.
End Texts.


Lemma removelast_Forall {A} (Q : A -> Prop) l : Forall Q l -> Forall Q (removelast l).
Proof.
  induction 1 as [|x l Hx Hl IH]; [constructor|]. cbn [removelast]. destruct l; [constructor|]. constructor; assumption.
Qed.

Lemma decoding_texts cf D t input :
  wf_defs D = true -> wf_ty D t = true -> pads_ok cf D t = true -> bytes_ok input -> zlen input <= isize_max ->
  forall w e, decodes w cf D t input (RErr (DParse e)) ->
  forall for_type utf8 slice boxed num64 debug_leftover l, chain (source_of utf8 slice boxed) (ADecode (IDecode (DParse e))) l ->
  Forall (fun c => ends_in (text_of for_type utf8 boxed num64 debug_leftover (ADecode (IDecode (DParse e))))
                           (text_of for_type utf8 boxed num64 debug_leftover c)) l.
Proof.
  intros HD HW HP HB HL w e H ft u8 sl bx n64 dl l C. pose proof (errors_justified cf D t input HD HW HP HB HL w e H) as J.
  eapply chain_ends; [exact C|]. apply removelast_Forall. eapply justified_quotes; eassumption.
Qed.

Lemma repeated for_type utf8 slice boxed num64 debug_leftover :
  (forall e, exists c, source_of utf8 slice boxed (AParse e) = Some c /\
     text_of for_type utf8 boxed num64 debug_leftover (AParse e) = text_of for_type utf8 boxed num64 debug_leftover c) /\
  (forall e, e <> UncoercableString -> exists c, source_of utf8 slice boxed (AExternal e) = Some c /\
     text_of for_type utf8 boxed num64 debug_leftover (AExternal e) = text_of for_type utf8 boxed num64 debug_leftover c).
Proof.
  split.
  - intros [e|e|e|e]; eexists; split; reflexivity.
  - intros [|e|e|e|e|] N; try (eexists; split; reflexivity). congruence.
Qed.

Lemma slice_not_quoted : exists e c,
  source_of (txt "utf8") (txt "could not convert slice to array") (txt "other", []) e = Some c /\
  (forall text cs, e <> AForeign text cs) /\
  ~ ends_in (text_of [] (txt "utf8") (txt "other", []) show_int (fun _ => []) e)
            (text_of [] (txt "utf8") (txt "other", []) show_int (fun _ => []) c).
Proof.
  exists (AInternal SliceCoerceFailure). eexists. split; [reflexivity|]. split; [discriminate|]. intros [front E].
  apply (f_equal (@rev byte)) in E. rewrite rev_app_distr in E. apply (f_equal (firstn 7)) in E.
  rewrite firstn_app in E. vm_compute in E. destruct (rev front); discriminate E.
Qed.
