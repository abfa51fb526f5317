(** Proofs about the UTF-8 functions (C40). *)
From Verif Require Import Base BaseLemmas ModelUtf8 SpecUtf8.
From Coq Require Import ZifyBool.

#[local] Ltac Zify.zify_post_hook ::= Z.div_mod_to_equations.

Ltac u8simp := unfold second3, second4, is_cont, in_range in *.
Ltac u8cases :=
  repeat match goal with
  | |- context [if ?b then _ else _] =>
      lazymatch b with context [if _ then _ else _] => fail | _ => idtac end;
      let H := fresh "C" in destruct b eqn:H; try (exfalso; lia)
  end.

Lemma utf8_encode_bytes c : scalar c -> bytes_ok (utf8_encode c).
Proof.
  unfold scalar, utf8_encode, bytes_ok; intros H; u8cases;
    repeat (constructor; [unfold is_byte; lia|]); constructor.
Qed.

Lemma utf8_encode_nonempty c : utf8_encode c <> [].
Proof. unfold utf8_encode; u8cases; discriminate. Qed.

Lemma utf8_next_encode c rest : scalar c ->
  match utf8_encode c with
  | [] => False
  | b0 :: l => utf8_next b0 (l ++ rest) = (length (utf8_encode c), true)
  end.
Proof.
  unfold scalar, utf8_encode; intros H; u8cases; cbn [app length];
    unfold utf8_next, safe_get; cbn [nth]; u8simp; u8cases; reflexivity.
Qed.

Lemma safe_get_pos i rest (p : Z -> bool) :
  p 0 = false -> p (safe_get i rest) = true -> (i < length rest)%nat.
Proof.
  intros H0 H. destruct (lt_dec i (length rest)); [assumption|].
  unfold safe_get in H. rewrite nth_overflow in H by lia. congruence.
Qed.

(** A successful round takes the encoding of a scalar value. *)
Lemma utf8_next_ok b0 rest n :
  is_byte b0 -> utf8_next b0 rest = (n, true) ->
  exists c, scalar c /\ firstn n (b0 :: rest) = utf8_encode c /\ (n <= length (b0 :: rest))%nat.
Proof.
  unfold is_byte; intros Hb. unfold utf8_next.
  destruct (b0 <? 0x80) eqn:C0.
  { intros E; injection E as <-. exists b0. split; [left; lia|].
    split; [unfold utf8_encode; rewrite C0; reflexivity|cbn; lia]. }
  destruct (in_range 0xc2 0xdf b0) eqn:C1.
  { destruct (is_cont (safe_get 0 rest)) eqn:K1; [|discriminate]. intros E; injection E as <-.
    pose proof (safe_get_pos 0 rest is_cont eq_refl K1).
    destruct rest as [|b1 rest]; [cbn in *; lia|]. unfold safe_get in *; cbn [nth] in *.
    exists ((b0 - 0xc0) * 64 + (b1 - 0x80)). u8simp.
    split; [left; lia|]. split; [|cbn; lia].
    cbn [firstn]. unfold utf8_encode; u8cases. repeat f_equal; lia. }
  destruct (in_range 0xe0 0xef b0) eqn:C2.
  { destruct (second3 b0 (safe_get 0 rest)) eqn:K1; [|discriminate].
    destruct (is_cont (safe_get 1 rest)) eqn:K2; [|discriminate]. intros E; injection E as <-.
    pose proof (safe_get_pos 1 rest is_cont eq_refl K2).
    destruct rest as [|b1 [|b2 rest]]; [cbn in *; lia|cbn in *; lia|].
    unfold safe_get in *; cbn [nth] in *.
    exists ((b0 - 0xe0) * 4096 + (b1 - 0x80) * 64 + (b2 - 0x80)). u8simp.
    split; [unfold scalar; lia|]. split; [|cbn; lia].
    cbn [firstn]. unfold utf8_encode; u8cases. f_equal; [lia|]. f_equal; [lia|]. f_equal; lia. }
  destruct (in_range 0xf0 0xf4 b0) eqn:C3; [|discriminate].
  destruct (second4 b0 (safe_get 0 rest)) eqn:K1; [|discriminate].
  destruct (is_cont (safe_get 1 rest)) eqn:K2; [|discriminate].
  destruct (is_cont (safe_get 2 rest)) eqn:K3; [|discriminate]. intros E; injection E as <-.
  pose proof (safe_get_pos 2 rest is_cont eq_refl K3).
  destruct rest as [|b1 [|b2 [|b3 rest]]]; try (cbn in *; lia).
  unfold safe_get in *; cbn [nth] in *.
  exists ((b0 - 0xf0) * 262144 + (b1 - 0x80) * 4096 + (b2 - 0x80) * 64 + (b3 - 0x80)). u8simp.
  split; [unfold scalar; lia|]. split; [|cbn; lia].
  cbn [firstn]. unfold utf8_encode; u8cases. f_equal; [lia|]. f_equal; [lia|]. f_equal; [lia|]. f_equal; lia.
Qed.

Lemma utf8_next_pos b0 rest : (1 <= fst (utf8_next b0 rest))%nat.
Proof. unfold utf8_next; u8cases; cbn; lia. Qed.

Lemma utf8_string_cons c cs : utf8_string (c :: cs) = utf8_encode c ++ utf8_string cs.
Proof. reflexivity. Qed.

Lemma utf8_step fuel c x : scalar c -> (length (utf8_encode c ++ x) <= S fuel)%nat ->
  exists n, (length x <= fuel)%nat /\ (n = length (utf8_encode c)) /\
  utf8_valid_loop (S fuel) (utf8_encode c ++ x) = utf8_valid_loop fuel x /\
  utf8_lossy_loop (S fuel) (utf8_encode c ++ x) = utf8_encode c ++ utf8_lossy_loop fuel x.
Proof.
  intros Hc Hf. pose proof (utf8_next_encode c x Hc) as Hn.
  remember (utf8_encode c) as e. destruct e as [|b0 l]; [contradiction|].
  exists (length (b0 :: l)). split; [rewrite app_length in Hf; cbn in Hf; lia|]. split; [reflexivity|].
  cbn [app utf8_valid_loop utf8_lossy_loop]. rewrite Hn.
  change (b0 :: l ++ x) with ((b0 :: l) ++ x).
  rewrite skipn_app, skipn_all, Nat.sub_diag, firstn_app, firstn_all, Nat.sub_diag. cbn [skipn firstn app andb].
  rewrite app_nil_r. split; reflexivity.
Qed.

Lemma utf8_loops_string fuel cs : Forall scalar cs -> (length (utf8_string cs) <= fuel)%nat ->
  utf8_valid_loop fuel (utf8_string cs) = true /\ utf8_lossy_loop fuel (utf8_string cs) = utf8_string cs.
Proof.
  revert fuel; induction cs as [|c cs IH]; intros fuel Hs Hf.
  - destruct fuel; split; reflexivity.
  - inversion Hs as [|? ? Hc Hcs]; subst. rewrite utf8_string_cons in *.
    destruct fuel as [|fuel].
    { exfalso. rewrite app_length in Hf. pose proof (utf8_encode_nonempty c).
      destruct (utf8_encode c); [congruence|cbn in Hf; lia]. }
    destruct (utf8_step fuel c (utf8_string cs) Hc Hf) as (n & Hx & _ & -> & ->).
    destruct (IH fuel Hcs Hx) as [-> ->]. split; reflexivity.
Qed.

Lemma utf8_valid_loop_string fuel l : bytes_ok l -> utf8_valid_loop fuel l = true ->
  exists cs, Forall scalar cs /\ l = utf8_string cs.
Proof.
  revert l; induction fuel as [|fuel IH]; intros l Hb.
  - destruct l; cbn [utf8_valid_loop]; [|discriminate]. intros _. exists []. split; [constructor|reflexivity].
  - destruct l as [|b0 rest]; cbn [utf8_valid_loop].
    { intros _. exists []. split; [constructor|reflexivity]. }
    destruct (utf8_next b0 rest) as [n ok] eqn:En. intros H. apply andb_prop in H. destruct H as [-> H].
    inversion Hb as [|? ? Hb0 Hbr]; subst.
    destruct (utf8_next_ok _ _ _ Hb0 En) as (c & Hc & Ef & _).
    destruct (IH (skipn n (b0 :: rest))) as (cs & Hcs & E); [|exact H|].
    { rewrite <- (firstn_skipn n (b0 :: rest)) in Hb. apply bytes_ok_app in Hb; tauto. }
    exists (c :: cs). split; [constructor; assumption|].
    rewrite utf8_string_cons, <- Ef, <- E. symmetry; apply firstn_skipn.
Qed.

(** ** C40 *)
Lemma utf8_valid_iff l : bytes_ok l ->
  (utf8_valid l = true <-> exists cs, Forall scalar cs /\ l = utf8_string cs).
Proof.
  intros Hb. split.
  - apply utf8_valid_loop_string; assumption.
  - intros (cs & Hcs & ->). apply utf8_loops_string; [assumption|lia].
Qed.

Lemma utf8_string_bytes cs : Forall scalar cs -> bytes_ok (utf8_string cs).
Proof.
  induction 1; [constructor|]. rewrite utf8_string_cons. apply bytes_ok_app. split; [|assumption].
  apply utf8_encode_bytes; assumption.
Qed.

Lemma utf8_lossy_valid_id l : bytes_ok l -> utf8_valid l = true -> utf8_lossy l = l.
Proof.
  intros Hb H. apply utf8_valid_iff in H; [|assumption]. destruct H as (cs & Hcs & ->).
  apply utf8_loops_string; [assumption|lia].
Qed.

Lemma replacement_scalar : scalar 0xfffd /\ replacement = utf8_encode 0xfffd.
Proof. split; [right; lia|reflexivity]. Qed.

Lemma utf8_lossy_loop_string fuel l : bytes_ok l ->
  exists cs, Forall scalar cs /\ utf8_lossy_loop fuel l = utf8_string cs.
Proof.
  revert l; induction fuel as [|fuel IH]; intros l Hb.
  - exists []. split; [constructor|]. destruct l; reflexivity.
  - destruct l as [|b0 rest]; cbn [utf8_lossy_loop].
    { exists []. split; [constructor|reflexivity]. }
    destruct (utf8_next b0 rest) as [n ok] eqn:En.
    inversion Hb as [|? ? Hb0 Hbr]; subst.
    destruct (IH (skipn n (b0 :: rest))) as (cs & Hcs & E).
    { rewrite <- (firstn_skipn n (b0 :: rest)) in Hb. apply bytes_ok_app in Hb; tauto. }
    rewrite E. destruct ok.
    + destruct (utf8_next_ok _ _ _ Hb0 En) as (c & Hc & Ef & _).
      exists (c :: cs). split; [constructor; assumption|]. rewrite utf8_string_cons.
      exact (f_equal2 (@app byte) Ef eq_refl).
    + exists (0xfffd :: cs). split; [constructor; [apply replacement_scalar|assumption]|].
      reflexivity.
Qed.

Lemma utf8_lossy_string l : bytes_ok l ->
  exists cs, Forall scalar cs /\ utf8_lossy l = utf8_string cs.
Proof. apply utf8_lossy_loop_string. Qed.

Lemma utf8_lossy_valid l : bytes_ok l -> utf8_valid (utf8_lossy l) = true /\ bytes_ok (utf8_lossy l).
Proof.
  intros Hb. destruct (utf8_lossy_string l Hb) as (cs & Hcs & ->).
  pose proof (utf8_string_bytes cs Hcs) as Hbs. split; [|assumption].
  apply utf8_valid_iff; [assumption|]. exists cs; split; [assumption|reflexivity].
Qed.

Lemma utf8_fuel fuel l : (length l <= fuel)%nat ->
  utf8_lossy_loop fuel l = utf8_lossy l /\ utf8_valid_loop fuel l = utf8_valid l.
Proof.
  unfold utf8_lossy, utf8_valid.
  assert (H : forall n f g l, (length l <= n)%nat -> (length l <= f)%nat -> (length l <= g)%nat ->
            utf8_lossy_loop f l = utf8_lossy_loop g l /\ utf8_valid_loop f l = utf8_valid_loop g l).
  { clear. induction n as [|n IH]; intros f g l Hn Hf Hg.
    - destruct l; [|cbn in Hn; lia]. destruct f, g; split; reflexivity.
    - destruct l as [|b l]; [destruct f, g; split; reflexivity|].
      destruct f as [|f]; [cbn in Hf; lia|]. destruct g as [|g]; [cbn in Hg; lia|].
      cbn [utf8_lossy_loop utf8_valid_loop]. destruct (utf8_next b l) as [k ok] eqn:E.
      pose proof (utf8_next_pos b l) as Hp. rewrite E in Hp; cbn [fst] in Hp.
      assert (Hs : (length (skipn k (b :: l)) <= length l)%nat) by (rewrite skipn_length; cbn [length]; lia).
      cbn [length] in Hn, Hf, Hg.
      destruct (IH f g (skipn k (b :: l))) as [-> ->]; try lia. split; reflexivity. }
  intros Hl. destruct (H (length l) fuel (length l) l) as [-> ->]; try lia. split; reflexivity.
Qed.

Lemma utf8_lossy_app cs x : Forall scalar cs ->
  utf8_lossy (utf8_string cs ++ x) = utf8_string cs ++ utf8_lossy x /\
  utf8_valid (utf8_string cs ++ x) = utf8_valid x.
Proof.
  induction 1 as [|c cs Hc Hcs [IH1 IH2]]; [split; reflexivity|].
  rewrite utf8_string_cons, <- !app_assoc. set (y := utf8_string cs ++ x) in *.
  assert (Hl : (length (utf8_encode c ++ y) <= S (length (utf8_encode c ++ y)))%nat) by lia.
  assert (Hl' : exists k, length (utf8_encode c ++ y) = S k).
  { rewrite app_length. pose proof (utf8_encode_nonempty c).
    destruct (utf8_encode c); [congruence|]. cbn; eauto. }
  destruct Hl' as [k Ek].
  destruct (utf8_step k c y Hc ltac:(lia)) as (n & Hy & _ & Ev & El).
  destruct (utf8_fuel k y Hy) as [F1 F2].
  unfold utf8_lossy at 1, utf8_valid at 1. rewrite Ek, Ev, El, F1, F2, IH1, IH2. split; reflexivity.
Qed.

(** Bytes that are not UTF-8: the longest valid prefix is kept and followed by
    a replacement character. *)
Lemma utf8_lossy_invalid l : bytes_ok l -> utf8_valid l = false ->
  exists good bad cs, l = utf8_string good ++ bad /\ bad <> [] /\
    (forall c rest, scalar c -> bad <> utf8_encode c ++ rest) /\ Forall scalar good /\ Forall scalar cs /\
    utf8_lossy l = utf8_string (good ++ 0xfffd :: cs).
Proof.
  intros Hb. remember (length l) as n eqn:En. assert (Hn : (length l <= n)%nat) by lia. clear En.
  revert l Hb Hn; induction n as [|n IH]; intros l Hb Hn Hv.
  - destruct l; [discriminate|cbn in Hn; lia].
  - destruct l as [|b0 rest]; [discriminate|].
    unfold utf8_valid in Hv. cbn [length utf8_valid_loop] in Hv.
    destruct (utf8_next b0 rest) as [k ok] eqn:E.
    inversion Hb as [|? ? Hb0 Hbr]; subst.
    pose proof (utf8_next_pos b0 rest) as Hp. rewrite E in Hp; cbn [fst] in Hp.
    assert (Hs : (length (skipn k (b0 :: rest)) <= length rest)%nat) by (rewrite skipn_length; cbn [length]; lia).
    assert (Hbs : bytes_ok (skipn k (b0 :: rest))).
    { rewrite <- (firstn_skipn k (b0 :: rest)) in Hb. apply bytes_ok_app in Hb; tauto. }
    destruct ok.
    + cbn [andb] in Hv. rewrite (proj2 (utf8_fuel (length rest) _ Hs)) in Hv.
      cbn [length] in Hn.
      destruct (IH _ Hbs ltac:(lia) Hv) as (good & bad & cs & El & Hbad & Hstart & Hg & Hcs & E2).
      destruct (utf8_next_ok _ _ _ Hb0 E) as (c & Hc & Ef & _).
      exists (c :: good), bad, cs.
      assert (E3 : b0 :: rest = utf8_encode c ++ skipn k (b0 :: rest))
        by (rewrite <- Ef; symmetry; apply firstn_skipn).
      split; [rewrite utf8_string_cons, <- app_assoc, <- El; exact E3|].
      split; [exact Hbad|]. split; [exact Hstart|]. split; [constructor; assumption|]. split; [exact Hcs|].
      rewrite E3. change (utf8_encode c) with (utf8_encode c).
      assert (E4 : utf8_encode c = utf8_string [c]) by (unfold utf8_string; cbn; rewrite app_nil_r; reflexivity).
      rewrite E4. rewrite (proj1 (utf8_lossy_app [c] _ (Forall_cons _ Hc (Forall_nil _)))).
      rewrite <- E4, E2. reflexivity.
    + destruct (utf8_lossy_loop_string (length rest) _ Hbs) as (cs & Hcs & E2).
      exists [], (b0 :: rest), cs. split; [reflexivity|]. split; [discriminate|].
      split; [|split; [constructor|]].
      1:{ intros c r Hc Ec. pose proof (utf8_next_encode c r Hc) as Hn'. destruct (utf8_encode c) as [|b l']; [exact Hn'|].
          cbn [app] in Ec. injection Ec as -> ->. congruence. }
       split; [exact Hcs|].
      unfold utf8_lossy. cbn [length utf8_lossy_loop]. rewrite E, E2. reflexivity.
Qed.
