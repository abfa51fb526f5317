(** Lemmas behind C74. *)
From Coq Require Import String.
From Verif Require Import Base BaseLemmas ModelErrors ModelHex ModelUtf8 ModelInt ModelSeq ModelSchema ModelDisplay ModelText.
From Verif Require Import SpecHex SpecUtf8 SpecDisplay SpecCodec SpecText.
From Verif Require Import ProofHex ProofUtf8 ProofLossy ProofSeq ProofCodec ProofCodecProps ProofDisplay.
From Coq Require Import ZifyBool.

Lemma small_digit c d : hex_digit c d -> d < 10 -> c = 48 + d.
Proof. intros H L. destruct H; lia. Qed.

Lemma numeral_text s n : numeral 10 s n -> forall s' n', numeral 10 s' n' -> n' = n -> s = s'.
Proof.
  induction 1 as [c d Hc Hd|s n c d H IH Hn Hc Hd]; intros s' n' H'; destruct H' as [c' d' Hc' Hd'|t m c' d' Ht Hm Hc' Hd']; intros E.
  - subst d'. rewrite (small_digit _ _ Hc Hd), (small_digit _ _ Hc' Hd'). reflexivity.
  - apply hex_digit_range in Hc'. lia.
  - apply hex_digit_range in Hc. lia.
  - pose proof (hex_digit_range _ _ Hc). pose proof (hex_digit_range _ _ Hc').
    assert (m = n) by lia. assert (d' = d) by lia. subst m d'.
    rewrite (IH _ _ Ht eq_refl), (small_digit _ _ Hc Hd), (small_digit _ _ Hc' Hd'). reflexivity.
Qed.

Lemma decimal_text s s' z : decimal s z -> decimal s' z -> s = s'.
Proof.
  intros [[H1 H2]|[H1 (t & -> & H2)]] [[H3 H4]|[H3 (t' & -> & H4)]]; try lia.
  - eapply numeral_text; [eassumption|eassumption|reflexivity].
  - f_equal. eapply numeral_text; [eassumption|eassumption|reflexivity].
Qed.

Lemma decimal_number s z z' : decimal s z -> decimal s z' -> z = z'.
Proof.
  intros [[H1 H2]|[H1 (t & -> & H2)]] [[H3 H4]|[H3 (t' & E & H4)]].
  - eapply numeral_fun; eassumption.
  - subst s. apply decimal_chars in H2. inversion H2. discriminate.
  - apply decimal_chars in H4. inversion H4. discriminate.
  - injection E as <-. pose proof (numeral_fun _ _ _ H2 _ H4). lia.
Qed.

Lemma display_text D num64 v : forall t s, textual t = true -> well_typed D v t = true ->
  (display num64 v t = Some s <-> text_of t v s).
Proof.
  induction v using val_ind'; intros t s T W; destruct t; try discriminate T; try discriminate W; cbn [display].
  all: try (split; [intros [= <-]; constructor; apply show_int_decimal
                   |intros H; inversion H; subst; f_equal; eapply decimal_text; [apply show_int_decimal|eassumption]]).
  - destruct b; split; try (intros [= <-]; constructor); intros H; inversion H; reflexivity.
  - split; [intros [= <-]; constructor|intros H; inversion H; reflexivity].
  - cbn in W. apply andb_prop in W as [W _]. apply forallb_byteb in W. unfold fs_display. split.
    + intros [= <-]. destruct (lossy_exact _ W) as (cs & H1 & _ & ->). constructor; exact H1.
    + intros H. inversion H; subst. f_equal. apply substituted_lossy; assumption.
  - cbn [textual] in T. rewrite (IHv t s T); [|cbn in W; exact W || (apply andb_prop in W; apply W)].
    split; [intros H; constructor; exact H|intros H; inversion H; assumption].
  - cbn [textual] in T. rewrite (IHv t s T); [|cbn in W; exact W || (apply andb_prop in W; apply W)].
    split; [intros H; constructor; exact H|intros H; inversion H; assumption].
Qed.

Lemma utf8_string_lossy bs : (exists cs, Forall scalar cs /\ bs = utf8_string cs) -> utf8_lossy bs = bs.
Proof.
  intros (cs & H & ->). pose proof (utf8_string_bytes cs H) as B.
  apply utf8_lossy_valid_id; [exact B|]. apply utf8_valid_iff; [exact B|]. exists cs. auto.
Qed.

Lemma display_unambiguous D num64 v : forall w t, textual t = true -> well_typed D v t = true -> well_typed D w t = true ->
  utf8_within v t -> utf8_within w t -> display num64 v t = display num64 w t -> v = w.
Proof.
  induction v using val_ind'; intros w t T W W' U U' E; destruct t; try discriminate T; try discriminate W;
    destruct w; try discriminate W'; cbn [display] in E.
  all: try unfold show_zarith in E.
  all: try (injection E as E; f_equal; eapply decimal_number; [apply show_int_decimal|]; rewrite E; apply show_int_decimal).
  - destruct b, b0; try reflexivity; discriminate E.
  - injection E as ->. reflexivity.
  - injection E as E. unfold fs_display in E. rewrite !utf8_string_lossy in E by assumption. subst. reflexivity.
  - f_equal. apply (IHv w t); try assumption; cbn in W, W'; (exact W || exact W' || (apply andb_prop in W; apply W) || (apply andb_prop in W'; apply W')).
  - f_equal. apply (IHv w t); try assumption; cbn in W, W'; (exact W || exact W' || (apply andb_prop in W; apply W) || (apply andb_prop in W'; apply W')).
Qed.

Lemma fixed_string_text n s : (exists cs, Forall scalar cs /\ s = utf8_string cs) -> zlen s = n ->
  exists v, fs_from_str n s = ROk v /\ fs_display v = s /\ fs_is_valid_utf8 v = true /\ fs_as_string_lossy v = s.
Proof.
  intros H L. exists s. split; [|split; [|split]].
  - unfold fs_from_str, fs_try_from_bytes, array_try_from. rewrite L, Z.eqb_refl. reflexivity.
  - apply utf8_string_lossy; exact H.
  - destruct H as (cs & H & ->). apply utf8_valid_iff; [apply utf8_string_bytes; exact H|]. exists cs. auto.
  - apply utf8_string_lossy; exact H.
Qed.

Lemma valid_utf8_flag v : bytes_ok v ->
  (fs_is_valid_utf8 v = true <-> exists cs, Forall scalar cs /\ v = utf8_string cs) /\
  (fs_is_valid_utf8 v = true -> fs_display v = v) /\ fs_as_string_lossy v = fs_display v.
Proof.
  intros B. split; [apply utf8_valid_iff; exact B|]. split; [|reflexivity].
  intros H. apply utf8_lossy_valid_id; assumption.
Qed.

Lemma fixed_bytes_hex v : bytes_ok v ->
  hex_denotes (fb_lower_hex v) v /\ Forall lower_hex (fb_lower_hex v) /\ bytes_of_hex (fb_lower_hex v) = ROk v.
Proof.
  intros B. destruct (to_hex_spec v B) as (H1 & H2 & _). split; [exact H1|]. split; [exact H2|]. apply hex_round_trip; exact B.
Qed.

Lemma dynamic_debug cf D kf dbg s v t bs : cf_est_override cf = false ->
  to_bytes cf D kf v t = ROk bs -> zlen bs <= isize_max ->
  exists ds, decimal ds (zlen bs) /\
    dyn_debug cf D kf dbg s v t = ROk (txt "[" ++ ds ++ prefix_name s ++ txt " bytes|" ++ dbg v t ++ txt "]").
Proof.
  intros O E L. exists (show_int (zlen bs)). split; [apply show_int_decimal|].
  unfold dyn_debug. destruct (enc_len_exact cf D kf v t bs O E L) as [-> _]. reflexivity.
Qed.
