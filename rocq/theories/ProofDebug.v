(** Proofs about debug texts. *)
From Coq Require Import String.
From Verif Require Import Base BaseLemmas ModelErrors ModelHex ModelUtf8 ModelInt ModelTarget ModelSchema ModelDisplay ModelText ModelDebug.
From Verif Require Import SpecHex SpecUtf8 SpecDisplay SpecCodec SpecText SpecCompare SpecDebug ProofUtf8 ProofCodec ProofHex ProofDisplay ProofText
  ProofEnc ProofEncValid ProofEncBytes ProofCodecProps.
From Coq Require Import ZifyBool.

(** ** Cutting a text *)
Section Cut.
Variable p : byte -> bool.
Definition opens (r : list byte) : Prop := match r with [] => True | c :: _ => p c = true end.
Definition without (s : list byte) : Prop := Forall (fun c => p c = false) s.
Lemma cut_at s : forall s' r r', without s -> without s' -> opens r -> opens r' -> s ++ r = s' ++ r' -> s = s' /\ r = r'.
Proof.
  induction s as [|c s IH]; intros s' r r' F F' O O' E.
  - destruct s' as [|c s']; [split; [reflexivity|exact E]|]. cbn [app] in E. subst r. cbn [opens] in O.
    inversion F'; congruence.
  - destruct s' as [|c' s'].
    + cbn [app] in E. subst r'. cbn [opens] in O'. inversion F; congruence.
    + injection E as -> E. inversion F; inversion F'; subst. destruct (IH s' r r') as [-> ->]; auto.
Qed.
End Cut.

Definition stop (c : byte) : bool := (c =? 44) || (c =? 32) || (c =? 41) || (c =? 93) || (c =? 125).
Definition stop' (c : byte) : bool := stop c || (c =? 40).
Lemma ends_opens r : ends_value r -> opens stop r.
Proof.
  destruct r as [|c r]; [trivial|]. cbn [ends_value opens]. intros H.
  change (txt ", )]}") with [44; 32; 41; 93; 125] in H. cbn [In] in H.
  unfold stop. unfold byte in *. lia.
Qed.
Lemma opens_stop' r : opens stop r -> opens stop' r.
Proof. destruct r as [|c r]; [trivial|]. cbn [opens]. unfold stop'. intros ->. reflexivity. Qed.

Lemma all_without (p q : byte -> bool) s : (forall c, q c = true -> p c = false) -> forallb q s = true -> without p s.
Proof. intros H F. rewrite forallb_forall in F. apply Forall_forall. auto. Qed.

Lemma digits_without z : without stop' (show_int z).
Proof.
  unfold show_int. apply Forall_app. split.
  - destruct (z <? 0); repeat constructor.
  - apply digits_chars; [lia| |lia]. intros d Hd. unfold lower_digit, stop', stop. destruct (d <? 10) eqn:?; lia.
Qed.
Lemma without_stop s : without stop' s -> without stop s.
Proof. apply Forall_impl. intros c. unfold stop'. lia. Qed.
Lemma show_int_start z : exists c s, show_int z = c :: s /\ stop c = false.
Proof.
  pose proof (without_stop _ (digits_without z)) as F. destruct (show_int z) as [|c s] eqn:E.
  - exfalso. pose proof (show_int_decimal z) as Hd. rewrite E in Hd.
    destruct Hd as [[_ N]|(_ & t & E' & _)]; [apply numeral_ne in N; congruence|discriminate].
  - exists c, s. split; [reflexivity|]. inversion F; assumption.
Qed.

Lemma name_without s : name_ok s = true -> s <> [] /\ without stop' s.
Proof.
  unfold name_ok. intros H. apply andb_prop in H as [H1 H2]. split.
  - intros ->. discriminate H1.
  - eapply all_without; [|exact H2]. intros c. unfold name_char, stop', stop. unfold byte in *. lia.
Qed.

(** ** Quoted strings *)
Lemma code_point_encode c : scalar c -> code_point (utf8_encode c) = c.
Proof.
  unfold scalar, utf8_encode. intros H.
  destruct (c <? 0x80) eqn:E1; [reflexivity|]. destruct (c <? 0x800) eqn:E2.
  { cbn [code_point]. Z.to_euclidean_division_equations. lia. }
  destruct (c <? 0x10000) eqn:E3; cbn [code_point]; Z.to_euclidean_division_equations; lia.
Qed.

Lemma encode_prefix c c' x x' : scalar c -> scalar c' -> utf8_encode c ++ x = utf8_encode c' ++ x' -> c = c' /\ x = x'.
Proof.
  intros S S' E. pose proof (utf8_next_encode c x S) as N. pose proof (utf8_next_encode c' x' S') as N'.
  assert (HL : List.length (utf8_encode c) = List.length (utf8_encode c')).
  { destruct (utf8_encode c) as [|b l]; [contradiction|]. destruct (utf8_encode c') as [|b' l']; [contradiction|].
    injection E as Eb El. rewrite Eb, El in N. rewrite N in N'. congruence. }
  assert (EE : utf8_encode c = utf8_encode c' /\ x = x').
  { revert HL E. generalize (utf8_encode c), (utf8_encode c'). intros l. induction l as [|b l IH]; intros [|b' l']; cbn [List.length]; try discriminate.
    - intros _ E. split; [reflexivity|exact E].
    - intros HL E. injection E as -> E. injection HL as HL. destruct (IH l' HL E) as [-> ->]. split; reflexivity. }
  destruct EE as [EE Ex]. split; [|exact Ex]. rewrite <- (code_point_encode c S), EE. apply code_point_encode. exact S'.
Qed.

(** The first byte tells an ASCII character. *)
Lemma encode_head c : scalar c -> exists b l, utf8_encode c = b :: l /\ (b < 128 -> b = c).
Proof.
  intros S. unfold utf8_encode. destruct (c <? 0x80) eqn:E1; [eauto|].
  unfold scalar in S. destruct (c <? 0x800) eqn:E2; [|destruct (c <? 0x10000) eqn:E3]; eexists _, _; (split; [reflexivity|]);
    Z.to_euclidean_division_equations; lia.
Qed.

Section Quote.
Variable printable : Z -> bool.
Let esc c := escape_char printable (utf8_encode c).

Lemma escape_quoted c : scalar c -> quoted_char printable c (esc c).
Proof.
  intros S. unfold esc, escape_char. rewrite (code_point_encode c S).
  destruct (c =? 0) eqn:E0; [apply Z.eqb_eq in E0; subst; constructor|].
  destruct (c =? 9) eqn:E9; [apply Z.eqb_eq in E9; subst; constructor|].
  destruct (c =? 13) eqn:E13; [apply Z.eqb_eq in E13; subst; constructor|].
  destruct (c =? 10) eqn:E10; [apply Z.eqb_eq in E10; subst; constructor|].
  destruct (c =? 92) eqn:E92; [apply Z.eqb_eq in E92; subst; apply quoted_backslash|].
  destruct (c =? 34) eqn:E34; [apply Z.eqb_eq in E34; subst; apply quoted_quote|]. cbn [orb].
  assert (N : ~ In c [0; 9; 13; 10; 92; 34]) by (cbn [In]; lia).
  assert (0 <= c) by (unfold scalar in S; lia).
  destruct (printable c) eqn:P; [apply quoted_plain; assumption|apply quoted_number; try assumption].
  - apply digits_ok; [lia|apply lower_digit_ok|lia].
  - apply digits_chars; [lia| |lia]. intros d Hd. unfold lower_digit, lower_hex. destruct (d <? 10) eqn:?; lia.
Qed.

(** A quoted character begins with no quote, and ends by itself. *)
Lemma quoted_start c s : scalar c -> quoted_char printable c s -> exists b l, s = b :: l /\ b <> 34.
Proof.
  intros S Q. destruct Q; try (eexists _, _; split; [reflexivity|discriminate]).
  destruct (encode_head c S) as (b & l & -> & Hb). exists b, l. split; [reflexivity|]. intros ->.
  rewrite <- Hb in * by lia. cbn [In] in *. lia.
Qed.
Lemma quoted_head c s : scalar c -> quoted_char printable c s ->
  (exists l, s = 92 :: l) \/ (exists b l, s = b :: l /\ b <> 92 /\ s = utf8_encode c).
Proof.
  intros S Q. destruct Q; try (left; eexists; reflexivity).
  right. destruct (encode_head c S) as (b & l & E & Hb). exists b, l. rewrite E. repeat split. intros ->.
  rewrite <- Hb in * by lia. cbn [In] in *. lia.
Qed.
Lemma lower_hex_no_brace s : Forall lower_hex s -> without (Z.eqb 125) s.
Proof. apply Forall_impl. unfold lower_hex. intros c. unfold byte in *. lia. Qed.
Lemma quoted_escape c l : scalar c -> quoted_char printable c (92 :: l) ->
  (exists k, l = [k] /\ In (k, c) [(48, 0); (116, 9); (114, 13); (110, 10); (92, 92); (34, 34)]) \/
  (exists s, l = 117 :: 123 :: s ++ [125] /\ numeral 16 s c /\ Forall lower_hex s).
Proof.
  intros S Q. remember (92 :: l) as q eqn:Eq. destruct Q as [| | | | | |c N P|c s N P H1 H2];
    try (left; injection Eq as <-; eexists; split; [reflexivity|cbn [In]; tauto]).
  - exfalso. destruct (encode_head c S) as (b & l0 & Ee & Hb). rewrite Ee in Eq. injection Eq as -> _.
    rewrite <- Hb in N by lia. cbn [In] in N. lia.
  - right. exists s. injection Eq as <-. repeat split; assumption.
Qed.
Lemma quoted_inj c c' s s' x x' : scalar c -> scalar c' -> quoted_char printable c s -> quoted_char printable c' s' ->
  s ++ x = s' ++ x' -> c = c' /\ x = x'.
Proof.
  intros S S' Q Q' E.
  destruct (quoted_head c s S Q) as [[l ->]|(b & l & Es & Hb & Eu)];
  destruct (quoted_head c' s' S' Q') as [[l' ->]|(b' & l' & Es' & Hb' & Eu')].
  2: { subst s'. injection E as <- _. congruence. }
  2: { subst s. injection E as -> _. congruence. }
  2: { rewrite Eu, Eu' in E. apply encode_prefix; assumption. }
  destruct (quoted_escape c l S Q) as [(k & -> & Hk)|(d & -> & N & F)];
  destruct (quoted_escape c' l' S' Q') as [(k' & -> & Hk')|(d' & -> & N' & F')].
  - injection E as <- ->. split; [|reflexivity]. cbn [In] in Hk, Hk'.
    repeat match goal with H : _ \/ _ |- _ => destruct H | H : False |- _ => destruct H | H : (_, _) = (_, _) |- _ => injection H as ? ? end; lia.
  - injection E as -> _. cbn [In] in Hk.
    repeat match goal with H : _ \/ _ |- _ => destruct H | H : False |- _ => destruct H | H : (_, _) = (_, _) |- _ => injection H as ? ? end; lia.
  - injection E as <- _. cbn [In] in Hk'.
    repeat match goal with H : _ \/ _ |- _ => destruct H | H : False |- _ => destruct H | H : (_, _) = (_, _) |- _ => injection H as ? ? end; lia.
  - cbn [app] in E. injection E as E. rewrite <- !app_assoc in E.
    apply (cut_at (Z.eqb 125)) in E; [|apply lower_hex_no_brace; assumption|apply lower_hex_no_brace; assumption|reflexivity|reflexivity].
    destruct E as [-> E]. injection E as ->. split; [|reflexivity]. eapply numeral_fun; eassumption.
Qed.

(** The loop over the bytes is one over the characters. *)
Lemma escape_string cs : Forall scalar cs -> forall fuel, (List.length (utf8_string cs) <= fuel)%nat ->
  escape_loop printable fuel (utf8_string cs) = concat (map esc cs).
Proof.
  induction cs as [|c cs IH]; intros F fuel Hf; [destruct fuel; reflexivity|].
  inversion F as [|? ? Hc Hcs]; subst. rewrite utf8_string_cons in *.
  pose proof (utf8_next_encode c (utf8_string cs) Hc) as Hn. cbn [map concat]. unfold esc at 1.
  remember (utf8_encode c) as e. destruct e as [|b0 l]; [contradiction|].
  destruct fuel as [|fuel]; [cbn in Hf; lia|].
  cbn [app escape_loop]. rewrite Hn. change (b0 :: l ++ utf8_string cs) with ((b0 :: l) ++ utf8_string cs).
  rewrite skipn_app, skipn_all, Nat.sub_diag, firstn_app, firstn_all, Nat.sub_diag. cbn [skipn firstn].
  rewrite app_nil_r. cbn [app]. rewrite IH; [reflexivity|assumption|]. cbn in Hf. rewrite app_length in Hf. lia.
Qed.
Lemma quotes_inj cs : forall cs' r r', Forall scalar cs -> Forall scalar cs' ->
  concat (map esc cs) ++ 34 :: r = concat (map esc cs') ++ 34 :: r' -> cs = cs' /\ r = r'.
Proof.
  induction cs as [|c cs IH]; intros [|c' cs'] r r' F F' E; cbn [map concat app] in E.
  - injection E as ->. split; reflexivity.
  - exfalso. inversion F'; subst. destruct (quoted_start c' _ ltac:(assumption) (escape_quoted c' ltac:(assumption))) as (b & l & Eb & Hb).
    rewrite Eb in E. injection E as <- _. congruence.
  - exfalso. inversion F; subst. destruct (quoted_start c _ ltac:(assumption) (escape_quoted c ltac:(assumption))) as (b & l & Eb & Hb).
    rewrite Eb in E. injection E as -> _. congruence.
  - inversion F; inversion F'; subst. rewrite <- !app_assoc in E.
    apply quoted_inj with (c := c) (c' := c') in E; try assumption; try (apply escape_quoted; assumption).
    destruct E as [-> E]. destruct (IH cs' r r') as [-> ->]; auto.
Qed.
Lemma str_inj bs bs' r r' : bytes_ok bs -> bytes_ok bs' -> utf8_valid bs = true -> utf8_valid bs' = true ->
  str_debug printable bs ++ r = str_debug printable bs' ++ r' -> bs = bs' /\ r = r'.
Proof.
  intros B B' V V' E. apply utf8_valid_iff in V as (cs & F & ->); [|exact B]. apply utf8_valid_iff in V' as (cs' & F' & ->); [|exact B'].
  unfold str_debug in E. rewrite !escape_string in E by (trivial; lia). cbn [app] in E. injection E as E.
  rewrite <- !app_assoc in E. cbn [app] in E. destruct (quotes_inj cs cs' r r' F F' E) as [-> ->]. split; reflexivity.
Qed.
End Quote.

Lemma all_ok_cons {A} (x : wres A) l r : all_ok (x :: l) = ROk r -> exists a r', x = ROk a /\ all_ok l = ROk r' /\ r = a :: r'.
Proof.
  cbn [all_ok]. destruct x as [a| | | |]; try discriminate. cbn [rbind]. destruct (all_ok l) as [r'| | | |]; try discriminate.
  cbn [rbind]. intros E. injection E as <-. eauto.
Qed.

(** ** Texts of values *)
Section Debug.
Variables (cf : config) (D : list def) (L : list labels) (kf : nat)
  (num64 : Z -> list byte) (printable : Z -> bool) (plain : bool).
Let dbg := debug_val cf D L kf num64 printable plain.
Hypotheses (HL : labelled D L) (HF : float_text num64).

Lemma num_without z : without stop (num64 z).
Proof.
  destruct HF as [H _]. destruct (H z) as [_ F]. eapply all_without; [|exact F].
  intros c. unfold number_char, name_char, stop. unfold byte in *. lia.
Qed.
Lemma num_start z : exists c s, num64 z = c :: s /\ stop c = false.
Proof.
  pose proof (num_without z) as F. destruct HF as [H _]. destruct (H z) as [N _]. destruct (num64 z) as [|c s]; [congruence|].
  exists c, s. inversion F. split; [reflexivity|assumption].
Qed.

Lemma labels_at i d : nth_error D i = Some d -> forall l, nth_error L i = Some l -> names_of d l.
Proof.
  revert i. induction HL as [|d' l' D' L' H0 H IH]; intros i; destruct i as [|i]; cbn [nth_error]; try discriminate.
  - intros E l E'. congruence.
  - intros E l E'. eapply IH; eassumption.
Qed.

Definition starts (s : list byte) : Prop := exists c s', s = c :: s' /\ stop c = false.
Lemma starts_app s r : starts s -> starts (s ++ r).
Proof. intros (c & s' & -> & H). exists c, (s' ++ r). split; [reflexivity|exact H]. Qed.
Lemma starts_char c s : stop c = false -> starts (c :: s).
Proof. intros H. exists c, s. split; [reflexivity|exact H]. Qed.
Lemma name_starts s : name_ok s = true -> starts s.
Proof.
  intros H. destruct (name_without s H) as [N F]. destruct s as [|c s]; [congruence|]. exists c, s.
  inversion F; subst. split; [reflexivity|]. unfold stop' in *. lia.
Qed.
Definition tail_of (l : label) (ds : list (list byte)) : list byte :=
  match ds with
  | [] => []
  | _ => match lb_fields l with
         | None => txt "(" ++ join ds ++ txt ")"
         | Some fs => txt " { " ++ join (map (fun p => fst p ++ txt ": " ++ snd p) (combine fs ds)) ++ txt " }"
         end
  end.
Lemma derived_tail l ds : debug_derived l ds = lb_name l ++ tail_of l ds.
Proof. unfold debug_derived, tail_of. destruct ds; [rewrite app_nil_r; reflexivity|]. destruct (lb_fields l); reflexivity. Qed.
Lemma tail_opens l ds r : opens stop r -> opens stop' (tail_of l ds ++ r).
Proof.
  intros H. unfold tail_of. destruct ds; [apply opens_stop'; exact H|]. destruct (lb_fields l); reflexivity.
Qed.

Lemma dbg_starts v : forall t s, dbg v t = ROk s -> starts s.
Proof.
  unfold dbg. induction v as [|b|z|bs| |v IH|vs IH|vs IH|ix vs IH|v IH] using val_ind'; intros t s H; destruct t; cbn [debug_val] in H;
    try discriminate H;
    try (injection H as <-; first [apply starts_char; reflexivity | apply show_int_start | apply num_start]);
    try (injection H as <-; destruct b; apply starts_char; reflexivity);
    try (injection H as <-; destruct plain; apply starts_char; reflexivity);
    try (match type of H with rbind ?x _ = _ => destruct x; try discriminate H end; injection H as <-; apply starts_char; reflexivity).
  all: try (match type of H with match nth_error D ?i with _ => _ end = _ => destruct (nth_error D i) as [d|] eqn:ED; [|discriminate H] end;
    match type of H with context [nth_error L ?i] => destruct (nth_error L i) as [l|] eqn:EL; [|destruct d; discriminate H] end;
    pose proof (labels_at _ _ ED _ EL) as N; destruct d as [ts|k tags|k alts]; destruct l as [l|names|ls]; try discriminate H; cbn [names_of] in N).
  - match type of H with rbind ?x _ = _ => destruct x; try discriminate H end. injection H as <-.
    rewrite derived_tail. apply starts_app, name_starts, N.
  - destruct vs; [|discriminate H]. destruct (nth_error names ix) as [name|] eqn:E; [|discriminate H]. injection H as <-.
    destruct N as (_ & _ & N). apply name_starts. rewrite Forall_forall in N. apply N. eapply nth_error_In; exact E.
  - destruct (nth_error alts ix) as [[tag ts]|]; [|discriminate H]. destruct (nth_error ls ix) as [l|]; [|discriminate H].
    match type of H with rbind ?x _ = _ => destruct x; try discriminate H end. injection H as <-. apply starts_char. reflexivity.
  - match type of H with rbind ?x _ = _ => destruct x; try discriminate H end. cbn [rbind] in H.
    match type of H with rbind ?x _ = _ => destruct x; try discriminate H end. injection H as <-. apply starts_char. reflexivity.
  - eapply IH; exact H.
  - eapply IH; exact H.
Qed.

(** ** Reading a text back *)
Definition one (v : val) : Prop := forall t w s s' r r',
  well_typed D v t = true -> well_typed D w t = true -> all_numbers D v t = true ->
  dbg v t = ROk s -> dbg w t = ROk s' -> opens stop r -> opens stop r' -> s ++ r = s' ++ r' -> v = w /\ r = r'.

Lemma int_one s r r' z z' : s = show_int z -> opens stop r -> opens stop r' -> show_int z ++ r = show_int z' ++ r' -> z = z' /\ r = r'.
Proof.
  intros _ O O' E. apply (cut_at stop) in E; try assumption; try apply without_stop, digits_without.
  destruct E as [E ->]. apply show_int_inj in E as ->. split; reflexivity.
Qed.

Lemma join_opens ds r : opens stop r -> opens stop (join_more ds ++ r).
Proof. destruct ds as [|d ds]; [trivial|]. intros _. reflexivity. Qed.

Lemma list_more t vs : Forall one vs -> forall ws ds ds' r r',
  forallb (fun v => well_typed D v t) vs = true -> forallb (fun v => well_typed D v t) ws = true ->
  forallb (fun v => all_numbers D v t) vs = true ->
  all_ok (map (fun v => dbg v t) vs) = ROk ds -> all_ok (map (fun v => dbg v t) ws) = ROk ds' ->
  join_more ds ++ 93 :: r = join_more ds' ++ 93 :: r' -> vs = ws /\ r = r'.
Proof.
  induction 1 as [|v vs Hv Hvs IH]; intros ws ds ds' r r' W W' A E E' J.
  - injection E as <-. destruct ws as [|w ws].
    + injection E' as <-. injection J as ->. split; reflexivity.
    + apply all_ok_cons in E' as (d' & r0 & _ & _ & ->). discriminate J.
  - cbn [map] in E. apply all_ok_cons in E as (d & r0 & Ed & Er & ->). destruct ws as [|w ws].
    + injection E' as <-. discriminate J.
    + cbn [map] in E'. apply all_ok_cons in E' as (d' & r0' & Ed' & Er' & ->).
      cbn [forallb] in W, W', A. apply andb_prop in W as [W1 W2]. apply andb_prop in W' as [W1' W2']. apply andb_prop in A as [A1 A2].
      cbn [join_more] in J. change (txt ", ") with [44; 32] in J. cbn [app] in J. injection J as J. rewrite <- !app_assoc in J.
      destruct (Hv t w d d' _ _ W1 W1' A1 Ed Ed' (join_opens r0 (93 :: r) eq_refl) (join_opens r0' (93 :: r') eq_refl) J) as [-> J'].
      destruct (IH ws r0 r0' r r' W2 W2' A2 Er Er' J') as [-> ->]. split; reflexivity.
Qed.
Lemma list_one t vs : Forall one vs -> forall ws ds ds' r r',
  forallb (fun v => well_typed D v t) vs = true -> forallb (fun v => well_typed D v t) ws = true ->
  forallb (fun v => all_numbers D v t) vs = true ->
  all_ok (map (fun v => dbg v t) vs) = ROk ds -> all_ok (map (fun v => dbg v t) ws) = ROk ds' ->
  debug_list ds ++ r = debug_list ds' ++ r' -> vs = ws /\ r = r'.
Proof.
  intros F ws ds ds' r r' W W' A E E' J. unfold debug_list in J. change (txt "[") with [91] in J. change (txt "]") with [93] in J.
  cbn [app] in J. injection J as J. rewrite <- !app_assoc in J. cbn [app] in J.
  destruct F as [|v vs Hv Hvs].
  - injection E as <-. destruct ws as [|w ws].
    + injection E' as <-. injection J as ->. split; reflexivity.
    + exfalso. cbn [map] in E'. apply all_ok_cons in E' as (d' & r0 & Ed & _ & ->). cbn [join app] in J.
      destruct (dbg_starts w t d' Ed) as (c & s' & -> & Hc). injection J as <- _. discriminate Hc.
  - cbn [map] in E. apply all_ok_cons in E as (d & r0 & Ed & Er & ->). destruct ws as [|w ws].
    + exfalso. injection E' as <-. cbn [join app] in J. destruct (dbg_starts v t d Ed) as (c & s' & -> & Hc).
      injection J as -> _. discriminate Hc.
    + cbn [map] in E'. apply all_ok_cons in E' as (d' & r0' & Ed' & Er' & ->).
      cbn [forallb] in W, W', A. apply andb_prop in W as [W1 W2]. apply andb_prop in W' as [W1' W2']. apply andb_prop in A as [A1 A2].
      cbn [join] in J. rewrite <- !app_assoc in J.
      destruct (Hv t w d d' _ _ W1 W1' A1 Ed Ed' (join_opens r0 (93 :: r) eq_refl) (join_opens r0' (93 :: r') eq_refl) J) as [-> J'].
      destruct (list_more t vs Hvs ws r0 r0' r r' W2 W2' A2 Er Er' J') as [-> ->]. split; reflexivity.
Qed.

Lemma vint_one z : one (VInt z).
Proof.
  unfold one, dbg. intros t w s s' r r' W W' A E E' O O' J. destruct t as [| |k|k lo hi| |lo hi| | | | |n|n|t|t|t|n t|n t|p t|n t|n t|t|i]; try discriminate W;
    try (unfold well_typed in W; cbn [valid_gen] in W; destruct (nth_error D i) as [[]|]; discriminate W);
    destruct w as [|?|z'|?| |?|?|?|? ?|?]; try discriminate W';
    cbn [debug_val] in E, E'; injection E as <-; injection E' as <-.
  - destruct (int_one _ r r' z z' eq_refl O O' J) as [-> ->]. split; reflexivity.
  - unfold debug_tuple in J. cbn [join join_more] in J. rewrite <- !app_assoc in J. apply app_inv_head in J. apply app_inv_head in J.
    cbn [app] in J. destruct (int_one _ (41 :: r) (41 :: r') z z' eq_refl eq_refl eq_refl J) as [-> J']. injection J' as ->. split; reflexivity.
  - apply (cut_at stop) in J; try assumption; try apply num_without. destruct J as [J ->].
    destruct HF as [_ H]. cbn [all_numbers] in A. destruct (H z z' W W' J) as [->|[N _]]; [split; reflexivity|congruence].
  - unfold debug_struct in J. cbn [combine map join join_more fst snd] in J. rewrite <- !app_assoc in J. do 4 apply app_inv_head in J.
    cbn [app] in J. apply (cut_at stop) in J; try reflexivity; try apply num_without. destruct J as [J J']. apply app_inv_head in J'. subst r'.
    destruct HF as [_ H]. cbn [all_numbers] in A. unfold well_typed in W, W'. cbn [valid_gen] in W, W'.
    apply andb_prop in W as [W _]. apply andb_prop in W as [W _]. apply andb_prop in W' as [W' _]. apply andb_prop in W' as [W' _].
    destruct (H z z' W W' J) as [->|[N _]]; [split; reflexivity|congruence].
  - unfold debug_n, show_zarith in J. rewrite <- !app_assoc in J. apply app_inv_head in J.
    destruct (int_one _ ([41] ++ r) ([41] ++ r') z z' eq_refl eq_refl eq_refl J) as [-> J']. injection J' as ->. split; reflexivity.
  - unfold debug_z, show_zarith in J. rewrite <- !app_assoc in J. apply app_inv_head in J.
    destruct (int_one _ ([41] ++ r) ([41] ++ r') z z' eq_refl eq_refl eq_refl J) as [-> J']. injection J' as ->. split; reflexivity.
Qed.

Lemma bytes_one bs bs' r r' : bytes_ok bs -> bytes_ok bs' -> debug_bytes bs ++ r = debug_bytes bs' ++ r' -> bs = bs' /\ r = r'.
Proof.
  intros B B' J.
  assert (T : forall l, bytes_ok l -> forallb (fun v => well_typed D v (TInt U8)) (map VInt l) = true).
  { intros l Hl. rewrite forallb_forall. intros v Hv. apply in_map_iff in Hv as (x & <- & Hx). unfold bytes_ok in Hl. rewrite Forall_forall in Hl. specialize (Hl x Hx).
    unfold well_typed. cbn [valid_gen]. unfold is_byte in Hl. unfold ik_in. cbn. unfold byte in *. lia. }
  assert (K : forall l, all_ok (map (fun v => dbg v (TInt U8)) (map VInt l)) = ROk (map show_int l)).
  { induction l as [|x l IH]; [reflexivity|]. cbn [map all_ok]. unfold dbg at 1. cbn [debug_val rbind]. rewrite IH. reflexivity. }
  destruct (list_one (TInt U8) (map VInt bs)) with (ws := map VInt bs') (ds := map show_int bs) (ds' := map show_int bs') (r := r) (r' := r')
    as [E ->]; auto.
  - apply Forall_forall. intros v Hv. apply in_map_iff in Hv as (z & <- & _). apply vint_one.
  - rewrite forallb_forall. intros v Hv. apply in_map_iff in Hv as (z & <- & _). reflexivity.
  - split; [|reflexivity]. revert bs' E B B' J. clear. induction bs as [|b bs IH]; intros [|b' bs'] E B B' J; try discriminate E; [reflexivity|].
    injection E as -> E. f_equal. clear - E. revert bs' E. induction bs as [|x l IH]; intros [|y l'] E; try discriminate; [reflexivity|].
    injection E as -> E. f_equal. auto.
Qed.

(** Fields, each with something fixed before it. *)
Definition items (pre ds : list (list byte)) : list (list byte) := map (fun p => fst p ++ snd p) (combine pre ds).
Lemma fields_more vs : Forall one vs -> forall ts ws pre ds ds' r r',
  all2 (well_typed D) vs ts = true -> all2 (well_typed D) ws ts = true -> all2 (all_numbers D) vs ts = true ->
  List.length pre = List.length ts ->
  all_ok (map2 dbg (RErr tt) vs ts) = ROk ds -> all_ok (map2 dbg (RErr tt) ws ts) = ROk ds' ->
  opens stop r -> opens stop r' -> join_more (items pre ds) ++ r = join_more (items pre ds') ++ r' -> vs = ws /\ r = r'.
Proof.
  induction 1 as [|v vs Hv Hvs IH]; intros [|t ts] [|w ws] pre ds ds' r r' W W' A P E E' O O' J; try discriminate W; try discriminate W'.
  - injection E as <-. injection E' as <-. unfold items in J. destruct pre; [|discriminate P]. split; [reflexivity|exact J].
  - destruct pre as [|p pre]; [discriminate P|]. injection P as P. cbn [map2] in E, E'.
    apply all_ok_cons in E as (d & r0 & Ed & Er & ->). apply all_ok_cons in E' as (d' & r0' & Ed' & Er' & ->).
    cbn [all2] in W, W', A. apply andb_prop in W as [W1 W2]. apply andb_prop in W' as [W1' W2']. apply andb_prop in A as [A1 A2].
    unfold items in J. cbn [combine map join_more fst snd] in J. fold (items pre r0) in J. fold (items pre r0') in J.
    rewrite <- !app_assoc in J. do 2 apply app_inv_head in J.
    destruct (Hv t w d d' _ _ W1 W1' A1 Ed Ed' (join_opens _ _ O) (join_opens _ _ O') J) as [-> J'].
    destruct (IH ts ws pre r0 r0' r r' W2 W2' A2 P Er Er' O O' J') as [-> ->]. split; reflexivity.
Qed.
Lemma fields_one vs : Forall one vs -> forall ts ws pre ds ds' r r',
  all2 (well_typed D) vs ts = true -> all2 (well_typed D) ws ts = true -> all2 (all_numbers D) vs ts = true ->
  List.length pre = List.length ts ->
  all_ok (map2 dbg (RErr tt) vs ts) = ROk ds -> all_ok (map2 dbg (RErr tt) ws ts) = ROk ds' ->
  opens stop r -> opens stop r' -> join (items pre ds) ++ r = join (items pre ds') ++ r' -> vs = ws /\ r = r'.
Proof.
  intros F ts ws pre ds ds' r r' W W' A P E E' O O' J. apply (fields_more vs F ts ws pre ds ds' r r'); auto.
  destruct F as [|v vs Hv Hvs]; destruct ts as [|t ts]; try discriminate W; destruct ws as [|w ws]; try discriminate W'.
  - injection E as <-. injection E' as <-. destruct pre; [|discriminate P]. exact J.
  - destruct pre as [|p pre]; [discriminate P|]. cbn [map2] in E, E'.
    apply all_ok_cons in E as (d & r0 & Ed & Er & ->). apply all_ok_cons in E' as (d' & r0' & Ed' & Er' & ->).
    unfold items in *. cbn [combine map join join_more fst snd] in *. rewrite <- app_assoc in J |- *. rewrite <- (app_assoc (txt ", ")).
    rewrite <- (app_assoc (p ++ d)). rewrite J. rewrite <- !app_assoc. reflexivity.
Qed.

Lemma all_ok_length l (ds : list (list byte)) : all_ok l = ROk ds -> List.length ds = List.length l.
Proof.
  revert ds. induction l as [|x l IH]; intros ds H; [injection H as <-; reflexivity|].
  apply all_ok_cons in H as (a & r' & _ & E & ->). cbn [List.length]. f_equal. auto.
Qed.
Lemma map2_length_eq (vs : list val) : forall ts, List.length vs = List.length ts ->
  List.length (map2 dbg (RErr tt) vs ts) = List.length ts.
Proof. induction vs as [|v vs IH]; intros [|t ts] H; try discriminate H; [reflexivity|]. cbn [map2 List.length]. injection H as H. f_equal. auto. Qed.

Lemma tail_one vs : Forall one vs -> forall l ts ws ds ds' r r', label_ok (List.length ts) l ->
  all2 (well_typed D) vs ts = true -> all2 (well_typed D) ws ts = true -> all2 (all_numbers D) vs ts = true ->
  all_ok (map2 dbg (RErr tt) vs ts) = ROk ds -> all_ok (map2 dbg (RErr tt) ws ts) = ROk ds' ->
  opens stop r -> opens stop r' -> tail_of l ds ++ r = tail_of l ds' ++ r' -> vs = ws /\ r = r'.
Proof.
  intros F l ts ws ds ds' r r' [_ HN] W W' A E E' O O' J.
  pose proof (all_ok_length _ _ E) as EL. rewrite map2_length_eq in EL by (apply all2_length with (1 := W)).
  pose proof (all_ok_length _ _ E') as EL'. rewrite map2_length_eq in EL' by (apply all2_length with (1 := W')).
  unfold tail_of in J. destruct ds as [|d ds]; destruct ds' as [|d' ds']; cbn [List.length] in EL, EL'; try (exfalso; lia).
  - destruct ts; [|discriminate EL]. destruct vs; [|discriminate W]. destruct ws; [|discriminate W']. split; [reflexivity|exact J].
  - assert (K : forall X : list (list byte), List.length X = List.length ts -> items (repeat [] (List.length ts)) X = X).
    { intros X HX. rewrite <- HX. clear. unfold items. induction X as [|x X IH]; [reflexivity|]. cbn [List.length repeat combine map fst snd app].
      f_equal. exact IH. }
    destruct (lb_fields l) as [fs|].
    + rewrite <- !app_assoc in J. apply app_inv_head in J.
      assert (K' : forall X, map (fun p => fst p ++ txt ": " ++ snd p) (combine fs X) = items (map (fun f => f ++ txt ": ") fs) X).
      { intros X. unfold items. clear. revert X. induction fs as [|f fs IH]; intros [|x X]; try reflexivity.
        cbn [map combine fst snd]. rewrite <- app_assoc. f_equal. apply IH. }
      rewrite !K' in J. eapply fields_one in J; try eassumption; try reflexivity; [|rewrite map_length; exact HN].
      destruct J as [-> J]. apply app_inv_head in J. split; [reflexivity|exact J].
    + rewrite <- !app_assoc in J. apply app_inv_head in J.
      rewrite <- (K (d :: ds)), <- (K (d' :: ds')) in J by (cbn [List.length]; lia).
      eapply fields_one in J; try eassumption; try reflexivity; [|apply repeat_length].
      destruct J as [-> J]. apply app_inv_head in J. split; [reflexivity|exact J].
Qed.

Lemma wrap1 name d d' r r' : debug_tuple name [d] ++ r = debug_tuple name [d'] ++ r' -> d ++ 41 :: r = d' ++ 41 :: r'.
Proof.
  unfold debug_tuple. cbn [join join_more]. rewrite !app_nil_r. intros J. rewrite <- !app_assoc in J. do 2 apply app_inv_head in J. exact J.
Qed.

Lemma option_one v t w d d' r r' : one v -> well_typed D v t = true -> well_typed D w t = true -> all_numbers D v t = true ->
  dbg v t = ROk d -> dbg w t = ROk d' -> option_debug (Some d) ++ r = option_debug (Some d') ++ r' -> v = w /\ r = r'.
Proof.
  intros IH W W' A E E' J. unfold option_debug in J. apply wrap1 in J.
  destruct (IH t w d d' (41 :: r) (41 :: r') W W' A E E' eq_refl eq_refl J) as [-> J']. split; [reflexivity|congruence].
Qed.

Lemma unname_named i v : well_typed D v (TNamed i) = true ->
  match v with VStruct _ | VEnum _ _ => True | _ => False end.
Proof. unfold well_typed. destruct v; trivial; cbn [valid_gen]; destruct (nth_error D i) as [[]|]; discriminate. Qed.

Lemma every_one v : one v.
Proof.
  induction v as [|b|z|bs| |v IH|vs IH|vs IH|ix vs IH|v IH] using val_ind'; try apply vint_one;
    unfold one; intros t w s s' r r' W W' A E E' O O' J;
    destruct t as [| |k|k lo hi| |lo hi| | | | |n|n|t|t|t|n t|n t|p t|n t|n t|t|i]; try discriminate W;
    try (destruct (unname_named i _ W); fail).
  - destruct w; try discriminate W'. split; [reflexivity|]. injection E as <-. injection E' as <-. apply app_inv_head in J. exact J.
  - destruct w as [|b'| | | | | | | |]; try discriminate W'. injection E as <-. injection E' as <-.
    destruct b, b'; try discriminate J; apply app_inv_head in J; split; trivial.
  - destruct w as [| | |bs'| | | | | |]; try discriminate W'. apply forallb_byteb in W. apply forallb_byteb in W'.
    unfold dbg in E, E'. cbn [debug_val] in E, E'. injection E as <-. injection E' as <-.
    assert (K : debug_bytes bs ++ r = debug_bytes bs' ++ r' \/
      debug_tuple (txt "Bytes") [debug_bytes bs] ++ r = debug_tuple (txt "Bytes") [debug_bytes bs'] ++ r') by (destruct plain; auto).
    clear J. destruct K as [J|J].
    + destruct (bytes_one bs bs' r r' W W' J) as [-> ->]. split; reflexivity.
    + apply wrap1 in J. destruct (bytes_one bs bs' _ _ W W' J) as [-> J']. split; [reflexivity|congruence].
  - destruct w as [| | |bs'| | | | | |]; try discriminate W'. unfold well_typed in W, W'. cbn [valid_gen] in W, W'.
    apply andb_prop in W as [W1 W2]. apply andb_prop in W' as [W1' W2'].
    apply forallb_byteb in W1. apply forallb_byteb in W1'. injection E as <-. injection E' as <-.
    destruct (str_inj printable bs bs' r r' W1 W1' W2 W2' J) as [-> ->]. split; reflexivity.
  - destruct w as [| | |bs'| | | | | |]; try discriminate W'. unfold well_typed in W, W'. cbn [valid_gen] in W, W'.
    apply andb_prop in W as [W1 W2]. apply andb_prop in W' as [W1' W2'].
    apply forallb_byteb in W1. apply forallb_byteb in W1'. injection E as <-. injection E' as <-.
    apply wrap1 in J. destruct (bytes_one bs bs' _ _ W1 W1' J) as [-> J']. split; [reflexivity|congruence].
  - destruct w as [| | |bs'| | | | | |]; try discriminate W'. unfold well_typed in W, W'. cbn [valid_gen] in W, W'.
    apply andb_prop in W as [W1 W2]. apply andb_prop in W' as [W1' W2'].
    apply forallb_byteb in W1. apply forallb_byteb in W1'. injection E as <-. injection E' as <-.
    unfold debug_struct in J. cbn [combine map fst snd join join_more] in J. rewrite !app_nil_r in J. rewrite <- !app_assoc in J.
    do 4 apply app_inv_head in J. destruct (bytes_one bs bs' _ _ W1 W1' J) as [-> J']. apply app_inv_head in J'. split; trivial.
  - (* None *) destruct w as [| | | | |w| | | |]; try discriminate W'.
    + injection E as <-. injection E' as <-. apply app_inv_head in J. split; trivial.
    + exfalso. injection E as <-. unfold dbg in E'. cbn [debug_val] in E'.
      match type of E' with rbind ?x _ = _ => destruct x; try discriminate E' end. injection E' as <-. discriminate J.
  - destruct w as [| | | | |w| | | |]; try discriminate W'.
    + injection E as <-. injection E' as <-. apply app_inv_head in J. split; trivial.
    + exfalso. injection E as <-. unfold dbg in E'. cbn [debug_val] in E'.
      match type of E' with rbind ?x _ = _ => destruct x; try discriminate E' end. injection E' as <-. discriminate J.
  - (* Some *) unfold dbg in E. cbn [debug_val] in E. fold dbg in E. destruct (dbg v t) as [d| | | |] eqn:Ed; try discriminate E. injection E as <-.
    destruct w as [| | | | |w| | | |]; try discriminate W'; [exfalso; injection E' as <-; discriminate J|].
    unfold dbg in E'. cbn [debug_val] in E'. fold dbg in E'. destruct (dbg w t) as [d'| | | |] eqn:Ed'; try discriminate E'. injection E' as <-.
    destruct (option_one v t w d d' r r' IH W W' A Ed Ed' J) as [-> ->]. split; reflexivity.
  - unfold dbg in E. cbn [debug_val] in E. fold dbg in E. destruct (dbg v t) as [d| | | |] eqn:Ed; try discriminate E. injection E as <-.
    destruct w as [| | | | |w| | | |]; try discriminate W'; [exfalso; injection E' as <-; discriminate J|].
    unfold dbg in E'. cbn [debug_val] in E'. fold dbg in E'. destruct (dbg w t) as [d'| | | |] eqn:Ed'; try discriminate E'. injection E' as <-.
    apply wrap1 in J. destruct (option_one v t w d d' _ _ IH W W' A Ed Ed' J) as [-> J']. split; [reflexivity|congruence].
  - (* sequences *) destruct w as [| | | | | |ws| | |]; try discriminate W'. unfold dbg in E, E'. cbn [debug_val] in E, E'. fold dbg in E, E'.
    destruct (all_ok (map _ vs)) as [ds| | | |] eqn:Ed in E; try discriminate E. injection E as <-.
    destruct (all_ok (map _ ws)) as [ds'| | | |] eqn:Ed' in E'; try discriminate E'. injection E' as <-.
    apply wrap1 in J. destruct (list_one t vs IH ws ds ds' _ _ W W' A Ed Ed' J) as [-> J']. split; [reflexivity|congruence].
  - destruct w as [| | | | | |ws| | |]; try discriminate W'. unfold dbg in E, E'. cbn [debug_val] in E, E'. fold dbg in E, E'.
    unfold well_typed in W, W'. cbn [valid_gen] in W, W'. apply andb_prop in W as [W _]. apply andb_prop in W' as [W' _].
    destruct (all_ok (map _ vs)) as [ds| | | |] eqn:Ed in E; try discriminate E. injection E as <-.
    destruct (all_ok (map _ ws)) as [ds'| | | |] eqn:Ed' in E'; try discriminate E'. injection E' as <-.
    apply wrap1 in J. destruct (list_one t vs IH ws ds ds' _ _ W W' A Ed Ed' J) as [-> J']. split; [reflexivity|congruence].
  - destruct w as [| | | | | |ws| | |]; try discriminate W'. unfold dbg in E, E'. cbn [debug_val] in E, E'. fold dbg in E, E'.
    unfold well_typed in W, W'. cbn [valid_gen] in W, W'. apply andb_prop in W as [W _]. apply andb_prop in W' as [W' _].
    destruct (all_ok (map _ vs)) as [ds| | | |] eqn:Ed in E; try discriminate E. injection E as <-.
    destruct (all_ok (map _ ws)) as [ds'| | | |] eqn:Ed' in E'; try discriminate E'. injection E' as <-.
    apply wrap1 in J. destruct (list_one t vs IH ws ds ds' _ _ W W' A Ed Ed' J) as [-> J']. split; [reflexivity|congruence].
  - (* struct *) destruct w as [| | | | | | |ws|ix' ws|]; try (destruct (unname_named i _ W'); fail); [|exfalso; unfold well_typed in W, W'; cbn [valid_gen] in W, W'; destruct (nth_error D i) as [[]|]; discriminate]. unfold well_typed in W, W'. unfold dbg in E, E'. cbn [valid_gen debug_val all_numbers] in W, W', A, E, E'. fold dbg in E, E'.
    destruct (nth_error D i) as [d|] eqn:ED; [|discriminate W]. destruct d as [ts| |]; try discriminate W.
    destruct (nth_error L i) as [l|] eqn:EL; [|discriminate E]. destruct l as [l| |]; try discriminate E.
    pose proof (labels_at i _ ED _ EL) as N. cbn [names_of] in N.
    destruct (all_ok (map2 _ _ vs ts)) as [ds| | | |] eqn:Ed in E; try discriminate E. injection E as <-.
    destruct (all_ok (map2 _ _ ws ts)) as [ds'| | | |] eqn:Ed' in E'; try discriminate E'. injection E' as <-.
    rewrite !derived_tail, <- !app_assoc in J. apply app_inv_head in J.
    destruct (tail_one vs IH l ts ws ds ds' r r' N W W' A Ed Ed' O O' J) as [-> ->]. split; reflexivity.
  - (* enums *) destruct w as [| | | | | | |ws|ix' ws|]; try (destruct (unname_named i _ W'); fail); [exfalso; unfold well_typed in W, W'; cbn [valid_gen] in W, W'; destruct (nth_error D i) as [[]|]; discriminate|]. unfold well_typed in W, W'. unfold dbg in E, E'. cbn [valid_gen debug_val all_numbers] in W, W', A, E, E'. fold dbg in E, E'.
    destruct (nth_error D i) as [d|] eqn:ED; [|discriminate W]. destruct d as [|k tags|k alts]; try discriminate W; try discriminate W'.
    + destruct vs; [|discriminate W]. destruct ws; [|discriminate W'].
      destruct (nth_error L i) as [l|] eqn:EL; [|discriminate E]. destruct l as [|names|]; try discriminate E.
      pose proof (labels_at i _ ED _ EL) as N. cbn [names_of] in N. destruct N as (HLn & ND & NF).
      destruct (nth_error names ix) as [name|] eqn:E1; [|discriminate E]. injection E as <-.
      destruct (nth_error names ix') as [name'|] eqn:E2; [|discriminate E']. injection E' as <-.
      rewrite Forall_forall in NF.
      apply (cut_at stop) in J; try assumption; try (apply without_stop, name_without, NF; eapply nth_error_In; eassumption).
      destruct J as [-> ->]. split; [|reflexivity]. f_equal.
      apply (proj1 (NoDup_nth_error names) ND); [apply nth_error_Some; congruence|congruence].
    + destruct (nth_error L i) as [l|] eqn:EL; [|discriminate E]. destruct l as [| |ls]; try discriminate E.
      pose proof (labels_at i _ ED _ EL) as N. cbn [names_of] in N. destruct N as [ND NF].
      destruct (nth_error alts ix) as [[tag ts]|] eqn:A1; [|discriminate W]. destruct (nth_error ls ix) as [l|] eqn:L1; [|discriminate E].
      destruct (nth_error alts ix') as [[tag' ts']|] eqn:A2; [|discriminate W']. destruct (nth_error ls ix') as [l'|] eqn:L2; [|discriminate E'].
      destruct (all_ok (map2 _ _ vs ts)) as [ds| | | |] eqn:Ed in E; try discriminate E. injection E as <-.
      destruct (all_ok (map2 _ _ ws ts')) as [ds'| | | |] eqn:Ed' in E'; try discriminate E'. injection E' as <-.
      assert (LK : forall j a l0, nth_error alts j = Some a -> nth_error ls j = Some l0 -> label_ok (List.length (snd a)) l0).
      { clear - NF. induction NF as [|x y xs ys H0 H IH]; intros [|j] a l0; cbn [nth_error]; try discriminate.
        - intros E1 E2. congruence.
        - apply IH. }
      pose proof (LK ix _ _ A1 L1) as K1. pose proof (LK ix' _ _ A2 L2) as K2. cbn [snd] in K1, K2.
      rewrite !derived_tail in J. injection J as J. rewrite <- !app_assoc in J.
      apply (cut_at stop') in J; [|apply name_without, K1|apply name_without, K2|apply tail_opens; exact O|apply tail_opens; exact O'].
      destruct J as [JN J].
      assert (EI : ix = ix').
      { apply (proj1 (NoDup_nth_error (map lb_name ls)) ND).
        - rewrite map_length. apply nth_error_Some. congruence.
        - rewrite !nth_error_map, L1, L2. cbn [option_map]. congruence. }
      subst ix'. rewrite A1 in A2. injection A2 as <- <-. rewrite L1 in L2. injection L2 as <-.
      destruct (tail_one vs IH l ts ws ds ds' r r' K1 W W' A Ed Ed' O O' J) as [-> ->]. split; reflexivity.
  - (* wrappers *) destruct w as [| | | | | | | | |w]; try discriminate W'. unfold well_typed in W, W'. cbn [valid_gen implb] in W, W'.
    rewrite andb_true_r in W, W'. unfold dbg in E, E'. cbn [debug_val] in E, E'. fold dbg in E, E'.
    destruct (enc_len cf D kf v t) as [n| | | |]; try discriminate E. destruct (enc_len cf D kf w t) as [n'| | | |]; try discriminate E'.
    cbn [rbind] in E, E'.
    destruct (dbg v t) as [d| | | |] eqn:Ed; try discriminate E. injection E as <-.
    destruct (dbg w t) as [d'| | | |] eqn:Ed'; try discriminate E'. injection E' as <-.
    injection J as J. rewrite <- !app_assoc in J. rewrite !(app_assoc (show_int _) (pref_suffix p)) in J.
    assert (PS : without stop (pref_suffix p)) by (destruct p; repeat constructor).
    apply (cut_at stop) in J; try reflexivity; try (apply Forall_app; split; [apply without_stop, digits_without|exact PS]).
    destruct J as [_ J]. injection J as J. rewrite <- !app_assoc in J.
    destruct (IH t w d d' (txt "]" ++ r) (txt "]" ++ r') W W' A Ed Ed' eq_refl eq_refl J) as [-> J'].
    apply app_inv_head in J'. split; trivial.
  - destruct w as [| | | | | | | | |w]; try discriminate W'. destruct (IH t w s s' r r' W W' A E E' O O' J) as [-> ->]. split; reflexivity.
  - destruct w as [| | | | | | | | |w]; try discriminate W'. unfold dbg in E, E'. cbn [debug_val] in E, E'. fold dbg in E, E'.
    destruct (dbg v t) as [d| | | |] eqn:Ed; try discriminate E. injection E as <-.
    destruct (dbg w t) as [d'| | | |] eqn:Ed'; try discriminate E'. injection E' as <-.
    apply wrap1 in J. destruct (IH t w d d' (41 :: r) (41 :: r') W W' A Ed Ed' eq_refl eq_refl J) as [-> J']. split; [reflexivity|congruence].
  - destruct w as [| | | | | | | | |w]; try discriminate W'. destruct (IH t w s s' r r' W W' A E E' O O' J) as [-> ->]. split; reflexivity.
Qed.

Lemma unambiguous v w t s : well_typed D v t = true -> well_typed D w t = true -> all_numbers D v t = true ->
  dbg v t = ROk s -> dbg w t = ROk s -> v = w.
Proof. intros W W' A E E'. destruct (every_one v t w s s [] [] W W' A E E' I I eq_refl) as [H _]. exact H. Qed.
Lemma delimited v w t s s' r r' : well_typed D v t = true -> well_typed D w t = true -> all_numbers D v t = true ->
  dbg v t = ROk s -> dbg w t = ROk s' -> ends_value r -> ends_value r' -> s ++ r = s' ++ r' -> v = w /\ r = r'.
Proof. intros W W' A E E' O O' J. apply (every_one v t w s s' r r'); trivial; apply ends_opens; assumption. Qed.
End Debug.

(** ** What is printed *)
Lemma join_commas ds : join ds = commas ds.
Proof.
  destruct ds as [|d ds]; [reflexivity|]. cbn [join]. revert d. induction ds as [|d' ds IH]; intros d; cbn [join_more commas].
  - apply app_nil_r.
  - rewrite IH. reflexivity.
Qed.
Lemma derived_text l ds : label_ok (List.length ds) l -> struct_text l ds (debug_derived l ds).
Proof.
  intros [_ H]. destruct ds as [|d ds]; [constructor|]. destruct l as [name [fs|]]; cbn [lb_fields] in H;
    cbn [debug_derived lb_fields lb_name].
  - unfold debug_struct. rewrite join_commas.
    replace (map _ _) with (map (fun '(f, d) => f ++ txt ": " ++ d) (combine fs (d :: ds))) by (apply map_ext; intros []; reflexivity).
    constructor; [discriminate|exact H].
  - unfold debug_tuple. rewrite join_commas. constructor. discriminate.
Qed.
Lemma tuple1 name d : debug_tuple name [d] = name ++ txt "(" ++ d ++ txt ")".
Proof. unfold debug_tuple. cbn [join join_more]. rewrite app_nil_r. reflexivity. Qed.
Lemma struct1 name f d : debug_struct name [f] [d] = name ++ txt " { " ++ (f ++ txt ": " ++ d) ++ txt " }".
Proof. unfold debug_struct. cbn [combine map fst snd join join_more]. rewrite app_nil_r. reflexivity. Qed.
Lemma bytes_text bs : byte_list bs (debug_bytes bs).
Proof.
  unfold debug_bytes, debug_list. rewrite join_commas. constructor.
  induction bs as [|b bs IH]; constructor; [apply show_int_decimal|exact IH].
Qed.

Section Says.
Variables (cf : config) (D : list def) (L : list labels) (kf : nat)
  (num64 : Z -> list byte) (printable : Z -> bool) (plain : bool).
Let dbg := debug_val cf D L kf num64 printable plain.
Let says := debug_of D L num64 printable plain.
Hypotheses (HL : labelled D L) (HD : wf_defs D = true) (HO : cf_est_override cf = false).

Lemma label_at i d : nth_error D i = Some d -> exists l, nth_error L i = Some l /\ names_of d l.
Proof.
  clear dbg says HD HO. revert i. induction HL as [|d' l' D' L' H0 H IH]; intros i; destruct i as [|i]; cbn [nth_error]; try discriminate.
  - intros E. injection E as <-. eauto.
  - intros E. eapply IH; eassumption.
Qed.

Lemma enc_len_fate v t : wf_ty D t = true -> well_typed D v t = true -> zlen (format D v t) <= isize_max ->
  enc_len cf D kf v t = if valid D v t then ROk (zlen (format D v t)) else RPanic.
Proof.
  intros W V Z. destruct (valid D v t) eqn:E.
  - apply (enc_len_exact cf D kf v t (format D v t) HO); [|exact Z]. apply to_bytes_valid; assumption.
  - pose proof (fate_wr cf D kf HD v t W V Z ltac:(congruence)) as F. unfold fate in F. rewrite E in F.
    destruct F as [F|[F _]]; [|congruence]. pose proof (counter_same cf D kf v t) as C. rewrite to_bytes_wr, F in C. cbn [rmap rbind] in C.
    unfold enc_len. rewrite HO, C. reflexivity.
Qed.

Lemma valid_contents v : forall t, valid D v t = true -> contents_fit D v t = true.
Proof.
  unfold valid. induction v as [|b|z|bs| |v IH|vs IH|vs IH|ix vs IH|v IH] using val_ind'; intros t V;
    destruct t as [| |k|k lo hi| |lo hi| | | | |n|n|t|t|t|n t|n t|p t|n t|n t|t|i]; cbn [valid_gen contents_fit] in *;
    try discriminate V; try reflexivity; try (apply IH; exact V);
    try (destruct (nth_error D i) as [[ts|k tags|k alts]|]; try discriminate V; try reflexivity).
  - rewrite forallb_forall in *. rewrite Forall_forall in IH. intros x Hx. apply IH; auto.
  - apply andb_prop in V as [V _]. rewrite forallb_forall in *. rewrite Forall_forall in IH. intros x Hx. apply IH; auto.
  - apply andb_prop in V as [V _]. rewrite forallb_forall in *. rewrite Forall_forall in IH. intros x Hx. apply IH; auto.
  - revert ts V. induction IH as [|v vs Hv Hvs IHvs]; intros [|t ts] V; try discriminate V; [reflexivity|].
    cbn [all2] in *. apply andb_prop in V as [V1 V2]. rewrite (Hv _ V1). apply IHvs, V2.
  - destruct (nth_error alts ix) as [[tag ts]|]; [|reflexivity].
    revert ts V. induction IH as [|v vs Hv Hvs IHvs]; intros [|t ts] V; try discriminate V; [reflexivity|].
    cbn [all2] in *. apply andb_prop in V as [V1 V2]. rewrite (Hv _ V1). apply IHvs, V2.
  - apply andb_prop in V as [V _]. exact V.
Qed.

Definition said (v : val) : Prop := forall t, wf_ty D t = true -> well_typed D v t = true -> zlen (format D v t) <= isize_max ->
  if contents_fit D v t then exists s, dbg v t = ROk s /\ says t v s else dbg v t = RPanic.

Lemma each_said t vs : Forall said vs -> wf_ty D t = true -> forallb (fun v => well_typed D v t) vs = true ->
  zlen (concat (map (fun v => format D v t) vs)) <= isize_max ->
  if forallb (fun v => contents_fit D v t) vs
  then exists ds, all_ok (map (fun v => dbg v t) vs) = ROk ds /\ debug_each D L num64 printable plain t vs ds
  else all_ok (map (fun v => dbg v t) vs) = RPanic.
Proof.
  intros H W. induction H as [|v vs Hv Hvs IH]; intros V Z; [exists []; split; [reflexivity|constructor]|].
  cbn [forallb map concat] in *. rewrite zlen_app in Z. apply andb_prop in V as [V1 V2].
  pose proof (zlen_nonneg (format D v t)). pose proof (zlen_nonneg (concat (map (fun v => format D v t) vs))).
  specialize (Hv t W V1 ltac:(lia)). specialize (IH V2 ltac:(lia)).
  destruct (contents_fit D v t); cbn [andb all_ok].
  - destruct Hv as (d & -> & Sd). cbn [rbind]. destruct (forallb _ vs).
    + destruct IH as (ds & -> & Sds). exists (d :: ds). split; [reflexivity|constructor; assumption].
    + rewrite IH. reflexivity.
  - rewrite Hv. reflexivity.
Qed.
Lemma fields_said vs : Forall said vs -> forall ts, forallb (wf_ty D) ts = true -> all2 (well_typed D) vs ts = true ->
  zlen (concat2 (format D) vs ts) <= isize_max ->
  if all2 (contents_fit D) vs ts
  then exists ds, all_ok (map2 dbg (RErr tt) vs ts) = ROk ds /\ debug_fields D L num64 printable plain ts vs ds /\
    List.length ds = List.length ts
  else all_ok (map2 dbg (RErr tt) vs ts) = RPanic.
Proof.
  intros H. induction H as [|v vs Hv Hvs IH]; intros [|t ts] W V Z; try discriminate V;
    [exists []; repeat split; constructor|].
  cbn [forallb all2 concat2 map2] in *. rewrite zlen_app in Z. apply andb_prop in V as [V1 V2]. apply andb_prop in W as [W1 W2].
  pose proof (zlen_nonneg (format D v t)). pose proof (zlen_nonneg (concat2 (format D) vs ts)).
  specialize (Hv t W1 V1 ltac:(lia)). specialize (IH ts W2 V2 ltac:(lia)).
  destruct (contents_fit D v t); cbn [andb all_ok].
  - destruct Hv as (d & -> & Sd). cbn [rbind]. destruct (all2 _ vs ts).
    + destruct IH as (ds & -> & Sds & N). exists (d :: ds). cbn [List.length]. repeat split; [constructor; assumption|congruence].
    + rewrite IH. reflexivity.
  - rewrite Hv. reflexivity.
Qed.

Lemma def_at i d : nth_error D i = Some d -> wf_def D d = true.
Proof. intros E. unfold wf_defs in HD. rewrite forallb_forall in HD. apply HD. eapply nth_error_In; exact E. Qed.

Lemma all_said v : said v.
Proof.
  induction v as [|b|z|bs| |v IH|vs IH|vs IH|ix vs IH|v IH] using val_ind'; intros t W V Z;
    destruct t as [| |k|k lo hi| |lo hi| | | | |n|n|t|t|t|n t|n t|p t|n t|n t|t|i]; try discriminate V;
    try (destruct (unname_named D i _ V); fail); cbn [contents_fit].
  - eexists; split; [reflexivity|constructor].
  - eexists; split; [reflexivity|]. destruct b; constructor.
  - eexists; split; [reflexivity|]. constructor. apply show_int_decimal.
  - eexists; split; [reflexivity|]. rewrite tuple1. apply debug_ranged. apply show_int_decimal.
  - eexists; split; [reflexivity|constructor].
  - eexists; split; [reflexivity|]. rewrite struct1. rewrite <- !app_assoc. apply debug_rangedf.
  - eexists; split; [reflexivity|]. apply (debug_nat _ _ _ _ _ z (show_int z)), show_int_decimal.
  - eexists; split; [reflexivity|]. apply (debug_zed _ _ _ _ _ z (show_int z)), show_int_decimal.
  - eexists; split; [reflexivity|]. unfold says. destruct plain; [apply debug_vec|rewrite tuple1; apply debug_bytes_]; trivial; apply bytes_text.
  - eexists; split; [reflexivity|]. unfold well_typed in V. cbn [valid_gen] in V. apply andb_prop in V as [V1 V2].
    apply forallb_byteb in V1. apply utf8_valid_iff in V2 as (cs & F & ->); [|exact V1].
    unfold str_debug. rewrite escape_string by (trivial; lia). apply debug_string; [exact F|].
    clear - F. induction F as [|c cs Hc H IH]; constructor; [apply escape_quoted; exact Hc|exact IH].
  - eexists; split; [reflexivity|]. rewrite tuple1. apply debug_fixed_bytes, bytes_text.
  - eexists; split; [reflexivity|]. rewrite struct1. rewrite <- !app_assoc. apply debug_fixed_string, bytes_text.
  - eexists; split; [reflexivity|constructor].
  - eexists; split; [reflexivity|constructor].
  - cbn [format] in Z. rewrite zlen_cons in Z. specialize (IH t W V ltac:(lia)). unfold dbg. cbn [debug_val]. fold dbg.
    destruct (contents_fit D v t); [|rewrite IH; reflexivity]. destruct IH as (d & -> & S). eexists; split; [reflexivity|].
    unfold option_debug. rewrite tuple1. apply debug_some, S.
  - cbn [format] in Z. specialize (IH t W V Z). unfold dbg. cbn [debug_val]. fold dbg.
    destruct (contents_fit D v t); [|rewrite IH; reflexivity]. destruct IH as (d & -> & S). eexists; split; [reflexivity|].
    unfold option_debug. rewrite !tuple1. rewrite <- !app_assoc. apply (debug_present _ _ _ _ _ t v d S).
  - pose proof (each_said t vs IH W V Z) as H. unfold dbg. cbn [debug_val]. fold dbg.
    destruct (forallb (fun v => contents_fit D v t) vs); [|rewrite H; reflexivity]. destruct H as (ds & -> & S). eexists; split; [reflexivity|].
    rewrite tuple1. unfold debug_list. rewrite join_commas. apply debug_seq, S.
  - cbn [wf_ty] in W. apply andb_prop in W as [_ W]. unfold well_typed in V. cbn [valid_gen] in V. apply andb_prop in V as [V _].
    pose proof (each_said t vs IH W V Z) as H. unfold dbg. cbn [debug_val]. fold dbg.
    destruct (forallb (fun v => contents_fit D v t) vs); [|rewrite H; reflexivity]. destruct H as (ds & -> & S). eexists; split; [reflexivity|].
    rewrite tuple1. unfold debug_list. rewrite join_commas. apply debug_lim, S.
  - cbn [wf_ty] in W. apply andb_prop in W as [_ W]. unfold well_typed in V. cbn [valid_gen] in V. apply andb_prop in V as [V _].
    pose proof (each_said t vs IH W V Z) as H. unfold dbg. cbn [debug_val]. fold dbg.
    destruct (forallb (fun v => contents_fit D v t) vs); [|rewrite H; reflexivity]. destruct H as (ds & -> & S). eexists; split; [reflexivity|].
    rewrite tuple1. unfold debug_list. rewrite join_commas. apply debug_fix, S.
  - unfold well_typed in V. unfold dbg. cbn [valid_gen debug_val format] in *. fold dbg.
    destruct (nth_error D i) as [d|] eqn:ED; [|discriminate V]. destruct d as [ts| |]; try discriminate V.
    destruct (label_at i _ ED) as (l & EL & N). rewrite EL. destruct l as [l| |]; try contradiction. cbn [names_of] in N.
    pose proof (fields_said vs IH ts (def_at i _ ED) V Z) as H.
    destruct (all2 (contents_fit D) vs ts); [|rewrite H; reflexivity]. destruct H as (ds & -> & S & K). eexists; split; [reflexivity|].
    eapply debug_struct_; try eassumption. apply derived_text. rewrite K. exact N.
  - unfold well_typed in V. unfold dbg. cbn [valid_gen debug_val format] in *. fold dbg.
    destruct (nth_error D i) as [d|] eqn:ED; [|discriminate V]. destruct d as [|k tags|k alts]; try discriminate V.
    + destruct vs; [|discriminate V]. destruct (label_at i _ ED) as (l & EL & N). rewrite EL. destruct l as [|names|]; try contradiction.
      cbn [names_of] in N. destruct N as [N _].
      destruct (nth_error names ix) as [name|] eqn:E; [|exfalso; apply nth_error_None in E; apply Nat.ltb_lt in V; lia].
      eexists; split; [reflexivity|]. eapply debug_cstyle; eassumption.
    + destruct (label_at i _ ED) as (l & EL & N). rewrite EL. destruct l as [| |ls]; try contradiction.
      cbn [names_of] in N. destruct N as [_ N]. destruct (nth_error alts ix) as [[tag ts]|] eqn:EA; [|discriminate V].
      pose proof (def_at i _ ED) as WD. cbn [wf_def] in WD. apply andb_prop in WD as [_ WD].
      rewrite forallb_forall in WD. specialize (WD _ (nth_error_In _ _ EA)). cbn [snd] in WD.
      rewrite (nth_error_nth _ _ _ EA) in Z. cbn [fst snd] in Z. rewrite zlen_app in Z.
      pose proof (zlen_nonneg (int_format k tag)).
      pose proof (fields_said vs IH ts WD V ltac:(unfold byte in *; lia)) as H1.
      assert (exists l, nth_error ls ix = Some l /\ label_ok (List.length ts) l) as (l & E2 & LO).
      { clear - N EA. revert ix EA. induction N as [|x y xs ys H0 H IH]; intros [|j]; cbn [nth_error]; try discriminate.
        - intros E. injection E as ->. cbn [snd] in H0. eauto.
        - apply IH. }
      rewrite E2. destruct (all2 (contents_fit D) vs ts); [|rewrite H1; reflexivity]. destruct H1 as (ds & -> & S & K). eexists; split; [reflexivity|].
      eapply debug_data; try eassumption. apply derived_text. rewrite K. exact LO.
  - unfold well_typed in V. cbn [valid_gen implb] in V. rewrite andb_true_r in V. cbn [wf_ty format] in *.
    rewrite zlen_app in Z. pose proof (zlen_nonneg (pref_format p (zlen (format D v t)))).
    unfold dbg. cbn [debug_val]. fold dbg. rewrite (enc_len_fate v t W V) by (unfold byte in *; lia).
    specialize (IH t W V ltac:(unfold byte in *; lia)). destruct (valid D v t) eqn:E; [|reflexivity].
    rewrite (valid_contents v t E) in IH. destruct IH as (d & -> & S). eexists; split; [reflexivity|].
    apply (debug_dyn D L num64 printable plain p t v (show_int (zlen (format D v t))) d); [apply show_int_decimal|exact S].
  - cbn [wf_ty format] in *. apply andb_prop in W as [_ W]. specialize (IH t W V Z). unfold dbg. cbn [debug_val]. fold dbg.
    destruct (contents_fit D v t); [|exact IH]. destruct IH as (d & -> & S). eexists; split; [reflexivity|apply debug_vpad, S].
  - cbn [wf_ty format] in *. apply andb_prop in W as [_ W]. rewrite zlen_app in Z.
    pose proof (zlen_nonneg (repeat 0 (Z.to_nat n))). specialize (IH t W V ltac:(unfold byte in *; lia)). unfold dbg. cbn [debug_val]. fold dbg.
    destruct (contents_fit D v t); [|rewrite IH; reflexivity]. destruct IH as (d & -> & S). eexists; split; [reflexivity|].
    rewrite tuple1. apply debug_pad, S.
  - cbn [wf_ty format] in *. specialize (IH t W V Z). unfold dbg. cbn [debug_val]. fold dbg.
    destruct (contents_fit D v t); [|exact IH]. destruct IH as (d & -> & S). eexists; split; [reflexivity|apply debug_box, S].
Qed.
End Says.

(** ** What can be encoded can be printed *)
Section Prints.
Variables (cf : config) (D : list def) (L : list labels) (kf : nat)
  (num64 : Z -> list byte) (printable : Z -> bool) (plain : bool).
Let dbg := debug_val cf D L kf num64 printable plain.
Hypothesis HL : labelled D L.

Lemma add_ok a b x : r_add cf a b = ROk x -> (exists y, a = ROk y) /\ exists z, b = ROk z.
Proof. unfold r_add. destruct a; try discriminate. destruct b; try discriminate. intros _. split; eexists; reflexivity. Qed.
Lemma end_ok a x : r_end cf a = ROk x -> exists y, a = ROk y.
Proof. intros E. apply add_ok in E as [E _]. exact E. Qed.
Lemma sum_ok l : forall n x, r_sum cf n l = ROk x -> Forall (fun a => exists y, a = ROk y) l.
Proof.
  induction l as [|a l IH]; intros n x E; [constructor|]. cbn [r_sum] in E. destruct a as [y| | | |]; try discriminate E. cbn [rbind] in E.
  destruct (uadd (cf_mode cf) n (fst y)); try discriminate E. cbn [rbind] in E.
  match type of E with rbind ?r _ = _ => destruct r eqn:E2; try discriminate E end.
  constructor; [eexists; reflexivity|]. eapply IH, E2.
Qed.
Lemma wr_enc_len v t x : wr cf D kf v t = ROk x -> cf_est_override cf = false -> exists n, enc_len cf D kf v t = ROk n.
Proof.
  intros E EO. pose proof (counter_same cf D kf v t) as C. rewrite to_bytes_wr, E in C. destruct x as [n bs]. cbn [rmap rbind] in C.
  destruct C as (k & C & _). exists k. unfold enc_len. rewrite EO, C. reflexivity.
Qed.
Lemma all_ok_map {A B} (f : A -> wres B) l : Forall (fun a => exists b, f a = ROk b) l -> exists ds, all_ok (map f l) = ROk ds.
Proof.
  induction 1 as [|a l [b E] H (ds & IH)]; [exists []; reflexivity|]. exists (b :: ds). cbn [map all_ok]. rewrite E, IH. reflexivity.
Qed.

Definition shown (v : val) : Prop := forall t x, wr cf D kf v t = ROk x -> exists s, dbg v t = ROk s.
Lemma shown_fields vs : Forall shown vs -> forall ts, Forall (fun a => exists y, a = ROk y) (map2 (wr cf D kf) (RErr tt) vs ts) ->
  exists ds, all_ok (map2 dbg (RErr tt) vs ts) = ROk ds.
Proof.
  induction 1 as [|v vs Hv Hvs IH]; intros [|t ts] F; cbn [map2] in *; try (inversion F as [|? ? [y E]]; discriminate E); [exists []; reflexivity|].
  inversion F as [|? ? [y E] F']; subst. destruct (Hv t y E) as (d & Ed). destruct (IH ts F') as (ds & Eds).
  exists (d :: ds). cbn [all_ok]. rewrite Ed, Eds. reflexivity.
Qed.
Lemma all_shown v : shown v.
Proof.
  induction v as [|b|z|bs| |v IH|vs IH|vs IH|ix vs IH|v IH] using val_ind'; intros t x E;
    destruct t as [| |k|k lo hi| |lo hi| | | | |n|n|t|t|t|n t|n t|p t|n t|n t|t|i]; try discriminate E;
    try (eexists; reflexivity); cbn [wr] in E;
    try (destruct (nth_error D i) as [[]|]; discriminate E).
  - apply end_ok in E as (y & E). apply add_ok in E as [_ (z & E)]. destruct (IH _ _ E) as (d & Ed).
    eexists. unfold dbg in *. cbn [debug_val]. rewrite Ed. reflexivity.
  - apply end_ok in E as (y & E). destruct (IH _ _ E) as (d & Ed).
    eexists. unfold dbg in *. cbn [debug_val]. rewrite Ed. reflexivity.
  - apply end_ok in E as (y & E). apply sum_ok in E.
    assert (exists ds, all_ok (map (fun v => dbg v t) vs) = ROk ds) as (ds & Eds).
    { apply all_ok_map. rewrite Forall_map in E. rewrite Forall_forall in *. intros w Hw. destruct (E w Hw) as (y' & Ey). eapply IH; eassumption. }
    eexists. unfold dbg in *. cbn [debug_val]. rewrite Eds. reflexivity.
  - apply end_ok in E as (y & E). apply sum_ok in E.
    assert (exists ds, all_ok (map (fun v => dbg v t) vs) = ROk ds) as (ds & Eds).
    { apply all_ok_map. rewrite Forall_map in E. rewrite Forall_forall in *. intros w Hw. destruct (E w Hw) as (y' & Ey). eapply IH; eassumption. }
    eexists. unfold dbg in *. cbn [debug_val]. rewrite Eds. reflexivity.
  - apply end_ok in E as (y & E). apply sum_ok in E.
    assert (exists ds, all_ok (map (fun v => dbg v t) vs) = ROk ds) as (ds & Eds).
    { apply all_ok_map. rewrite Forall_map in E. rewrite Forall_forall in *. intros w Hw. destruct (E w Hw) as (y' & Ey). eapply IH; eassumption. }
    eexists. unfold dbg in *. cbn [debug_val]. rewrite Eds. reflexivity.
  - destruct (nth_error D i) as [d|] eqn:ED; [|discriminate E]. destruct d as [ts|k tags|k alts]; try discriminate E.
    destruct (label_at D L HL i _ ED) as (l & EL & N). destruct l as [l| |]; try contradiction.
    apply end_ok in E as (y & E). apply sum_ok in E. destruct (shown_fields vs IH ts E) as (ds & Eds).
    eexists. unfold dbg in *. cbn [debug_val]. rewrite ED, EL, Eds. reflexivity.
  - destruct (nth_error D i) as [d|] eqn:ED; [|discriminate E]. destruct d as [ts|k tags|k alts]; try discriminate E.
    + destruct vs; [|discriminate E]. destruct (label_at D L HL i _ ED) as (l & EL & N). destruct l as [|names|]; try contradiction.
      destruct (nth_error tags ix) as [tag|] eqn:ET; [|discriminate E]. destruct N as [N _].
      destruct (nth_error names ix) as [name|] eqn:EN.
      * exists name. unfold dbg. cbn [debug_val]. rewrite ED, EL, EN. reflexivity.
      * exfalso. apply nth_error_None in EN. assert (ix < List.length tags)%nat by (apply nth_error_Some; congruence). lia.
    + destruct (nth_error alts ix) as [[tag ts]|] eqn:EA; [|discriminate E].
      destruct (label_at D L HL i _ ED) as (l & EL & N). destruct l as [| |ls]; try contradiction. destruct N as [_ N].
      apply end_ok in E as (y & E). apply add_ok in E as [_ (z & E)]. apply end_ok in E as (y' & E). apply sum_ok in E.
      destruct (shown_fields vs IH ts E) as (ds & Eds).
      destruct (nth_error ls ix) as [l|] eqn:E2.
      * eexists. unfold dbg in *. cbn [debug_val]. rewrite ED, EL, EA, E2, Eds. reflexivity.
      * exfalso. apply nth_error_None in E2. assert (ix < List.length alts)%nat by (apply nth_error_Some; congruence).
        assert (List.length alts = List.length ls) by (clear - N; induction N; cbn [List.length]; congruence). lia.
  - assert (exists n, enc_len cf D kf v t = ROk n) as (n & En).
    { destruct (cf_est_override cf) eqn:EO.
      - unfold enc_len. rewrite EO. destruct (estimate cf D kf v t); try discriminate E. eauto.
      - destruct (wr cf D kf v t) eqn:Ew; try discriminate E. eapply wr_enc_len; eassumption. }
    assert (exists y, wr cf D kf v t = ROk y) as (y & Ey).
    { destruct (if cf_est_override cf then _ else _) as [l| | | |]; try discriminate E. cbn [rbind] in E.
      destruct (rassert (l <=? pref_max p)); try discriminate E. cbn [rbind] in E. destruct (pref_try_from cf p l); try discriminate E.
      match type of E with rbind ?r _ = _ => destruct r; try discriminate E end. cbn [rbind] in E.
      match type of E with rbind ?r _ = _ => destruct r; try discriminate E end. cbn [rbind] in E.
      apply end_ok in E as (y & E). apply add_ok in E as [_ E]. exact E. }
    destruct (IH _ _ Ey) as (d & Ed). eexists. unfold dbg in *. cbn [debug_val]. rewrite En, Ed. reflexivity.
  - destruct (IH _ _ E) as (d & Ed). exists d. exact Ed.
  - apply end_ok in E as (y & E). apply add_ok in E as [(z & E) _]. destruct (IH _ _ E) as (d & Ed).
    eexists. unfold dbg in *. cbn [debug_val]. rewrite Ed. reflexivity.
  - destruct (IH _ _ E) as (d & Ed). exists d. exact Ed.
Qed.
Lemma encoded_shown v t bs : to_bytes cf D kf v t = ROk bs -> exists s, dbg v t = ROk s.
Proof. rewrite to_bytes_wr. destruct (wr cf D kf v t) eqn:E; try discriminate. intros _. eapply all_shown, E. Qed.
End Prints.

(** ** A value has one text *)
Lemma lower_digits c c' d : hex_digit c d -> hex_digit c' d -> lower_hex c -> lower_hex c' -> c = c'.
Proof. intros H H' K K'. unfold lower_hex in *. inversion H; inversion H'; subst; unfold byte in *; lia. Qed.
Lemma numeral16_text s n : numeral 16 s n -> forall s' n', numeral 16 s' n' -> n' = n -> Forall lower_hex s -> Forall lower_hex s' -> s = s'.
Proof.
  induction 1 as [c d Hc Hd|s n c d H IH Hn Hc Hd]; intros s' n' H'; destruct H' as [c' d' Hc' Hd'|t m c' d' Ht Hm Hc' Hd']; intros E F F'.
  - subst d'. inversion F; inversion F'; subst. f_equal. eapply lower_digits; eassumption.
  - apply hex_digit_range in Hc'. lia.
  - apply hex_digit_range in Hc. lia.
  - pose proof (hex_digit_range _ _ Hc). pose proof (hex_digit_range _ _ Hc').
    assert (m = n) by lia. assert (d' = d) by lia. subst m d'. apply Forall_app in F as [F1 F2]. apply Forall_app in F' as [F1' F2'].
    inversion F2; inversion F2'; subst. rewrite (IH _ _ Ht eq_refl F1 F1'). do 2 f_equal. eapply lower_digits; eassumption.
Qed.
Lemma quoted_text printable c s s' : quoted_char printable c s -> quoted_char printable c s' -> s = s'.
Proof.
  intros H H'. destruct H; inversion H'; subst; trivial; try congruence;
    try match goal with N : ~ In _ _ |- _ => exfalso; apply N; cbn [In]; tauto end.
  do 2 f_equal. eapply numeral16_text; try eassumption. reflexivity.
Qed.
Lemma quoted_texts printable cs ss : Forall2 (quoted_char printable) cs ss -> forall ss', Forall2 (quoted_char printable) cs ss' -> ss = ss'.
Proof. induction 1; intros ss' H'; inversion H'; subst; f_equal; auto. eapply quoted_text; eassumption. Qed.
Lemma bytes_same bs s s' : byte_list bs s -> byte_list bs s' -> s = s'.
Proof.
  intros H H'. inversion H as [? ds F]; inversion H' as [? ds' F']; subst. f_equal. clear H H'. revert ds' F'.
  induction F as [|b d bs ds Hd F IH]; intros ds' F'; inversion F'; subst; [reflexivity|].
  f_equal; [eapply decimal_text; eassumption|apply IH; assumption].
Qed.
Lemma utf8_same cs : Forall scalar cs -> forall cs', Forall scalar cs' -> utf8_string cs = utf8_string cs' -> cs = cs'.
Proof.
  assert (N : forall c, utf8_encode c <> []).
  { intros c. unfold utf8_encode. repeat match goal with |- context [if ?b then _ else _] => destruct b end; discriminate. }
  induction 1 as [|c cs Hc H IH]; intros cs' F' E; destruct cs' as [|c' cs']; rewrite ?utf8_string_cons in E; try reflexivity.
  - destruct (utf8_encode c') eqn:K; [destruct (N _ K)|discriminate E].
  - destruct (utf8_encode c) eqn:K; [destruct (N _ K)|discriminate E].
  - inversion F'; subst. apply encode_prefix in E as [-> E]; try assumption. f_equal. apply IH; assumption.
Qed.
Lemma struct_same l ds s s' : struct_text l ds s -> struct_text l ds s' -> s = s'.
Proof. intros H H'. destruct H; inversion H'; subst; trivial; congruence. Qed.

Section Unique.
Variables (D : list def) (L : list labels) (num64 : Z -> list byte) (printable : Z -> bool) (plain : bool).
Local Notation says := (debug_of D L num64 printable plain).
Definition unique (v : val) : Prop := forall t s s', says t v s -> says t v s' -> s = s'.
Lemma each_unique t vs ds : Forall unique vs -> debug_each D L num64 printable plain t vs ds ->
  forall ds', debug_each D L num64 printable plain t vs ds' -> ds = ds'.
Proof.
  intros U. revert ds. induction U as [|v vs Hv U IH]; intros ds H ds' H'; inversion H; inversion H'; subst; [reflexivity|].
  f_equal; [eapply Hv; eassumption|eapply IH; assumption].
Qed.
Lemma fields_unique vs : Forall unique vs -> forall ts ds, debug_fields D L num64 printable plain ts vs ds ->
  forall ds', debug_fields D L num64 printable plain ts vs ds' -> ds = ds'.
Proof.
  intros U. induction U as [|v vs Hv U IH]; intros ts ds H ds' H'; inversion H; subst; inversion H'; subst; [reflexivity|].
  f_equal; [eapply Hv; eassumption|eapply IH; eassumption].
Qed.
Lemma text_unique v t s s' : says t v s -> says t v s' -> s = s'.
Proof.
  revert t s s'. change (unique v). induction v as [|b|z|bs| |v IH|vs IH|vs IH|ix vs IH|v IH] using val_ind'; intros t s s' H H';
    inversion H; subst; inversion H'; subst; trivial; try congruence;
    try (repeat f_equal; (eapply decimal_text; eassumption) || (eapply bytes_same; eassumption) ||
         (eapply IH; eassumption) || (eapply each_unique; eassumption)).
  - match goal with E : utf8_string _ = utf8_string _ |- _ => apply utf8_same in E; trivial; subst end.
    do 3 f_equal. eapply quoted_texts; eassumption.
  - replace l0 with l in * by congruence. replace ts0 with ts in * by congruence.
    assert (ds0 = ds) by (eapply fields_unique; eassumption). subst. eapply struct_same; eassumption.
  - replace ls0 with ls in * by congruence. replace alts0 with alts in * by congruence.
    replace l0 with l in * by congruence. replace ts0 with ts in * by congruence.
    assert (ds0 = ds) by (eapply fields_unique; eassumption). subst. f_equal. eapply struct_same; eassumption.
Qed.
End Unique.

Lemma show_int_number z : show_int z <> [] /\ forallb number_char (show_int z) = true.
Proof.
  split.
  - destruct (show_int_decimal z) as [[_ H]|(_ & t & E & _)]; [|rewrite E; discriminate].
    intros E. rewrite E in H. inversion H. destruct s; discriminate.
  - destruct (show_int_decimal z) as [[_ H]|(_ & t & E & H)]; apply decimal_chars in H; [|rewrite E; cbn [forallb]; apply andb_true_intro; split; [reflexivity|]].
    + apply forallb_forall. rewrite Forall_forall in H. intros c Hc. specialize (H c Hc). cbn beta in H. unfold is_digit in H. unfold number_char, name_char. unfold byte in *. lia.
    + apply forallb_forall. rewrite Forall_forall in H. intros c Hc. specialize (H c Hc). cbn beta in H. unfold is_digit in H. unfold number_char, name_char. unfold byte in *. lia.
Qed.

Lemma nested_panic cf D L kf num64 printable plain : cf_est_override cf = false ->
  debug_val cf D L kf num64 printable plain (VWrap (VWrap (VBytes (repeat 0 256)))) (TDyn PrefU30 (TDyn PrefU8 TBytes)) = RPanic.
Proof. destruct cf as [[] a b c d e]. all: cbn [cf_est_override]; intros ->; vm_compute; reflexivity. Qed.
