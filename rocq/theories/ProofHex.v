(** Lemmas behind C35, C36 and C37. *)
From Verif Require Import Base BaseLemmas ModelUtf8 ModelHex SpecHex.
From Coq Require Import ZifyBool.

Lemma to_digit16_spec c v : to_digit16 c = Some v <-> hex_digit c v.
Proof.
  unfold to_digit16. split.
  - destruct ((48 <=? c) && (c <=? 57)) eqn:E1; [intros [= <-]; constructor; lia|].
    destruct ((97 <=? c) && (c <=? 102)) eqn:E2.
    { intros [= <-]. replace (c - 87) with (10 + (c - 97)) by lia. constructor; lia. }
    destruct ((65 <=? c) && (c <=? 70)) eqn:E3; [|discriminate].
    intros [= <-]. replace (c - 55) with (10 + (c - 65)) by lia. constructor; lia.
  - intros [c' H|c' H|c' H].
    + destruct ((48 <=? c') && (c' <=? 57)) eqn:E1; [reflexivity|lia].
    + destruct ((48 <=? c') && (c' <=? 57)) eqn:E1; [lia|].
      destruct ((97 <=? c') && (c' <=? 102)) eqn:E2; [f_equal; lia|lia].
    + destruct ((48 <=? c') && (c' <=? 57)) eqn:E1; [lia|].
      destruct ((97 <=? c') && (c' <=? 102)) eqn:E2; [lia|].
      destruct ((65 <=? c') && (c' <=? 70)) eqn:E3; [f_equal; lia|lia].
Qed.
Lemma hex_digit_range c v : hex_digit c v -> 0 <= v < 16 /\ 48 <= c < 103 /\ c <> 43.
Proof. intros [?|?|?]; lia. Qed.
Lemma hex_digit_fun c v v' : hex_digit c v -> hex_digit c v' -> v = v'.
Proof. rewrite <- !to_digit16_spec. congruence. Qed.

Lemma radix_pair c1 c2 v :
  u8_from_str_radix16 [c1; c2] = Some v <->
  (exists h l, hex_digit c1 h /\ hex_digit c2 l /\ v = 16 * h + l) \/
  (c1 = plus_sign /\ hex_digit c2 v).
Proof.
  unfold u8_from_str_radix16, plus_sign. destruct (Z.eqb_spec c1 43) as [->|Hne].
  - cbn [radix_loop]. destruct (to_digit16 c2) as [d|] eqn:E.
    + apply to_digit16_spec in E. pose proof (hex_digit_range _ _ E). 
      destruct (Z.ltb_spec 255 (0 * 16 + d)); [lia|]. split.
      * intros [= <-]. right. split; [reflexivity|exact E].
      * intros [(h & l & G1 & _)|[_ G1]]; [apply hex_digit_range in G1; lia|].
        f_equal. cbn. eapply hex_digit_fun; eassumption.
    + split; [discriminate|]. intros [(h & l & G1 & G2 & _)|[_ G2]]; apply to_digit16_spec in G2; congruence.
  - cbn [radix_loop]. destruct (to_digit16 c1) as [d1|] eqn:E1.
    + apply to_digit16_spec in E1. pose proof (hex_digit_range _ _ E1).
      destruct (Z.ltb_spec 255 (0 * 16 + d1)); [lia|].
      destruct (to_digit16 c2) as [d2|] eqn:E2.
      * apply to_digit16_spec in E2. pose proof (hex_digit_range _ _ E2).
        destruct (Z.ltb_spec 255 ((0 * 16 + d1) * 16 + d2)); [lia|]. split.
        -- intros [= <-]. left. exists d1, d2. split; [exact E1|]. split; [exact E2|]. lia.
        -- intros [(h & l & G1 & G2 & ->)|[? _]]; [|congruence].
           rewrite (hex_digit_fun _ _ _ G1 E1), (hex_digit_fun _ _ _ G2 E2). f_equal; lia.
      * split; [discriminate|]. intros [(h & l & G1 & G2 & _)|[_ G2]]; apply to_digit16_spec in G2; congruence.
    + split; [discriminate|]. intros [(h & l & G1 & G2 & _)|[? _]]; [|congruence].
      apply to_digit16_spec in G1; congruence.
Qed.

(** ** The loops, two characters at a time *)
Definition cut_here (rest : list byte) : bool := match rest with [] => false | c :: _ => is_cont c end.

Fixpoint hex_go (whole : list byte) (l : list byte) (f : list byte -> list byte) : res hex_error (list byte) :=
  match l with
  | c1 :: c2 :: rest =>
      if cut_here rest then RPanic
      else match u8_from_str_radix16 [c1; c2] with
           | Some w => hex_go whole rest (fun r => f (w :: r))
           | None => RErr (NonHex whole)
           end
  | _ => ROk (f [])
  end.

Lemma boundary_at pre rest :
  is_char_boundary (zlen pre) (pre ++ rest) = true <-> (pre = [] \/ cut_here rest = false).
Proof.
  unfold is_char_boundary. pose proof (zlen_nonneg pre). pose proof (zlen_nonneg rest). rewrite zlen_app.
  destruct (Z.eqb_spec (zlen pre) 0) as [E|E].
  - apply zlen_0_nil in E. tauto.
  - assert (pre <> []) by (intros ->; apply E; reflexivity).
    destruct rest as [|c rest]; cbn [cut_here].
    + rewrite zlen_nil, Z.add_0_r. destruct (Z.ltb_spec (zlen pre) (zlen pre)); [lia|].
      rewrite Z.eqb_refl. tauto.
    + rewrite zlen_cons in *. pose proof (zlen_nonneg rest).
      destruct (Z.ltb_spec (zlen pre) (zlen pre + (1 + zlen rest))); [|lia].
      unfold zlen at 1. rewrite Nat2Z.id, app_nth2, Nat.sub_diag by lia. cbn [nth].
      rewrite negb_true_iff. tauto.
Qed.

Lemma str_slice_pair {E} pre c1 c2 rest :
  (pre = [] \/ cut_here (c1 :: c2 :: rest) = false) ->
  @str_slice E (zlen pre) (zlen pre + 2) (pre ++ c1 :: c2 :: rest) =
  if cut_here rest then RPanic else ROk [c1; c2].
Proof.
  intros Hb. apply (boundary_at pre (c1 :: c2 :: rest)) in Hb.
  unfold str_slice. rewrite Hb.
  replace (pre ++ c1 :: c2 :: rest) with ((pre ++ [c1; c2]) ++ rest) by (rewrite <- app_assoc; reflexivity).
  replace (zlen pre + 2) with (zlen (pre ++ [c1; c2])) by (rewrite zlen_app; reflexivity).
  pose proof (boundary_at (pre ++ [c1; c2]) rest) as HB.
  destruct (Z.leb_spec (zlen pre) (zlen (pre ++ [c1; c2]))) as [_|H];
    [|rewrite zlen_app in H; cbn in H; lia].
  cbn [andb]. destruct (cut_here rest).
  - destruct (is_char_boundary (zlen (pre ++ [c1; c2])) ((pre ++ [c1; c2]) ++ rest)); [|reflexivity].
    destruct HB as [HB _]. destruct (HB eq_refl) as [H|H]; [destruct pre; discriminate|discriminate].
  - rewrite (proj2 HB) by (right; reflexivity). f_equal.
    unfold zslice. rewrite zlen_app. replace (zlen pre + zlen [c1; c2] - zlen pre) with (zlen [c1; c2]) by lia.
    rewrite <- app_assoc, zdrop_app. apply ztake_app.
Qed.

Lemma loop_go n : forall ix pre l dst (f : list byte -> list byte),
  length l = (2 * n)%nat -> zlen pre = ix * 2 -> (pre = [] \/ cut_here l = false) ->
  (forall r, f r = dst ++ r) ->
  bytes_of_hex_loop n ix (pre ++ l) dst = hex_go (pre ++ l) l f.
Proof.
  induction n as [|n IH]; intros ix pre l dst f Hl Hp Hb Hf.
  - destruct l; [|discriminate]. cbn. rewrite Hf, app_nil_r. reflexivity.
  - destruct l as [|c1 [|c2 l]]; cbn [length] in Hl; try lia.
    cbn [bytes_of_hex_loop]. rewrite <- Hp, str_slice_pair by exact Hb.
    cbn [hex_go]. destruct (cut_here l) eqn:Hc; [reflexivity|]. cbn [rbind].
    destruct (u8_from_str_radix16 [c1; c2]) as [w|]; [|reflexivity].
    replace (pre ++ c1 :: c2 :: l) with ((pre ++ [c1; c2]) ++ l) by (rewrite <- app_assoc; reflexivity).
    apply IH; [lia| |auto|].
    + rewrite zlen_app, Hp. cbn. lia.
    + intros r. rewrite Hf, <- app_assoc. reflexivity.
Qed.

Lemma even_length (s : list byte) : zlen s mod 2 = 0 -> length s = (2 * Z.to_nat (zlen s / 2))%nat.
Proof. intros H. pose proof (Z.div_mod (zlen s) 2 ltac:(lia)). unfold zlen in *. lia. Qed.

Lemma bytes_of_hex_go s :
  bytes_of_hex s = if zlen s mod 2 =? 0 then hex_go s s (fun r => r) else RErr (OddParity s).
Proof.
  unfold bytes_of_hex. destruct (Z.eqb_spec (zlen s) 0) as [E|E].
  - apply zlen_0_nil in E; subst s. reflexivity.
  - destruct (Z.eqb_spec (zlen s mod 2) 0) as [E2|E2]; [|reflexivity]. cbn [negb].
    apply (loop_go _ 0 [] s []); [apply even_length; exact E2|reflexivity|auto|reflexivity].
Qed.

(** Simple induction two at a time. *)
Lemma pair_ind (Q : list byte -> Prop) :
  Q [] -> (forall c, Q [c]) -> (forall c1 c2 l, Q l -> Q (c1 :: c2 :: l)) -> forall l, Q l.
Proof.
  intros H0 H1 H2. assert (H : forall l, Q l /\ forall c, Q (c :: l)).
  { induction l as [|c l [IH1 IH2]]; split; auto. }
  intros l; apply H.
Qed.

Lemma hex_digit_not_cont c v : hex_digit c v -> is_cont c = false.
Proof. intros H; apply hex_digit_range in H. unfold is_cont, in_range. lia. Qed.

Lemma loose_not_cut s b : loose_denotes s b -> cut_here s = false.
Proof. intros [|c1 c2 h l s' b' H1|]; cbn [cut_here]; try reflexivity. eapply hex_digit_not_cont; exact H1. Qed.

Lemma loose_even s b : loose_denotes s b -> zlen s mod 2 = 0.
Proof.
  induction 1; [reflexivity| |]; rewrite !zlen_cons;
    replace (1 + (1 + zlen s)) with (zlen s + 1 * 2) by lia; rewrite Z_mod_plus_full; assumption.
Qed.

Lemma hex_go_loose whole s : forall (f : list byte -> list byte) b,
  zlen s mod 2 = 0 ->
  hex_go whole s f = ROk b <-> exists r, loose_denotes s r /\ b = f r.
Proof.
  induction s as [| |c1 c2 l IH] using pair_ind; intros f b He.
  - cbn [hex_go]. split.
    + intros [= <-]. exists []. split; [constructor|reflexivity].
    + intros (r & H & ->). inversion H. reflexivity.
  - discriminate He.
  - assert (He' : zlen l mod 2 = 0).
    { rewrite !zlen_cons in He. replace (1 + (1 + zlen l)) with (zlen l + 1 * 2) in He by lia.
      rewrite Z_mod_plus_full in He. exact He. }
    cbn [hex_go]. destruct (cut_here l) eqn:Hc.
    { split; [discriminate|]. intros (r & H & _). exfalso.
      inversion H; subst; match goal with H' : loose_denotes l _ |- _ => apply loose_not_cut in H'; congruence end. }
    destruct (u8_from_str_radix16 [c1; c2]) as [w|] eqn:Ew.
    + rewrite IH by exact He'. apply radix_pair in Ew. split.
      * intros (r & Hr & ->). exists (w :: r). split; [|reflexivity].
        destruct Ew as [(h & lo & H1 & H2 & ->)|[-> H2]]; constructor; assumption.
      * intros (r & Hr & ->). inversion Hr as [|d1 d2 h lo s0 b0 D1 D2 D3|d2 lo s0 b0 D2 D3]; subst.
        -- exists b0. split; [exact D3|]. f_equal. f_equal.
           destruct Ew as [(h' & l' & H1 & H2 & ->)|[-> _]]; [|apply hex_digit_range in D1; unfold plus_sign in D1; lia].
           rewrite (hex_digit_fun _ _ _ H1 D1), (hex_digit_fun _ _ _ H2 D2). reflexivity.
        -- exists b0. split; [exact D3|]. f_equal. f_equal.
           destruct Ew as [(h' & l' & H1 & H2 & ->)|[_ H2]]; [apply hex_digit_range in H1; unfold plus_sign in H1; lia|].
           symmetry. eapply hex_digit_fun; eassumption.
    + split; [discriminate|]. intros (r & Hr & _). exfalso.
      assert (exists w, u8_from_str_radix16 [c1; c2] = Some w) as [w Hw]; [|congruence].
      inversion Hr; subst; eexists; apply radix_pair; [left; eauto|right; eauto].
Qed.

(** C36, exactly *)
Lemma from_hex_exact s b : bytes_of_hex s = ROk b <-> loose_denotes s b.
Proof.
  rewrite bytes_of_hex_go. destruct (Z.eqb_spec (zlen s mod 2) 0) as [E|E].
  - rewrite (hex_go_loose s s (fun r => r) b E). split; [intros (r & H & ->); exact H|eauto].
  - split; [discriminate|]. intros H; apply loose_even in H; contradiction.
Qed.

Lemma denotes_loose s b : hex_denotes s b -> loose_denotes s b.
Proof. induction 1; constructor; assumption. Qed.
Lemma loose_denotes_strict s b : ~ In plus_sign s -> loose_denotes s b -> hex_denotes s b.
Proof.
  intros Hn H; induction H as [|c1 c2 h l s b H1 H2 H3 IH|c2 l s b H2 H3 IH]; cbn [In] in Hn.
  - constructor.
  - constructor; tauto.
  - tauto.
Qed.

Lemma from_hex_accepts s b : ~ In plus_sign s -> (bytes_of_hex s = ROk b <-> hex_denotes s b).
Proof.
  intros Hn. rewrite from_hex_exact. split; [apply loose_denotes_strict; exact Hn|apply denotes_loose].
Qed.

Lemma from_hex_odd s : zlen s mod 2 <> 0 -> bytes_of_hex s = RErr (OddParity s).
Proof. intros H. rewrite bytes_of_hex_go. destruct (Z.eqb_spec (zlen s mod 2) 0); [contradiction|reflexivity]. Qed.

Lemma hex_go_cases whole s : forall f : list byte -> list byte,
  (exists b, hex_go whole s f = ROk b) \/ hex_go whole s f = RErr (NonHex whole) \/ hex_go whole s f = RPanic.
Proof.
  induction s as [| |c1 c2 l IH] using pair_ind; intros f; cbn [hex_go]; eauto.
  destruct (cut_here l); auto. destruct (u8_from_str_radix16 [c1; c2]); auto.
Qed.
Lemma hex_go_ascii whole s : ascii s -> forall f : list byte -> list byte, hex_go whole s f <> RPanic.
Proof.
  unfold ascii. induction s as [| |c1 c2 l IH] using pair_ind; intros H f; cbn [hex_go]; try discriminate.
  apply Forall_cons_iff in H as [_ H]. apply Forall_cons_iff in H as [_ H].
  assert (Hc : cut_here l = false).
  { destruct l as [|c l]; [reflexivity|]. apply Forall_cons_iff in H as [Hc _]. cbn [cut_here].
    unfold is_cont, in_range. lia. }
  rewrite Hc. destruct (u8_from_str_radix16 [c1; c2]); [|discriminate]. apply IH; exact H.
Qed.

Lemma from_hex_rejects s :
  ascii s -> zlen s mod 2 = 0 -> (forall b, ~ loose_denotes s b) -> bytes_of_hex s = RErr (NonHex s).
Proof.
  intros Ha He Hn. rewrite bytes_of_hex_go, He. cbn [Z.eqb].
  destruct (hex_go_cases s s (fun r => r)) as [[b H]|[H|H]]; [|exact H|].
  - exfalso. apply (Hn b). apply from_hex_exact. rewrite bytes_of_hex_go, He. exact H.
  - exfalso. eapply hex_go_ascii; eassumption.
Qed.
Lemma from_hex_rejects_strict s :
  ascii s -> ~ In plus_sign s -> zlen s mod 2 = 0 -> (forall b, ~ hex_denotes s b) ->
  bytes_of_hex s = RErr (NonHex s).
Proof.
  intros Ha Hp He Hn. apply from_hex_rejects; try assumption. intros b H. apply (Hn b).
  apply loose_denotes_strict; assumption.
Qed.

(** C35 *)
Lemma lower_digit_spec n : 0 <= n < 16 -> hex_digit (lower_digit n) n /\ lower_hex (lower_digit n).
Proof.
  intros H. unfold lower_digit, lower_hex. destruct (Z.ltb_spec n 10).
  - split; [|lia]. replace n with ((48 + n) - 48) at 2 by lia. constructor; lia.
  - split; [|lia]. replace n with (10 + ((87 + n) - 97)) at 2 by lia. constructor; lia.
Qed.

Lemma fmt_02x_eq b : 0 <= b < 256 -> fmt_02x b = [lower_digit (b / 16); lower_digit (b mod 16)].
Proof.
  intros H. unfold fmt_02x. destruct (Z.ltb_spec b 16); [|reflexivity].
  rewrite Z.div_small, Z.mod_small by lia. reflexivity.
Qed.

Lemma to_hex_spec b :
  bytes_ok b -> hex_denotes (hex_of_bytes b) b /\ Forall lower_hex (hex_of_bytes b) /\
  zlen (hex_of_bytes b) = 2 * zlen b.
Proof.
  unfold bytes_ok. induction b as [|x b IH]; intros H; cbn [hex_of_bytes].
  - split; [constructor|]. split; [constructor|reflexivity].
  - apply Forall_cons_iff in H as [Hx H]. destruct (IH H) as (H1 & H2 & H3). unfold is_byte in Hx.
    rewrite fmt_02x_eq by lia. cbn [app].
    assert (D : 0 <= x / 16 < 16) by (split; [apply Z.div_pos; lia|apply Z.div_lt_upper_bound; lia]).
    assert (M : 0 <= x mod 16 < 16) by (apply Z.mod_pos_bound; lia).
    destruct (lower_digit_spec _ D) as [D1 D2]. destruct (lower_digit_spec _ M) as [M1 M2].
    split; [|split].
    + rewrite (Z.div_mod x 16) at 3 by lia. constructor; assumption.
    + constructor; [exact D2|]. constructor; [exact M2|exact H2].
    + rewrite !zlen_cons, H3. lia.
Qed.

Lemma hex_round_trip b : bytes_ok b -> bytes_of_hex (hex_of_bytes b) = ROk b.
Proof. intros H. apply from_hex_exact, denotes_loose, to_hex_spec; exact H. Qed.

Lemma fold_digit c v : hex_digit (if (65 <=? c) && (c <=? 90) then c + 32 else c) v <-> hex_digit c v.
Proof.
  destruct ((65 <=? c) && (c <=? 90)) eqn:E; [|tauto].
  rewrite <- !to_digit16_spec. unfold to_digit16.
  destruct ((48 <=? c + 32) && (c + 32 <=? 57)) eqn:E1; [lia|].
  destruct ((48 <=? c) && (c <=? 57)) eqn:E2; [lia|].
  destruct ((97 <=? c + 32) && (c + 32 <=? 102)) eqn:E3; destruct ((97 <=? c) && (c <=? 102)) eqn:E4;
    destruct ((65 <=? c + 32) && (c + 32 <=? 70)) eqn:E5; destruct ((65 <=? c) && (c <=? 70)) eqn:E6; try lia;
    try (split; discriminate); try tauto.
  replace (c + 32 - 87) with (c - 55) by lia. tauto.
Qed.
Lemma fold_plus c : (if (65 <=? c) && (c <=? 90) then c + 32 else c) = plus_sign <-> c = plus_sign.
Proof. unfold plus_sign. destruct ((65 <=? c) && (c <=? 90)) eqn:E; lia. Qed.

Lemma loose_fold s b : loose_denotes (fold_case s) b <-> loose_denotes s b.
Proof.
  split.
  - revert b. induction s as [| |c1 c2 l IH] using pair_ind; intros b H; cbn [fold_case map] in H.
    + exact H.
    + inversion H.
    + inversion H as [|d1 d2 h lo s0 b0 D1 D2 D3|d2 lo s0 b0 D2 D3]; subst.
      * apply (proj1 (fold_digit _ _)) in D1. apply (proj1 (fold_digit _ _)) in D2. apply loose_pair; [exact D1|exact D2|apply IH; exact D3].
      * match goal with E : plus_sign = _ |- _ => symmetry in E; apply (proj1 (fold_plus _)) in E; subst c1 end.
        apply (proj1 (fold_digit _ _)) in D2. apply loose_plus; [exact D2|apply IH; exact D3].
  - induction 1 as [|c1 c2 h l s b H1 H2 H3 IH|c2 l s b H2 H3 IH]; cbn [fold_case map].
    + constructor.
    + constructor; [apply fold_digit; exact H1|apply fold_digit; exact H2|exact IH].
    + change (if (65 <=? plus_sign) && (plus_sign <=? 90) then plus_sign + 32 else plus_sign) with plus_sign.
      apply loose_plus; [apply fold_digit; exact H2|exact IH].
Qed.
Lemma from_hex_case s s' b : fold_case s = fold_case s' -> bytes_of_hex s = ROk b -> bytes_of_hex s' = ROk b.
Proof.
  rewrite !from_hex_exact. intros E H. apply loose_fold. rewrite <- E. apply loose_fold. exact H.
Qed.

(** C37 *)
Fixpoint eq_go (l tgt : list byte) : res hex_error bool :=
  match l, tgt with
  | c1 :: c2 :: rest, t :: tgt =>
      if cut_here rest then RPanic
      else match u8_from_str_radix16 [c1; c2] with
           | Some w => if w =? t then eq_go rest tgt else ROk false
           | None => ROk false
           end
  | _, _ => ROk true
  end.

Lemma eq_loop_go n : forall ix pre l done tgt,
  length l = (2 * n)%nat -> length tgt = n -> zlen pre = ix * 2 -> zlen done = ix ->
  (pre = [] \/ cut_here l = false) ->
  eq_hex_loop n ix (pre ++ l) (done ++ tgt) = eq_go l tgt.
Proof.
  induction n as [|n IH]; intros ix pre l done tgt Hl Ht Hp Hd Hb.
  - destruct l; [|discriminate]. reflexivity.
  - destruct l as [|c1 [|c2 l]]; cbn [length] in Hl; try lia.
    destruct tgt as [|t tgt]; [discriminate|].
    cbn [eq_hex_loop]. rewrite <- Hp, str_slice_pair by exact Hb.
    cbn [eq_go]. destruct (cut_here l) eqn:Hc; [reflexivity|]. cbn [rbind].
    destruct (u8_from_str_radix16 [c1; c2]) as [w|]; [|reflexivity].
    rewrite <- Hd at 1. unfold zlen at 1. rewrite Nat2Z.id, nth_error_app2, Nat.sub_diag by lia. cbn [nth_error].
    destruct (w =? t); [|reflexivity].
    replace (pre ++ c1 :: c2 :: l) with ((pre ++ [c1; c2]) ++ l) by (rewrite <- app_assoc; reflexivity).
    replace (done ++ t :: tgt) with ((done ++ [t]) ++ tgt) by (rewrite <- app_assoc; reflexivity).
    apply IH; [lia| cbn [length] in Ht; lia | | |auto].
    + rewrite zlen_app, Hp. cbn. lia.
    + rewrite zlen_app, Hd. reflexivity.
Qed.

Lemma eq_hex_go s b :
  eq_hex_bytes s b = if zlen b * 2 =? zlen s then eq_go s b else ROk false.
Proof.
  unfold eq_hex_bytes. destruct (Z.eqb_spec (zlen b * 2) (zlen s)) as [E|E]; [|reflexivity]. cbn [negb].
  apply (eq_loop_go _ 0 [] s [] b); try reflexivity; try (unfold zlen in *; lia). auto.
Qed.

Lemma eq_go_true l : forall tgt, zlen tgt * 2 = zlen l -> (eq_go l tgt = ROk true <-> loose_denotes l tgt).
Proof.
  induction l as [|c|c1 c2 l IH] using pair_ind; intros tgt Hl.
  - destruct tgt; [|rewrite zlen_cons, zlen_nil in Hl; pose proof (zlen_nonneg tgt); lia].
    split; [constructor|reflexivity].
  - exfalso. rewrite zlen_cons, zlen_nil in Hl. lia.
  - destruct tgt as [|t tgt]; [rewrite !zlen_cons in Hl; change (zlen (@nil byte)) with 0 in Hl; pose proof (zlen_nonneg l); lia|].
    rewrite !zlen_cons in Hl. assert (Hl' : zlen tgt * 2 = zlen l) by lia. cbn [eq_go].
    destruct (cut_here l) eqn:Hc.
    { split; [discriminate|]. intros H. exfalso.
      inversion H; subst; match goal with H' : loose_denotes l _ |- _ => apply loose_not_cut in H'; congruence end. }
    destruct (u8_from_str_radix16 [c1; c2]) as [w|] eqn:Ew.
    + apply radix_pair in Ew. destruct (Z.eqb_spec w t) as [->|Hne].
      * rewrite (IH tgt Hl'). split.
        -- intros H. destruct Ew as [(h & lo & H1 & H2 & ->)|[-> H2]]; constructor; assumption.
        -- intros H; inversion H; subst; assumption.
      * split; [discriminate|]. intros H. exfalso. apply Hne.
        inversion H as [|d1 d2 h lo s0 b0 D1 D2 D3|d2 lo s0 b0 D2 D3]; subst.
        -- destruct Ew as [(h' & l' & H1 & H2 & ->)|[-> _]]; [|apply hex_digit_range in D1; unfold plus_sign in D1; lia].
           rewrite (hex_digit_fun _ _ _ H1 D1), (hex_digit_fun _ _ _ H2 D2). reflexivity.
        -- destruct Ew as [(h' & l' & H1 & H2 & ->)|[_ H2]]; [apply hex_digit_range in H1; unfold plus_sign in H1; lia|].
           eapply hex_digit_fun; eassumption.
    + split; [discriminate|]. intros Hr. exfalso.
      assert (exists w, u8_from_str_radix16 [c1; c2] = Some w) as [w Hw]; [|congruence].
      inversion Hr; subst; eexists; apply radix_pair; [left; eauto|right; eauto].
Qed.

Lemma loose_len s b : loose_denotes s b -> zlen b * 2 = zlen s.
Proof. induction 1; rewrite ?zlen_cons; [reflexivity| |]; lia. Qed.

Lemma eq_hex_true s b : eq_hex_bytes s b = ROk true <-> bytes_of_hex s = ROk b.
Proof.
  rewrite from_hex_exact, eq_hex_go. destruct (Z.eqb_spec (zlen b * 2) (zlen s)) as [E|E].
  - apply eq_go_true; exact E.
  - split; [discriminate|]. intros H; apply loose_len in H; contradiction.
Qed.

Lemma eq_go_ascii l : ascii l -> forall tgt, exists x, eq_go l tgt = ROk x.
Proof.
  unfold ascii. induction l as [|c|c1 c2 l IH] using pair_ind; intros H tgt; cbn [eq_go]; eauto.
  apply Forall_cons_iff in H as [_ H]. apply Forall_cons_iff in H as [_ H].
  destruct tgt as [|t tgt]; eauto.
  assert (Hc : cut_here l = false).
  { destruct l as [|c l]; [reflexivity|]. apply Forall_cons_iff in H as [Hc _]. cbn [cut_here].
    unfold is_cont, in_range. lia. }
  rewrite Hc. destruct (u8_from_str_radix16 [c1; c2]); eauto. destruct (z =? t); eauto.
Qed.
Lemma eq_hex_false s b : ascii s -> bytes_of_hex s <> ROk b -> eq_hex_bytes s b = ROk false.
Proof.
  intros Ha Hn. rewrite <- eq_hex_true in Hn. rewrite eq_hex_go in *.
  destruct (zlen b * 2 =? zlen s); [|reflexivity].
  destruct (eq_go_ascii s Ha b) as [[] H]; [contradiction|exact H].
Qed.

(** Refutations *)
Lemma from_hex_plus_refuted :
  exists s b, utf8_valid s = true /\ bytes_of_hex s = ROk b /\ forall b', ~ hex_denotes s b'.
Proof.
  exists [43; 102], [15]. split; [reflexivity|]. split; [reflexivity|].
  intros b' H. inversion H; subst. match goal with H' : hex_digit 43 _ |- _ => apply hex_digit_range in H'; lia end.
Qed.
Lemma from_hex_panic_refuted :
  exists s, utf8_valid s = true /\ zlen s mod 2 = 0 /\ bytes_of_hex s = RPanic.
Proof. exists [97; 195; 169; 98]. split; [reflexivity|]. split; reflexivity. Qed.
Lemma eq_hex_panic_refuted :
  exists s b, utf8_valid s = true /\ eq_hex_bytes s b = RPanic.
Proof. exists [97; 195; 169; 98], [0; 0]. split; reflexivity. Qed.

(** Exactly when the conversions panic. *)
Lemma cut_here_spec l : cut_here l = true <-> exists d rest, l = d :: rest /\ 128 <= d < 192.
Proof.
  destruct l as [|d l]; cbn [cut_here]; unfold is_cont, in_range.
  - split; [discriminate|]. intros (d & rest & H & _). discriminate H.
  - split; [intros H; exists d, l; split; [reflexivity|lia]|]. intros (d' & rest & H & Hd). injection H as <- <-. lia.
Qed.
Lemma straddles_cut c1 c2 l : cut_here l = true -> straddles (c1 :: c2 :: l) [].
Proof.
  intros H. apply cut_here_spec in H. destruct H as (d & rest & -> & Hd). exists [], c1, c2, d, rest.
  split; [reflexivity|]. split; [constructor|exact Hd].
Qed.
Lemma straddles_pair c1 c2 w l b : u8_from_str_radix16 [c1; c2] = Some w -> straddles l b -> straddles (c1 :: c2 :: l) (w :: b).
Proof.
  intros Hw (good & d1 & d2 & d & rest & -> & Hg & Hd). exists (c1 :: c2 :: good), d1, d2, d, rest. split; [reflexivity|].
  split; [|exact Hd]. apply radix_pair in Hw. destruct Hw as [(h & lo & H1 & H2 & ->)|[-> H2]]; constructor; assumption.
Qed.
Lemma straddles_inv c1 c2 l b : straddles (c1 :: c2 :: l) b -> cut_here l = false ->
  exists w b', b = w :: b' /\ u8_from_str_radix16 [c1; c2] = Some w /\ straddles l b'.
Proof.
  intros (good & d1 & d2 & d & rest & E & Hg & Hd) Hc.
  inversion Hg as [|e1 e2 h lo s0 b0 D1 D2 D3|e2 lo s0 b0 D2 D3]; subst; cbn [app] in E.
  - injection E as _ _ E. subst l. cbn [cut_here] in Hc. unfold is_cont, in_range in Hc. lia.
  - injection E as E1 E2 E3. subst e1 e2 l. exists (16 * h + lo), b0. split; [reflexivity|]. split; [apply radix_pair; left; eauto|].
    exists s0, d1, d2, d, rest. auto.
  - injection E as E1 E2 E3. subst c1 e2 l. exists lo, b0. split; [reflexivity|]. split; [apply radix_pair; right; auto|].
    exists s0, d1, d2, d, rest. auto.
Qed.
Lemma straddles_long s b : straddles s b -> exists c1 c2 l, s = c1 :: c2 :: l.
Proof.
  intros (good & d1 & d2 & d & rest & -> & Hg & Hd). inversion Hg; subst; cbn [app]; eauto.
Qed.

Lemma hex_go_panic whole s : forall f : list byte -> list byte, hex_go whole s f = RPanic <-> exists b, straddles s b.
Proof.
  induction s as [|c|c1 c2 l IH] using pair_ind; intros f; cbn [hex_go].
  - split; [discriminate|]. intros [b H]. apply straddles_long in H. destruct H as (? & ? & ? & H). discriminate H.
  - split; [discriminate|]. intros [b H]. apply straddles_long in H. destruct H as (? & ? & ? & H). discriminate H.
  - destruct (cut_here l) eqn:Hc.
    { split; [intros _; exists []; apply straddles_cut; exact Hc|reflexivity]. }
    destruct (u8_from_str_radix16 [c1; c2]) as [w|] eqn:Ew.
    + rewrite IH. split; intros [b H].
      * exists (w :: b). apply straddles_pair; assumption.
      * apply straddles_inv in H; [|exact Hc]. destruct H as (w' & b' & _ & _ & H). eauto.
    + split; [discriminate|]. intros [b H]. apply straddles_inv in H; [|exact Hc]. destruct H as (w' & b' & _ & H & _). congruence.
Qed.
Lemma from_hex_even s : zlen s mod 2 = 0 ->
  (bytes_of_hex s = RPanic <-> exists b, straddles s b) /\
  (forall e, bytes_of_hex s = RErr e <->
     e = NonHex s /\ (forall b, ~ loose_denotes s b) /\ (forall b, ~ straddles s b)).
Proof.
  intros He. assert (G : bytes_of_hex s = hex_go s s (fun r => r)) by (rewrite bytes_of_hex_go, He; reflexivity).
  split; [rewrite G; apply hex_go_panic|]. intros e. split.
  - intros H. destruct (hex_go_cases s s (fun r => r)) as [[b C]|[C|C]]; rewrite <- G, H in C; try discriminate C.
    injection C as ->. split; [reflexivity|]. split; intros b Hb.
    + apply from_hex_exact in Hb. congruence.
    + assert (P : bytes_of_hex s = RPanic) by (rewrite G; apply hex_go_panic; eauto). congruence.
  - intros (-> & H1 & H2). destruct (hex_go_cases s s (fun r => r)) as [[b C]|[C|C]]; rewrite <- G in C.
    + destruct (H1 b). apply from_hex_exact; exact C.
    + exact C.
    + rewrite G in C. apply hex_go_panic in C. destruct C as [b C]. destruct (H2 b C).
Qed.

Lemma eq_go_panic l : forall tgt, zlen tgt * 2 = zlen l ->
  (eq_go l tgt = RPanic <-> exists b1 b2, tgt = b1 ++ b2 /\ straddles l b1).
Proof.
  induction l as [|c|c1 c2 l IH] using pair_ind; intros tgt Hl.
  - split; [destruct tgt; discriminate|]. intros (b1 & b2 & _ & H). apply straddles_long in H. destruct H as (? & ? & ? & H). discriminate H.
  - split; [destruct tgt; discriminate|]. intros (b1 & b2 & _ & H). apply straddles_long in H. destruct H as (? & ? & ? & H). discriminate H.
  - destruct tgt as [|t tgt]; [rewrite !zlen_cons in Hl; change (zlen (@nil byte)) with 0 in Hl; pose proof (zlen_nonneg l); lia|].
    rewrite !zlen_cons in Hl. assert (Hl' : zlen tgt * 2 = zlen l) by lia. cbn [eq_go].
    destruct (cut_here l) eqn:Hc.
    { split; [|reflexivity]. intros _. exists [], (t :: tgt). split; [reflexivity|]. apply straddles_cut; exact Hc. }
    destruct (u8_from_str_radix16 [c1; c2]) as [w|] eqn:Ew.
    + destruct (Z.eqb_spec w t) as [->|Hne].
      * rewrite (IH tgt Hl'). split.
        -- intros (b1 & b2 & -> & H). exists (t :: b1), b2. split; [reflexivity|]. apply straddles_pair; assumption.
        -- intros (b1 & b2 & E & H). apply straddles_inv in H; [|exact Hc]. destruct H as (w' & b' & -> & _ & H).
           injection E as _ E. exists b', b2. auto.
      * split; [discriminate|]. intros (b1 & b2 & E & H). apply straddles_inv in H; [|exact Hc]. destruct H as (w' & b' & -> & H & _).
        injection E as E _. congruence.
    + split; [discriminate|]. intros (b1 & b2 & E & H). apply straddles_inv in H; [|exact Hc]. destruct H as (w' & b' & _ & H & _). congruence.
Qed.
Lemma eq_go_cases l : forall tgt, (exists x, eq_go l tgt = ROk x) \/ eq_go l tgt = RPanic.
Proof.
  induction l as [|c|c1 c2 l IH] using pair_ind; intros tgt; cbn [eq_go]; eauto.
  destruct tgt as [|t tgt]; eauto. destruct (cut_here l); auto. destruct (u8_from_str_radix16 [c1; c2]) as [w|]; eauto.
  destruct (w =? t); eauto.
Qed.
Lemma eq_hex_exact s b :
  (eq_hex_bytes s b = RPanic <-> zlen s = 2 * zlen b /\ exists b1 b2, b = b1 ++ b2 /\ straddles s b1) /\
  (eq_hex_bytes s b = ROk false <->
     bytes_of_hex s <> ROk b /\ (zlen s = 2 * zlen b -> forall b1 b2, b = b1 ++ b2 -> ~ straddles s b1)).
Proof.
  pose proof (eq_hex_true s b) as T. rewrite eq_hex_go in *.
  destruct (Z.eqb_spec (zlen b * 2) (zlen s)) as [E|E].
  - pose proof (eq_go_panic s b E) as P. split; [rewrite P; split; [intros H; split; [lia|exact H]|tauto]|].
    destruct (eq_go_cases s b) as [[x C]|C].
    + rewrite C in *. split.
      * intros H. injection H as ->. split; [intros H; apply T in H; discriminate H|].
        intros _ b1 b2 Eb H. assert (N : ROk (E := hex_error) false = RPanic) by (apply P; eauto). discriminate N.
      * intros [H _]. destruct x; [|reflexivity]. destruct H. apply T; reflexivity.
    + rewrite C in *. split; [discriminate|]. intros [_ H]. destruct (proj1 P eq_refl) as (b1 & b2 & Eb & Hs).
      destruct (H ltac:(lia) b1 b2 Eb Hs).
  - split; [split; [discriminate|intros [H _]; lia]|]. split; [|reflexivity]. intros _. split; [|intros H; lia].
    intros H. apply T in H. discriminate H.
Qed.
