(** [String::from_utf8_lossy] substitutes maximal subparts (C40, C60). *)
From Verif Require Import Base BaseLemmas ModelUtf8 SpecUtf8 ProofUtf8.
From Coq Require Import ZifyBool.

#[local] Ltac Zify.zify_post_hook ::= Z.div_mod_to_equations.

Ltac heads E :=
  pose proof (f_equal (fun l => nth 0 l 0) E); pose proof (f_equal (fun l => nth 1 l 0) E);
  pose proof (f_equal (fun l => nth 2 l 0) E); pose proof (f_equal (fun l => nth 3 l 0) E); cbn [nth] in *.

Definition two (b0 b1 : Z) : bool := (in_range 0xc2 0xdf b0 && is_cont b1) || second3 b0 b1 || second4 b0 b1.
Definition three (b0 b1 b2 : Z) : bool := (second3 b0 b1 || second4 b0 b1) && is_cont b2.

Lemma begins2 b0 b1 : begins_character [b0; b1] -> two b0 b1 = true.
Proof.
  intros (c & more & Hc & E). revert E. unfold scalar in Hc. unfold utf8_encode, two. u8simp.
  u8cases; intros E; cbn [app] in E; try discriminate E; heads E; clear E; lia.
Qed.
Lemma begins3 b0 b1 b2 : begins_character [b0; b1; b2] -> three b0 b1 b2 = true.
Proof.
  intros (c & more & Hc & E). revert E. unfold scalar in Hc. unfold utf8_encode, three. u8simp.
  u8cases; intros E; cbn [app] in E; try discriminate E; heads E; clear E; lia.
Qed.
Lemma begins4 b0 b1 b2 b3 : begins_character [b0; b1; b2; b3] -> second4 b0 b1 && is_cont b2 && is_cont b3 = true.
Proof.
  intros (c & more & Hc & E). revert E. unfold scalar in Hc. unfold utf8_encode. u8simp.
  u8cases; intros E; cbn [app] in E; try discriminate E; heads E; clear E; lia.
Qed.
Lemma second3_begins b0 b1 : second3 b0 b1 = true -> begins_character [b0; b1].
Proof.
  intros H. exists ((b0 - 0xe0) * 4096 + (b1 - 0x80) * 64), [0x80]. u8simp.
  split; [unfold scalar; lia|]. unfold utf8_encode; u8cases. cbn [app]. f_equal; [lia|]. f_equal; [lia|]. f_equal; lia.
Qed.
Lemma second4_begins b0 b1 : second4 b0 b1 = true -> begins_character [b0; b1].
Proof.
  intros H. exists ((b0 - 0xf0) * 262144 + (b1 - 0x80) * 4096), [0x80; 0x80]. u8simp.
  split; [unfold scalar; lia|]. unfold utf8_encode; u8cases. cbn [app].
  f_equal; [lia|]. f_equal; [lia|]. f_equal; [lia|]. f_equal; lia.
Qed.
Lemma third4_begins b0 b1 b2 : second4 b0 b1 = true -> is_cont b2 = true -> begins_character [b0; b1; b2].
Proof.
  intros H H2. exists ((b0 - 0xf0) * 262144 + (b1 - 0x80) * 4096 + (b2 - 0x80) * 64), [0x80]. u8simp.
  split; [unfold scalar; lia|]. unfold utf8_encode; u8cases. cbn [app].
  f_equal; [lia|]. f_equal; [lia|]. f_equal; [lia|]. f_equal; lia.
Qed.

(** A failed round takes the maximal subpart. *)
Lemma utf8_next_bad b0 rest n : utf8_next b0 rest = (n, false) ->
  exists bad more, b0 :: rest = bad ++ more /\ length bad = n /\ bad <> [] /\
    (begins_character bad \/ zlen bad = 1) /\
    (forall b more', more = b :: more' -> ~ begins_character (bad ++ [b])).
Proof.
  unfold utf8_next. destruct (b0 <? 0x80) eqn:C0; [discriminate|].
  assert (One : two b0 (safe_get 0 rest) = false -> n = 1%nat ->
    exists bad more, b0 :: rest = bad ++ more /\ length bad = n /\ bad <> [] /\
    (begins_character bad \/ zlen bad = 1) /\
    (forall b more', more = b :: more' -> ~ begins_character (bad ++ [b]))).
  { intros H ->. exists [b0], rest. repeat split; [discriminate|right; reflexivity|].
    intros b more' -> B. apply begins2 in B. unfold safe_get in H; cbn [nth] in H. congruence. }
  destruct (in_range 0xc2 0xdf b0) eqn:C1.
  { destruct (is_cont (safe_get 0 rest)) eqn:K; [discriminate|]. intros E; injection E as <-.
    apply One; [|reflexivity]. unfold two. u8simp. lia. }
  destruct (in_range 0xe0 0xef b0) eqn:C2.
  { destruct (second3 b0 (safe_get 0 rest)) eqn:K1.
    2:{ intros E; injection E as <-. apply One; [|reflexivity]. unfold two. u8simp. lia. }
    destruct (is_cont (safe_get 1 rest)) eqn:K2; [discriminate|]. intros E; injection E as <-.
    pose proof (safe_get_pos 0 rest (second3 b0) ltac:(u8simp; lia) K1).
    destruct rest as [|b1 rest]; [cbn in *; lia|]. unfold safe_get in *; cbn [nth] in *.
    exists [b0; b1], rest. repeat split; [discriminate|left; apply second3_begins; exact K1|].
    intros b more' -> B. apply begins3 in B. unfold three in B. cbn [nth] in K2. rewrite K2, andb_false_r in B. discriminate B. }
  destruct (in_range 0xf0 0xf4 b0) eqn:C3.
  2:{ intros E; injection E as <-. apply One; [|reflexivity]. unfold two. u8simp. lia. }
  destruct (second4 b0 (safe_get 0 rest)) eqn:K1.
  2:{ intros E; injection E as <-. apply One; [|reflexivity]. unfold two. u8simp. lia. }
  pose proof (safe_get_pos 0 rest (second4 b0) ltac:(u8simp; lia) K1).
  destruct rest as [|b1 rest]; [cbn in *; lia|]. unfold safe_get in *; cbn [nth] in *.
  destruct (is_cont (nth 0 rest 0)) eqn:K2.
  2:{ intros E; injection E as <-. exists [b0; b1], rest. repeat split; [discriminate|left; apply second4_begins; exact K1|].
      intros b more' -> B. apply begins3 in B. unfold three in B. cbn [nth] in K2. rewrite K2, andb_false_r in B. discriminate B. }
  destruct (is_cont (nth 1 rest 0)) eqn:K3; [discriminate|]. intros E; injection E as <-.
  destruct rest as [|b2 rest]; [discriminate K2|]. cbn [nth] in *.
  exists [b0; b1; b2], rest. repeat split; [discriminate|left; apply third4_begins; assumption|].
  intros b more' -> B. apply begins4 in B. cbn [nth] in K3. rewrite K3, andb_false_r in B. discriminate B.
Qed.

Lemma next_bad_no_character b0 rest n : utf8_next b0 rest = (n, false) -> no_character (b0 :: rest).
Proof.
  intros E c more Hc H. pose proof (utf8_next_encode c more Hc) as N. destruct (utf8_encode c) as [|b l]; [exact N|].
  cbn [app] in H. injection H as <- ->. congruence.
Qed.

Lemma begins_shorter p b more : begins_character (p ++ b :: more) -> begins_character (p ++ [b]).
Proof.
  intros (c & m & Hc & E). exists c, (more ++ m). split; [exact Hc|]. rewrite E, <- !app_assoc. reflexivity.
Qed.

Lemma maximal_unique l p r p' r' : l = p ++ r -> l = p' ++ r' -> p <> [] -> p' <> [] ->
  (begins_character p \/ zlen p = 1) -> (begins_character p' \/ zlen p' = 1) ->
  (forall b m, r = b :: m -> ~ begins_character (p ++ [b])) ->
  (forall b m, r' = b :: m -> ~ begins_character (p' ++ [b])) -> p = p' /\ r = r'.
Proof.
  intros E E' N N' B B' M M'.
  assert (One : forall p b m, p <> [] -> begins_character (p ++ b :: m) \/ zlen (p ++ b :: m) = 1 -> begins_character (p ++ [b])).
  { clear. intros p b m N [H|H]; [eapply begins_shorter; exact H|]. destruct p; [congruence|].
    rewrite zlen_app in H. unfold zlen in H. cbn [length] in H. lia. }
  subst l. symmetry in E'. apply app_eq_app in E'. destruct E' as [x [[-> ->]|[-> ->]]].
  - destruct x as [|b x]; [rewrite app_nil_r; split; reflexivity|]. exfalso.
    eapply M; [reflexivity|]. eapply One; eassumption.
  - destruct x as [|b x]; [rewrite app_nil_r; split; reflexivity|]. exfalso.
    eapply M'; [reflexivity|]. eapply One; eassumption.
Qed.

Lemma lossy_round b0 rest n ok : utf8_next b0 rest = (n, ok) ->
  utf8_lossy (b0 :: rest) = (if ok then firstn n (b0 :: rest) else replacement) ++ utf8_lossy (skipn n (b0 :: rest)).
Proof.
  intros E. unfold utf8_lossy at 1. cbn [length utf8_lossy_loop]. rewrite E. f_equal.
  apply utf8_fuel. pose proof (utf8_next_pos b0 rest) as H. rewrite E in H; cbn [fst] in H.
  rewrite skipn_length. cbn [length]. lia.
Qed.

Lemma skipn_split {A} (l p r : list A) : l = p ++ r -> skipn (length p) l = r.
Proof. intros ->. rewrite skipn_app, skipn_all, Nat.sub_diag. reflexivity. Qed.

Theorem substituted_lossy l cs : bytes_ok l -> substituted l cs -> utf8_lossy l = utf8_string cs.
Proof.
  intros Hb H. revert Hb; induction H as [|c rest cs Hc _ IH|bad rest cs N NC B M _ IH]; intros Hb; [reflexivity| |].
  - apply bytes_ok_app in Hb. rewrite utf8_string_cons, <- IH by tauto.
    pose proof (utf8_lossy_app [c] rest (Forall_cons _ Hc (Forall_nil _))) as [E _].
    unfold utf8_string in E; cbn [map concat] in E. rewrite app_nil_r in E. exact E.
  - destruct (bad ++ rest) as [|b0 l] eqn:El; [apply app_eq_nil in El; tauto|].
    destruct (utf8_next b0 l) as [n ok] eqn:E.
    rewrite (lossy_round _ _ _ _ E). destruct ok.
    + exfalso. inversion Hb as [|? ? Hb0 _]; subst.
      destruct (utf8_next_ok b0 l n Hb0 E) as (c & Hc & Ef & _). apply (NC c (skipn n (b0 :: l)) Hc).
      rewrite <- Ef. symmetry. apply firstn_skipn.
    + destruct (utf8_next_bad _ _ _ E) as (bad' & more & E1 & <- & N' & B' & M').
      rewrite <- El in E1. destruct (maximal_unique _ bad rest bad' more eq_refl E1 N N' B B' M M') as [<- <-].
      rewrite (skipn_split (b0 :: l) bad rest) by (symmetry; exact El). 
      rewrite IH, utf8_string_cons; [reflexivity|]. rewrite <- El in Hb. apply bytes_ok_app in Hb; tauto.
Qed.

Theorem substituted_total l : bytes_ok l -> exists cs, substituted l cs /\ Forall scalar cs.
Proof.
  intros Hb. remember (length l) as n eqn:En. assert (Hn : (length l <= n)%nat) by lia. clear En.
  revert l Hb Hn; induction n as [|n IH]; intros l Hb Hn.
  - destruct l; [|cbn in Hn; lia]. exists []. split; constructor.
  - destruct l as [|b0 rest]; [exists []; split; constructor|].
    destruct (utf8_next b0 rest) as [k ok] eqn:E. pose proof (utf8_next_pos b0 rest) as Hp. rewrite E in Hp; cbn [fst] in Hp.
    destruct ok.
    + inversion Hb as [|? ? Hb0 _]; subst. destruct (utf8_next_ok _ _ _ Hb0 E) as (c & Hc & Ef & Hk).
      assert (E2 : b0 :: rest = utf8_encode c ++ skipn k (b0 :: rest)) by (rewrite <- Ef; symmetry; apply firstn_skipn).
      rewrite E2 in Hb. apply bytes_ok_app in Hb.
      destruct (IH (skipn k (b0 :: rest)) (proj2 Hb)) as (cs & Hs & Hcs).
      { rewrite skipn_length. cbn [length] in *. lia. }
      exists (c :: cs). rewrite E2. split; [apply sub_char; assumption|constructor; assumption].
    + pose proof (next_bad_no_character _ _ _ E) as NC.
      destruct (utf8_next_bad _ _ _ E) as (bad & more & El & <- & N & B & M). rewrite El in *.
      assert (Hm : bytes_ok more) by (apply bytes_ok_app in Hb; tauto).
      destruct (IH more Hm) as (cs & Hs & Hcs). { rewrite app_length in Hn. lia. }
      exists (0xfffd :: cs). split; [eapply sub_bad; eassumption|].
      constructor; [right; lia|exact Hcs].
Qed.

Theorem lossy_exact l : bytes_ok l -> exists cs, substituted l cs /\ Forall scalar cs /\ utf8_lossy l = utf8_string cs.
Proof.
  intros Hb. destruct (substituted_total l Hb) as (cs & H & Hs). exists cs.
  split; [exact H|]. split; [exact Hs|]. apply substituted_lossy; assumption.
Qed.
