(** Proofs for C100. *)
From Verif Require Import Base BaseLemmas ModelErrors ModelInt ModelFloat ModelTarget ModelSchema.
From Verif Require Import SpecCodec SpecNum SpecGrammar SpecPatch ProofInt ProofDec ProofCodec ProofRoundTrip ProofCanon ProofEstimate ProofEncValid ProofEncBytes
  ProofCodecProps ProofCodecThms ProofSettle ProofTransfer ProofGrammar ProofOver ProofNum.

Lemma concat2_app {A T} (f : A -> T -> list byte) vs vs' ts ts' : length vs = length ts ->
  concat2 f (vs ++ vs') (ts ++ ts') = concat2 f vs ts ++ concat2 f vs' ts'.
Proof.
  revert ts. induction vs as [|v vs IH]; intros [|t ts] L; try discriminate L; [reflexivity|].
  cbn [app]. rewrite !concat2_cons, IH by (cbn [length] in L; lia). apply app_assoc.
Qed.
Lemma all2_app {A T} (f : A -> T -> bool) vs vs' ts ts' : length vs = length ts ->
  all2 f (vs ++ vs') (ts ++ ts') = all2 f vs ts && all2 f vs' ts'.
Proof.
  revert ts. induction vs as [|v vs IH]; intros [|t ts] L; try discriminate L; [reflexivity|].
  cbn [app all2]. rewrite IH by (cbn [length] in L; lia). apply andb_assoc.
Qed.
Lemma spot_fill D t v n u x fill : spot D t v n u x fill -> v = fill x.
Proof. induction 1; try reflexivity; congruence. Qed.

Lemma small_split a b : small_ok (a ++ b) -> small_ok a /\ small_ok b.
Proof.
  intros [Hb Hl]. apply bytes_ok_app in Hb. rewrite zlen_app in Hl. pose proof (zlen_nonneg a). pose proof (zlen_nonneg b).
  unfold small_ok. unfold byte in *. repeat split; try tauto; lia.
Qed.

(** ** Where the part lies, and replacing it *)
Section Split.
Variable D : list def.
Hypothesis HD : wf_defs D = true.

Lemma spot_split t v n u x fill : spot D t v n u x fill -> exists pre post, zlen pre = n /\
  format D v t = pre ++ format D x u ++ post /\
  forall y, zlen (format D y u) = zlen (format D x u) -> format D (fill y) t = pre ++ format D y u ++ post.
Proof.
  induction 1 as [t v|t v n u x fill _ IH|t v n u x fill _ IH|t l v r n u x fill _ IH|m t l v r n u x fill _ IH|m t l v r n u x fill _ IH
    |s t v n u x fill _ IH|m t v n u x fill _ IH|m t v n u x fill _ IH|t v n u x fill _ IH
    |i ts ts' t l v r n u x fill Ei L _ IH|i k alts ix tag ts ts' t l v r n u x fill Ei Ea L _ IH].
  1: { exists [], []. repeat split; intros; rewrite app_nil_r; reflexivity. }
  all: destruct IH as (pre & post & Ln & E & F).
  - exists (255 :: pre), post. cbn [format app]. rewrite zlen_cons, E. split; [unfold byte in *; lia|]. split; [reflexivity|]. intros y Y. rewrite F by exact Y. reflexivity.
  - exists pre, post. cbn [format]. auto.
  - exists (concat (map (fun v => format D v t) l) ++ pre), (post ++ concat (map (fun v => format D v t) r)). cbn [format].
    rewrite zlen_app, map_app, concat_app. cbn [map concat]. rewrite E, <- !app_assoc. split; [unfold byte in *; lia|]. split; [reflexivity|].
    intros y Y. rewrite map_app, concat_app. cbn [map concat]. rewrite F by exact Y. rewrite <- !app_assoc. reflexivity.
  - exists (concat (map (fun v => format D v t) l) ++ pre), (post ++ concat (map (fun v => format D v t) r)). cbn [format].
    rewrite zlen_app, map_app, concat_app. cbn [map concat]. rewrite E, <- !app_assoc. split; [unfold byte in *; lia|]. split; [reflexivity|].
    intros y Y. rewrite map_app, concat_app. cbn [map concat]. rewrite F by exact Y. rewrite <- !app_assoc. reflexivity.
  - exists (concat (map (fun v => format D v t) l) ++ pre), (post ++ concat (map (fun v => format D v t) r)). cbn [format].
    rewrite zlen_app, map_app, concat_app. cbn [map concat]. rewrite E, <- !app_assoc. split; [unfold byte in *; lia|]. split; [reflexivity|].
    intros y Y. rewrite map_app, concat_app. cbn [map concat]. rewrite F by exact Y. rewrite <- !app_assoc. reflexivity.
  - exists (pref_format s (zlen (format D v t)) ++ pre), post. cbn [format]. rewrite zlen_app, pref_format_len, <- !app_assoc.
    split; [unfold byte in *; lia|]. split; [rewrite <- E; reflexivity|]. intros y Y. rewrite (F y Y).
    replace (zlen (pre ++ format D y u ++ post)) with (zlen (format D v t)); [apply app_assoc|]. rewrite E, !zlen_app. unfold byte in *. lia.
  - exists pre, post. cbn [format]. auto.
  - exists pre, (post ++ repeat 0 (Z.to_nat m)). cbn [format]. split; [exact Ln|]. rewrite E, <- !app_assoc. split; [reflexivity|].
    intros y Y. rewrite (F y Y), <- !app_assoc. reflexivity.
  - exists pre, post. cbn [format]. auto.
  - exists (concat2 (format D) l ts ++ pre), (post ++ concat2 (format D) r ts'). cbn [format]. rewrite Ei.
    rewrite zlen_app, concat2_app, concat2_cons, E, <- !app_assoc by exact L. split; [unfold byte in *; lia|]. split; [reflexivity|].
    intros y Y. rewrite concat2_app, concat2_cons, F, <- !app_assoc by assumption. reflexivity.
  - exists (int_format k tag ++ concat2 (format D) l ts ++ pre), (post ++ concat2 (format D) r ts'). cbn [format]. rewrite Ei.
    rewrite (nth_error_nth _ _ _ Ea). cbn [fst snd].
    rewrite !zlen_app, int_format_length, concat2_app, concat2_cons, E, <- !app_assoc by exact L. split; [unfold byte in *; lia|]. split; [reflexivity|].
    intros y Y. rewrite concat2_app, concat2_cons, F, <- !app_assoc by assumption. reflexivity.
Qed.

Lemma spot_typed fits t v n u x fill : spot D t v n u x fill -> valid_gen fits D v t = true ->
  valid_gen fits D x u = true /\
  forall y, zlen (format D y u) = zlen (format D x u) -> valid_gen fits D y u = true -> valid_gen fits D (fill y) t = true.
Proof.
  induction 1 as [t v|t v n u x fill _ IH|t v n u x fill _ IH|t l v r n u x fill _ IH|m t l v r n u x fill _ IH|m t l v r n u x fill _ IH
    |s t v n u x fill Hs IH|m t v n u x fill _ IH|m t v n u x fill _ IH|t v n u x fill _ IH
    |i ts ts' t l v r n u x fill Ei L _ IH|i k alts ix tag ts ts' t l v r n u x fill Ei Ea L _ IH]; cbn [valid_gen]; intros V; auto.
  - rewrite forallb_app in V. cbn [forallb] in V. apply andb_prop in V. destruct V as [V1 V]. apply andb_prop in V. destruct V as [V V2].
    destruct (IH V) as [A B]. split; [exact A|]. intros y Y H. rewrite forallb_app. cbn [forallb]. rewrite V1, V2, (B y Y H). reflexivity.
  - apply andb_prop in V. destruct V as [V VL]. rewrite forallb_app in V. cbn [forallb] in V. apply andb_prop in V. destruct V as [V1 V]. apply andb_prop in V. destruct V as [V V2].
    destruct (IH V) as [A B]. split; [exact A|]. intros y Y H. rewrite forallb_app. cbn [forallb]. rewrite V1, V2, (B y Y H). rewrite zlen_app, zlen_cons in *. exact VL.
  - apply andb_prop in V. destruct V as [V VL]. rewrite forallb_app in V. cbn [forallb] in V. apply andb_prop in V. destruct V as [V1 V]. apply andb_prop in V. destruct V as [V V2].
    destruct (IH V) as [A B]. split; [exact A|]. intros y Y H. rewrite forallb_app. cbn [forallb]. rewrite V1, V2, (B y Y H). rewrite zlen_app, zlen_cons in *. exact VL.
  - apply andb_prop in V. destruct V as [V VL]. destruct (IH V) as [A B]. split; [exact A|]. intros y Y H. rewrite (B y Y H).
    destruct (spot_split _ _ _ _ _ _ Hs) as (pre & post & _ & E & F).
    replace (zlen (format D (fill y) t)) with (zlen (format D v t)); [exact VL|]. rewrite E, (F y Y), !zlen_app. unfold byte in *. lia.
  - rewrite Ei in *. rewrite all2_app in V by exact L. cbn [all2] in V. apply andb_prop in V. destruct V as [V1 V]. apply andb_prop in V. destruct V as [V V2].
    destruct (IH V) as [A B]. split; [exact A|]. intros y Y H. rewrite all2_app by exact L. cbn [all2]. rewrite V1, V2, (B y Y H). reflexivity.
  - rewrite Ei, Ea in *. rewrite all2_app in V by exact L. cbn [all2] in V. apply andb_prop in V. destruct V as [V1 V]. apply andb_prop in V. destruct V as [V V2].
    destruct (IH V) as [A B]. split; [exact A|]. intros y Y H. rewrite all2_app by exact L. cbn [all2]. rewrite V1, V2, (B y Y H). reflexivity.
Qed.

Lemma spot_wf t v n u x fill : spot D t v n u x fill -> wf_ty D t = true -> wf_ty D u = true.
Proof.
  induction 1 as [t v|t v n u x fill _ IH|t v n u x fill _ IH|t l v r n u x fill _ IH|m t l v r n u x fill _ IH|m t l v r n u x fill _ IH
    |s t v n u x fill Hs IH|m t v n u x fill _ IH|m t v n u x fill _ IH|t v n u x fill _ IH
    |i ts ts' t l v r n u x fill Ei L _ IH|i k alts ix tag ts ts' t l v r n u x fill Ei Ea L _ IH]; cbn [wf_ty]; intros W; auto;
    try (apply andb_prop in W; apply IH; tauto).
  - apply IH. pose proof (wf_nth D _ _ HD Ei) as H. cbn [wf_def] in H. rewrite forallb_forall in H. apply H, in_or_app. right. left. reflexivity.
  - apply IH. pose proof (wf_nth D _ _ HD Ei) as H. cbn [wf_def] in H. apply andb_prop in H. destruct H as [_ H]. rewrite forallb_forall in H.
    specialize (H _ (nth_error_In _ _ Ea)). cbn [snd] in H. rewrite forallb_forall in H. apply H, in_or_app. right. left. reflexivity.
Qed.
End Split.

(** ** Bytes that read as a value, with other bytes in one place *)
Section Tamper.
Variables (cf : config) (D : list def) (I : list tinfo).
Hypotheses (HD : wf_defs D = true) (HI : disciplined D I = true).
Notation den := (denotes (cf_check_padding cf) D).
Notation mny := (many (cf_check_padding cf) D).
Notation trn := (in_turn (cf_check_padding cf) D).

Lemma own t k v r v2 r2 : wf_ty D t = true -> valid D v t = true -> kind_of I t = Some k -> adm k r -> small_ok (format D v t ++ r) ->
  (den t (format D v t ++ r) v2 r2 <-> v2 = v /\ r2 = r).
Proof.
  intros W V K A S. destruct (rt_all cf D I HI HD v t k K W V) as [f0 R].
  pose proof (sound_all cf D HD f0 t _ _ _ W S (R f0 r (Nat.le_refl _) A (proj2 S))) as O. split.
  - intros H. apply (grammar_unambiguous cf D t (format D v t ++ r) HD W (proj1 S) (proj2 S) v2 r2 v r H O).
  - intros [-> ->]. exact O.
Qed.

(** Some bytes followed by others read as exactly those values of which [P] holds. *)
Definition reads_as (t : ty) (bs r : list byte) (P : val -> Prop) : Prop :=
  forall v2 r2, den t (bs ++ r) v2 r2 <-> r2 = r /\ P v2.

Lemma own_reads t k v r : wf_ty D t = true -> valid D v t = true -> kind_of I t = Some k -> adm k r -> small_ok (format D v t ++ r) ->
  reads_as t (format D v t) r (eq v).
Proof. intros W V K A S v2 r2. rewrite (own t k v r v2 r2 W V K A S). intuition congruence. Qed.

(** Fields. *)
Lemma turn_cons t ts bs ws r2 : trn (t :: ts) bs ws r2 <-> exists w ws' mid, ws = w :: ws' /\ den t bs w mid /\ trn ts mid ws' r2.
Proof.
  split.
  - intros H. inversion H; subst. eauto 8.
  - intros (w & ws' & mid & -> & H1 & H2). econstructor; eassumption.
Qed.
Lemma turn_nil bs ws r2 : trn [] bs ws r2 <-> ws = [] /\ r2 = bs.
Proof. split; [intros H; inversion H; subst; auto|intros [-> ->]; constructor]. Qed.

Lemma tail_adm t ts k kt r len : kind_fields I (t :: ts) = Some k -> adm k r -> kind_of I t = Some kt ->
  (forall m, len_fields I ts = Some m -> len = m) ->
  exists k', kind_fields I ts = Some k' /\ adm k' r /\ forall x, zlen x = len -> adm kt (x ++ r).
Proof.
  intros K A Kt HL. cbn [kind_fields] in K. rewrite Kt in K. destruct kt as [|n].
  - exists k. split; [exact K|]. split; [exact A|]. intros; exact Logic.I.
  - destruct (kind_fields I ts) as [[|]|]; try discriminate K. destruct (len_fields I ts) as [m|]; [|discriminate K].
    destruct ((0 <=? m) && (m <=? n)) eqn:Em; [|discriminate K]. injection K as <-. exists Delim. split; [reflexivity|]. split; [exact Logic.I|].
    intros x Lx. cbn [adm] in *. rewrite zlen_app. specialize (HL m eq_refl). unfold byte in *. lia.
Qed.
Lemma field_kind t ts k : kind_fields I (t :: ts) = Some k -> exists kt, kind_of I t = Some kt.
Proof. cbn [kind_fields]. destruct (kind_of I t); [eauto|discriminate]. Qed.
Lemma fields_len vs ts m : forallb (wf_ty D) ts = true -> all2 (valid D) vs ts = true -> len_fields I ts = Some m -> zlen (concat2 (format D) vs ts) = m.
Proof.
  intros W V E. apply (len_fields_concat2 D I vs ts m); try assumption. apply Forall_forall. intros v' _. apply (len_of_format D I HI HD).
Qed.

Lemma own_turn vs : forall ts k r ws r2, forallb (wf_ty D) ts = true -> all2 (valid D) vs ts = true -> kind_fields I ts = Some k -> adm k r ->
  small_ok (concat2 (format D) vs ts ++ r) -> (trn ts (concat2 (format D) vs ts ++ r) ws r2 <-> ws = vs /\ r2 = r).
Proof.
  induction vs as [|v vs IH]; intros [|t ts] k r ws r2 W V K A S; try discriminate V.
  - apply turn_nil.
  - cbn [forallb all2] in W, V. apply andb_prop in W, V. destruct W as [W W'], V as [V V'].
    destruct (field_kind _ _ _ K) as [kt Kt].
    destruct (tail_adm t ts k kt r (zlen (concat2 (format D) vs ts)) K A Kt (fun m => fields_len vs ts m W' V')) as (k' & K' & A' & B).
    rewrite concat2_cons, <- app_assoc in *. specialize (B _ eq_refl). rewrite turn_cons.
    split.
    + intros (w & ws' & mid & -> & H1 & H2). apply (own t kt v _ w mid W V Kt B S) in H1. destruct H1 as [-> ->].
      apply (IH ts k' r ws' r2 W' V' K' A') in H2; [|apply small_split in S; tauto]. destruct H2 as [-> ->]. split; reflexivity.
    + intros [-> ->]. exists v, vs, (concat2 (format D) vs ts ++ r). split; [reflexivity|]. split.
      * apply (own t kt v _ v _ W V Kt B S). split; reflexivity.
      * apply (IH ts k' r vs r W' V' K' A'); [apply small_split in S; tauto|split; reflexivity].
Qed.

(** One field has other bytes. *)
Lemma turn_spot t ts' v after mid P : zlen mid = zlen (format D v t) -> valid D v t = true ->
  (forall kt r, kind_of I t = Some kt -> adm kt r -> small_ok (mid ++ r) -> reads_as t mid r P) ->
  forall before ts k r ws r2, length before = length ts ->
  forallb (wf_ty D) (ts ++ t :: ts') = true -> all2 (valid D) (before ++ v :: after) (ts ++ t :: ts') = true -> kind_fields I (ts ++ t :: ts') = Some k -> adm k r ->
  small_ok (concat2 (format D) before ts ++ mid ++ concat2 (format D) after ts' ++ r) ->
  (trn (ts ++ t :: ts') (concat2 (format D) before ts ++ mid ++ concat2 (format D) after ts' ++ r) ws r2 <->
   r2 = r /\ exists y, ws = before ++ y :: after /\ P y).
Proof.
  intros Lm Vv HP. induction before as [|b before IH]; intros [|tb ts] k r ws r2 L W V K A S; try discriminate L.
  - cbn [app] in *. change (concat2 (format D) [] []) with (@nil byte) in *. cbn [app] in *.
    cbn [forallb all2] in W, V. apply andb_prop in W, V. destruct W as [W W'], V as [V V'].
    destruct (field_kind _ _ _ K) as [kt Kt].
    destruct (tail_adm t ts' k kt r (zlen (concat2 (format D) after ts')) K A Kt (fun m => fields_len after ts' m W' V')) as (k' & K' & A' & B).
    specialize (B _ eq_refl). specialize (HP kt _ Kt B S). rewrite turn_cons.
    assert (S' : small_ok (concat2 (format D) after ts' ++ r)) by (apply small_split in S; tauto).
    split.
    + intros (w & ws' & m' & -> & H1 & H2). apply HP in H1. destruct H1 as [-> Pw].
      apply (own_turn after ts' k' r ws' r2 W' V' K' A' S') in H2. destruct H2 as [-> ->]. split; [reflexivity|]. exists w. split; [reflexivity|exact Pw].
    + intros (-> & y & -> & Py). exists y, after, (concat2 (format D) after ts' ++ r). split; [reflexivity|]. split.
      * apply HP. split; [reflexivity|exact Py].
      * apply (own_turn after ts' k' r after r W' V' K' A' S'). split; reflexivity.
  - cbn [app] in *. cbn [forallb all2] in W, V. apply andb_prop in W, V. destruct W as [W W'], V as [V V'].
    destruct (field_kind _ _ _ K) as [kt Kt]. assert (L' : length before = length ts) by (cbn [length] in L; lia).
    destruct (tail_adm tb (ts ++ t :: ts') k kt r (zlen (concat2 (format D) (before ++ v :: after) (ts ++ t :: ts'))) K A Kt (fun m => fields_len _ _ m W' V')) as (k' & K' & A' & B).
    rewrite concat2_cons, <- app_assoc in *.
    assert (B' : adm kt (concat2 (format D) before ts ++ mid ++ concat2 (format D) after ts' ++ r)).
    { rewrite !app_assoc. apply B. rewrite concat2_app by exact L'. rewrite concat2_cons, !zlen_app. unfold byte in *. lia. }
    rewrite turn_cons. assert (S' := proj2 (small_split _ _ S)).
    split.
    + intros (w & ws' & m' & -> & H1 & H2). apply (own tb kt b _ w m' W V Kt B' S) in H1. destruct H1 as [-> ->].
      apply (IH ts k' r ws' r2 L' W' V' K' A' S') in H2. destruct H2 as (-> & y & -> & Py). split; [reflexivity|]. exists y. split; [reflexivity|exact Py].
    + intros (-> & y & -> & Py). eexists b, _, _. split; [reflexivity|]. split.
      * apply (own tb kt b _ b _ W V Kt B' S). split; reflexivity.
      * apply (IH ts k' r _ r L' W' V' K' A' S'). split; [reflexivity|]. exists y. split; [reflexivity|exact Py].
Qed.

(** Elements. *)
Lemma many_own t l : wf_ty D t = true -> kind_of I t = Some Delim -> nonempty I t = true -> forallb (fun v => valid D v t) l = true ->
  forall r ws r2, small_ok (concat (map (fun v => format D v t) l) ++ r) -> r2 = [] \/ (length l <= length ws)%nat ->
  (mny t (concat (map (fun v => format D v t) l) ++ r) ws r2 <-> exists ws', ws = l ++ ws' /\ mny t r ws' r2).
Proof.
  intros W K N. induction l as [|v l IH]; intros V r ws r2 S E; cbn [map concat app] in *.
  - split; [intros H; exists ws; auto|intros (ws' & -> & H); exact H].
  - cbn [forallb] in V. apply andb_prop in V. destruct V as [V V']. rewrite <- app_assoc in *.
    pose proof (nonempty_format D I HI HD v t W N V) as P.
    set (tl := concat (map (fun v => format D v t) l) ++ r) in *. assert (S' := proj2 (small_split _ _ S)).
    assert (NE : format D v t ++ tl <> []) by (intros X; apply (f_equal zlen) in X; rewrite zlen_app in X; pose proof (zlen_nonneg tl); change (zlen (@nil byte)) with 0 in X; unfold byte in *; lia).
    split.
    + intros H. inversion H as [? ?|? ? w mid ws' ? _ H1 H2]; subst.
      * exfalso. destruct E as [E|E]; [exact (NE E)|cbn [length] in E; lia].
      * apply (own t Delim v tl w mid W V K Logic.I S) in H1. destruct H1 as [-> ->].
        apply IH in H2; [|exact V'|exact S'|destruct E as [E|E]; [left; exact E|right; cbn [length] in E; lia]].
        destruct H2 as (ws2 & -> & H2). exists ws2. split; [reflexivity|exact H2].
    + intros (ws' & -> & H). econstructor; [exact NE|apply (own t Delim v tl v tl W V K Logic.I S); split; reflexivity|].
      apply IH; [exact V'|exact S'|right; rewrite app_length; lia|]. exists ws'. split; [reflexivity|exact H].
Qed.
Lemma many_nil t ws r2 : mny t [] ws r2 <-> ws = [] /\ r2 = [].
Proof. split; [intros H; inversion H; subst; [auto|congruence]|intros [-> ->]; constructor]. Qed.
Lemma many_spot t v mid P before after r ws r2 : wf_ty D t = true -> kind_of I t = Some Delim -> nonempty I t = true ->
  zlen mid = zlen (format D v t) -> forallb (fun v => valid D v t) (before ++ v :: after) = true ->
  (forall r, small_ok (mid ++ r) -> reads_as t mid r P) ->
  small_ok (concat (map (fun v => format D v t) before) ++ mid ++ concat (map (fun v => format D v t) after) ++ r) ->
  (r2 = [] /\ r = []) \/ length ws = length (before ++ v :: after) ->
  (mny t (concat (map (fun v => format D v t) before) ++ mid ++ concat (map (fun v => format D v t) after) ++ r) ws r2 <->
   r2 = r /\ exists y, ws = before ++ y :: after /\ P y).
Proof.
  intros W K N Lm V HP S E. rewrite forallb_app in V. cbn [forallb] in V. apply andb_prop in V. destruct V as [V1 V]. apply andb_prop in V. destruct V as [V V2].
  rewrite app_length in E. cbn [length] in E.
  set (ta := concat (map (fun v => format D v t) after)) in *.
  assert (S1 := proj2 (small_split _ _ S)). assert (S2 := proj2 (small_split _ _ S1)).
  assert (NE : mid ++ ta ++ r <> []).
  { pose proof (nonempty_format D I HI HD v t W N V). intros X. apply (f_equal zlen) in X. rewrite zlen_app in X. pose proof (zlen_nonneg (ta ++ r)).
    change (zlen (@nil byte)) with 0 in X. unfold byte in *. lia. }
  rewrite (many_own t before W K N V1 (mid ++ ta ++ r) ws r2 S) by (destruct E as [[E _]|E]; [left; exact E|right; lia]).
  split.
  - intros (ws' & -> & H). rewrite app_length in E. inversion H as [? ?|? ? w m' ws2 ? _ H1 H2]; subst.
    + exfalso. destruct E as [[E _]|E]; [exact (NE E)|cbn [length] in E; lia].
    + apply (HP _ S1) in H1. destruct H1 as [-> Pw].
      apply (many_own t after W K N V2 r ws2 r2 S2) in H2; [|destruct E as [[E _]|E]; [left; exact E|right; cbn [length] in E; lia]].
      destruct H2 as (ws3 & -> & H3). rewrite app_length in E || cbn [length] in E. 
      assert (Q : ws3 = [] /\ r2 = r).
      { destruct E as [[-> ->]|E].
        - apply many_nil in H3. exact H3.
        - cbn [length] in E. rewrite app_length in E. destruct ws3; [|cbn [length] in E; lia]. inversion H3; subst; auto. }
      destruct Q as [-> ->]. split; [reflexivity|]. exists w. rewrite app_nil_r. split; [reflexivity|exact Pw].
  - intros (-> & y & -> & Py). exists (y :: after). split; [reflexivity|]. econstructor; [exact NE|apply (HP _ S1); split; [reflexivity|exact Py]|].
    apply (many_own t after W K N V2 r after r S2); [right; lia|]. exists []. rewrite app_nil_r. split; [reflexivity|constructor].
Qed.

Lemma leb_adm k k' (r : list byte) : kind_leb k k' = true -> adm k' r -> adm k r.
Proof. destruct k, k'; cbn; try discriminate; auto. intros; lia. Qed.

Lemma reads_as_iff t bs r P Q : (forall v, P v <-> Q v) -> reads_as t bs r P -> reads_as t bs r Q.
Proof. intros E H v2 r2. rewrite (H v2 r2), (E v2). reflexivity. Qed.

Lemma int_format_eq k a b : ik_in k a = true -> ik_in k b = true -> int_format k a = int_format k b -> a = b.
Proof. intros Ha Hb E. apply (f_equal (d_int k)) in E. rewrite <- (app_nil_r (int_format k a)), <- (app_nil_r (int_format k b)), !d_int_app in E by assumption. congruence. Qed.

Lemma marked_pos bs : marked bs -> 0 < zlen bs.
Proof. intros H. apply marked_nonempty in H. pose proof (zlen_nonneg bs). destruct bs; [congruence|]. rewrite zlen_cons in *. pose proof (zlen_nonneg bs). lia. Qed.

(** What a self-delimiting type reads is fixed by the bytes it takes. *)
Lemma takes t bs v rest : den t bs v rest -> wf_ty D t = true -> exists p, bs = p ++ rest /\
  (forall m, len_of I t = Some m -> zlen p = m) /\ (nonempty I t = true -> 0 < zlen p) /\
  (kind_of I t = Some Delim -> forall r, den t (p ++ r) v r).
Proof.
  pose (P := fun t bs v rest => wf_ty D t = true -> exists p, bs = p ++ rest /\
    (forall m, len_of I t = Some m -> zlen p = m) /\ (nonempty I t = true -> 0 < zlen p) /\
    (kind_of I t = Some Delim -> forall r, den t (p ++ r) v r)).
  pose (Q1 := fun t bs vs rest => wf_ty D t = true -> exists p, bs = p ++ rest /\
    (forall m, len_of I t = Some m -> zlen p = zlen vs * m) /\ (vs <> [] -> nonempty I t = true -> 0 < zlen p) /\
    (kind_of I t = Some Delim -> nonempty I t = true -> forall r, mny t (p ++ r) vs r)).
  pose (R1 := fun ts bs vs rest => forallb (wf_ty D) ts = true -> exists p, bs = p ++ rest /\
    (forall m, len_fields I ts = Some m -> zlen p = m) /\ (existsb (nonempty I) ts = true -> 0 < zlen p) /\
    (Forall (fun t => kind_of I t = Some Delim) ts -> forall r, trn ts (p ++ r) vs r)).
  intros H. change (P t bs v rest).
  induction H using denotes_mut with (P0 := fun t bs vs r _ => Q1 t bs vs r) (P1 := fun ts bs vs r _ => R1 ts bs vs r);
    unfold P, Q1, R1 in *; cbn [wf_ty]; intros HW.
  - exists []. split; [reflexivity|]. cbn [len_of nonempty]. repeat split; try discriminate; [intros len E; injection E as <-; reflexivity|intros; constructor].
  - exists [255]. split; [reflexivity|]. cbn [len_of nonempty]. repeat split; [intros len E; injection E as <-; reflexivity|intros; constructor].
  - exists [0]. split; [reflexivity|]. cbn [len_of nonempty]. repeat split; [intros len E; injection E as <-; reflexivity|intros; constructor].
  - exists (int_format k z). split; [reflexivity|]. cbn [len_of nonempty]. rewrite int_format_length.
    repeat split; [congruence|destruct k; reflexivity|intros; constructor; assumption].
  - exists (int_format k z). split; [reflexivity|]. cbn [len_of nonempty]. rewrite int_format_length.
    repeat split; [congruence|destruct k; reflexivity|intros; constructor; assumption].
  - exists (big_endian 8 z). split; [reflexivity|]. cbn [len_of nonempty]. 
    repeat split; [intros len E; injection E as <-; reflexivity|intros; constructor; assumption].
  - exists (big_endian 8 z). split; [reflexivity|]. cbn [len_of nonempty]. 
    repeat split; [intros len E; injection E as <-; reflexivity|intros; constructor; assumption].
  - exists bs. split; [reflexivity|]. cbn [len_of nonempty]. repeat split; try discriminate; [|intros; constructor; assumption].
    intros _. apply marked_pos. assumption.
  - exists bs. split; [reflexivity|]. cbn [len_of nonempty]. repeat split; try discriminate; [|intros; constructor; assumption].
    intros _. apply marked_pos. assumption.
  - exists bs. rewrite app_nil_r. split; [reflexivity|]. cbn [len_of nonempty kind_of]. repeat split; discriminate.
  - exists bs. rewrite app_nil_r. split; [reflexivity|]. cbn [len_of nonempty kind_of]. repeat split; discriminate.
  - exists bs. split; [reflexivity|]. cbn [len_of nonempty]. repeat split; [congruence|intros; unfold byte in *; lia|intros; constructor; assumption].
  - exists bs. split; [reflexivity|]. cbn [len_of nonempty]. repeat split; [congruence|intros; unfold byte in *; lia|intros; constructor; assumption].
  - exists [0]. split; [reflexivity|]. cbn [len_of nonempty]. repeat split; [|intros; constructor].
    intros len E. destruct (len_of I t) as [len0|]; [|discriminate E]. destruct (len0 =? 0); [|discriminate E]. injection E as <-. reflexivity.
  - destruct (IHdenotes HW) as (p & -> & L & N & X). exists (255 :: p). split; [reflexivity|]. cbn [len_of nonempty kind_of app].
    rewrite zlen_cons. pose proof (zlen_nonneg p). repeat split; [|unfold byte in *; lia|intros K r'; apply den_some, X, K].
    intros len E. destruct (len_of I t) as [len0|]; [|discriminate E]. destruct (Z.eqb_spec len0 0); [|discriminate E]. injection E as <-. rewrite (L len0 eq_refl). lia.
  - exists []. split; [reflexivity|]. cbn [len_of nonempty kind_of]. repeat split; try discriminate.
    + intros len E. destruct (len_of I t) as [len0|]; [|discriminate E]. destruct (len0 =? 0); [|discriminate E]. injection E as <-. reflexivity.
    + destruct (kind_of I t); [|discriminate]. destruct (_ && _); discriminate.
  - destruct (IHdenotes HW) as (p & -> & L & N & X). exists p. split; [reflexivity|]. cbn [len_of nonempty kind_of]. repeat split; try discriminate.
    + intros len E. destruct (len_of I t) as [len0|]; [|discriminate E]. destruct (Z.eqb_spec len0 0); [|discriminate E]. injection E as <-. rewrite (L len0 eq_refl). assumption.
    + destruct (kind_of I t); [|discriminate]. destruct (_ && _); discriminate.
  - exists bs. rewrite app_nil_r. split; [reflexivity|]. cbn [len_of nonempty kind_of]. repeat split; try discriminate.
    destruct (kind_of I t) as [[|]|]; try discriminate. destruct (nonempty I t); discriminate.
  - exists bs. rewrite app_nil_r. split; [reflexivity|]. cbn [len_of nonempty kind_of]. repeat split; try discriminate.
    destruct (kind_of I t) as [[|]|]; try discriminate. destruct (nonempty I t); discriminate.
  - apply andb_prop in HW. destruct HW as [_ HW]. destruct (IHdenotes HW) as (p & -> & L & N & X). exists p. split; [reflexivity|]. cbn [len_of nonempty kind_of]. repeat split.
    + intros len E. destruct (len_of I t) as [len0|]; [|discriminate E]. injection E as <-. rewrite (L len0 eq_refl). congruence.
    + intros E. apply andb_prop in E. destruct E as [E1 E2]. apply N; [|exact E2]. intros ->. change (zlen (@nil val)) with 0 in *. lia.
    + intros K r'. destruct (kind_of I t) as [[|]|]; try discriminate K. destruct (nonempty I t) eqn:En.
      * apply den_fix; [apply X; reflexivity|assumption].
      * cbn [orb] in K. destruct (Z.eqb_spec n 0); [|discriminate K]. subst n. destruct vs; [|rewrite zlen_cons in *; pose proof (zlen_nonneg vs); lia].
        assert (E0 : p ++ r = r) by (inversion m; congruence). destruct p; [|apply (f_equal zlen) in E0; rewrite zlen_app, zlen_cons in E0; pose proof (zlen_nonneg p); unfold byte in *; lia].
        apply den_fix; [constructor|reflexivity].
  - destruct (IHdenotes HW) as (p & E & L & N & X). rewrite app_nil_r in E. subst p.
    exists (pref_format s (zlen payload) ++ payload). split; [rewrite <- app_assoc; reflexivity|]. cbn [len_of nonempty kind_of].
    rewrite zlen_app, pref_format_len. pose proof (zlen_nonneg payload). repeat split.
    + intros len E. destruct (len_of I t) as [len0|]; [|discriminate E]. cbn [opt_add] in E. injection E as <-. rewrite (L len0 eq_refl). reflexivity.
    + intros _. destruct s; cbn [pref_len]; unfold byte in *; lia.
    + intros _ r'. rewrite <- app_assoc. apply den_dyn; assumption.
  - apply andb_prop in HW. destruct HW as [_ HW]. destruct (IHdenotes HW) as (p & E & L & N & X). rewrite app_nil_r in E. subst p.
    exists body. split; [reflexivity|]. cbn [len_of nonempty kind_of]. repeat split; [exact L|exact N|].
    destruct (kind_of I t); [|discriminate]. destruct (greedy_ok k); discriminate.
  - apply andb_prop in HW. destruct HW as [_ HW]. destruct (IHdenotes HW) as (p & -> & L & N & X).
    exists (p ++ padding). split; [apply app_assoc|]. cbn [len_of nonempty kind_of]. rewrite zlen_app. pose proof (zlen_nonneg p). pose proof (zlen_nonneg padding). repeat split.
    + intros len E. destruct (len_of I t) as [len0|]; [|discriminate E]. cbn [opt_add] in E. injection E as <-. rewrite (L len0 eq_refl). congruence.
    + intros E. apply orb_prop in E. destruct E as [E|E]; [specialize (N E)|]; unfold byte in *; lia.
    + intros K r'. destruct (kind_of I t) as [[|m]|]; [|destruct (n <=? m); discriminate K|discriminate K].
      rewrite <- app_assoc. apply (den_pad _ _ _ _ _ _ padding); [apply X; reflexivity|assumption|assumption].
  - destruct (IHdenotes HW) as (p & -> & L & N & X). exists p. split; [reflexivity|]. cbn [len_of nonempty kind_of]. repeat split; [exact L|exact N|].
    intros K r'. apply den_box, X, K.
  - match goal with E : nth_error D i = Some _ |- _ => rename E into Ei end.
    destruct (struct_nth D I HI HD _ _ Ei) as (Hk & Hn & Hl & Wts). destruct (IHdenotes Wts) as (p & -> & L & N & X). exists p. split; [reflexivity|].
    cbn [len_of nonempty kind_of]. repeat split.
    + intros len E. rewrite E in Hl. cbn [len_check] in Hl. destruct (len_fields I ts) as [len0|]; [|discriminate Hl]. rewrite (L len0 eq_refl). lia.
    + intros E. rewrite E in Hn. apply N, Hn.
    + intros E r'. injection E as E. apply (den_struct _ _ _ _ _ _ _ Ei), X. eapply kind_check_delim; eassumption.
  - match goal with E : nth_error D i = Some _ |- _ => rename E into Ei end.
    destruct (cstyle_nth D I HI HD _ _ _ Ei) as (Hl & _). exists (int_format k tag). split; [reflexivity|]. cbn [len_of nonempty kind_of]. rewrite int_format_length. repeat split.
    + intros len E. rewrite E in Hl. cbn [len_check] in Hl. lia.
    + intros _. destruct k; reflexivity.
    + intros _ r'. eapply den_cstyle; eassumption.
  - match goal with E : nth_error D i = Some _ |- _ => rename E into Ei end. match goal with E : nth_error alts ix = Some _ |- _ => rename E into Ea end.
    destruct (data_nth D I HI HD _ _ _ Ei) as (_ & _ & Hx). destruct (Hx _ _ _ Ea) as (Hk & Hl & Wts & _). destruct (IHdenotes Wts) as (p & -> & L & N & X).
    exists (int_format k tag ++ p). split; [apply app_assoc|]. cbn [len_of nonempty kind_of]. rewrite zlen_app, int_format_length. pose proof (zlen_nonneg p). repeat split.
    + intros len E. rewrite E in Hl. cbn [len_check] in Hl. destruct (len_fields I ts) as [len0|]; [|discriminate Hl]. cbn [opt_add] in Hl. rewrite (L len0 eq_refl). lia.
    + intros _. assert (0 < ik_len k) by (destruct k; reflexivity). unfold byte in *. lia.
    + intros E r'. injection E as E. rewrite <- app_assoc. apply (den_data _ _ _ _ _ _ _ _ _ _ _ Ei Ea), X. eapply kind_check_delim; eassumption.
  - exists []. split; [reflexivity|]. split; [intros; reflexivity|]. split; [congruence|intros; constructor].
  - destruct (IHdenotes HW) as (p & -> & L & N & X). destruct (IHdenotes0 HW) as (q & -> & L' & N' & X').
    exists (p ++ q). split; [apply app_assoc|]. rewrite zlen_app, zlen_cons. pose proof (zlen_nonneg q). repeat split.
    + intros len E. rewrite (L len E), (L' len E). lia.
    + intros _ E. specialize (N E). unfold byte in *. lia.
    + intros K E r'. rewrite <- app_assoc. apply many_more with (mid := q ++ r'); [|apply X, K|apply X'; assumption].
      specialize (N E). destruct p; [discriminate N|discriminate].
  - exists []. split; [reflexivity|]. cbn [len_fields fold_right existsb]. repeat split; [intros len E; injection E as <-; reflexivity|discriminate|intros; constructor].
  - cbn [forallb] in HW. apply andb_prop in HW. destruct HW as [W1 W2].
    destruct (IHdenotes W1) as (p & -> & L & N & X). destruct (IHdenotes0 W2) as (q & -> & L' & N' & X').
    exists (p ++ q). split; [apply app_assoc|]. rewrite zlen_app. pose proof (zlen_nonneg q). pose proof (zlen_nonneg p). repeat split.
    + intros len E. unfold len_fields in E. cbn [fold_right] in E. fold (len_fields I ts) in E. destruct (len_of I t) as [a|]; [|discriminate E]. destruct (len_fields I ts) as [b|]; [|discriminate E].
      cbn [opt_add] in E. injection E as <-. rewrite (L a eq_refl), (L' b eq_refl). reflexivity.
    + cbn [existsb]. intros E. apply orb_prop in E. destruct E as [E|E]; [specialize (N E)|specialize (N' E)]; unfold byte in *; lia.
    + intros K r'. inversion K; subst. rewrite <- app_assoc. apply turn_more with (mid := q ++ r'); [apply X|apply X']; assumption.
Qed.

Lemma dyn_inv s t bs w r : den (TDyn s t) bs w r ->
  exists payload v, bs = pref_format s (zlen payload) ++ payload ++ r /\ w = VWrap v /\ zlen payload <= pref_max s /\ den t payload v [].
Proof. intros H. inversion H; subst. eauto 8. Qed.
Lemma vpad_inv m t bs w r : den (TVPad m t) bs w r -> exists body v, bs = body ++ r /\ w = VWrap v /\ zlen r = m /\ den t body v [].
Proof. intros H. inversion H; subst. eauto 8. Qed.
Lemma pad_inv m t bs w r : den (TPad m t) bs w r ->
  exists v padding, w = VWrap v /\ den t bs v (padding ++ r) /\ zlen padding = m /\ (cf_check_padding cf = true -> Forall (fun b => b = 0) padding).
Proof. intros H. inversion H; subst. eauto 8. Qed.
Lemma struct_inv i ts bs w r : nth_error D i = Some (DStruct ts) -> den (TNamed i) bs w r -> exists vs, w = VStruct vs /\ trn ts bs vs r.
Proof. intros E H. inversion H; subst; try congruence. match goal with Ei : nth_error D i = Some (DStruct ?x) |- _ => replace ts with x by congruence end. eauto. Qed.
Lemma data_inv i k alts bs w r : nth_error D i = Some (DData k alts) -> den (TNamed i) bs w r ->
  exists ix tag ts rest vs, bs = int_format k tag ++ rest /\ w = VEnum ix vs /\ nth_error alts ix = Some (tag, ts) /\ trn ts rest vs r.
Proof.
  intros E H. inversion H as [| | | | | | | | | | | | | | | | | | | | | | | | | |? k2 alts2 ix2 tag2 ts2 bs2 vs2 ? Ei2 Ea2 H1]; subst; try congruence.
  rewrite E in Ei2. injection Ei2 as <- <-. exists ix2, tag2, ts2, bs2, vs2. auto.
Qed.

Variables (u : ty) (x : val) (new : list byte) (Q : val -> Prop).
Hypothesis Lnew : zlen new = zlen (format D x u).
Hypothesis HQ : forall r, small_ok (new ++ r) -> reads_as u new r Q.

Lemma contained t v n fill : spot D t v n u x fill -> wf_ty D t = true -> valid D v t = true ->
  exists pre post, zlen pre = n /\ format D v t = pre ++ format D x u ++ post /\
  forall k r, kind_of I t = Some k -> adm k r -> small_ok ((pre ++ new ++ post) ++ r) ->
    reads_as t (pre ++ new ++ post) r (fun w => exists y, w = fill y /\ Q y).
Proof.
  revert Lnew HQ. intros Lnew0 HQ0.
  remember u as u0 eqn:Eu in |- *. remember x as x0 eqn:Ex in |- *.
  intros H. revert Eu Ex.
  induction H as [t v|t v n u1 x1 fill _ IH|t v n u1 x1 fill _ IH|t l v a n u1 x1 fill _ IH|m t l v a n u1 x1 fill _ IH|m t l v a n u1 x1 fill _ IH
    |s t v n u1 x1 fill Hs IH|m t v n u1 x1 fill _ IH|m t v n u1 x1 fill _ IH|t v n u1 x1 fill _ IH
    |i ts ts' t l v a n u1 x1 fill Ei L _ IH|i k alts ix tag ts ts' t l v a n u1 x1 fill Ei Ea L _ IH];
    intros -> -> W V; cbn [wf_ty] in W; unfold valid in V; cbn [valid_gen] in V.
  1: { exists [], []. rewrite app_nil_r. split; [reflexivity|]. split; [reflexivity|]. intros k r _ _ S. cbn [app] in *. rewrite !app_nil_r in *.
       apply (reads_as_iff _ _ _ Q); [|apply HQ0; exact S]. intros v. split; [intros H; exists v; auto|intros (y & -> & H); exact H]. }
  all: specialize (IH eq_refl eq_refl).
  - (* some *)
    destruct (IH W V) as (pre & post & Ln & E & R). exists (255 :: pre), post. cbn [format app]. rewrite zlen_cons, E.
    split; [unfold byte in *; lia|]. split; [reflexivity|]. intros k r K A S w r2. cbn [app] in *. cbn [kind_of] in K.
    specialize (R k r K A (proj2 (small_split [255] _ S))). split.
    + intros H. inversion H as [| | | | | | | | | | | | | | ? ? v2 ? H1| | | | | | | | | | | |]; subst. apply R in H1. destruct H1 as [-> (y & -> & Qy)]. eauto.
    + intros (-> & y & -> & Qy). apply den_some, R. eauto.
  - (* nullable *)
    destruct (IH W V) as (pre & post & Ln & E & R). exists pre, post. cbn [format]. split; [exact Ln|]. split; [exact E|]. intros k r K A S w r2.
    cbn [kind_of] in K. destruct (kind_of I t) as [k'|] eqn:Ek; [|discriminate K]. destruct (greedy_ok k' && nonempty I t) eqn:G; [|discriminate K].
    injection K as <-. cbn [adm] in A. apply zlen_0_nil in A. subst r. apply andb_prop in G. destruct G as [G N].
    specialize (R k' [] eq_refl (adm_greedy _ G) S).
    assert (NE : (pre ++ new ++ post) ++ [] <> []).
    { pose proof (nonempty_format D I HI HD v t W N V) as X. rewrite E in X. intros Y. apply (f_equal zlen) in Y. rewrite !zlen_app in *.
      change (zlen (@nil byte)) with 0 in Y. unfold byte in *. lia. }
    split.
    + intros H. inversion H as [| | | | | | | | | | | | | | |? EN|? ? v2 ? NE' H1| | | | | | | | | |]; subst; [congruence|].
      apply R in H1. destruct H1 as [-> (y & -> & Qy)]. eauto.
    + intros (-> & y & -> & Qy). apply den_nonnull; [exact NE|]. apply R. eauto.
  - (* seq *)
    assert (Vv : valid D v t = true) by (rewrite forallb_app in V; cbn [forallb] in V; apply andb_prop in V; destruct V as [_ V]; apply andb_prop in V; tauto).
    destruct (IH W Vv) as (pre & post & Ln & E & R). set (fm := fun v => format D v t).
    exists (concat (map fm l) ++ pre), (post ++ concat (map fm a)). cbn [format]. fold fm.
    rewrite zlen_app, map_app, concat_app. cbn [map concat]. replace (fm v) with (pre ++ format D x u ++ post) by (symmetry; exact E). rewrite <- !app_assoc.
    split; [unfold byte, fm in *; lia|]. split; [reflexivity|]. intros k r K A S w r2. cbn [kind_of] in K.
    destruct (kind_of I t) as [[|]|] eqn:Ek; try discriminate K. destruct (nonempty I t) eqn:N; [|discriminate K]. injection K as <-.
    cbn [adm] in A. apply zlen_0_nil in A. subst r.
    rewrite <- !app_assoc in *. replace (pre ++ new ++ post ++ concat (map fm a) ++ []) with ((pre ++ new ++ post) ++ concat (map fm a) ++ []) in * by (rewrite <- !app_assoc; reflexivity).
    assert (M : forall ws, mny t (concat (map fm l) ++ (pre ++ new ++ post) ++ concat (map fm a) ++ []) ws [] <-> exists y, ws = l ++ y :: a /\ exists z, y = fill z /\ Q z).
    { intros ws. unfold fm. rewrite (many_spot t v (pre ++ new ++ post) (fun w => exists y, w = fill y /\ Q y) l a [] ws [] W Ek N); try assumption.
      - intuition congruence.
      - rewrite E, !zlen_app. unfold byte in *. lia.
      - intros r Sr. apply (R Delim r eq_refl Logic.I Sr).
      - left. split; reflexivity. }
    split.
    + intros H. inversion H as [| | | | | | | | | | | | | | | | |? ? ws H1| | | | | | | | |]; subst. apply M in H1. destruct H1 as (y & -> & z & -> & Qz). eauto.
    + intros (-> & y & -> & Qy). apply den_seq. apply M. eauto.
  - (* lim *)
    apply andb_prop in W, V. destruct W as [_ W], V as [V VL].
    assert (Vv : valid D v t = true) by (rewrite forallb_app in V; cbn [forallb] in V; apply andb_prop in V; destruct V as [_ V]; apply andb_prop in V; tauto).
    destruct (IH W Vv) as (pre & post & Ln & E & R). set (fm := fun v => format D v t).
    exists (concat (map fm l) ++ pre), (post ++ concat (map fm a)). cbn [format]. fold fm.
    rewrite zlen_app, map_app, concat_app. cbn [map concat]. replace (fm v) with (pre ++ format D x u ++ post) by (symmetry; exact E). rewrite <- !app_assoc.
    split; [unfold byte, fm in *; lia|]. split; [reflexivity|]. intros k r K A S w r2. cbn [kind_of] in K.
    destruct (kind_of I t) as [[|]|] eqn:Ek; try discriminate K. destruct (nonempty I t) eqn:N; [|discriminate K]. injection K as <-.
    cbn [adm] in A. apply zlen_0_nil in A. subst r.
    rewrite <- !app_assoc in *. replace (pre ++ new ++ post ++ concat (map fm a) ++ []) with ((pre ++ new ++ post) ++ concat (map fm a) ++ []) in * by (rewrite <- !app_assoc; reflexivity).
    assert (M : forall ws, mny t (concat (map fm l) ++ (pre ++ new ++ post) ++ concat (map fm a) ++ []) ws [] <-> exists y, ws = l ++ y :: a /\ exists z, y = fill z /\ Q z).
    { intros ws. unfold fm. rewrite (many_spot t v (pre ++ new ++ post) (fun w => exists y, w = fill y /\ Q y) l a [] ws [] W Ek N); try assumption.
      - intuition congruence.
      - rewrite E, !zlen_app. unfold byte in *. lia.
      - intros r Sr. apply (R Delim r eq_refl Logic.I Sr).
      - left. split; reflexivity. }
    split.
    + intros H. inversion H as [| | | | | | | | | | | | | | | | | |? ? ? ws H1 HL| | | | | | | |]; subst. apply M in H1. destruct H1 as (y & -> & z & -> & Qz). eauto.
    + intros (-> & y & -> & Qy). apply den_lim; [apply M; eauto|]. rewrite zlen_app, zlen_cons in *. lia.
  - (* fix *)
    apply andb_prop in W, V. destruct W as [_ W], V as [V VL].
    assert (Vv : valid D v t = true) by (rewrite forallb_app in V; cbn [forallb] in V; apply andb_prop in V; destruct V as [_ V]; apply andb_prop in V; tauto).
    destruct (IH W Vv) as (pre & post & Ln & E & R). set (fm := fun v => format D v t).
    exists (concat (map fm l) ++ pre), (post ++ concat (map fm a)). cbn [format]. fold fm.
    rewrite zlen_app, map_app, concat_app. cbn [map concat]. replace (fm v) with (pre ++ format D x u ++ post) by (symmetry; exact E). rewrite <- !app_assoc.
    split; [unfold byte, fm in *; lia|]. split; [reflexivity|]. intros k r K A S w r2. cbn [kind_of] in K.
    assert (Pm : 0 < m) by (rewrite zlen_app, zlen_cons in VL; pose proof (zlen_nonneg l); pose proof (zlen_nonneg a); lia).
    destruct (kind_of I t) as [[|]|] eqn:Ek; try discriminate K. replace (m =? 0) with false in K by lia. rewrite orb_false_r in K.
    destruct (nonempty I t) eqn:N; [|discriminate K]. injection K as <-.
    rewrite <- !app_assoc in *. replace (pre ++ new ++ post ++ concat (map fm a) ++ r) with ((pre ++ new ++ post) ++ concat (map fm a) ++ r) in * by (rewrite <- !app_assoc; reflexivity).
    assert (M : forall ws r2, zlen ws = m -> (mny t (concat (map fm l) ++ (pre ++ new ++ post) ++ concat (map fm a) ++ r) ws r2 <-> r2 = r /\ exists y, ws = l ++ y :: a /\ exists z, y = fill z /\ Q z)).
    { intros ws r3 Lw. apply (many_spot t v (pre ++ new ++ post) (fun w => exists y, w = fill y /\ Q y) l a r ws r3 W Ek N); try assumption.
      - rewrite E, !zlen_app. unfold byte in *. lia.
      - intros r' Sr. apply (R Delim r' eq_refl Logic.I Sr).
      - right. unfold zlen in Lw, VL. lia. }
    split.
    + intros H. inversion H as [| | | | | | | | | | | | | | | | | | |? ? ? ws ? H1 HL| | | | | | |]; subst. apply M in H1; [|reflexivity]. destruct H1 as (-> & y & -> & z & -> & Qz). eauto.
    + intros (-> & y & -> & Qy). assert (Ly : zlen (l ++ fill y :: a) = m) by (rewrite zlen_app, zlen_cons in *; lia).
      apply den_fix; [apply (M _ _ Ly); eauto 8|exact Ly].
  - (* dyn *)
    apply andb_prop in V. destruct V as [V VL]. cbn [implb] in VL.
    destruct (IH W V) as (pre & post & Ln & E & R). exists (pref_format s (zlen (format D v t)) ++ pre), post. cbn [format].
    rewrite zlen_app, pref_format_len, <- !app_assoc. split; [unfold byte in *; lia|]. split; [rewrite E at 2; reflexivity|]. intros k r K A S w r2.
    cbn [kind_of] in K. destruct (kind_of I t) as [k'|] eqn:Ek; [|discriminate K]. destruct (greedy_ok k') eqn:G; [|discriminate K].
    set (body := pre ++ new ++ post) in *. replace ((pref_format s (zlen (format D v t)) ++ body) ++ r) with (pref_format s (zlen (format D v t)) ++ body ++ r) in * by apply app_assoc.
    assert (Lb : zlen (format D v t) = zlen body) by (subst body; rewrite E, !zlen_app; unfold byte in *; lia).
    rewrite Lb in *. pose proof (zlen_nonneg body).
    assert (Sb : small_ok (body ++ [])) by (rewrite app_nil_r; apply small_split in S; destruct S as [_ S]; apply small_split in S; tauto).
    specialize (R k' [] eq_refl (adm_greedy _ G) Sb). rewrite app_nil_r in *. split.
    + intros H'. apply dyn_inv in H'. destruct H' as (payload & v2 & EQ & -> & Lp & H1).
      apply app_eq_len in EQ; [|rewrite !pref_format_len; reflexivity]. destruct EQ as [EP EQ].
      pose proof (zlen_nonneg payload). apply Z.leb_le in VL. apply pref_format_inj in EP; [|split; assumption|split; assumption].
      apply app_eq_len in EQ; [|exact EP]. destruct EQ as [EQ ->]. rewrite <- EQ in H1.
      unfold reads_as in R. rewrite app_nil_r in R. apply R in H1. destruct H1 as (_ & y & -> & Qy). eauto.
    + intros (-> & y & -> & Qy). unfold reads_as in R. rewrite app_nil_r in R. apply den_dyn; [apply Z.leb_le; exact VL|]. apply R. eauto.
  - (* vpad *)
    apply andb_prop in W. destruct W as [_ W].
    destruct (IH W V) as (pre & post & Ln & E & R). exists pre, post. cbn [format]. split; [exact Ln|]. split; [exact E|]. intros k r K A S w r2.
    cbn [kind_of] in K. destruct (kind_of I t) as [k'|] eqn:Ek; [|discriminate K]. destruct (greedy_ok k') eqn:G; [|discriminate K]. injection K as <-. cbn [adm] in A.
    set (body := pre ++ new ++ post) in *. assert (Sb : small_ok (body ++ [])) by (rewrite app_nil_r; apply small_split in S; tauto).
    specialize (R k' [] eq_refl (adm_greedy _ G) Sb). unfold reads_as in R. rewrite app_nil_r in R. split.
    + intros H'. apply vpad_inv in H'. destruct H' as (body' & v2 & EQ & -> & Lr & H1).
      assert (Lb : zlen body' = zlen body) by (apply (f_equal zlen) in EQ; rewrite !zlen_app in EQ; unfold byte in *; lia).
      apply app_eq_len in EQ; [|symmetry; exact Lb]. destruct EQ as [EQ ->]. rewrite <- EQ in H1. apply R in H1. destruct H1 as (_ & y & -> & Qy). eauto.
    + intros (-> & y & -> & Qy). apply den_vpad; [exact A|]. apply R. eauto.
  - (* pad *)
    apply andb_prop in W. destruct W as [W0 W]. unfold sizeb in W0.
    destruct (IH W V) as (pre & post & Ln & E & R). exists pre, (post ++ repeat 0 (Z.to_nat m)). cbn [format]. split; [exact Ln|].
    rewrite E, <- !app_assoc. split; [reflexivity|]. intros k r K A S w r2. cbn [kind_of] in K.
    destruct (kind_of I t) as [k'|] eqn:Ek; [|discriminate K].
    set (zs := repeat 0 (Z.to_nat m)) in *. assert (Lz : zlen zs = m) by (subst zs; rewrite zlen_repeat; lia).
    replace ((pre ++ new ++ post ++ zs) ++ r) with ((pre ++ new ++ post) ++ zs ++ r) in * by (rewrite <- !app_assoc; reflexivity).
    assert (A' : adm k' (zs ++ r)).
    { destruct k' as [|m']; [exact Logic.I|]. destruct (m <=? m') eqn:Em; [|discriminate K]. injection K as <-. cbn [adm] in *. rewrite zlen_app. unfold byte in *. lia. }
    specialize (R k' (zs ++ r) eq_refl A' S). split.
    + intros H'. apply pad_inv in H'. destruct H' as (v2 & padding & -> & H1 & Lp & _).
      apply R in H1. destruct H1 as (EQ & y & -> & Qy). apply app_eq_len in EQ; [|unfold byte in *; lia]. destruct EQ as [_ ->]. eauto.
    + intros (-> & y & -> & Qy). apply (den_pad _ _ _ _ _ _ zs); [apply R; eauto|exact Lz|].
      intros _. subst zs. clear. induction (Z.to_nat m); constructor; auto.
  - (* box *)
    destruct (IH W V) as (pre & post & Ln & E & R). exists pre, post. cbn [format]. split; [exact Ln|]. split; [exact E|]. intros k r K A S w r2.
    cbn [kind_of] in K. specialize (R k r K A S). split.
    + intros H'. inversion H' as [| | | | | | | | | | | | | | | | | | | | | | |? ? v2 ? H1| | |]; subst. apply R in H1. destruct H1 as (-> & y & -> & Qy). eauto.
    + intros (-> & y & -> & Qy). apply den_box, R. eauto.
  - (* struct *)
    rewrite Ei in V. destruct (struct_nth D I HI HD _ _ Ei) as (Hk & _ & _ & Wts). unfold kind_check in Hk.
    destruct (kind_fields I (ts ++ t :: ts')) as [k0|] eqn:Ek; [|discriminate Hk].
    assert (Vv : valid D v t = true) by (rewrite all2_app in V by exact L; cbn [all2] in V; apply andb_prop in V; destruct V as [_ V]; apply andb_prop in V; tauto).
    assert (Wt : wf_ty D t = true) by (rewrite forallb_forall in Wts; apply Wts, in_or_app; right; left; reflexivity).
    destruct (IH Wt Vv) as (pre & post & Ln & E & R).
    exists (concat2 (format D) l ts ++ pre), (post ++ concat2 (format D) a ts'). cbn [format]. rewrite Ei.
    rewrite zlen_app, concat2_app, concat2_cons, E, <- !app_assoc by exact L. split; [unfold byte in *; lia|]. split; [reflexivity|].
    intros k r K A S w r2. cbn [kind_of] in K. injection K as <-.
    set (body := pre ++ new ++ post) in *.
    replace ((concat2 (format D) l ts ++ pre ++ new ++ post ++ concat2 (format D) a ts') ++ r) with (concat2 (format D) l ts ++ body ++ concat2 (format D) a ts' ++ r) in * by (subst body; rewrite <- !app_assoc; reflexivity).
    assert (Lb : zlen body = zlen (format D v t)) by (subst body; rewrite E, !zlen_app; unfold byte in *; lia).
    pose proof (fun ws r2 => turn_spot t ts' v a body (fun w => exists y, w = fill y /\ Q y) Lb Vv R l ts k0 r ws r2 L Wts V Ek (leb_adm _ _ _ Hk A) S) as T. split.
    + intros H'. apply (struct_inv _ _ _ _ _ Ei) in H'. destruct H' as (vs2 & -> & H1). apply T in H1. destruct H1 as (-> & y & -> & z & -> & Qz). eauto.
    + intros (-> & y & -> & Qy). apply (den_struct _ _ _ _ _ _ _ Ei). apply T. eauto 8.
  - (* data *)
    rewrite Ei, Ea in V. destruct (data_nth D I HI HD _ _ _ Ei) as (Hn & Hin & H). destruct (H _ _ _ Ea) as (Hk & _ & Wts & Htag). unfold kind_check in Hk.
    destruct (kind_fields I (ts ++ t :: ts')) as [k0|] eqn:Ek; [|discriminate Hk].
    assert (Vv : valid D v t = true) by (rewrite all2_app in V by exact L; cbn [all2] in V; apply andb_prop in V; destruct V as [_ V]; apply andb_prop in V; tauto).
    assert (Wt : wf_ty D t = true) by (rewrite forallb_forall in Wts; apply Wts, in_or_app; right; left; reflexivity).
    destruct (IH Wt Vv) as (pre & post & Ln & E & R).
    exists (int_format k tag ++ concat2 (format D) l ts ++ pre), (post ++ concat2 (format D) a ts'). cbn [format]. rewrite Ei.
    rewrite (nth_error_nth _ _ _ Ea). cbn [fst snd].
    rewrite !zlen_app, int_format_length, concat2_app, concat2_cons, E, <- !app_assoc by exact L. split; [unfold byte in *; lia|]. split; [reflexivity|].
    intros kk r K A S w r2. cbn [kind_of] in K. injection K as <-.
    set (body := pre ++ new ++ post) in *.
    replace ((int_format k tag ++ concat2 (format D) l ts ++ pre ++ new ++ post ++ concat2 (format D) a ts') ++ r) with (int_format k tag ++ concat2 (format D) l ts ++ body ++ concat2 (format D) a ts' ++ r) in * by (subst body; rewrite <- !app_assoc; reflexivity).
    assert (Lb : zlen body = zlen (format D v t)) by (subst body; rewrite E, !zlen_app; unfold byte in *; lia).
    pose proof (fun ws r2 => turn_spot t ts' v a body (fun w => exists y, w = fill y /\ Q y) Lb Vv R l ts k0 r ws r2 L Wts V Ek (leb_adm _ _ _ Hk A) (proj2 (small_split _ _ S))) as T. split.
    + intros H'. apply (data_inv _ _ _ _ _ _ Ei) in H'. destruct H' as (ix2 & tag2 & ts2 & bs2 & vs2 & EB & -> & Ea2 & H1). symmetry in EB. apply app_eq_len in EB; [|rewrite !int_format_length; reflexivity]. destruct EB as [ET ->].
      destruct (H _ _ _ Ea2) as (_ & _ & _ & Htag2). apply (int_format_eq k tag2 tag Htag2 Htag) in ET. subst tag2.
      assert (ix2 = ix).
      { assert (M1 : nth_error (map fst alts) ix = Some tag) by (rewrite nth_error_map, Ea; reflexivity).
        assert (M2 : nth_error (map fst alts) ix2 = Some tag) by (rewrite nth_error_map, Ea2; reflexivity).
        pose proof (find_tag_nth_error _ _ _ Hn M1) as F1. pose proof (find_tag_nth_error _ _ _ Hn M2) as F2. congruence. }
      subst ix2. rewrite Ea in Ea2. injection Ea2 as <-. apply T in H1. destruct H1 as (-> & y & -> & z & -> & Qz). eauto.
    + intros (-> & y & -> & Qy). apply (den_data _ _ _ _ _ _ _ _ _ _ _ Ei Ea). apply T. eauto 8.
Qed.
End Tamper.

(** ** The theorems *)
Lemma zslice_mid (a b c : list byte) : zslice (zlen a) (zlen a + zlen b) (a ++ b ++ c) = b.
Proof. unfold zslice. rewrite zdrop_app. replace (zlen a + zlen b - zlen a) with (zlen b) by lia. apply ztake_app. Qed.
Lemma zdrop_mid (a b c : list byte) : zdrop (zlen a + zlen b) (a ++ b ++ c) = c.
Proof. rewrite <- zlen_app, app_assoc. apply zdrop_app. Qed.
Lemma overwrite_mid (a b c new : list byte) : zlen new = zlen b -> overwrite (a ++ b ++ c) (zlen a) new = a ++ new ++ c.
Proof. intros L. unfold overwrite. rewrite ztake_app, L, zdrop_mid. reflexivity. Qed.

Lemma part_read w cf D I kf t v n u x fill bs : wf_defs D = true -> disciplined D I = true -> wf_ty D t = true -> well_typed D v t = true ->
  cf_est_override cf = false -> to_bytes cf D kf v t = ROk bs -> zlen bs <= isize_max -> spot D t v n u x fill ->
  exists xs, to_bytes cf D kf x u = ROk xs /\ zslice n (n + zlen xs) bs = xs /\ n + zlen xs <= zlen bs /\
    (self_delimiting I u = true -> reads w cf D u (zdrop n bs) (ROk (x, zdrop (n + zlen xs) bs))).
Proof.
  intros HD HI W T EO H L Sp.
  destruct (to_bytes_format cf D kf HD v t bs W T H L ltac:(congruence)) as [-> V].
  pose proof (spot_wf D HD _ _ _ _ _ _ Sp W) as Wu. destruct (spot_typed D true _ _ _ _ _ _ Sp V) as [Vx _].
  pose proof (format_bytes D v t T) as B. destruct (spot_split D _ _ _ _ _ _ Sp) as (pre & post & <- & E & _). rewrite E in *.
  assert (S : small_ok (pre ++ format D x u ++ post)) by (split; assumption). apply small_split in S. destruct S as [_ S].
  exists (format D x u). split.
  { apply to_bytes_valid; try assumption. destruct (small_split _ _ S) as [[_ S1] _]. exact S1. }
  split; [apply zslice_mid|]. split; [rewrite !zlen_app; pose proof (zlen_nonneg post); unfold byte in *; lia|].
  intros K. apply delim_kind in K. rewrite zdrop_app, zdrop_mid. apply (grammar_exact cf D HD); try assumption; try apply S.
  apply (own cf D I HD HI u Delim x post); try assumption; [exact Logic.I|auto].
Qed.

Lemma part_replaced cf D kf t v n u x fill bs xs y new : wf_defs D = true -> wf_ty D t = true -> well_typed D v t = true -> well_typed D y u = true ->
  cf_est_override cf = false -> to_bytes cf D kf v t = ROk bs -> zlen bs <= isize_max -> spot D t v n u x fill ->
  to_bytes cf D kf x u = ROk xs -> to_bytes cf D kf y u = ROk new -> zlen new = zlen xs ->
  to_bytes cf D kf (fill y) t = ROk (overwrite bs n new).
Proof.
  intros HD W T Ty EO H L Sp Hx Hy Ln.
  destruct (to_bytes_format cf D kf HD v t bs W T H L ltac:(congruence)) as [-> V].
  pose proof (spot_wf D HD _ _ _ _ _ _ Sp W) as Wu. destruct (spot_typed D true _ _ _ _ _ _ Sp V) as [Vx Vf].
  destruct (spot_split D _ _ _ _ _ _ Sp) as (pre & post & <- & E & F). rewrite E in *.
  assert (Lx : zlen (format D x u) <= isize_max) by (rewrite !zlen_app in L; pose proof (zlen_nonneg post); pose proof (zlen_nonneg pre); unfold byte in *; lia).
  rewrite (to_bytes_valid cf D kf HD x u Wu Vx Lx EO) in Hx. injection Hx as <-.
  destruct (to_bytes_format cf D kf HD y u new Wu Ty Hy ltac:(unfold byte in *; lia) ltac:(congruence)) as [-> Vy].
  rewrite overwrite_mid by exact Ln. rewrite <- (F y Ln). apply to_bytes_valid; try assumption; [apply Vf; assumption|].
  rewrite (F y Ln). rewrite !zlen_app in *. unfold byte in *. lia.
Qed.

Section Damage.
Variables (w : which_parser) (cf : config) (D : list def) (I : list tinfo) (kf : nat) (t : ty) (v : val) (n : Z) (u : ty) (x : val) (fill : val -> val) (bs new : list byte).
Hypothesis HD : wf_defs D = true.
Hypothesis HI : disciplined D I = true.
Hypothesis W : wf_ty D t = true.
Hypothesis T : well_typed D v t = true.
Hypothesis K : decodable I t = true.
Hypothesis HC : cf_complete cf = true -> w <> WSlice.
Hypothesis EO : cf_est_override cf = true -> zeros D v t = 0.
Hypothesis H : to_bytes cf D kf v t = ROk bs.
Hypothesis L : zlen bs <= isize_max.
Hypothesis Sp : spot D t v n u x fill.
Hypothesis B : bytes_ok new.
Notation den := (denotes (cf_check_padding cf) D).

Lemma damage Q : zlen new = zlen (format D x u) -> (forall r, small_ok (new ++ r) -> reads_as cf D u new r Q) ->
  zlen (overwrite bs n new) = zlen bs /\
  forall v2, decodes w cf D t (overwrite bs n new) (ROk v2) <-> exists y, v2 = fill y /\ Q y.
Proof.
  intros Ln HQ. destruct (to_bytes_format cf D kf HD v t bs W T H L EO) as [E V]. subst bs.
  pose proof (format_bytes D v t T) as Bv. destruct (decodable_kind _ _ K) as (k & Ek & G).
  destruct (contained cf D I HD HI u x new Q Ln HQ t v n fill Sp W V) as (pre & post & <- & E & R). rewrite E in *.
  rewrite overwrite_mid by exact Ln. split; [rewrite !zlen_app; unfold byte in *; lia|]. intros v2.
  apply bytes_ok_app in Bv. destruct Bv as [B1 Bv]. apply bytes_ok_app in Bv. destruct Bv as [_ B2].
  assert (S : small_ok (pre ++ new ++ post)).
  { split; [apply bytes_ok_app; split; [assumption|]; apply bytes_ok_app; split; assumption|]. rewrite !zlen_app in *. unfold byte in *. lia. }
  specialize (R k [] Ek (adm_greedy _ G)). rewrite app_nil_r in R. specialize (R S). unfold reads_as in R. rewrite app_nil_r in R.
  rewrite (grammar_decodes cf D t _ HD W (proj1 S) (proj2 S)). split.
  - intros (rest & Hd & _). apply R in Hd. tauto.
  - intros Q'. exists []. split; [apply R; auto|]. intros C. split; [apply HC, C|reflexivity].
Qed.

Lemma damage_contained : self_delimiting I u = true -> len_of I u = Some (zlen new) ->
  zlen (overwrite bs n new) = zlen bs /\
  forall v2, decodes w cf D t (overwrite bs n new) (ROk v2) <-> exists y, v2 = fill y /\ decodes w cf D u new (ROk y).
Proof.
  intros Ku Lu. apply delim_kind in Ku. pose proof (spot_wf D HD _ _ _ _ _ _ Sp W) as Wu.
  destruct (to_bytes_format cf D kf HD v t bs W T H L EO) as [E V]. destruct (spot_typed D true _ _ _ _ _ _ Sp V) as [Vx _].
  assert (Ln : zlen new = zlen (format D x u)) by (symmetry; apply (len_of_format D I HI HD x u); assumption).
  destruct (damage (fun y => den u new y []) Ln) as [D1 D2].
  { intros r S y r2. split.
    - intros Hd. destruct (takes cf D I HD HI u _ _ _ Hd Wu) as (p & Ep & Lp & _ & X). specialize (Lp _ Lu).
      apply app_eq_len in Ep; [|symmetry; exact Lp]. destruct Ep as [<- <-]. split; [reflexivity|]. rewrite <- (app_nil_r new). apply X, Ku.
    - intros [-> Hd]. destruct (takes cf D I HD HI u _ _ _ Hd Wu) as (p & Ep & _ & _ & X). rewrite app_nil_r in Ep. subst p. apply X, Ku. }
  split; [exact D1|]. intros v2. rewrite D2.
  assert (S : small_ok new).
  { split; [exact B|]. subst bs. destruct (spot_split D _ _ _ _ _ _ Sp) as (pre & post & _ & E & _). rewrite E, !zlen_app in L.
    pose proof (zlen_nonneg pre). pose proof (zlen_nonneg post). unfold byte in *. lia. }
  assert (G : forall y, decodes w cf D u new (ROk y) <-> den u new y []).
  { intros y. rewrite (grammar_decodes cf D u _ HD Wu (proj1 S) (proj2 S)). split.
    - intros (rest & Hd & _). destruct (takes cf D I HD HI u _ _ _ Hd Wu) as (p & Ep & Lp & _ & _). specialize (Lp _ Lu).
      rewrite <- (app_nil_r new) in Ep at 1. apply app_eq_len in Ep; [|symmetry; exact Lp]. destruct Ep as [_ <-]. exact Hd.
    - intros Hd. exists []. split; [exact Hd|]. intros C. split; [apply HC, C|reflexivity]. }
  split; intros (y & -> & Hy); exists y; (split; [reflexivity|]); apply G; exact Hy.
Qed.
End Damage.

Lemma window_damage w cf D I kf t v n s u x fill bs new :
  wf_defs D = true -> disciplined D I = true -> wf_ty D t = true -> well_typed D v t = true -> decodable I t = true ->
  (cf_complete cf = true -> w <> WSlice) -> (cf_est_override cf = true -> zeros D v t = 0) ->
  to_bytes cf D kf v t = ROk bs -> zlen bs <= isize_max -> spot D t v n (TDyn s u) (VWrap x) fill ->
  bytes_ok new -> zlen new = zlen (format D x u) ->
  forall v2, decodes w cf D t (overwrite bs (n + pref_len s) new) (ROk v2) <-> exists y, v2 = fill (VWrap y) /\ reads w cf D u new (ROk (y, [])).
Proof.
  intros HD HI W T K HC EO H L Sp B Ln v2.
  pose proof (spot_wf D HD _ _ _ _ _ _ Sp W) as Wu. cbn [wf_ty] in Wu.
  destruct (to_bytes_format cf D kf HD v t bs W T H L EO) as [E V]. destruct (spot_typed D true _ _ _ _ _ _ Sp V) as [Vx _].
  cbn [valid_gen] in Vx. apply andb_prop in Vx. destruct Vx as [_ Vx]. cbn [implb] in Vx.
  set (pf := pref_format s (zlen new)).
  assert (Bp : bytes_ok pf).
  { pose proof (format_bytes D v t T) as Bv. destruct (spot_split D _ _ _ _ _ _ Sp) as (pre & post & _ & E2 & _). rewrite E2 in Bv.
    apply bytes_ok_app in Bv. destruct Bv as [_ Bv]. apply bytes_ok_app in Bv. destruct Bv as [Bv _]. cbn [format] in Bv. rewrite <- Ln in Bv. apply bytes_ok_app in Bv. apply Bv. }
  assert (O : overwrite bs (n + pref_len s) new = overwrite bs n (pf ++ new)).
  { subst bs. destruct (spot_split D _ _ _ _ _ _ Sp) as (pre & post & <- & E2 & _). rewrite E2. cbn [format]. rewrite <- Ln. fold pf.
    replace (zlen pre + pref_len s) with (zlen (pre ++ pf)) by (rewrite zlen_app; subst pf; rewrite pref_format_len; reflexivity).
    rewrite overwrite_mid by (rewrite !zlen_app, Ln; reflexivity).
    replace (pre ++ (pf ++ format D x u) ++ post) with ((pre ++ pf) ++ format D x u ++ post) by (rewrite <- !app_assoc; reflexivity).
    rewrite overwrite_mid by exact Ln. rewrite <- !app_assoc. reflexivity. }
  rewrite O. assert (S : small_ok new).
  { split; [exact B|]. subst bs. destruct (spot_split D _ _ _ _ _ _ Sp) as (pre & post & _ & E2 & _). rewrite E2 in L. cbn [format] in L. rewrite !zlen_app, pref_format_len in L.
    pose proof (zlen_nonneg pre). pose proof (zlen_nonneg post). assert (0 <= pref_len s) by (destruct s; cbn; lia). unfold byte in *. lia. }
  pose proof (zlen_nonneg new).
  assert (LD : zlen (pf ++ new) = zlen (format D (VWrap x) (TDyn s u))) by (cbn [format]; rewrite !zlen_app; unfold pf; rewrite !pref_format_len, Ln; reflexivity).
  assert (BD : bytes_ok (pf ++ new)) by (apply bytes_ok_app; split; assumption).
  destruct (damage w cf D I kf t v n (TDyn s u) (VWrap x) fill bs (pf ++ new) HD HI W T K HC EO H L Sp BD
    (fun y => exists z, y = VWrap z /\ denotes (cf_check_padding cf) D u new z []) LD) as [_ D2].
  { intros r Sr y r2. rewrite <- app_assoc. unfold pf. split.
    - intros Hd. apply dyn_inv in Hd. destruct Hd as (payload & z & EQ & -> & Lp & Hd). pose proof (zlen_nonneg payload).
      apply app_eq_len in EQ; [|rewrite !pref_format_len; reflexivity]. destruct EQ as [EP EQ].
      apply pref_format_inj in EP; [|split; [assumption|rewrite Ln; apply Z.leb_le; exact Vx]|split; assumption].
      apply app_eq_len in EQ; [|exact EP]. destruct EQ as [-> ->]. split; [reflexivity|]. eauto.
    - intros (-> & z & -> & Hd). apply den_dyn; [rewrite Ln; apply Z.leb_le; exact Vx|exact Hd]. }
  rewrite D2. pose proof (grammar_exact cf D HD w u new) as G. split.
  - intros (y & -> & z & -> & Hd). exists z. split; [reflexivity|]. apply G; try assumption; apply S.
  - intros (z & -> & Hd). exists (VWrap z). split; [reflexivity|]. exists z. split; [reflexivity|]. apply G in Hd; try assumption; apply S.
Qed.

Lemma fixed_place D I i ts ts' t before x after m : wf_defs D = true -> disciplined D I = true ->
  nth_error D i = Some (DStruct (ts ++ t :: ts')) -> length before = length ts -> len_fields I ts = Some m ->
  valid D (VStruct (before ++ x :: after)) (TNamed i) = true ->
  spot D (TNamed i) (VStruct (before ++ x :: after)) m t x (fun y => VStruct (before ++ y :: after)).
Proof.
  intros HD HI E L Lm V. destruct (struct_nth D I HI HD _ _ E) as (_ & _ & _ & Wts). unfold valid in V. cbn [valid_gen] in V. rewrite E in V.
  rewrite all2_app in V by exact L. apply andb_prop in V. destruct V as [V _]. rewrite forallb_app in Wts. apply andb_prop in Wts. destruct Wts as [Wts _].
  rewrite <- (Z.add_0_r m). rewrite <- (fields_len D I HD HI before ts m Wts V Lm).
  eapply spot_struct; [exact E|exact L|apply spot_here].
Qed.

Lemma elements_len D I t l m : wf_defs D = true -> disciplined D I = true -> wf_ty D t = true -> len_of I t = Some m ->
  forallb (fun v => valid D v t) l = true -> zlen (concat (map (fun v => format D v t) l)) = zlen l * m.
Proof.
  intros HD HI W Lm. induction l as [|v l IH]; intros V; [reflexivity|]. cbn [forallb] in V. apply andb_prop in V. destruct V as [V1 V].
  cbn [map concat]. rewrite zlen_app, (IH V), zlen_cons, (len_of_format D I HI HD v t m W Lm V1). lia.
Qed.
Lemma element_place D I t before x after m : wf_defs D = true -> disciplined D I = true -> wf_ty D t = true -> len_of I t = Some m ->
  forallb (fun v => valid D v t) before = true -> let fill := fun y => VSeq (before ++ y :: after) in
  spot D (TSeq t) (VSeq (before ++ x :: after)) (zlen before * m) t x fill /\
  forall k, spot D (TLim k t) (VSeq (before ++ x :: after)) (zlen before * m) t x fill /\
            spot D (TFix k t) (VSeq (before ++ x :: after)) (zlen before * m) t x fill.
Proof.
  intros HD HI W Lm V. cbn zeta. rewrite <- (Z.add_0_r (zlen before * m)), <- (elements_len D I t before m HD HI W Lm V).
  split; [apply spot_seq, spot_here|]. intros k. split; [apply spot_lim, spot_here|apply spot_fix, spot_here].
Qed.
