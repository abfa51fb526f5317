(** C94: what a panic leaves behind. *)
From Verif Require Import Base BaseLemmas ModelErrors ModelSplitVec ModelInt ModelFloat ModelZarith ModelParser ModelSchema SpecCodec SpecParser SpecAfter SpecUnwind
  ProofParser ProofParserSim ProofParserProps ProofParserClean ProofDec ProofTransfer ProofSafe ProofView ProofCodecThms ProofAfter.
From Coq Require Import ZifyBool.

(** ** Reasoning about programs on the reference machine *)
Section Wp.
Variable pol : residue_policy.

Fixpoint wpp {A} (pg : prog A) (w : wstack) (Q : A -> wstack -> Prop) (E : wstack -> Prop) : Prop :=
  match pg with
  | PRet a => Q a w
  | PErr _ | PPanic => E w
  | PUB | PDiv => True
  | POp o k => match spec_op pol o w with (Some x, w') => wpp (k x) w' Q E | (None, w') => E w /\ E w' end
  | PTry o k f => match spec_op pol o w with (Some x, w') => wpp (k x) w' Q E | (None, w') => E w /\ wpp f w' Q E end
  end.

Lemma wpp_mono {A} (pg : prog A) : forall w (Q Q' : A -> wstack -> Prop) (E E' : wstack -> Prop),
  (forall a w', Q a w' -> Q' a w') -> (forall w', E w' -> E' w') -> wpp pg w Q E -> wpp pg w Q' E'.
Proof.
  induction pg as [a|e| | | |X o k IH|X o k IHk f IHf]; intros w Q Q' E E' HQ HE; cbn [wpp]; auto.
  - destruct (spec_op pol o w) as [[x|] w']; [eauto|intros [? ?]; eauto].
  - destruct (spec_op pol o w) as [[x|] w']; [eauto|intros [? ?]; eauto].
Qed.

Lemma wpp_bind {A B} (pg : prog A) (k : A -> prog B) : forall w Q E,
  wpp pg w (fun a w' => wpp (k a) w' Q E) E -> wpp (pbind pg k) w Q E.
Proof.
  induction pg as [a|e| | | |X o kk IH|X o kk IHk f IHf]; intros w Q E; cbn [wpp pbind]; auto.
  - destruct (spec_op pol o w) as [[x|] w']; [auto|intros [? ?]; auto].
  - destruct (spec_op pol o w) as [[x|] w']; [auto|intros [? ?]; auto].
Qed.

(** What every decoder of the library does. *)
Definition keeps {A} (pg : prog A) : Prop :=
  forall w, wpp pg w (fun _ => ends w) (fun w' => inside w' w).

Lemma keeps_bind {A B} (pg : prog A) (k : A -> prog B) :
  keeps pg -> (forall a, keeps (k a)) -> keeps (pbind pg k).
Proof.
  intros H Hk w. apply wpp_bind. eapply wpp_mono; [| |exact (H w)]; [|auto].
  intros a w' He. cbv beta. eapply wpp_mono; [| |exact (Hk a w')].
  - intros b w2 He2. cbv beta in *. eapply ends_trans; eassumption.
  - intros w2 Hi. cbv beta in *. eapply ends_inside; eassumption.
Qed.
Lemma keeps_ret {A} (a : A) : keeps (PRet a).
Proof. intros w. exact (ends_refl w). Qed.
Lemma keeps_err {A} e : keeps (@PErr A e).
Proof. intros w. exact (inside_refl w). Qed.
Lemma keeps_panic {A} : keeps (@PPanic A).
Proof. intros w. exact (inside_refl w). Qed.
Lemma keeps_div {A} : keeps (@PDiv A).
Proof. intros w. exact Logic.I. Qed.
Lemma keeps_lift {A} (r : pres A) : keeps (plift r).
Proof. intros w. destruct r; cbn; auto using ends_refl, inside_refl. Qed.

Lemma keeps_rem : keeps p_remainder.
Proof. intros w. exact (ends_refl w). Qed.
Lemma keeps_byte : keeps p_consume_byte.
Proof.
  intros w. unfold p_consume_byte, do_op. cbn [wpp spec_op]. destruct (w_cur w) as [|b cur] eqn:E; [split; apply inside_refl|].
  split; [reflexivity|]. cbn [w_cur]. rewrite E. apply suffix_cons.
Qed.
Lemma keeps_consume n : keeps (p_consume n).
Proof.
  intros w. unfold p_consume, do_op. cbn [wpp spec_op]. destruct (n <=? zlen (w_cur w)); [|split; apply inside_refl].
  split; [reflexivity|]. apply suffix_zdrop.
Qed.
Lemma keeps_st_loop term fuel : forall acc, keeps (p_self_terminating_loop fuel term acc).
Proof.
  induction fuel as [|fuel IH]; intros acc; cbn [p_self_terminating_loop]; [apply keeps_div|].
  intros w. cbn [wpp spec_op]. destruct (w_cur w) as [|b cur] eqn:E; [split; apply inside_refl|].
  assert (He : ends w (mkW cur (w_outer w))).
  { split; [reflexivity|]. cbn [w_cur]. rewrite E. apply suffix_cons. }
  destruct (term b); [exact He|].
  eapply wpp_mono; [| |exact (IH (acc ++ [b]) (mkW cur (w_outer w)))].
  - intros a w2 H. exact (ends_trans _ _ _ He H).
  - intros w2 H. exact (ends_inside _ _ _ He H).
Qed.
Lemma keeps_st term : keeps (p_take_self_terminating term).
Proof. unfold p_take_self_terminating. apply keeps_bind; [exact keeps_rem|intros a; destruct (a <=? isize_max); [apply keeps_st_loop|apply keeps_panic]]. Qed.

Lemma keeps_window {A B} n (pg : prog A) (k : A -> prog B) :
  keeps pg -> (forall a, keeps (k a)) ->
  keeps (pbind (p_set_fit n) (fun _ => pbind pg (fun v => pbind p_enforce_target (fun _ => k v)))).
Proof.
  intros H Hk w. apply wpp_bind. unfold p_set_fit, do_op. cbn [wpp spec_op].
  destruct (n <=? zlen (w_cur w)); [|split; apply inside_refl].
  set (w1 := mkW (ztake n (w_cur w)) (zdrop n (w_cur w) :: w_outer w)).
  apply wpp_bind. eapply wpp_mono; [| |exact (H w1)].
  - intros a w2 [H1 [pre H2]]. cbn [w_outer w_cur w1] in H1, H2. apply wpp_bind.
    unfold p_enforce_target, do_op. cbn [wpp spec_op]. rewrite H1.
    destruct (w_cur w2) as [|b cur] eqn:E.
    + assert (He : ends w (mkW (zdrop n (w_cur w)) (w_outer w))) by (split; [reflexivity|apply suffix_zdrop]).
      eapply wpp_mono; [| |exact (Hk a (mkW (zdrop n (w_cur w)) (w_outer w)))].
      * intros v w3 H3. exact (ends_trans _ _ _ He H3).
      * intros w3 H3. exact (ends_inside _ _ _ He H3).
    + assert (Hc : w_cur w = pre ++ (b :: cur) ++ zdrop n (w_cur w)).
      { rewrite app_assoc, <- H2. symmetry. apply ztake_zdrop. }
      split; [exists [zdrop n (w_cur w)], pre; split; [exact H1|]; rewrite E; cbn [concat]; rewrite app_nil_r; exact Hc|].
      destruct pol.
      * exists [zdrop n (w_cur w)], pre. split; [exact H1|]. rewrite E. cbn [concat]. rewrite app_nil_r. exact Hc.
      * exists [], pre. split; [reflexivity|]. cbn [w_cur concat]. rewrite app_nil_r. exact Hc.
      * exists [], (pre ++ b :: cur). split; [reflexivity|]. cbn [w_cur concat]. rewrite app_nil_r, <- app_assoc. exact Hc.
  - intros w2 (opened & used & H1 & H2). cbn [w_outer w_cur w1] in H1, H2.
    exists (opened ++ [zdrop n (w_cur w)]), used. split; [rewrite H1, <- app_assoc; reflexivity|].
    rewrite concat_app. cbn [concat]. rewrite app_nil_r, !app_assoc, <- (app_assoc used), <- H2. symmetry. apply ztake_zdrop.
Qed.

Hint Resolve keeps_ret keeps_err keeps_panic keeps_div keeps_lift keeps_rem keeps_byte keeps_consume keeps_st : unwind.
Ltac kps :=
  repeat first
    [ solve [auto with unwind]
    | apply keeps_bind; [|intros ?]
    | match goal with
      | |- keeps (if ?b then _ else _) => destruct b
      | |- keeps (match ?o with _ => _ end) => destruct o
      end ].

Lemma keeps_fixed n : keeps (p_take_fixed n).
Proof. unfold p_take_fixed, p_consume_arr. kps. Qed.
Hint Resolve keeps_fixed : unwind.
Lemma keeps_int k : keeps (p_int k).
Proof. unfold p_int. kps. Qed.
Hint Resolve keeps_int : unwind.
Lemma keeps_bool : keeps p_take_bool.
Proof. unfold p_take_bool. kps. Qed.
Lemma keeps_tag k tags : keeps (p_take_tagword k tags).
Proof. unfold p_take_tagword. kps. Qed.
Lemma keeps_ranged cf k lo hi : keeps (p_ranged cf k lo hi).
Proof. unfold p_ranged. kps. Qed.
Hint Resolve keeps_bool keeps_tag keeps_ranged : unwind.
Lemma keeps_pref cf s : keeps (p_pref cf s).
Proof. destruct s; unfold p_pref; kps. Qed.
Hint Resolve keeps_pref : unwind.
Lemma keeps_seq fuel (elem : prog val) : keeps elem -> forall seq, keeps (p_seq_loop fuel elem seq).
Proof. intros H. induction fuel as [|fuel IH]; intros seq; cbn [p_seq_loop]; kps. Qed.
Lemma keeps_lim fuel n (elem : prog val) : keeps elem -> forall seq, keeps (p_lim_loop fuel n elem seq).
Proof. intros H. induction fuel as [|fuel IH]; intros seq; cbn [p_lim_loop]; kps. Qed.
Lemma keeps_fix fuel n (elem : prog val) : keeps elem -> forall seq, keeps (p_fix_loop fuel n elem seq).
Proof. intros H. induction fuel as [|fuel IH]; intros seq; cbn [p_fix_loop]; kps. Qed.
Lemma keeps_fields (p : ty -> prog val) ts : (forall t, keeps (p t)) -> keeps (p_fields p ts).
Proof. intros H. induction ts as [|t ts IH]; cbn [p_fields]; kps. Qed.
Hint Resolve keeps_seq keeps_lim keeps_fix keeps_fields : unwind.

Lemma keeps_parse cf D fuel : forall t, keeps (parse cf D fuel t).
Proof.
  induction fuel as [|f IH]; intros t; cbn [parse]; [apply keeps_div|].
  destruct t; unfold p_take_dynamic; try solve [kps].
  - apply keeps_bind; [auto with unwind|intros n]. apply keeps_window; [apply IH|intros; apply keeps_ret].
  - repeat (apply keeps_bind; [solve [auto with unwind]|intros ?]). apply keeps_window; [apply IH|intros; apply keeps_ret].
Qed.
End Wp.


(** ** A call that panics changes nothing *)
Lemma co_set_fit_panic m n o o' : co_set_fit m n o = (RPanic, o') -> o' = o.
Proof.
  unfold co_set_fit. intros H. destruct (@uadd parse_error m (co_index o) n); try congruence.
  destruct (co_abs o <? a); [congruence|]. destruct (fs_push_frame a (co_frames o)); congruence.
Qed.

Lemma bp_panic m {X : Set} (o : pop X) p p' : bp_inv p -> arg_fits m (AnyOp o) ->
  byte_h m X o p = (RPanic, p') -> p' = p.
Proof.
  intros Hi Ha H. destruct p as [buf off]. unfold bp_inv in Hi. cbn [bp_buf bp_off] in Hi. pose proof (co_inv_limit _ _ Hi) as HL. pose proof isize_max_lt.
  destruct o; cbn [byte_h] in H.
  - congruence.
  - unfold bp_consume_byte in H. cbn [bp_off bp_buf] in H.
    assert (Hsz : size_fits m 1) by (destruct m; cbv; intuition congruence).
    destruct (@co_advance_spec parse_error m 1 buf off Hi Hsz) as [[Hle E]|[[Hle E]|(Hm & Hle & E)]]; rewrite E in H; try congruence.
    destruct (co_cur_byte _ _ Hi ltac:(lia)) as (b & _ & Hg & _). cbn [bp_buf] in *. rewrite Hg in H. discriminate H.
  - unfold bp_consume in H. cbn [bp_off bp_buf] in H, HL.
    assert (Hsz : size_fits m n) by (destruct m; exact Ha). pose proof (size_fits_nonneg _ _ Hsz).
    destruct (@co_advance_spec parse_error m n buf off Hi Hsz) as [[Hle E]|[[Hle E]|(Hm & Hle & E)]]; rewrite E in H; try congruence.
    rewrite vb_get_slice_unchecked_ok in H by lia. discriminate H.
  - unfold bp_set_fit in H. cbn [bp_off bp_buf] in H. destruct (co_set_fit m n off) as [r off'] eqn:E.
    apply pair_equal_spec in H as [-> <-]. apply co_set_fit_panic in E. subst off'. reflexivity.
  - unfold bp_test_target in H. congruence.
  - unfold bp_enforce_target, co_enforce_target in H. cbn [bp_off bp_buf] in H.
    destruct (co_frames off) as [|t fs]; [discriminate H|]. destruct (t ?= co_index off); discriminate H.
  - unfold bp_skip in H. cbn [bp_off bp_buf] in H. destruct (co_rem m off) as [rem|e| | |]; try congruence.
    destruct (@co_advance parse_error m (Z.min rem n) off) as [[[i a] off']|e| | |]; try congruence.
    destruct a; congruence.
  - unfold bp_skip_exactly in H. cbn [bp_off bp_buf] in H.
    assert (Hsz : size_fits m n) by (destruct m; exact Ha).
    destruct (@co_advance_spec parse_error m n buf off Hi Hsz) as [[Hle E]|[[Hle E]|(Hm & Hle & E)]]; rewrite E in H; congruence.
Qed.

Lemma mp_panic m {X : Set} (o : pop X) p p' : mp_inv p -> arg_fits m (AnyOp o) ->
  memo_h m X o p = (RPanic, p') -> p' = p.
Proof.
  intros Hi Ha H. destruct (mp_step m o p Hi Ha _ _ H) as [Hb _].
  apply (bp_panic m o (mp_bp p) _ (proj1 Hi) Ha) in Hb.
  pose proof (co_inv_limit _ _ (proj1 Hi)) as HL. pose proof isize_max_lt.
  assert (Hmu : mp_munches p' = mp_munches p).
  { destruct o; cbn [memo_h] in H.
    - congruence.
    - unfold mp_consume_byte in H. assert (Hsz : size_fits m 1) by (destruct m; cbv; intuition congruence).
      destruct (@co_advance_spec parse_error m 1 _ _ (proj1 Hi) Hsz) as [[Hle E]|[[Hle E]|(Hm & Hle & E)]]; rewrite E in H; try solve [apply pair_equal_spec in H as [_ <-]; reflexivity].
      destruct (co_cur_byte _ _ (proj1 Hi) ltac:(lia)) as (b & _ & Hg & _). rewrite Hg in H. discriminate H.
    - unfold mp_consume in H. assert (Hsz : size_fits m n) by (destruct m; exact Ha). pose proof (size_fits_nonneg _ _ Hsz).
      destruct (@co_advance_spec parse_error m n _ _ (proj1 Hi) Hsz) as [[Hle E]|[[Hle E]|(Hm & Hle & E)]]; rewrite E in H; try solve [apply pair_equal_spec in H as [_ <-]; reflexivity].
      rewrite vb_get_slice_unchecked_ok in H by lia. discriminate H.
    - unfold mp_set_fit in H. destruct (co_set_fit m n (mp_off p)); apply pair_equal_spec in H as [_ <-]; reflexivity.
    - unfold mp_test_target in H. congruence.
    - unfold mp_enforce_target in H. destruct (co_enforce_target (mp_off p)); apply pair_equal_spec in H as [_ <-]; reflexivity.
    - unfold mp_skip in H. destruct (co_rem m (mp_off p)) as [rem|e| | |]; try congruence.
      destruct (@co_advance parse_error m (Z.min rem n) (mp_off p)) as [[[i a] off']|e| | |]; try congruence.
      destruct a; solve [congruence | apply pair_equal_spec in H as [_ <-]; reflexivity].
    - unfold mp_skip_exactly in H. destruct (@co_advance parse_error m n (mp_off p)) as [[[i a] off']|e| | |]; try congruence.
      destruct a; solve [congruence | apply pair_equal_spec in H as [_ <-]; reflexivity]. }
  destruct p, p'; unfold mp_bp in Hb; cbn in *. congruence.
Qed.

(** ** Histories *)
Section On.
Context {P : Type} (m : mode) (h : handler P) (inv : P -> Prop) (alpha : P -> wstack).
Hypothesis HS : forall (X : Set) (o : pop X) p x w' r p', inv p -> arg_fits m (AnyOp o) ->
  spec_op Merge o (alpha p) = (x, w') -> h X o p = (r, p') -> step_rel m inv alpha o x w' r p'.
Hypothesis HP : forall (X : Set) (o : pop X) p p', inv p -> arg_fits m (AnyOp o) -> h X o p = (RPanic, p') -> p' = p.
Hypothesis HE : forall p p', h unit OpEnforceTarget p <> (RPanic, p').

Lemma spec_none {X : Set} (o : pop X) w w' : spec_op Merge o w = (None, w') ->
  w' = w \/ match o with OpEnforceTarget => True | _ => False end.
Proof.
  destruct o; cbn [spec_op]; intros E; try congruence.
  - destruct (w_cur w); left; congruence.
  - destruct (n <=? zlen (w_cur w)); left; congruence.
  - destruct (n <=? zlen (w_cur w)); left; congruence.
  - right. exact Logic.I.
  - destruct (n <=? zlen (w_cur w)); left; congruence.
Qed.

Lemma carry_on_expected ops : forall p, inv p -> Forall (arg_fits m) ops ->
  Forall2 (expected m) (carry_on h ops p) (history (spec_h Merge) ops (alpha p)).
Proof.
  induction ops as [|[X o] ops IH]; intros p Hi Ha; cbn [carry_on history]; [constructor|].
  inversion_clear Ha as [|? ? Ho Hos]. destruct (spec_op Merge o (alpha p)) as [x w'] eqn:Es. rewrite (spec_h_eq _ _ _ _ _ Es).
  destruct (h X o p) as [r p'] eqn:Eh. pose proof (HS X o p x w' r p' Hi Ho Es Eh) as H. unfold step_rel in H.
  destruct r; try contradiction.
  - destruct H as (-> & H1 & <-). constructor; [left; reflexivity|auto].
  - destruct H as (-> & H1 & <-). constructor; [left; reflexivity|auto].
  - destruct H as (-> & ->). constructor; [right; auto|]. rewrite (HP X o p p' Hi Ho Eh).
    destruct (spec_none o _ _ Es) as [->|Hn]; [auto|]. destruct o; try contradiction. destruct (HE p p'). exact Eh.
Qed.
End On.

Lemma bp_enforce_quiet m p p' : byte_h m unit OpEnforceTarget p <> (RPanic, p').
Proof.
  cbn [byte_h]. unfold bp_enforce_target, co_enforce_target. destruct (co_frames (bp_off p)) as [|t fs]; [discriminate|].
  destruct (t ?= co_index (bp_off p)); discriminate.
Qed.
Lemma mp_enforce_quiet m p p' : memo_h m unit OpEnforceTarget p <> (RPanic, p').
Proof.
  cbn [memo_h]. unfold mp_enforce_target, co_enforce_target. destruct (co_frames (mp_off p)) as [|t fs]; [discriminate|].
  destruct (t ?= co_index (mp_off p)); discriminate.
Qed.

Lemma mp_step_rel m (X : Set) (o : pop X) p x w' r p' : mp_inv p -> arg_fits m (AnyOp o) ->
  spec_op Merge o (bp_alpha (mp_bp p)) = (x, w') -> memo_h m X o p = (r, p') ->
  step_rel m mp_inv (fun p => bp_alpha (mp_bp p)) o x w' r p'.
Proof.
  intros Hi Ha Hs Hm. destruct (mp_step m o p Hi Ha _ _ Hm) as [Hb Hi'].
  pose proof (bp_step m o (mp_bp p) (proj1 Hi) Ha _ _ _ _ Hs Hb) as H. unfold step_rel in *.
  destruct r; try contradiction; auto.
  - destruct H as (H1 & _ & H2). split; [exact H1|]. split; [apply Hi'; discriminate|exact H2].
  - destruct H as (H1 & _ & H2). split; [exact H1|]. split; [apply Hi'; discriminate|exact H2].
Qed.

Lemma byte_carry_on m buf ops : zlen buf <= isize_max -> Forall (arg_fits m) ops ->
  Forall2 (expected m) (carry_on (byte_h m) ops (bp_from_buffer buf)) (history (spec_h Merge) ops (w_init buf)).
Proof.
  intros HL Ha. rewrite <- (bp_init_alpha buf). apply (carry_on_expected m (byte_h m) bp_inv bp_alpha).
  - intros X o p x w' r p' H1 H2 H3 H4. exact (bp_step m o p H1 H2 x w' r p' H3 H4).
  - intros X o p p' H1 H2 H3. exact (bp_panic m o p p' H1 H2 H3).
  - exact (bp_enforce_quiet m).
  - exact (bp_init_inv buf HL).
  - exact Ha.
Qed.
Lemma memo_carry_on m buf ops : zlen buf <= isize_max -> Forall (arg_fits m) ops ->
  Forall2 (expected m) (carry_on (memo_h m) ops (mp_from_buffer buf)) (history (spec_h Merge) ops (w_init buf)).
Proof.
  intros HL Ha. rewrite <- (bp_init_alpha buf). change (bp_from_buffer buf) with (mp_bp (mp_from_buffer buf)).
  apply (carry_on_expected m (memo_h m) mp_inv (fun p => bp_alpha (mp_bp p))).
  - exact (mp_step_rel m).
  - intros X o p p' H1 H2 H3. exact (mp_panic m o p p' H1 H2 H3).
  - exact (mp_enforce_quiet m).
  - exact (mp_init_inv buf HL).
  - exact Ha.
Qed.

Lemma slice_never_panics (X : Set) (o : pop X) p p' : slice_h X o p <> (RPanic, p').
Proof.
  destruct o; cbn [slice_h]; unfold sp_consume_byte, sp_consume, sp_set_fit, sp_test_target, sp_enforce_target, sp_skip, sp_skip_exactly,
    slb_take_unchecked, slb_split_unchecked; try discriminate;
  destruct p as [|fr p]; try discriminate.
  - destruct (slb_cut_first fr) as [[? ?]|]; discriminate.
  - destruct (n <=? zlen fr); discriminate.
  - destruct (n =? 0); discriminate.
  - destruct (n <=? zlen fr); discriminate.
  - destruct (zlen fr =? 0); discriminate.
  - destruct (Z.min (zlen fr) n <=? zlen fr); discriminate.
  - destruct (n <=? zlen fr); discriminate.
Qed.

(** ** Decoders *)
Section Trace.
Context {P : Type} (m : mode) (h : handler P) (pol : residue_policy) (inv : P -> Prop) (alpha : P -> wstack).
Hypothesis HF : follows m h pol inv alpha.
Hypothesis HN : forall (X : Set) (o : pop X) p x w' p', inv p -> in_contract o (alpha p) = true ->
  spec_op pol o (alpha p) = (x, w') -> h X o p = (RPanic, p') -> x = None /\ p' = p.

Lemma run_interrupted {A} (pg : prog A) : forall p (Q : A -> wstack -> Prop) E, inv p -> try_bytes_only pg ->
  fst (run contract_h pg (alpha p)) <> RUB ->
  wpp pol pg (alpha p) Q E ->
  forall p', run h pg p = (RPanic, p') -> traced m h pol alpha p p' /\ inv p' /\ E (alpha p').
Proof.
  induction pg as [a|e| | | |X o k IH|X o k IHk f IHf]; intros p Q E Hi Ht HU Hw p' Hr.
  - discriminate Hr.
  - discriminate Hr.
  - cbn [run wpp] in *. injection Hr as <-. auto using traced_refl.
  - discriminate Hr.
  - discriminate Hr.
  - cbn [run wpp try_bytes_only] in *. unfold contract_h at 1 in HU.
    destruct (in_contract o (alpha p)) eqn:Ec; [|destruct HU; reflexivity].
    destruct (spec_op Keep o (alpha p)) as [xk wk] eqn:Ek. destruct (spec_op pol o (alpha p)) as [x w'] eqn:Es.
    pose proof (spec_op_policy o pol (alpha p)) as [Hp1 Hp2]. rewrite Ek, Es in Hp1, Hp2. cbn [fst snd] in Hp1, Hp2. subst xk.
    rewrite (spec_h_eq _ _ _ _ _ Ek) in HU.
    destruct (h X o p) as [r1 q] eqn:Eh. pose proof (HF X o p x w' r1 q Hi Ec Es Eh) as Hst.
    destruct r1; try contradiction.
    + destruct Hst as (-> & Hq & Ha). rewrite <- (Hp2 ltac:(discriminate)), <- Ha in HU.
      rewrite <- Ha in Hw. destruct (IH _ q Q E Hq (Ht _) HU Hw p' Hr) as (H1 & H2).
      split; [|exact H2]. eapply traced_step; eauto.
    + discriminate Hr.
    + injection Hr as <-. destruct (HN X o p x w' q Hi Ec Es Eh) as [-> ->]. split; [apply traced_refl|]. split; [exact Hi|apply Hw].
  - destruct Ht as (Hb & Htk & Htf). cbn [run wpp] in *. unfold contract_h at 1 in HU.
    destruct (in_contract o (alpha p)) eqn:Ec; [|destruct HU; reflexivity].
    destruct (spec_op Keep o (alpha p)) as [xk wk] eqn:Ek. destruct (spec_op pol o (alpha p)) as [x w'] eqn:Es.
    pose proof (spec_op_policy o pol (alpha p)) as [Hp1 Hp2]. rewrite Ek, Es in Hp1, Hp2. cbn [fst snd] in Hp1, Hp2. subst xk.
    assert (Hww : w' = wk).
    { destruct o; try discriminate Hb. cbn [spec_op] in Ek, Es. congruence. }
    rewrite (spec_h_eq _ _ _ _ _ Ek) in HU.
    destruct (h X o p) as [r1 q] eqn:Eh. pose proof (HF X o p x w' r1 q Hi Ec Es Eh) as Hst.
    destruct r1; try contradiction.
    + destruct Hst as (-> & Hq & Ha). rewrite <- Hww, <- Ha in HU. rewrite <- Ha in Hw.
      destruct (IHk _ q Q E Hq (Htk _) HU Hw p' Hr) as (H1 & H2). split; [|exact H2]. eapply traced_step; eauto.
    + destruct Hst as (-> & Hq & Ha). rewrite <- Hww, <- Ha in HU. rewrite <- Ha in Hw.
      destruct (IHf q Q E Hq Htf HU (proj2 Hw) p' Hr) as (H1 & H2). split; [|exact H2]. eapply traced_step; eauto.
    + injection Hr as <-. destruct (HN X o p x w' q Hi Ec Es Eh) as [-> ->]. split; [apply traced_refl|]. split; [exact Hi|apply Hw].
Qed.
End Trace.

Lemma byte_panic_none m (X : Set) (o : pop X) p x w' p' : bp_inv p -> in_contract o (bp_alpha p) = true ->
  spec_op Merge o (bp_alpha p) = (x, w') -> byte_h m X o p = (RPanic, p') -> x = None /\ p' = p.
Proof.
  intros Hi Hc Hs Hb. pose proof (in_contract_fits m o _ Hc) as Ha.
  pose proof (bp_step m o p Hi Ha _ _ _ _ Hs Hb) as [_ H]. split; [exact H|]. exact (bp_panic m o p p' Hi Ha Hb).
Qed.
Lemma memo_panic_none m (X : Set) (o : pop X) p x w' p' : mp_inv p -> in_contract o (bp_alpha (mp_bp p)) = true ->
  spec_op Merge o (bp_alpha (mp_bp p)) = (x, w') -> memo_h m X o p = (RPanic, p') -> x = None /\ p' = p.
Proof.
  intros Hi Hc Hs Hb. pose proof (in_contract_fits m o _ Hc) as Ha.
  pose proof (mp_step_rel m X o p _ _ _ _ Hi Ha Hs Hb) as [_ H]. split; [exact H|]. exact (mp_panic m o p p' Hi Ha Hb).
Qed.

Section Decoder.
Variables (cf : config) (D : list def) (t : ty) (f : nat).
Hypothesis HD : wf_defs D = true.
Hypothesis HW : wf_ty D t = true.
Hypothesis HP : pads_ok cf D t = true.
Let m := cf_mode cf.

Lemma decoder_interrupted {P} (h : handler P) pol inv alpha p p' : follows m h pol inv alpha ->
  (forall (X : Set) (o : pop X) p x w' p', inv p -> in_contract o (alpha p) = true ->
     spec_op pol o (alpha p) = (x, w') -> h X o p = (RPanic, p') -> x = None /\ p' = p) ->
  inv p -> bytes_ok (w_cur (alpha p)) -> zlen (w_cur (alpha p)) <= isize_max ->
  run h (parse cf D f t) p = (RPanic, p') -> interrupted m h pol p (alpha p) p'.
Proof.
  intros HF HN Hi Hb Hl Hr. destruct (contract_quiet cf D t f HD HW HP (w_cur (alpha p)) (w_outer (alpha p)) Hb Hl) as [H1 _].
  assert (Ea : mkW (w_cur (alpha p)) (w_outer (alpha p)) = alpha p) by (destruct (alpha p); reflexivity). rewrite Ea in H1.
  destruct (run_interrupted m h pol inv alpha HF HN (parse cf D f t) p _ _ Hi (try_parse cf D f t) H1
    (keeps_parse pol cf D f t (alpha p)) p' Hr) as ((ops & T1 & T2 & T3 & T4) & _ & H). exists ops, (alpha p'). auto.
Qed.

Variables (buf : list byte) (pre : list any_op).
Hypothesis HB : bytes_ok buf.
Hypothesis HL : zlen buf <= isize_max.

Lemma byte_interrupted p w p' : Forall (arg_fits m) pre ->
  after (byte_h m) pre (bp_from_buffer buf) = Some p -> after (spec_h Merge) pre (w_init buf) = Some w ->
  run (byte_h m) (parse cf D f t) p = (RPanic, p') -> interrupted m (byte_h m) Merge p w p'.
Proof.
  intros Ha H Hs Hr. destruct (bp_after_from _ _ _ _ (bp_init_inv buf HL) Ha H) as [Hi E].
  rewrite bp_init_alpha, Hs in E. injection E as ->. destruct (after_good _ _ _ _ HB HL Hs).
  apply (decoder_interrupted _ Merge bp_inv bp_alpha); auto using byte_follows.
  exact (byte_panic_none m).
Qed.
Lemma memo_interrupted p w p' : Forall (arg_fits m) pre ->
  after (memo_h m) pre (mp_from_buffer buf) = Some p -> after (spec_h Merge) pre (w_init buf) = Some w ->
  run (memo_h m) (parse cf D f t) p = (RPanic, p') -> interrupted m (memo_h m) Merge p w p'.
Proof.
  intros Ha H Hs Hr. destruct (mp_after_from _ _ _ (mp_init_inv buf HL) Ha) as [H1 H2]. specialize (H2 _ H). rewrite H in H1.
  cbn [option_map] in H1. symmetry in H1. destruct (bp_after_from _ _ _ _ (bp_init_inv buf HL) Ha H1) as [_ E].
  rewrite bp_init_alpha, Hs in E. injection E as ->. destruct (after_good _ _ _ _ HB HL Hs).
  apply (decoder_interrupted _ Merge mp_inv (fun p => bp_alpha (mp_bp p))); auto using memo_follows.
  exact (memo_panic_none m).
Qed.
Lemma slice_interrupted p w p' : bracketed Drop pre (w_init buf) ->
  after slice_h pre (sp_from_buffer buf) = Some p -> after (spec_h Drop) pre (w_init buf) = Some w ->
  run slice_h (parse cf D f t) p = (RPanic, p') -> interrupted m slice_h Drop p w p'.
Proof.
  intros Ha H Hs Hr. assert (Hn : sp_inv (sp_from_buffer buf)) by (unfold sp_inv, sp_from_buffer; discriminate).
  destruct (sp_after_from _ _ _ Hn Ha H) as [Hi E].
  change (sp_alpha (sp_from_buffer buf)) with (w_init buf) in E. rewrite Hs in E. injection E as ->.
  destruct (after_good _ _ _ _ HB HL Hs). apply (decoder_interrupted _ Drop sp_inv sp_alpha); auto using slice_follows.
  intros X o q x w2 q' _ _ _ Hq. destruct (slice_never_panics X o q q' Hq).
Qed.
End Decoder.

Lemma interrupted_leftover cf D t f buf p' : wf_defs D = true -> wf_ty D t = true -> pads_ok cf D t = true ->
  bytes_ok buf -> zlen buf <= isize_max ->
  run (byte_h (cf_mode cf)) (parse cf D f t) (bp_from_buffer buf) = (RPanic, p') ->
  exists lo used, bp_cleanup (cf_mode cf) p' = ROk lo /\ buf = used ++ lo_bytes lo.
Proof.
  intros HD HW HP HB HL Hr.
  pose proof (byte_interrupted cf D t f HD HW HP buf [] HB HL (bp_from_buffer buf) (w_init buf) _ (Forall_nil _) eq_refl eq_refl Hr) as H.
  destruct H as (ops & w' & H1 & _ & H2 & H3 & _). destruct (ProofParserClean.bp_cleanup_spec _ _ _ _ _ HL H1 H2 H3) as (lo & E & E2 & _).
  exists lo, (ztake (bp_offset p') buf). split; [exact E|]. rewrite E2. symmetry. apply ztake_zdrop.
Qed.

Lemma byte_panic_unchanged m buf pre p : zlen buf <= isize_max -> Forall (arg_fits m) pre ->
  after (byte_h m) pre (bp_from_buffer buf) = Some p ->
  forall (X : Set) (o : pop X) p', arg_fits m (AnyOp o) -> byte_h m X o p = (RPanic, p') -> p' = p.
Proof.
  intros HL Ha H X o p' Ho E. destruct (bp_after_from _ _ _ _ (bp_init_inv buf HL) Ha H) as [Hi _].
  exact (bp_panic m o p p' Hi Ho E).
Qed.
Lemma memo_panic_unchanged m buf pre p : zlen buf <= isize_max -> Forall (arg_fits m) pre ->
  after (memo_h m) pre (mp_from_buffer buf) = Some p ->
  forall (X : Set) (o : pop X) p', arg_fits m (AnyOp o) -> memo_h m X o p = (RPanic, p') -> p' = p.
Proof.
  intros HL Ha H X o p' Ho E. destruct (mp_after_from _ _ _ (mp_init_inv buf HL) Ha) as [_ Hi].
  exact (mp_panic m o p p' (Hi _ H) Ho E).
Qed.
