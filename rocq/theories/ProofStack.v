(** How deeply the calls of a decoder nest. *)
From Verif Require Import Base BaseLemmas ModelErrors ModelParser ModelInt ModelFloat ModelZarith
  ModelUtf8 ModelTarget ModelSchema ModelStack SpecParser SpecCodec SpecGrammar SpecStack ProofInt ProofZarith ProofDec ProofCodec ProofMeta
  ProofParserSim ProofHalt ProofSettle ProofView ProofGrammar ProofCodecThms.
From Coq Require Import ZifyBool.

(** ** [parse_in] and [parse] *)
Lemma ap_in_parse cf D r f : forall g t, (f + r <= g)%nat -> approx (parse_in cf D r f t) (parse cf D g t).
Proof.
  induction f as [|f IH]; intros g t Hg; [apply ap_div|]. destruct g as [|g]; [lia|].
  assert (H1 : (f + r <= g)%nat) by lia. assert (H2 : (r <= g)%nat) by lia. cbn [parse parse_in]. destruct t; aps.
Qed.
Lemma ap_parse_in cf D f : forall r g t, (f <= r)%nat -> (f <= g)%nat -> approx (parse cf D f t) (parse_in cf D r g t).
Proof.
  induction f as [|f IH]; intros r g t Hr Hg; [apply ap_div|]. destruct g as [|g]; [lia|].
  assert (H1 : (f <= r)%nat) by lia. assert (H2 : (f <= g)%nat) by lia. cbn [parse parse_in]. destruct t; aps.
Qed.
Lemma ap_in_in cf D r r' f : forall f' t, (r <= r')%nat -> (f <= f')%nat -> approx (parse_in cf D r f t) (parse_in cf D r' f' t).
Proof.
  intros f' t Hr. revert f' t. induction f as [|f IH]; intros f' t Hf; [apply ap_div|]. destruct f' as [|f']; [lia|].
  assert (H1 : (f <= f')%nat) by lia. cbn [parse_in]. destruct t; aps.
Qed.

Lemma try_in_of {P} (h : handler P) cl p cf D r f g t out : approx (parse cf D g t) (parse_in cf D r f t) ->
  try_decode h cl p cf D g t = out -> out <> RDiv -> try_decode_in h cl p cf D f r t = out.
Proof.
  intros Ha H Ho. unfold try_decode, try_decode_in in *. destruct (run h (parse cf D g t) p) as [x p'] eqn:E.
  assert (Hx : x <> RDiv) by (intros ->; congruence). rewrite (Ha _ _ _ _ _ E Hx). exact H.
Qed.
Lemma try_of_in {P} (h : handler P) cl p cf D r f g t out : approx (parse_in cf D r f t) (parse cf D g t) ->
  try_decode_in h cl p cf D f r t = out -> out <> RDiv -> try_decode h cl p cf D g t = out.
Proof.
  intros Ha H Ho. unfold try_decode, try_decode_in in *. destruct (run h (parse_in cf D r f t) p) as [x p'] eqn:E.
  assert (Hx : x <> RDiv) by (intros ->; congruence). rewrite (Ha _ _ _ _ _ E Hx). exact H.
Qed.
Lemma try_in_in {P} (h : handler P) cl p cf D r f r' f' t out : approx (parse_in cf D r f t) (parse_in cf D r' f' t) ->
  try_decode_in h cl p cf D f r t = out -> out <> RDiv -> try_decode_in h cl p cf D f' r' t = out.
Proof.
  intros Ha H Ho. unfold try_decode_in in *. destruct (run h (parse_in cf D r f t) p) as [x p'] eqn:E.
  assert (Hx : x <> RDiv) by (intros ->; congruence). rewrite (Ha _ _ _ _ _ E Hx). exact H.
Qed.
Lemma decode_in_of w cf D r f g t input out : approx (parse cf D g t) (parse_in cf D r f t) ->
  decode_with w cf D g t input = out -> out <> RDiv -> decode_in w cf D f r t input = out.
Proof. destruct w; cbn [decode_with decode_in]; apply try_in_of. Qed.
Lemma decode_of_in w cf D r f g t input out : approx (parse_in cf D r f t) (parse cf D g t) ->
  decode_in w cf D f r t input = out -> out <> RDiv -> decode_with w cf D g t input = out.
Proof. destruct w; cbn [decode_with decode_in]; apply try_of_in. Qed.
Lemma decode_in_in w cf D r f r' f' t input out : approx (parse_in cf D r f t) (parse_in cf D r' f' t) ->
  decode_in w cf D f r t input = out -> out <> RDiv -> decode_in w cf D f' r' t input = out.
Proof. destruct w; cbn [decode_in]; apply try_in_in. Qed.

Lemma decodes_in_at w cf D f r t input out : decode_in w cf D f r t input = out -> out <> RDiv ->
  decodes_in f w cf D t input out.
Proof.
  intros H Ho. split; [exact Ho|]. exists r. intros r' Hr. eapply decode_in_in; [|exact H|exact Ho]. apply ap_in_in; lia.
Qed.
Lemma decodes_in_inv w cf D f t input out : decodes_in f w cf D t input out ->
  out <> RDiv /\ exists r, decode_in w cf D f r t input = out.
Proof. intros [Ho [r H]]. split; [exact Ho|]. exists r. apply H. lia. Qed.

(** More frames do no harm, and every decoding needs some number of frames. *)
Lemma in_more w cf D f f' t input out : (f <= f')%nat -> decodes_in f w cf D t input out -> decodes_in f' w cf D t input out.
Proof.
  intros Hf H. apply decodes_in_inv in H. destruct H as [Ho [r H]]. eapply decodes_in_at; [|exact Ho].
  eapply decode_in_in; [|exact H|exact Ho]. apply ap_in_in; [apply le_n|exact Hf].
Qed.
Lemma in_iff w cf D t input out : decodes w cf D t input out <-> exists f, decodes_in f w cf D t input out.
Proof.
  split.
  - intros [Ho [f H]]. exists f. eapply (decodes_in_at _ _ _ _ f); [|exact Ho].
    eapply decode_in_of; [|apply (H f); lia|exact Ho]. apply ap_parse_in; lia.
  - intros [f H]. apply decodes_in_inv in H. destruct H as [Ho [r H]].
    eapply decodes_at; [|exact Ho]. eapply decode_of_in; [|exact H|exact Ho]. apply (ap_in_parse cf D r f (f + r)). lia.
Qed.

(** ** Types that are not recursive *)
Section Flat.
Variables (cf : config) (D : list def) (R : list nat).
Hypothesis HR : not_recursive D R = true.

Lemma flat_nth i d ts t j : nth_error D i = Some d -> In ts (field_types d) -> In t ts -> In j (mentions t) ->
  (rank R j < rank R i)%nat.
Proof.
  intros E Hts Ht Hj. pose proof (forallb_from_nth _ _ O i d HR E) as H. cbn [Nat.add] in H.
  rewrite forallb_forall in H. specialize (H _ Hts). rewrite forallb_forall in H. specialize (H _ Ht).
  rewrite forallb_forall in H. specialize (H _ Hj). apply Nat.ltb_lt in H. exact H.
Qed.
Lemma max_depth_nonneg : 0 <= max_depth D. Proof. apply zmax_list_nonneg. Qed.

Lemma ap_fields_in (pe pe' : ty -> prog val) ts : (forall t, In t ts -> approx (pe t) (pe' t)) -> approx (p_fields pe ts) (p_fields pe' ts).
Proof.
  intros H. induction ts as [|t ts IH]; cbn [p_fields]; [apply ap_refl|].
  apply ap_bind; [apply H; left; reflexivity|]. intros v. apply ap_bind; [|intros; apply ap_refl].
  apply IH. intros t' Ht'. apply H. right; exact Ht'.
Qed.

Lemma flat_all r f : forall f' k t, (forall j, In j (mentions t) -> Z.of_nat (rank R j) < k) -> 0 <= k ->
  k * max_depth D + depth t <= Z.of_nat f -> approx (parse_in cf D r f' t) (parse_in cf D r f t).
Proof.
  pose proof max_depth_nonneg as HM.
  induction f as [|f IH]; intros f' k t Hk Hk0 Hn.
  { pose proof (depth_pos t). pose proof (Z.mul_nonneg_nonneg k (max_depth D) Hk0 HM). lia. }
  destruct f' as [|f']; [apply ap_div|]. cbn [parse_in].
  assert (Hsub : forall u, (forall j, In j (mentions u) -> In j (mentions t)) -> depth t = 1 + depth u ->
    approx (parse_in cf D r f' u) (parse_in cf D r f u)).
  { intros u Hm Hd. apply (IH f' k u); [intros j Hj; apply Hk, Hm, Hj|exact Hk0|lia]. }
  destruct t; cbn [mentions depth] in *;
    try (assert (Ht : approx (parse_in cf D r f' t) (parse_in cf D r f t)) by (apply Hsub; [intros j Hj; exact Hj|reflexivity]));
    try (clear Hsub IH; solve [aps]).
  (* named *)
  assert (Hi : Z.of_nat (rank R i) < k) by (apply Hk; left; reflexivity).
  assert (Hf : forall d ts, nth_error D i = Some d -> In ts (field_types d) ->
    approx (p_fields (parse_in cf D r f') ts) (p_fields (parse_in cf D r f) ts)).
  { intros d ts E Hts. apply ap_fields_in. intros t Ht.
    apply (IH f' (Z.of_nat (rank R i)) t); [|lia|].
    - intros j Hj. pose proof (flat_nth i d ts t j E Hts Ht Hj). lia.
    - pose proof (max_depth_ge D d ts t (nth_error_In _ _ E) Hts Ht).
      assert ((Z.of_nat (rank R i) + 1) * max_depth D <= k * max_depth D) by (apply Z.mul_le_mono_nonneg_r; lia).
      rewrite Z.mul_add_distr_r, Z.mul_1_l in *. lia. }
  destruct (nth_error D i) as [[ts|kk tags|kk alts]|] eqn:Ei.
  - apply ap_bind; [|intros; apply ap_refl]. eapply Hf; [reflexivity|]. left; reflexivity.
  - apply ap_refl.
  - apply ap_bind; [apply ap_refl|]. intros tag. destruct (find_tag tag _) as [ix|]; [|apply ap_refl].
    destruct (nth_error alts ix) as [[tg ts]|] eqn:Ea; [|apply ap_refl].
    apply ap_bind; [|intros; apply ap_refl]. eapply Hf; [reflexivity|].
    cbn [field_types]. apply in_map_iff. exists (tg, ts). split; [reflexivity|]. eapply nth_error_In; eassumption.
  - apply ap_refl.
Qed.
Lemma flat_frames w t input out f : flat_bound D R t <= Z.of_nat f -> decodes w cf D t input out ->
  decodes_in f w cf D t input out.
Proof.
  intros Hf H. apply in_iff in H. destruct H as [f' H]. apply decodes_in_inv in H. destruct H as [Ho [r H]].
  eapply decodes_in_at; [|exact Ho]. eapply decode_in_in; [|exact H|exact Ho].
  apply (flat_all r f f' (max_rank R + 1) t); [|pose proof (zmax_list_nonneg (map Z.of_nat R)); unfold max_rank; lia|exact Hf].
  intros j _. pose proof (rank_le R j). lia.
Qed.
End Flat.

(** ** The frames a value needs *)
Fixpoint rets {A} (P : A -> Prop) (pg : prog A) : Prop :=
  match pg with
  | PRet a => P a
  | POp _ k => forall x, rets P (k x)
  | PTry _ k g => (forall x, rets P (k x)) /\ rets P g
  | _ => True
  end.

Lemma rets_run {A P} (h : handler P) (Q : A -> Prop) (pg : prog A) : rets Q pg -> forall s a s', run h pg s = (ROk a, s') -> Q a.
Proof.
  induction pg as [a|e| | | |X o kk IH|X o kk IHk f IHf]; cbn [rets run]; intros H s b s' E; try discriminate.
  - injection E as <- _. exact H.
  - destruct (h X o s) as [[] s1]; try discriminate. eapply IH; [apply H|exact E].
  - destruct H as [H1 H2]. destruct (h X o s) as [[] s1]; try discriminate; [eapply IHk; [apply H1|exact E]|eapply IHf; [exact H2|exact E]].
Qed.
Lemma rets_true {A} (pg : prog A) : rets (fun _ => True) pg.
Proof. induction pg; cbn [rets]; auto. Qed.
Lemma rets_bind {A B} (Q : A -> Prop) (S : B -> Prop) (pg : prog A) (k : A -> prog B) :
  rets Q pg -> (forall a, Q a -> rets S (k a)) -> rets S (pbind pg k).
Proof. induction pg as [a|e| | | |X o kk IH|X o kk IHk f IHf]; cbn [rets pbind]; intros H Hk; auto. destruct H; split; auto. Qed.
Lemma rets_bind_any {A B} (S : B -> Prop) (pg : prog A) (k : A -> prog B) :
  (forall a, rets S (k a)) -> rets S (pbind pg k).
Proof. intros H. apply (rets_bind (fun _ => True)); [apply rets_true|auto]. Qed.

Definition flat_to (n : Z) (vs : list val) : Prop := Forall (fun v => nesting v <= n) vs.
Lemma flat_to_snoc n vs v : flat_to n vs -> nesting v <= n -> flat_to n (vs ++ [v]).
Proof. intros H1 H2. apply Forall_app. split; [exact H1|]. constructor; [exact H2|constructor]. Qed.
Lemma flat_to_max n vs : 0 <= n -> flat_to n vs -> zmax_list (map nesting vs) <= n.
Proof. intros Hn. induction 1 as [|v vs H _ IH]; cbn [map zmax_list fold_right]; [lia|]. unfold zmax_list in IH. lia. Qed.
Lemma rets_seq n e r : rets (fun v => nesting v <= n) e -> forall acc, flat_to n acc -> rets (flat_to n) (p_seq_loop r e acc).
Proof.
  intros He. induction r as [|r IH]; intros acc Ha; cbn [p_seq_loop]; [exact Logic.I|].
  apply rets_bind_any. intros rem. destruct (_ =? _); [exact Ha|].
  apply (rets_bind _ _ _ _ He). intros v Hv. apply IH. apply flat_to_snoc; assumption.
Qed.
Lemma try_push_ok k acc (v : val) acc' : try_push k acc v = ROk acc' -> acc' = acc ++ [v].
Proof. unfold try_push. destruct (_ <? _); [|discriminate]. intros H; injection H as <-. reflexivity. Qed.
Lemma rets_lim n k e r : rets (fun v => nesting v <= n) e -> forall acc, flat_to n acc -> rets (flat_to n) (p_lim_loop r k e acc).
Proof.
  intros He. induction r as [|r IH]; intros acc Ha; cbn [p_lim_loop]; [exact Logic.I|].
  apply rets_bind_any. intros rem. destruct (_ =? _); [exact Ha|].
  apply (rets_bind _ _ _ _ He). intros v Hv. apply (rets_bind (fun acc' => acc' = acc ++ [v])).
  - destruct (ext_len (try_push k acc v)) eqn:E; cbn [plift rets]; auto.
    destruct (try_push k acc v) eqn:E'; try discriminate E. injection E as <-. apply try_push_ok in E'. exact E'.
  - intros acc' ->. apply IH. apply flat_to_snoc; assumption.
Qed.
Lemma rets_fix n k e r : rets (fun v => nesting v <= n) e -> forall acc, flat_to n acc -> rets (flat_to n) (p_fix_loop r k e acc).
Proof.
  intros He. induction r as [|r IH]; intros acc Ha; cbn [p_fix_loop]; [exact Logic.I|].
  apply rets_bind_any. intros rem. destruct (_ && _).
  - apply (rets_bind _ _ _ _ He). intros v Hv. apply IH. apply flat_to_snoc; assumption.
  - destruct (_ =? _); [exact Ha|exact Logic.I].
Qed.
Lemma rets_fields n (pe : ty -> prog val) ts : (forall t, rets (fun v => nesting v <= n) (pe t)) -> rets (flat_to n) (p_fields pe ts).
Proof.
  intros H. induction ts as [|t ts IH]; cbn [p_fields]; [constructor|].
  apply (rets_bind _ _ _ _ (H t)). intros v Hv. apply (rets_bind _ _ _ _ IH). intros vs Hvs. constructor; assumption.
Qed.

Lemma rets_in cf D r f : forall t, rets (fun v => nesting v <= Z.of_nat f) (parse_in cf D r f t).
Proof.
  induction f as [|f IH]; intros t; cbn [parse_in]; [exact Logic.I|].
  assert (Hw : forall v, nesting v <= Z.of_nat f -> nesting (VWrap v) <= Z.of_nat (S f)) by (intros v Hv; cbn [nesting]; lia).
  assert (Hs : forall v, nesting v <= Z.of_nat f -> nesting (VSome v) <= Z.of_nat (S f)) by (intros v Hv; cbn [nesting]; lia).
  assert (Hl : forall vs, flat_to (Z.of_nat f) vs -> nesting (VSeq vs) <= Z.of_nat (S f) /\ nesting (VStruct vs) <= Z.of_nat (S f) /\
    forall ix, nesting (VEnum ix vs) <= Z.of_nat (S f)).
  { intros vs Hv. apply flat_to_max in Hv; [|lia]. cbn [nesting]. repeat split; lia. }
  assert (H1 : 1 <= Z.of_nat (S f)) by lia.
  assert (H0 : forall ix, nesting (VEnum ix []) <= Z.of_nat (S f)) by (intros ix; exact H1).
  destruct t;
  repeat match goal with
  | |- rets _ (PRet _) => cbn [rets]; first [exact H1 | apply H0 | auto]
  | |- rets _ (PErr _) => exact Logic.I
  | |- rets _ PPanic => exact Logic.I
  | |- rets _ (if ?b then _ else _) => destruct b
  | |- rets _ (pbind (parse_in _ _ _ _ ?t) _) => apply (rets_bind _ _ _ _ (IH t)); intros ? ?
  | |- rets _ (pbind (p_seq_loop _ _ _) _) => eapply rets_bind; [apply rets_seq; [apply IH|constructor]|intros ? ?; cbn [rets]; apply Hl; assumption]
  | |- rets _ (pbind (p_lim_loop _ _ _ _) _) => eapply rets_bind; [apply rets_lim; [apply IH|constructor]|intros ? ?; cbn [rets]; apply Hl; assumption]
  | |- rets _ (pbind (p_fix_loop _ _ _ _) _) => eapply rets_bind; [apply rets_fix; [apply IH|constructor]|intros ? ?; cbn [rets]; apply Hl; assumption]
  | |- rets _ (pbind (p_fields _ _) _) => eapply rets_bind; [apply rets_fields; apply IH|intros ? ?; cbn [rets]; apply Hl; assumption]
  | |- rets _ (pbind _ _) => apply rets_bind_any; intros ?
  | |- rets _ (match ?o with _ => _ end) => destruct o
  end.
Qed.
Lemma frames_value f w cf D t input v : decodes_in f w cf D t input (ROk v) -> nesting v <= Z.of_nat f.
Proof.
  intros H. apply decodes_in_inv in H. destruct H as [_ [r H]]. pose proof (rets_in cf D r f t) as Hr.
  destruct w; cbn [decode_in] in H; unfold try_decode_in in H;
    match type of H with context [run ?h ?pg ?p] => destruct (run h pg p) as [x p'] eqn:E end;
    destruct x as [v'| | | |]; try discriminate;
    pose proof (rets_run _ _ _ Hr _ _ _ E) as Hv; cbv beta in Hv;
    (destruct (cf_complete cf); [match type of H with context [match ?c with _ => _ end] => destruct c as [lo| | | |]; try discriminate end; destruct (lo_is_empty lo); try discriminate|]);
    injection H as <-; exact Hv.
Qed.

(** ** The window view of [parse_in], as [dec] is that of [parse] *)
Fixpoint dec_in (cf : config) (D : list def) (rounds fuel : nat) (t : ty) : dm val :=
  match fuel with
  | O => d_div
  | S f =>
      match t with
      | TUnit => d_ret VUnit
      | TBool => d_bind d_bool (fun b => d_ret (VBool b))
      | TInt k => d_bind (d_int k) (fun z => d_ret (VInt z))
      | TRanged k lo hi => d_bind (d_ranged cf k lo hi) (fun z => d_ret (VInt z))
      | TF64 => d_bind (d_int U64) (fun z => d_ret (VInt z))
      | TRangedF lo hi =>
          d_bind (d_int U64) (fun z =>
          d_bind (d_lift (ext_float (rf_try_from_f64 lo hi z))) (fun z => d_ret (VInt z)))
      | TN =>
          d_bind (d_st zarith_terminal) (fun bs =>
          d_bind (d_lift (n_deserialize bs)) (fun z => d_ret (VInt z)))
      | TZ =>
          d_bind (d_st zarith_terminal) (fun bs =>
          d_bind (d_lift (z_deserialize bs)) (fun z => d_ret (VInt z)))
      | TBytes => d_bind d_rem (fun rem => d_bind (d_consume rem) (fun bs => d_ret (VBytes bs)))
      | TString =>
          d_bind d_rem (fun rem => d_bind (d_consume rem) (fun bs => d_ret (VBytes (utf8_lossy bs))))
      | TFixedBytes n => d_bind (d_fixed n) (fun bs => d_ret (VBytes bs))
      | TFixedString n => d_bind (d_fixed n) (fun bs => d_ret (VBytes bs))
      | TOption t =>
          d_bind (d_tag U8 [0; 255]) (fun tag =>
            if tag =? 255 then d_bind (dec_in cf D rounds f t) (fun v => d_ret (VSome v))
            else if tag =? 0 then d_ret VNone
            else d_panic)
      | TNullable t =>
          d_bind d_rem (fun rem =>
            if negb (rem =? 0) then d_bind (dec_in cf D rounds f t) (fun v => d_ret (VSome v)) else d_ret VNone)
      | TSeq t => d_bind (d_seq rounds (dec_in cf D rounds f t) []) (fun vs => d_ret (VSeq vs))
      | TLim n t => d_bind (d_lim rounds n (dec_in cf D rounds f t) []) (fun vs => d_ret (VSeq vs))
      | TFix n t => d_bind (d_fix rounds n (dec_in cf D rounds f t) []) (fun vs => d_ret (VSeq vs))
      | TDyn s t =>
          d_bind (d_pref cf s) (fun buflen =>
          d_bind (d_window buflen (dec_in cf D rounds f t)) (fun v => d_ret (VWrap v)))
      | TVPad n t =>
          d_bind d_rem (fun rem =>
          d_bind (d_lift (debug_assert (cf_mode cf) (n <=? rem))) (fun _ =>
          d_bind (d_lift (usub (cf_mode cf) rem n)) (fun win =>
          d_bind (d_window win (dec_in cf D rounds f t)) (fun v => d_ret (VWrap v)))))
      | TPad n t =>
          d_bind (dec_in cf D rounds f t) (fun v =>
          d_bind (d_consume n) (fun padding =>
          if cf_check_padding cf && negb (forallb (Z.eqb 0) padding)
          then d_fail spec_failure
          else d_ret (VWrap v)))
      | TBox t => d_bind (dec_in cf D rounds f t) (fun v => d_ret (VWrap v))
      | TNamed i =>
          match nth_error D i with
          | None => d_panic
          | Some (DStruct ts) => d_bind (d_fields (dec_in cf D rounds f) ts) (fun vs => d_ret (VStruct vs))
          | Some (DCStyle k tags) =>
              d_bind (d_tag k tags) (fun tag =>
                match find_tag tag tags with
                | Some ix => d_ret (VEnum ix [])
                | None => d_panic
                end)
          | Some (DData k alts) =>
              d_bind (d_tag k (map fst alts)) (fun tag =>
                match find_tag tag (map fst alts) with
                | Some ix =>
                    match nth_error alts ix with
                    | Some (_, ts) => d_bind (d_fields (dec_in cf D rounds f) ts) (fun vs => d_ret (VEnum ix vs))
                    | None => d_panic
                    end
                | None => d_panic
                end)
          end
      end
  end.

Lemma dec_in_le cf D r f : forall g t, (f + r <= g)%nat -> d_le (dec_in cf D r f t) (dec cf D g t).
Proof.
  induction f as [|f IH]; intros g t Hg; [apply d_le_div|]. destruct g as [|g]; [lia|].
  assert (H1 : (f + r <= g)%nat) by lia. assert (H2 : (r <= g)%nat) by lia. cbn [dec dec_in]. destruct t; dle.
Qed.
Lemma dec_le_in cf D f : forall r g t, (f <= r)%nat -> (f <= g)%nat -> d_le (dec cf D f t) (dec_in cf D r g t).
Proof.
  induction f as [|f IH]; intros r g t Hr Hg; [apply d_le_div|]. destruct g as [|g]; [lia|].
  assert (H1 : (f <= r)%nat) by lia. assert (H2 : (f <= g)%nat) by lia. cbn [dec dec_in]. destruct t; dle.
Qed.
Lemma shrinks_in cf D r f t : shrinks (dec_in cf D r f t).
Proof.
  intros cur a rest H. apply (shrinks_dec cf D (f + r) t cur a rest).
  rewrite (dec_in_le cf D r f (f + r) t (le_n _) cur); [exact H|rewrite H; discriminate].
Qed.
#[export] Hint Resolve shrinks_in : dec.
Lemma runs_in cf D r fuel : forall t, runs (parse_in cf D r fuel t) (dec_in cf D r fuel t).
Proof.
  induction fuel as [|f IH]; intros t; cbn [parse_in dec_in]; [apply runs_div|].
  destruct t; unfold p_take_dynamic; try solve [rns].
  - apply runs_bind; [auto with dec..|intros n]. apply runs_window, IH.
  - repeat (apply runs_bind; [auto with dec..|intros ?]). apply runs_window, IH.
Qed.

(** ** Enough frames for [n] bytes *)
Definition agree {A} (n : Z) (d d' : dm A) : Prop := forall cur, zlen cur <= n -> d cur = d' cur.
Lemma ag_refl {A} n (d : dm A) : agree n d d. Proof. intros cur _; reflexivity. Qed.
Lemma ag_bind {A B} n (d d' : dm A) (k k' : A -> dm B) :
  agree n d d' -> shrinks d -> (forall a, agree n (k a) (k' a)) -> agree n (d_bind d k) (d_bind d' k').
Proof.
  intros Hd Hs Hk cur Hc. unfold d_bind. rewrite <- (Hd cur Hc). destruct (d cur) as [[a rest]| | | |] eqn:E; try reflexivity.
  apply Hk. pose proof (suffix_zlen _ _ (Hs _ _ _ E)). lia.
Qed.
Lemma ag_bind_lt {A B} n (d d' : dm A) (k k' : A -> dm B) :
  agree n d d' -> consumes d -> (forall a, agree (n - 1) (k a) (k' a)) -> agree n (d_bind d k) (d_bind d' k').
Proof.
  intros Hd Hs Hk cur Hc. unfold d_bind. rewrite <- (Hd cur Hc). destruct (d cur) as [[a rest]| | | |] eqn:E; try reflexivity.
  apply Hk. pose proof (Hs _ _ _ E). lia.
Qed.
Lemma ag_window {A} n w (d d' : dm A) : agree n d d' -> agree n (d_window w d) (d_window w d').
Proof.
  intros Hd cur Hc. unfold d_window. destruct (size_ok w) eqn:Es; [|reflexivity].
  destruct (Z.leb_spec w (zlen cur)); [|reflexivity].
  rewrite (Hd (ztake w cur)); [reflexivity|]. rewrite zlen_ztake; unfold size_ok in Es; lia.
Qed.
Lemma ag_seq n e e' r : agree n e e' -> shrinks e -> forall acc, agree n (d_seq r e acc) (d_seq r e' acc).
Proof.
  intros He Hs. induction r as [|r IH]; intros acc; cbn [d_seq]; [apply ag_refl|].
  apply ag_bind; [apply ag_refl|auto with dec|]. intros rem. destruct (_ =? _); [apply ag_refl|].
  apply ag_bind; [exact He|exact Hs|]. intros v. apply IH.
Qed.
Lemma ag_lim n k e e' r : agree n e e' -> shrinks e -> forall acc, agree n (d_lim r k e acc) (d_lim r k e' acc).
Proof.
  intros He Hs. induction r as [|r IH]; intros acc; cbn [d_lim]; [apply ag_refl|].
  apply ag_bind; [apply ag_refl|auto with dec|]. intros rem. destruct (_ =? _); [apply ag_refl|].
  apply ag_bind; [exact He|exact Hs|]. intros v.
  apply ag_bind; [apply ag_refl|auto with dec|]. intros acc'. apply IH.
Qed.
Lemma ag_fix n k e e' r : agree n e e' -> shrinks e -> forall acc, agree n (d_fix r k e acc) (d_fix r k e' acc).
Proof.
  intros He Hs. induction r as [|r IH]; intros acc; cbn [d_fix]; [apply ag_refl|].
  apply ag_bind; [apply ag_refl|auto with dec|]. intros rem. destruct (_ && _); [|apply ag_refl].
  apply ag_bind; [exact He|exact Hs|]. intros v. apply IH.
Qed.

Section Linear.
Variables (cf : config) (D : list def) (I : list tinfo) (R : list nat).
Hypothesis HT : terminating D I R = true.
Lemma consumes_in r f t : nonempty I t = true -> consumes (dec_in cf D r f t).
Proof.
  intros N cur a rest H. apply (consumes_dec cf D I (term_claims D I R HT) (f + r) t N cur a rest).
  rewrite (dec_in_le cf D r f (f + r) t (le_n _) cur); [exact H|rewrite H; discriminate].
Qed.

Let P := max_depth D + 1.
Let K := (max_rank R + 2) * P.
Definition frames_for (n r d : Z) : Z := n * K + r * P + d.
Variable rounds : nat.
Notation decr := (dec_in cf D rounds).
Definition agree_at (f : nat) : Prop := forall f' t n r, (f <= f')%nat ->
  low R r (heads t) -> 0 <= r <= max_rank R + 1 -> frames_for n r (depth t) <= Z.of_nat f ->
  agree n (decr f t) (decr f' t).

Lemma P1 : 1 <= P. Proof. pose proof (zmax_list_nonneg (map depth (concat (concat (map field_types D))))). unfold P, max_depth. lia. Qed.
Lemma lowtop js : low R (max_rank R + 1) js.
Proof. apply Forall_forall. intros j _. pose proof (rank_le R j). lia. Qed.

Lemma agree_fields f f' ts : agree_at f -> (f <= f')%nat -> (forall t, In t ts -> depth t <= max_depth D) ->
  forall n r, low R r (field_heads I ts) -> 0 <= r <= max_rank R + 1 -> frames_for n r (max_depth D) <= Z.of_nat f ->
  agree n (d_fields (decr f) ts) (d_fields (decr f') ts).
Proof.
  intros Hf Hff. induction ts as [|t ts IH]; intros HM0 n r Hlow Hr Hn; [apply ag_refl|].
  cbn [field_heads] in Hlow. apply Forall_app in Hlow; destruct Hlow as [Hl1 Hl2].
  pose proof (HM0 t (or_introl eq_refl)) as Hd. pose proof P1. pose proof (zmax_list_nonneg (map Z.of_nat R)) as HR. fold (max_rank R) in HR.
  assert (HM' : forall t, In t ts -> depth t <= max_depth D) by (intros; apply HM0; right; assumption).
  cbn [d_fields].
  assert (Ht : agree n (decr f t) (decr f' t)) by (apply (Hf f' t n r); try assumption; unfold frames_for in *; lia).
  destruct (nonempty I t) eqn:N.
  - apply ag_bind_lt; [exact Ht|apply consumes_in; exact N|]. intros v.
    apply ag_bind; [|auto with dec|intros; apply ag_refl].
    apply (IH HM' (n - 1) (max_rank R + 1)); [apply lowtop|lia|].
    unfold frames_for, K in *. pose proof (Z.mul_nonneg_nonneg r P ltac:(lia) ltac:(lia)). lia.
  - apply ag_bind; [exact Ht|auto with dec|]. intros v.
    apply ag_bind; [|auto with dec|intros; apply ag_refl].
    apply (IH HM' n r); assumption.
Qed.

Lemma agree_all f : agree_at f.
Proof.
  pose proof P1 as HP. pose proof (zmax_list_nonneg (map Z.of_nat R)) as HR. fold (max_rank R) in HR.
  induction f as [|f IH]; intros f' t n r Hff Hlow Hr Hn.
  - intros cur Hc. exfalso. pose proof (depth_pos t). pose proof (zlen_nonneg cur).
    unfold frames_for in Hn. assert (0 <= n * K) by (apply Z.mul_nonneg_nonneg; [lia|]; unfold K; apply Z.mul_nonneg_nonneg; lia).
    pose proof (Z.mul_nonneg_nonneg r P ltac:(lia) ltac:(lia)). lia.
  - destruct f' as [|f']; [lia|]. assert (Hf : (f <= f')%nat) by lia. clear Hff.
    pose proof (Z.mul_nonneg_nonneg r P ltac:(lia) ltac:(lia)) as HrP.
    assert (HK : n * K = (n - 1) * K + (max_rank R + 1) * P + P) by (unfold K; lia).
    unfold frames_for in Hn.
    assert (Hsame : forall u, heads t = heads u -> depth t = 1 + depth u -> agree n (decr f u) (decr f' u)).
    { intros u Hh Hd. apply (IH f' u n r Hf); [rewrite <- Hh; exact Hlow|exact Hr|unfold frames_for; lia]. }
    assert (Hlater : forall u, depth t = 1 + depth u -> agree (n - 1) (decr f u) (decr f' u)).
    { intros u Hd. apply (IH f' u (n - 1) (max_rank R + 1) Hf); [apply lowtop|lia|unfold frames_for; lia]. }
    cbn [dec_in]. destruct t; try apply ag_refl; cbn [depth heads] in Hn, Hlow.
    + apply ag_bind_lt; [apply ag_refl|auto with dec|]. intros tag.
      destruct (tag =? 255); [|apply ag_refl]. apply ag_bind; [apply Hlater; reflexivity|auto with dec|intros; apply ag_refl].
    + apply ag_bind; [apply ag_refl|auto with dec|]. intros rem.
      destruct (negb _); [|apply ag_refl]. apply ag_bind; [apply Hsame; reflexivity|auto with dec|intros; apply ag_refl].
    + apply ag_bind; [|auto with dec|intros; apply ag_refl]. apply ag_seq; [apply Hsame; reflexivity|auto with dec].
    + apply ag_bind; [|auto with dec|intros; apply ag_refl]. apply ag_lim; [apply Hsame; reflexivity|auto with dec].
    + apply ag_bind; [|auto with dec|intros; apply ag_refl]. apply ag_fix; [apply Hsame; reflexivity|auto with dec].
    + apply ag_bind_lt; [apply ag_refl|auto with dec|]. intros buflen.
      apply ag_bind; [|auto with dec|intros; apply ag_refl]. apply ag_window. apply Hlater; reflexivity.
    + do 3 (apply ag_bind; [apply ag_refl|auto with dec|]; intros ?).
      apply ag_bind; [|auto with dec|intros; apply ag_refl]. apply ag_window. apply Hsame; reflexivity.
    + apply ag_bind; [|auto with dec|intros; apply ag_refl]. apply Hsame; reflexivity.
    + apply ag_bind; [|auto with dec|intros; apply ag_refl]. apply Hsame; reflexivity.
    + clear Hsame Hlater.
      assert (Hdep : forall d ts, nth_error D i = Some d -> In ts (field_types d) -> forall t, In t ts -> depth t <= max_depth D).
      { intros d ts E Hts t Ht. apply nth_error_In in E. eapply max_depth_ge; eassumption. }
      destruct (nth_error D i) as [[ts|k tags|k alts]|] eqn:Ei; [| |  |apply ag_refl].
      * apply ag_bind; [|auto with dec|intros; apply ag_refl].
        assert (Hr' : Z.of_nat (rank R i) < r) by (inversion Hlow; assumption).
        apply (agree_fields f f' ts IH Hf) with (r := Z.of_nat (rank R i)).
        -- apply (Hdep _ _ eq_refl). left; reflexivity.
        -- pose proof (term_nth D I R HT _ _ Ei) as HD. cbn [term_def] in HD. apply andb_prop in HD; destruct HD as [_ HD].
           apply andb_prop in HD; destruct HD as [_ HD]. rewrite forallb_forall in HD. apply Forall_forall.
           intros j Hj. specialize (HD j Hj). lia.
        -- pose proof (rank_le R i). lia.
        -- unfold frames_for. assert ((Z.of_nat (rank R i) + 1) * P <= r * P) by (apply Z.mul_le_mono_nonneg_r; lia).
           replace (max_depth D) with (P - 1) by (unfold P; lia). lia.
      * apply ag_refl.
      * apply ag_bind_lt; [apply ag_refl|auto with dec|]. intros tag.
        destruct (find_tag tag _) as [ix|]; [|apply ag_refl].
        destruct (nth_error alts ix) as [[tg ts]|] eqn:Ea; [|apply ag_refl].
        apply ag_bind; [|auto with dec|intros; apply ag_refl].
        assert (Hin : In ts (field_types (DData k alts))).
        { cbn [field_types]. apply in_map_iff. exists (tg, ts). split; [reflexivity|]. eapply nth_error_In; eassumption. }
        apply (agree_fields f f' ts IH Hf) with (r := max_rank R + 1).
        -- apply (Hdep _ _ eq_refl Hin).
        -- apply lowtop.
        -- lia.
        -- unfold frames_for. replace (max_depth D) with (P - 1) by (unfold P; lia). lia.
Qed.
End Linear.

Lemma try_in cf D r fuel : forall t, try_bytes_only (parse_in cf D r fuel t).
Proof.
  assert (Hseq : forall (pe : prog val) fl seq, try_bytes_only pe -> try_bytes_only (p_seq_loop fl pe seq)).
  { intros pe fl; induction fl as [|fl IHl]; intros seq He; cbn [p_seq_loop]; [exact I|unfold p_remainder; tries]. }
  assert (Hlim : forall (pe : prog val) n fl seq, try_bytes_only pe -> try_bytes_only (p_lim_loop fl n pe seq)).
  { intros pe n fl; induction fl as [|fl IHl]; intros seq He; cbn [p_lim_loop]; [exact I|unfold p_remainder; tries]. }
  assert (Hfix : forall (pe : prog val) n fl seq, try_bytes_only pe -> try_bytes_only (p_fix_loop fl n pe seq)).
  { intros pe n fl; induction fl as [|fl IHl]; intros seq He; cbn [p_fix_loop]; [exact I|unfold p_remainder; tries]. }
  assert (Hfields : forall pe ts, (forall t, try_bytes_only (pe t)) -> try_bytes_only (p_fields pe ts)).
  { intros pe ts He; induction ts as [|t ts IHl]; cbn [p_fields]; tries. }
  induction fuel as [|f IH]; intros t; cbn [parse_in]; [exact I|].
  destruct t; unfold p_take_bool, p_take_tagword, p_ranged, p_int, p_take_fixed, p_consume_arr, p_take_dynamic,
    p_take_self_terminating, p_remainder, p_consume, p_consume_byte, p_set_fit, p_enforce_target; tries.
  unfold p_pref, p_ranged, p_int, p_take_fixed, p_consume_arr, p_consume; destruct s; tries.
Qed.

Lemma run_decode_in w cf D f r t input : run_with w (cf_mode cf) (parse_in cf D r f t) input <> RDiv ->
  forall f', (f <= f')%nat -> decode_in w cf D f r t input = decode_in w cf D f' r t input.
Proof.
  intros H f' Hf. destruct w; cbn [run_with decode_in] in *; unfold try_decode_in;
    match type of H with fst (run ?h ?pg ?p) <> _ => destruct (run h pg p) as [x p'] eqn:E end; cbn [fst] in H;
    rewrite (ap_in_in cf D r r f f' t (le_n _) Hf _ _ _ _ _ E H); reflexivity.
Qed.

Lemma linear_frames w cf D I R t input out f : wf_defs D = true -> wf_ty D t = true -> terminating D I R = true ->
  pads_ok cf D t = true -> bytes_ok input -> zlen input <= isize_max ->
  frame_bound D R t (zlen input) <= Z.of_nat f -> decodes w cf D t input out -> decodes_in f w cf D t input out.
Proof.
  intros HD HW HT HP HB HL Hf H.
  pose proof H as H0. apply in_iff in H0. destruct H0 as [f1 H1]. apply (in_more w cf D f1 (Nat.max f f1) t) in H1; [|lia].
  apply decodes_in_inv in H1. destruct H1 as [Ho [r H1]].
  eapply (decodes_in_at _ _ _ _ r); [|exact Ho]. rewrite <- H1. apply run_decode_in; [|lia].
  assert (Hag : dec_in cf D r f t input = dec_in cf D r (Nat.max f f1) t input).
  { apply (agree_all cf D I R HT r f (Nat.max f f1) t (zlen input) (max_rank R + 1)); [lia| | | |lia].
    - apply Forall_forall. intros j _. pose proof (rank_le R j). lia.
    - pose proof (zmax_list_nonneg (map Z.of_nat R)). unfold max_rank. lia.
    - unfold frame_bound in Hf. unfold frames_for. pose proof (zmax_list_nonneg (map depth (concat (concat (map field_types D))))) as H2.
      fold (max_depth D) in H2. eapply Z.le_trans; [|exact Hf]. apply Z.le_sub_0.
      match goal with |- ?x <= 0 => replace x with (- (max_depth D + 1)) by ring end. lia. }
  assert (HU : forall g, dec_in cf D r g t input <> RUB).
  { intros g HU. pose proof (dec_in_le cf D r g (g + r) t (le_n _) input ltac:(rewrite HU; discriminate)) as E.
    rewrite HU in E. exact (dec_no_ub cf D t input (g + r) HD HW HP HB HL E). }
  pose proof (with_seen w (cf_mode cf) _ _ input (runs_in cf D r f t) (try_in cf D r f t) HL) as S1.
  pose proof (with_seen w (cf_mode cf) _ _ input (runs_in cf D r (Nat.max f f1) t) (try_in cf D r (Nat.max f f1) t) HL) as S2.
  rewrite <- Hag in S2. pose proof (HU f) as U. destruct (dec_in cf D r f t input) as [[v rest]| | | |]; try congruence.
  - destruct S1 as [[e' S1]|[_ S1]]; rewrite S1; discriminate.
  - exfalso. apply Ho. rewrite <- H1. destruct w; cbn [run_with decode_in] in S2 |- *; unfold try_decode_in;
    match type of S2 with fst ?o = _ => destruct o as [x p'] end; cbn [fst] in S2; subst x; reflexivity.
Qed.

(** ** A recursive type: no number of frames is enough for all inputs *)
Definition chain_defs : list def := [DStruct [TOption (TBox (TNamed 0))]].
Fixpoint chain_val (n : nat) : val :=
  match n with O => VStruct [VNone] | S n => VStruct [VSome (VWrap (chain_val n))] end.
Fixpoint chain_bytes (n : nat) : list byte := match n with O => [0] | S n => 255 :: chain_bytes n end.
Lemma chain_len n : zlen (chain_bytes n) = Z.of_nat n + 1.
Proof. induction n as [|n IH]; [reflexivity|]. cbn [chain_bytes]. rewrite zlen_cons. lia. Qed.
Lemma chain_ok n : bytes_ok (chain_bytes n).
Proof.
  induction n as [|n IH]; [apply bytes_ok_check; reflexivity|]. constructor; [unfold is_byte; lia|exact IH].
Qed.
Lemma chain_nesting n : nesting (chain_val n) = 3 * Z.of_nat n + 2.
Proof. induction n as [|n IH]; [reflexivity|]. cbn [chain_val nesting map zmax_list fold_right]. rewrite IH. lia. Qed.
Lemma chain_denotes c n : denotes c chain_defs (TNamed 0) (chain_bytes n) (chain_val n) [].
Proof.
  induction n as [|n IH]; (eapply den_struct; [reflexivity|]); (eapply turn_more; [|apply turn_none]).
  - apply den_none.
  - cbn [chain_bytes]. apply den_some. apply den_box. exact IH.
Qed.
Lemma chain_decodes w cf n : (cf_complete cf = true -> w <> WSlice) -> Z.of_nat n < isize_max ->
  decodes w cf chain_defs (TNamed 0) (chain_bytes n) (ROk (chain_val n)).
Proof.
  intros Hw Hn. apply grammar_decodes; [reflexivity|reflexivity|apply chain_ok|rewrite chain_len; lia|].
  exists []. split; [apply chain_denotes|]. intros Hc. split; [exact (Hw Hc)|reflexivity].
Qed.
Lemma chain_frames w cf n f out : (cf_complete cf = true -> w <> WSlice) -> Z.of_nat n < isize_max ->
  decodes_in f w cf chain_defs (TNamed 0) (chain_bytes n) out -> 3 * Z.of_nat n + 2 <= Z.of_nat f.
Proof.
  intros Hw Hn H. pose proof (chain_decodes w cf n Hw Hn) as H'.
  assert (E : out = ROk (chain_val n)) by (eapply settles_unique; [apply in_iff; exists f; exact H|exact H']).
  subst out. apply frames_value in H. rewrite chain_nesting in H. exact H.
Qed.
Lemma deep_refuted w cf : (cf_complete cf = true -> w <> WSlice) -> exists D I R t,
  wf_defs D = true /\ wf_ty D t = true /\ terminating D I R = true /\ loops_ok I t = true /\
  forall f, Z.of_nat f < isize_max -> exists input v, zlen input = Z.of_nat f + 1 /\ bytes_ok input /\
    decodes w cf D t input (ROk v) /\ forall out, ~ decodes_in f w cf D t input out.
Proof.
  intros Hw. exists chain_defs, [mkInfo Delim true None], [O], (TNamed 0). repeat split.
  intros f Hf. exists (chain_bytes f), (chain_val f). split; [apply chain_len|]. split; [apply chain_ok|].
  split; [apply chain_decodes; assumption|]. intros out H. apply chain_frames in H; [lia|assumption..].
Qed.
