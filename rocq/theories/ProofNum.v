(** Numbers, tags and strings through the parsers. *)
From Verif Require Import Base BaseLemmas ModelErrors ModelSplitVec ModelParser ModelInt ModelFloat ModelZarith
  ModelUtf8 ModelTarget ModelSchema SpecParser SpecCodec SpecUtf8 SpecNum ProofParser ProofParserSim ProofParserProps ProofParserClean ProofInt ProofFloat ProofZarith ProofUtf8
  ProofDec ProofCodec ProofMeta ProofRoundTrip ProofHalt ProofSafe ProofTyped ProofCanon ProofEnc ProofEstimate
  ProofEncValid ProofEncBytes ProofTransfer ProofSettle ProofView ProofBroken ProofCodecProps ProofCodecThms.
From Coq Require Import ZifyBool Floats.SpecFloat.

(** ** Scalar types do not depend on the environment *)
Definition scalarb (t : ty) : bool :=
  match t with
  | TUnit | TBool | TInt _ | TRanged _ _ _ | TF64 | TRangedF _ _ | TN | TZ | TBytes | TString
  | TFixedBytes _ | TFixedString _ => true
  | _ => false
  end.
Lemma scalar_dec_env cf D f t : scalarb t = true -> dec cf D (S f) t = dec cf [] 1 t.
Proof. destruct t; intros H; try discriminate H; reflexivity. Qed.

Section Scalar.
Variables (w : which_parser) (cf : config) (D : list def) (t : ty) (input : list byte).
Hypothesis HS : scalarb t = true.
Hypothesis HW : wf_ty [] t = true.
Hypothesis HB : bytes_ok input.
Hypothesis HL : zlen input <= isize_max.

Lemma scalar_safe : dec cf [] 1 t input <> RPanic /\ dec cf [] 1 t input <> RUB.
Proof.
  assert (V : vpads false cf (vpad_free t) = true) by (destruct t; try discriminate HS; unfold vpads; apply orb_true_r).
  assert (VD : vpads false cf (vpad_free_defs []) = true) by (unfold vpads; apply orb_true_r).
  pose proof (safe_dec false cf [] eq_refl VD 1 t HW V input (conj HB HL)) as S.
  split; [apply S; reflexivity|apply S].
Qed.
Lemma scalar_no_ub f : dec cf D f t input <> RUB.
Proof. destruct f; [discriminate|]. rewrite scalar_dec_env by exact HS. apply scalar_safe. Qed.
Lemma scalar_reads v rest : reads w cf D t input (ROk (v, rest)) <-> dec cf [] 1 t input = ROk (v, rest).
Proof.
  split.
  - intros H. destruct (reads_inv_in w cf D t input HL v rest scalar_no_ub H) as (f & Hf).
    destruct f as [|f]; [discriminate Hf|]. rewrite scalar_dec_env in Hf by exact HS. exact Hf.
  - intros H. apply (reads_ok w cf D t input HL 1). rewrite scalar_dec_env by exact HS. exact H.
Qed.
Lemma scalar_halts : dec cf [] 1 t input <> RDiv.
Proof.
  set (f := Z.to_nat (step_bound [] [] [] t (zlen input))).
  pose proof (dec_halts cf [] [] [] f t input eq_refl) as N.
  assert (L : loops_ok [] t = true) by (destruct t; try discriminate HS; reflexivity).
  specialize (N L ltac:(unfold f; lia)).
  assert (Hf : exists g, f = S g).
  { unfold f. destruct (Z.to_nat _) eqn:E; [|eauto]. unfold step_bound in E. pose proof (zlen_nonneg input).
    change (max_rank []) with 0 in E. change (max_depth []) with 0 in E.
    pose proof (rounds_nonneg [] t).
    assert (0 < depth t) by (destruct t; try discriminate HS; reflexivity). lia. }
  destruct Hf as [g Hg]. rewrite Hg in N. rewrite scalar_dec_env in N by exact HS. exact N.
Qed.
Lemma scalar_rejects : (forall v rest, dec cf [] 1 t input <> ROk (v, rest)) -> rejects w cf D t input.
Proof.
  intros H. destruct (dec cf [] 1 t input) as [[v rest]|e| | |] eqn:E.
  - destruct (H v rest); reflexivity.
  - assert (W : window_free t = true) by (destruct t; try discriminate HS; reflexivity).
    destruct (decode_error_seen w cf [] 1 t input HL (fun _ => conj W eq_refl) (ex_intro _ e E)) as [e' He].
    exists e'. apply (decodes_at w cf D t input 1); [|discriminate]. rewrite <- He.
    destruct t; try discriminate HS; destruct w; reflexivity.
  - destruct scalar_safe; congruence.
  - destruct scalar_safe; congruence.
  - destruct scalar_halts; exact E.
Qed.
(** The decoder of a scalar type decodes exactly what [parse] reads. *)
Lemma scalar_decodes v rest : dec cf [] 1 t input = ROk (v, rest) -> (w = WSlice -> cf_complete cf = false) ->
  (cf_complete cf = true -> rest = []) -> decodes w cf D t input (ROk v).
Proof.
  intros E HC HR. rewrite <- (scalar_dec_env cf D 0 t HS) in E.
  destruct (decodes_finished w cf D t input HL 1 v rest E) as (out & Ho & F). unfold finished in F.
  destruct (cf_complete cf) eqn:Ec; cbn [andb] in F.
  - rewrite (HR eq_refl) in F. destruct w; cbn in F; try (rewrite F in Ho; exact Ho). discriminate (HC eq_refl).
  - rewrite F in Ho. exact Ho.
Qed.
End Scalar.

Definition no_override (cf : config) : config :=
  mkConfig (cf_mode cf) (cf_check_padding cf) false (cf_relaxed_padding cf) (cf_range_check cf) (cf_complete cf).
Lemma scalar_encode cf D kf v t : scalarb t = true -> wf_ty [] t = true -> valid [] v t = true ->
  zlen (format [] v t) <= isize_max -> to_bytes cf D kf v t = ROk (format [] v t).
Proof.
  intros HS HW HV HL. rewrite to_bytes_wr.
  replace (wr cf D kf v t) with (wr (no_override cf) [] kf v t) by (destruct t; try discriminate HS; destruct v; reflexivity).
  destruct (puts_wr (no_override cf) [] kf eq_refl v t HW HV HL ltac:(discriminate)) as [->|[E _]]; [reflexivity|discriminate E].
Qed.


(** ** C13 *)
Lemma int_encode cf D kf k z : ik_in k z = true ->
  to_bytes cf D kf (VInt z) (TInt k) = ROk (int_format k z) /\ zlen (int_format k z) = ik_len k /\
  bytes_ok (int_format k z).
Proof.
  intros H. split; [|split; [apply int_format_length|apply int_format_bytes]].
  rewrite (scalar_encode cf D kf (VInt z) (TInt k) eq_refl eq_refl); [reflexivity|exact H|apply ik_len_isize].
Qed.
Lemma int_decode w cf D k input v rest : bytes_ok input -> zlen input <= isize_max ->
  reads w cf D (TInt k) input (ROk (v, rest)) <->
  exists z, v = VInt z /\ ik_in k z = true /\ input = int_format k z ++ rest.
Proof.
  intros HB HL. rewrite scalar_reads by (assumption || reflexivity). split.
  - intros H. cbn [dec] in H. apply d_bind_ok in H. destruct H as (z & r & Hz & H). apply d_ret_ok in H. destruct H as [-> ->].
    apply d_int_ok in Hz; [|exact HB]. exists z. tauto.
  - intros (z & -> & Hz & ->). cbn [dec]. unfold d_bind. rewrite d_int_app by exact Hz. reflexivity.
Qed.
Lemma int_every_bytes w cf D kf k input rest : bytes_ok (input ++ rest) -> zlen (input ++ rest) <= isize_max -> zlen input = ik_len k ->
  exists z, reads w cf D (TInt k) (input ++ rest) (ROk (VInt z, rest)) /\ ik_in k z = true /\
            to_bytes cf D kf (VInt z) (TInt k) = ROk input.
Proof.
  intros HB HL Hl. apply bytes_ok_app in HB. destruct HB as [HB HR]. exists (from_be_bytes k input).
  pose proof (from_be_bytes_in k input) as Hi. pose proof (to_from_be_bytes k input HB Hl) as E.
  split; [|split; [exact Hi|]].
  - apply int_decode; [apply bytes_ok_app; auto|exact HL|]. exists (from_be_bytes k input). rewrite E. auto.
  - rewrite (proj1 (int_encode cf D kf k _ Hi)), E. reflexivity.
Qed.
Lemma int_short_rejected w cf D k input : bytes_ok input -> zlen input < ik_len k -> rejects w cf D (TInt k) input.
Proof.
  intros HB Hl. assert (ik_len k <= 8) by (destruct k; cbn; lia). assert (8 < isize_max) by reflexivity.
  apply scalar_rejects; try reflexivity; [exact HB|lia|]. intros v rest H'.
  cbn [dec] in H'. apply d_bind_ok in H'. destruct H' as (z & r & Hz & _).
  apply d_int_ok in Hz; [|exact HB]. destruct Hz as [-> _]. rewrite zlen_app, int_format_length in Hl. pose proof (zlen_nonneg r).
  unfold byte in *. lia.
Qed.

(** ** C14 *)
Lemma bool_decode w cf D input v rest : bytes_ok input -> zlen input <= isize_max ->
  reads w cf D TBool input (ROk (v, rest)) <->
  (v = VBool true /\ input = 255 :: rest) \/ (v = VBool false /\ input = 0 :: rest).
Proof.
  intros HB HL. rewrite scalar_reads by (assumption || reflexivity). split.
  - intros H. cbn [dec] in H. apply d_bind_ok in H. destruct H as (b & r & Hb & H). apply d_ret_ok in H. destruct H as [-> ->].
    apply d_bool_ok in Hb. destruct b; auto.
  - intros [[-> ->]|[-> ->]]; reflexivity.
Qed.
Lemma bool_rejected w cf D input : bytes_ok input -> zlen input <= isize_max ->
  (forall rest, input <> 255 :: rest /\ input <> 0 :: rest) -> rejects w cf D TBool input.
Proof.
  intros HB HL H. apply scalar_rejects; try reflexivity; auto. intros v rest E.
  apply (proj2 (scalar_reads w cf D TBool input eq_refl eq_refl HB HL v rest)) in E. apply bool_decode in E; auto.
  destruct (H rest). destruct E as [[_ E]|[_ E]]; congruence.
Qed.

Lemma find_tag_nth_error z tags ix : nodupb tags = true -> nth_error tags ix = Some z -> find_tag z tags = Some ix.
Proof.
  intros HN E. pose proof (find_tag_nth tags ix 0 HN) as F. rewrite (nth_error_nth _ _ _ E) in F. apply F.
  apply nth_error_Some. congruence.
Qed.
Lemma in_map_nth {A B} (f : A -> B) l b : In b (map f l) -> exists i a, nth_error l i = Some a /\ f a = b.
Proof. intros H. apply in_map_iff in H. destruct H as (a & E & H). apply In_nth_error in H. destruct H as [i H]. eauto. Qed.

Section Enum.
Variables (w : which_parser) (cf : config) (D : list def) (i : nat) (input : list byte).
Hypothesis HD : wf_defs D = true.
Hypothesis HB : bytes_ok input.
Hypothesis HL : zlen input <= isize_max.
Hypothesis HI : (i < length D)%nat.

Lemma enum_reads v rest : reads w cf D (TNamed i) input (ROk (v, rest)) <-> exists f, dec cf D f (TNamed i) input = ROk (v, rest).
Proof.
  assert (W : wf_ty D (TNamed i) = true) by (cbn [wf_ty]; apply Nat.ltb_lt; exact HI). split.
  - intros H. apply (reads_inv w cf D _ input HD W HB HL) in H. exact H.
  - intros [f H]. eapply reads_ok; eassumption.
Qed.
Lemma cstyle_decode k tags v rest : nth_error D i = Some (DCStyle k tags) ->
  reads w cf D (TNamed i) input (ROk (v, rest)) <->
  exists ix tag, v = VEnum ix [] /\ nth_error tags ix = Some tag /\ input = int_format k tag ++ rest.
Proof.
  intros Ei. rewrite enum_reads.
  assert (WD : tag_kind k && nodupb tags && forallb (ik_in k) tags = true).
  { unfold wf_defs in HD. rewrite forallb_forall in HD. apply (HD (DCStyle k tags)). eapply nth_error_In; exact Ei. }
  apply andb_prop in WD. destruct WD as [WD W3]. apply andb_prop in WD. destruct WD as [_ W2]. split.
  - intros [[|f] H]; [discriminate H|]. cbn [dec] in H. rewrite Ei in H. apply d_bind_ok in H. destruct H as (tag & r & Ht & H).
    apply d_tag_ok in Ht; [|exact HB]. destruct Ht as [-> Ht]. destruct (find_tag_in _ _ Ht) as (ix & E1 & E2). rewrite E1 in H.
    apply d_ret_ok in H. destruct H as [-> ->]. exists ix, tag. auto.
  - intros (ix & tag & -> & Et & ->). exists 1%nat. cbn [dec]. rewrite Ei. unfold d_bind.
    rewrite d_tag_app; [|rewrite forallb_forall in W3; apply W3|]; [|eapply nth_error_In; exact Et..].
    rewrite (find_tag_nth_error tag tags ix W2 Et). reflexivity.
Qed.
Lemma data_decode k alts v rest : nth_error D i = Some (DData k alts) ->
  reads w cf D (TNamed i) input (ROk (v, rest)) ->
  exists ix tag ts vs payload, v = VEnum ix vs /\ nth_error alts ix = Some (tag, ts) /\
    input = int_format k tag ++ payload ++ rest /\ all2 (well_typed D) vs ts = true.
Proof.
  intros Ei H. pose proof H as H0. rewrite enum_reads in H. destruct H as [[|f] H]; [discriminate H|].
  cbn [dec] in H. rewrite Ei in H. apply d_bind_ok in H. destruct H as (tag & r & Ht & H).
  apply d_tag_ok in Ht; [|exact HB]. destruct Ht as [E0 Ht]. destruct (find_tag_in _ _ Ht) as (ix & E1 & E2). rewrite E1 in H.
  rewrite nth_error_map in E2. destruct (nth_error alts ix) as [[tg ts]|] eqn:Ea; [|discriminate E2]. cbn in E2. injection E2 as ->.
  apply d_bind_ok in H. destruct H as (vs & r' & Hv & H). apply d_ret_ok in H. destruct H as [-> <-].
  assert (Hs : exists p, r = p ++ rest).
  { apply (shrinks_fields (dec cf D f)) in Hv; [exact Hv|]. intros t. apply shrinks_dec. }
  destruct Hs as [p ->]. exists ix, tag, ts, vs, p. split; [reflexivity|]. split; [exact Ea|]. split; [exact E0|].
  assert (W : wf_ty D (TNamed i) = true) by (cbn [wf_ty]; apply Nat.ltb_lt; exact HI).
  destruct (read_typed cf D (TNamed i) input HD W HB HL w _ _ H0) as [T _].
  unfold well_typed in T. cbn [valid_gen] in T. rewrite Ei, Ea in T. exact T.
Qed.
End Enum.

(** Programs that fail before opening a window. *)
Lemma run_error w m {A} (pg : prog A) d input : zlen input <= isize_max -> try_bytes_only pg -> no_fit pg -> runs pg d ->
  (exists e, d input = RErr e) -> exists e, run_with w m pg input = RErr e.
Proof.
  intros HL HT HN HR [e0 He]. pose proof (HR input [] HL) as Ho. unfold outcome in Ho. rewrite He in Ho.
  destruct w; cbn [run_with].
  - apply (run_no_fit m (byte_h m) bp_inv bp_alpha (byte_refines m)); auto using bp_init_inv.
    + intros X o p r p'. apply byte_no_panic.
    + rewrite (bp_init_alpha input). exact Ho.
  - apply (run_no_fit m (memo_h m) mp_inv (fun p => bp_alpha (mp_bp p)) (memo_refines m)); auto using mp_init_inv.
    + intros X o p r p'. apply memo_no_panic.
    + change (mp_bp (mp_from_buffer input)) with (bp_from_buffer input). rewrite (bp_init_alpha input). exact Ho.
  - assert (Hi : sp_inv (sp_from_buffer input)) by (unfold sp_inv, sp_from_buffer; discriminate).
    pose proof (run_refines Release slice_h sp_inv sp_alpha (slice_refines Release) pg _ Hi HT) as H.
    unfold outcome_rel in H. change (sp_alpha (sp_from_buffer input)) with (mkW input []) in H.
    destruct Ho as [e1 Ho]. rewrite Ho in H. destruct H as [H|[H _]]; [exact H|discriminate H].
Qed.
Lemma run_with_bind_error w m {A B} (pg : prog A) (k : A -> prog B) input e :
  run_with w m pg input = RErr e -> run_with w m (pbind pg k) input = RErr e.
Proof.
  destruct w; cbn [run_with]; rewrite run_pbind.
  - destruct (run (byte_h m) pg (bp_from_buffer input)) as [r p]. cbn [fst]. intros ->. reflexivity.
  - destruct (run (memo_h m) pg (mp_from_buffer input)) as [r p]. cbn [fst]. intros ->. reflexivity.
  - destruct (run slice_h pg (sp_from_buffer input)) as [r p]. cbn [fst]. intros ->. reflexivity.
Qed.
Lemma decode_run_error w cf D f t input e : run_with w (cf_mode cf) (parse cf D f t) input = RErr e ->
  decode_with w cf D f t input = RErr (DParse e).
Proof.
  destruct w; cbn [run_with decode_with]; unfold byte_decode, memo_decode, slice_decode, try_decode; intros H.
  - destruct (run (byte_h (cf_mode cf)) (parse cf D f t) (bp_from_buffer input)) as [r p]. cbn [fst] in H. subst r. reflexivity.
  - destruct (run (memo_h (cf_mode cf)) (parse cf D f t) (mp_from_buffer input)) as [r p]. cbn [fst] in H. subst r. reflexivity.
  - destruct (run slice_h (parse cf D f t) (sp_from_buffer input)) as [r p]. cbn [fst] in H. subst r. reflexivity.
Qed.
Lemma first_error_rejects w cf D f t {A} (pg : prog A) (d : dm A) (k : A -> prog val) input :
  parse cf D (S f) t = pbind pg k -> zlen input <= isize_max -> try_bytes_only pg -> no_fit pg -> runs pg d ->
  (exists e, d input = RErr e) -> rejects w cf D t input.
Proof.
  intros E HL HT HN HR He. destruct (run_error w (cf_mode cf) pg d input HL HT HN HR He) as [e H].
  exists e. apply (decodes_at w cf D t input (S f)); [|discriminate]. apply decode_run_error. rewrite E.
  apply run_with_bind_error. exact H.
Qed.
Lemma d_int_cases k cur : (exists z rest, d_int k cur = ROk (z, rest)) \/ (exists e, d_int k cur = RErr e).
Proof.
  unfold d_int, d_fixed, d_bind, d_consume. replace (size_ok (ik_len k)) with true by (destruct k; reflexivity).
  destruct (ik_len k <=? zlen cur) eqn:E; [|right; eexists; reflexivity].
  unfold d_lift, coerce_slice. destruct (zlen (ztake (ik_len k) cur) =? ik_len k); [left|right]; repeat eexists; reflexivity.
Qed.
Lemma tag_error k tags input : bytes_ok input -> (forall tag rest, In tag tags -> input <> int_format k tag ++ rest) ->
  exists e, d_tag k tags input = RErr e.
Proof.
  intros HB H. unfold d_tag, d_bind. destruct (d_int_cases k input) as [(z & rest & E)|[e E]]; rewrite E; [|eauto].
  destruct (existsb (Z.eqb z) tags) eqn:Ex; [|unfold d_fail; eauto].
  apply existsb_exists in Ex. destruct Ex as (y & Hy & Ey). apply Z.eqb_eq in Ey. subst y.
  apply d_int_ok in E; [|exact HB]. destruct E as [E _]. destruct (H z rest Hy E).
Qed.
Lemma tag_rejected w cf D f t k tags K input : parse cf D (S f) t = pbind (p_take_tagword k tags) K ->
  bytes_ok input -> zlen input <= isize_max -> (forall tag rest, In tag tags -> input <> int_format k tag ++ rest) ->
  rejects w cf D t input.
Proof.
  intros E HB HL H. eapply first_error_rejects; [exact E|exact HL| | |apply runs_tag|apply tag_error; assumption].
  - unfold p_take_tagword, p_int, p_take_fixed, p_consume_arr, p_consume. tries.
  - unfold p_take_tagword, p_int, p_take_fixed, p_consume_arr, p_consume. nfs.
Qed.
Lemma cstyle_rejected w cf D i k tags input : nth_error D i = Some (DCStyle k tags) ->
  bytes_ok input -> zlen input <= isize_max -> (forall tag rest, In tag tags -> input <> int_format k tag ++ rest) ->
  rejects w cf D (TNamed i) input.
Proof. intros Ei. eapply (tag_rejected w cf D 0). cbn [parse]. rewrite Ei. reflexivity. Qed.
Lemma data_rejected w cf D i k alts input : nth_error D i = Some (DData k alts) ->
  bytes_ok input -> zlen input <= isize_max ->
  (forall tag rest, In tag (map fst alts) -> input <> int_format k tag ++ rest) ->
  rejects w cf D (TNamed i) input.
Proof. intros Ei. eapply (tag_rejected w cf D 0). cbn [parse]. rewrite Ei. reflexivity. Qed.
Lemma option_rejected w cf D t input : bytes_ok input -> zlen input <= isize_max ->
  (forall rest, input <> 255 :: rest /\ input <> 0 :: rest) -> rejects w cf D (TOption t) input.
Proof.
  intros HB HL H. eapply (tag_rejected w cf D 0 (TOption t) U8 [0; 255]); [cbn [parse]; reflexivity|exact HB|exact HL|].
  intros tag rest [<-|[<-|[]]]; apply (H rest).
Qed.

(** ** C15 *)
Lemma app_inj_zlen (a b x y : list byte) : a ++ x = b ++ y -> zlen a = zlen b -> a = b /\ x = y.
Proof.
  intros E H. assert (length a = length b) by (unfold zlen in H; lia). clear H. revert b E H0.
  induction a as [|c a IH]; intros [|d b] E Hl; try discriminate Hl; [split; [reflexivity|exact E]|].
  injection E as -> E. destruct (IH b E) as [-> ->]; [cbn in Hl; lia|auto].
Qed.
Lemma ranged_ok_value k lo hi z : ranged_ok k lo hi z = true <-> ik_in k z = true /\ lo <= ranged_value lo z <= hi.
Proof. unfold ranged_ok, ranged_value. destruct (Z.ltb_spec 0 lo), (ik_in k z); cbn [andb]; split; intros; try split; try lia; discriminate || (destruct H0; discriminate). Qed.
Lemma ranged_decode w cf D k lo hi input v rest : bytes_ok input -> zlen input <= isize_max -> ri_sanity lo hi = true ->
  reads w cf D (TRanged k lo hi) input (ROk (v, rest)) <->
  exists z, v = VInt z /\ ik_in k z = true /\ input = int_format k z ++ rest /\ lo <= ranged_value lo z <= hi.
Proof.
  intros HB HL HS. rewrite scalar_reads by (assumption || reflexivity). split.
  - intros H. cbn [dec] in H. apply d_bind_ok in H. destruct H as (z & r & Hz & H). apply d_ret_ok in H. destruct H as [-> ->].
    apply d_ranged_ok in Hz; [|exact HB]. destruct Hz as [-> Hz]. apply ranged_ok_value in Hz. exists z. tauto.
  - intros (z & -> & Hz & -> & Hr). cbn [dec]. unfold d_bind. rewrite d_ranged_app; [reflexivity|exact HS|].
    apply ranged_ok_value. auto.
Qed.
Lemma ranged_rejected w cf D k lo hi input rest z : bytes_ok rest -> zlen (int_format k z ++ rest) <= isize_max -> ri_sanity lo hi = true ->
  ik_in k z = true -> ~ lo <= ranged_value lo z <= hi -> input = int_format k z ++ rest ->
  rejects w cf D (TRanged k lo hi) input.
Proof.
  intros HB HL HS Hz Hn ->. assert (HB' : bytes_ok (int_format k z ++ rest)) by (apply bytes_ok_app; auto using int_format_bytes).
  apply scalar_rejects; auto. intros v r H. apply (proj2 (scalar_reads w cf D (TRanged k lo hi) _ eq_refl HS HB' HL v r)) in H.
  apply ranged_decode in H; auto. destruct H as (z' & _ & Hz' & E & Hr).
  apply app_inj_zlen in E; [|rewrite !int_format_length; reflexivity].
  destruct E as [E _]. apply (f_equal (from_be_bytes k)) in E. rewrite !from_to_be_bytes in E by assumption. subst z'. auto.
Qed.
Lemma ranged_encode cf D kf k lo hi z : ri_sanity lo hi = true -> ik_in k z = true -> lo <= ranged_value lo z <= hi ->
  to_bytes cf D kf (VInt z) (TRanged k lo hi) = ROk (int_format k z).
Proof.
  intros HS Hz Hr. rewrite (scalar_encode cf D kf (VInt z) (TRanged k lo hi) eq_refl HS); [reflexivity| |apply ik_len_isize].
  apply ranged_ok_value. auto.
Qed.

(** ** C16 *)
Lemma sanity_spec lo hi : ri_sanity lo hi = true <-> - 2 ^ 30 <= lo /\ hi <= 2 ^ 30 - 1 /\ lo <= hi.
Proof. unfold ri_sanity, min_ocaml, max_ocaml. lia. Qed.
Lemma ri_check_ok E rc lo hi : ri_sanity lo hi = true -> @ri_check rc lo hi E = ROk tt.
Proof. unfold ri_check. intros ->. destruct rc; reflexivity. Qed.
Lemma i32_in z : ik_in I32 z = true <-> - 2 ^ 31 <= z <= 2 ^ 31 - 1.
Proof. rewrite ik_in_spec. reflexivity. Qed.
Lemma i32_wrap_low z : - 2 ^ 31 - 2 ^ 30 <= z < - 2 ^ 31 -> ik_wrap I32 z = z + 2 ^ 32.
Proof.
  intros H. unfold ik_wrap. change (ik_mod I32) with (2 ^ 32). change (ik_signed I32) with true.
  replace (z mod 2 ^ 32) with (z + 2 ^ 32) by (apply (Z.mod_unique z (2 ^ 32) (-1)); lia).
  change (2 ^ 32 / 2) with (2 ^ 31). cbn [andb]. destruct (Z.leb_spec (2 ^ 31) (z + 2 ^ 32)); lia.
Qed.
Lemma try_from_i32_exact rc m k lo hi x : ri_sanity lo hi = true -> ik_in I32 x = true ->
  m = Release \/ ik_in I32 (x - Z.max 0 lo) = true ->
  (lo <= x <= hi /\ ik_in k (ranged_stored lo x) = true -> ri_try_from_i32 rc m k lo hi x = ROk (ranged_stored lo x)) /\
  (~ (lo <= x <= hi /\ ik_in k (ranged_stored lo x) = true) -> exists e, ri_try_from_i32 rc m k lo hi x = RErr e).
Proof.
  intros HS Hx Ho. unfold ri_try_from_i32. rewrite ri_check_ok by exact HS. cbn [rbind].
  apply sanity_spec in HS. apply i32_in in Hx. unfold ranged_stored.
  destruct (Z.leb_spec lo 0) as [L|L].
  - replace (0 <? lo) with false by lia. cbn [rbind].
    destruct (restrict_cases x lo hi) as [[e E]|E].
    + rewrite E. split; [intros [H _]|cbn [rbind]; eauto]. exfalso.
      assert (R : restrict x lo hi = ROk x) by (apply restrict_ok; replace (0 <? lo) with false by lia; exact H). congruence.
    + rewrite E. cbn [rbind]. apply restrict_ok in E. replace (0 <? lo) with false in E by lia.
      unfold ik_try_from. destruct (ik_in k x); split; intros H; eauto; [destruct H; auto|destruct H; discriminate].
  - replace (0 <? lo) with true by lia.
    assert (Hd : (exists d, @i32_checked m bounds_error (x - lo) = ROk d /\ (d = x - lo \/ (x < lo /\ hi - lo < d)))).
    { unfold i32_checked. destruct (ik_in I32 (x - lo)) eqn:Ed; [eauto|].
      replace (Z.max 0 lo) with lo in Ho by lia. destruct Ho as [->|Ho]; [|congruence].
      assert (x - lo < - 2 ^ 31). { destruct (Z.lt_ge_cases (x - lo) (- 2 ^ 31)); [assumption|]. exfalso.
        assert (ik_in I32 (x - lo) = true) by (apply i32_in; lia). congruence. }
      rewrite i32_wrap_low by lia. eexists; split; [reflexivity|]. right. lia. }
    destruct Hd as (d & -> & Hd). cbn [rbind]. destruct (restrict_cases d lo hi) as [[e E]|E].
    + rewrite E. split; [intros [H _]|cbn [rbind]; eauto]. exfalso. destruct Hd as [->|Hd]; [|lia].
      assert (R : restrict (x - lo) lo hi = ROk (x - lo)) by (apply restrict_ok; replace (0 <? lo) with true by lia; lia). congruence.
    + rewrite E. cbn [rbind]. apply restrict_ok in E. replace (0 <? lo) with true in E by lia.
      destruct Hd as [->|Hd]; [|lia]. assert (lo <= x <= hi) by lia.
      unfold ik_try_from. destruct (ik_in k (x - lo)); split; intros HH; eauto; [destruct HH; auto|destruct HH; discriminate].
Qed.
Lemma to_i32_value {E} rc m k lo hi z : ri_sanity lo hi = true -> ranged_ok k lo hi z = true ->
  @ri_to_i32 rc m lo hi E z = ROk (ranged_value lo z).
Proof.
  intros HS Hz. apply ranged_ok_value in Hz. destruct Hz as [Hk Hz]. unfold ri_to_i32. rewrite ri_check_ok by exact HS. cbn [rbind].
  apply sanity_spec in HS. unfold ranged_value in *.
  destruct (Z.leb_spec lo 0) as [L|L].
  - replace (0 <? lo) with false in * by lia.
    replace (restrict z lo hi) with (@ROk bounds_error Z z) by (symmetry; apply restrict_ok; replace (0 <? lo) with false by lia; exact Hz).
    f_equal. apply ik_wrap_id. apply i32_in. lia.
  - replace (0 <? lo) with true in * by lia.
    replace (restrict z lo hi) with (@ROk bounds_error Z z) by (symmetry; apply restrict_ok; replace (0 <? lo) with true by lia; lia).
    rewrite (ik_wrap_id I32 z) by (apply i32_in; lia). unfold i32_checked. replace (z + lo) with (lo + z) by lia.
    replace (ik_in I32 (lo + z)) with true by (symmetry; apply i32_in; lia). reflexivity.
Qed.
Lemma stored_value lo x : ranged_value lo (ranged_stored lo x) = x.
Proof. unfold ranged_value, ranged_stored. destruct (0 <? lo); lia. Qed.
Lemma try_from_i32_back {E} rc m k lo hi x y : ri_sanity lo hi = true -> ik_in I32 x = true ->
  ri_try_from_i32 rc m k lo hi x = ROk y -> ranged_ok k lo hi y = true /\ @ri_to_i32 rc m lo hi E y = ROk x.
Proof.
  intros HS Hx H.
  assert (Ho : m = Release \/ ik_in I32 (x - Z.max 0 lo) = true).
  { destruct m; [right|auto]. destruct (Z.leb_spec lo 0) as [L|L].
    - replace (x - Z.max 0 lo) with x by lia. exact Hx.
    - replace (Z.max 0 lo) with lo by lia. unfold ri_try_from_i32 in H. rewrite ri_check_ok in H by exact HS. cbn [rbind] in H.
      replace (lo <=? 0) with false in H by lia. unfold i32_checked in H. destruct (ik_in I32 (x - lo)); [reflexivity|discriminate H]. }
  destruct (try_from_i32_exact rc m k lo hi x HS Hx Ho) as [H1 H2].
  assert (HH : lo <= x <= hi /\ ik_in k (ranged_stored lo x) = true).
  { assert (DD : {lo <= x <= hi} + {~ lo <= x <= hi}) by (destruct (Z_le_dec lo x), (Z_le_dec x hi); [left; lia|right; lia..]).
    destruct DD as [Hr|Hr], (ik_in k (ranged_stored lo x)) eqn:Ek; auto;
      (destruct H2 as [e He]; [intros [? ?]; try discriminate; tauto|congruence]). }
  rewrite (H1 HH) in H. injection H as <-.
  assert (R : ranged_ok k lo hi (ranged_stored lo x) = true) by (apply ranged_ok_value; rewrite stored_value; tauto).
  split; [exact R|]. rewrite (to_i32_value rc m k lo hi _ HS R), stored_value. reflexivity.
Qed.
Lemma try_from_exact m k lo hi x : lo <= 0 -> backer_holds k lo hi ->
  (lo <= x <= hi -> ri_try_from m k lo hi x = ROk x) /\ (~ lo <= x <= hi -> exists e, ri_try_from m k lo hi x = RErr e).
Proof.
  intros L HB. unfold ri_try_from, ri_from_numeric_unchecked. unfold backer_holds, ranged_stored in HB.
  replace (0 <? lo) with false in HB by lia. replace (lo <=? 0) with true by lia.
  destruct (restrict_cases x lo hi) as [[e E]|E]; rewrite E; (split; [intros H|intros H]).
  - assert (R : restrict x lo hi = ROk x) by (apply restrict_ok; replace (0 <? lo) with false by lia; exact H). congruence.
  - eauto.
  - unfold ik_try_from. replace (ik_in k x) with true by (symmetry; apply ik_in_spec; lia). reflexivity.
  - apply restrict_ok in E. replace (0 <? lo) with false in E by lia. tauto.
Qed.
Lemma into_value k lo hi dest z : lo <= 0 -> ranged_ok k lo hi z = true ->
  (ik_in dest z = true -> ri_into dest z = z) /\ ri_try_into dest z = (if ik_in dest z then Some z else None).
Proof. intros L H. unfold ri_into, ri_try_into, ik_try_from. split; [apply ik_wrap_id|reflexivity]. Qed.
Lemma default_valid {E} k lo hi : lo <= 0 -> lo <= hi -> backer_holds k lo hi ->
  (exists z, @ri_default k lo hi E = ROk z /\ ranged_ok k lo hi z = true /\
     forall y, lo <= y <= hi -> Z.abs z <= Z.abs y) /\
  ranged_ok k lo hi (ri_min_val k lo) = true /\ ri_min_val k lo = lo /\
  ranged_ok k lo hi (ri_max_val k hi) = true /\ ri_max_val k hi = hi.
Proof.
  intros L LH HB. unfold backer_holds, ranged_stored in HB. replace (0 <? lo) with false in HB by lia.
  assert (W : forall z, lo <= z <= hi -> ik_wrap k z = z /\ ranged_ok k lo hi z = true).
  { intros z Hz. assert (ik_in k z = true) by (apply ik_in_spec; lia). split; [apply ik_wrap_id; assumption|].
    apply ranged_ok_value. split; [assumption|]. unfold ranged_value. replace (0 <? lo) with false by lia. exact Hz. }
  unfold ri_default, ri_min_val, ri_max_val. replace (lo <=? hi) with true by lia.
  destruct (W (Z.max lo (Z.min hi 0)) ltac:(lia)) as [-> ?]. destruct (W lo ltac:(lia)) as [-> ?]. destruct (W hi ltac:(lia)) as [-> ?].
  split; [|auto]. eexists; split; [reflexivity|]. split; [assumption|lia].
Qed.
(** [TryFrom] when MIN > 0: the bound is checked on [x], the subtraction comes after. *)
Lemma try_from_positive m k lo hi x : ri_sanity lo hi = true -> 0 < lo ->
  (x < 0 \/ hi - lo < x -> exists e, ri_try_from m k lo hi x = RErr e) /\
  (0 <= x <= hi - lo -> ri_try_from m k lo hi x = if ik_in k (x - lo) then ROk (x - lo) else RPanic).
Proof.
  unfold ri_sanity, min_ocaml, max_ocaml. intros S L. unfold ri_try_from, restrict, ri_from_numeric_unchecked.
  replace (0 <? lo) with true by lia. replace (lo <=? 0) with false by lia. replace (hi <? lo) with false by lia. split.
  - intros H. destruct (Z.ltb_spec x 0); [eauto|]. replace (hi - lo <? x) with true by lia. eauto.
  - intros H. replace (x <? 0) with false by lia. replace (hi - lo <? x) with false by lia.
    unfold ik_try_from, i32_checked. replace (ik_in I32 x) with true by (symmetry; apply ik_in_spec; cbn; lia).
    replace (ik_in I32 (x - lo)) with true by (symmetry; apply ik_in_spec; cbn; lia). cbn [rbind].
    destruct (ik_in k (x - lo)); reflexivity.
Qed.

(** ** C46 *)
Lemma restrict_classifies val min max :
  (restrict val min max = ROk val <-> if 0 <? min then 0 <= val <= max - min else min <= val <= max) /\
  (max < min -> (0 < min -> 0 <= val) -> restrict val min max = RErr (BInvalidBounds min max) ) /\
  (0 < min -> val < 0 -> restrict val min max = RErr (BIllegalNegative min val)) /\
  (0 < min <= max -> max - min < val -> restrict val min max = RErr (BOverflow (max - min) val)) /\
  (min <= 0 -> min <= max -> val < min -> restrict val min max = RErr (BUnderflow min val)) /\
  (min <= 0 -> min <= max -> max < val -> restrict val min max = RErr (BOverflow max val)).
Proof.
  split; [apply restrict_ok|]. unfold restrict.
  destruct (Z.ltb_spec 0 min), (Z.ltb_spec val 0), (Z.ltb_spec max min),
    (Z.ltb_spec (max - min) val), (Z.leb_spec min val), (Z.leb_spec val max);
    repeat (split; intros; try reflexivity; try lia).
Qed.


Lemma restrict_float_classifies val min max :
  (f64_le min val = true /\ f64_le val max = true -> restrict_float val min max = ROk val) /\
  (f64_le min max = true -> f64_le min val = false -> restrict_float val min max = RErr (BUnderflow min val)) /\
  (f64_le min val = true -> f64_le val max = false -> f64_le min max = true -> restrict_float val min max = RErr (BOverflow max val)) /\
  (f64_le min max = false -> restrict_float val min max = RErr (BInvalidBounds min max)).
Proof.
  split; [apply restrict_float_spec|]. unfold restrict_float. split; [|split].
  - intros -> ->. reflexivity.
  - intros -> -> ->. reflexivity.
  - intros ->. reflexivity.
Qed.

(** ** C17, C18, C19 *)
Lemma groups_value_eq l : groups_value l = nat_value l.
Proof. induction l as [|b l IH]; [reflexivity|]. cbn [groups_value]. rewrite IH, nat_value_cons. reflexivity. Qed.
Lemma signed_groups_value_eq l : signed_groups_value l = int_value l.
Proof.
  destruct l as [|b l]; [reflexivity|]. cbn [signed_groups_value int_value]. rewrite groups_value_eq.
  destruct (Z.ltb_spec (b mod 128) 64), (Z.leb_spec 64 (b mod 128)); lia.
Qed.
Lemma marked_terminated l : marked l <-> terminated l = true.
Proof.
  induction l as [|b l IH]; [split; [intros []|discriminate]|].
  destruct l as [|c l]; [cbn [marked terminated]; lia|]. cbn [marked terminated] in *. rewrite andb_true_iff, <- IH, Z.leb_le. tauto.
Qed.
Lemma integer_minimal_eq l : integer_minimal l <-> int_minimal l.
Proof. reflexivity. Qed.

Lemma nat_encode cf D kf z : 0 <= z -> zlen (natural_format z) <= isize_max ->
  to_bytes cf D kf (VInt z) TN = ROk (natural_format z).
Proof. intros Hz Hl. apply (scalar_encode cf D kf (VInt z) TN eq_refl eq_refl); [cbn; lia|exact Hl]. Qed.
Lemma nat_encode_meaning cf D kf z : 0 <= z -> zlen (natural_format z) <= isize_max ->
  exists out, to_bytes cf D kf (VInt z) TN = ROk out /\ bytes_ok out /\ marked out /\ groups_value out = z /\ natural_minimal out.
Proof.
  intros Hz Hl. exists (natural_format z). split; [apply nat_encode; assumption|].
  destruct (natural_format_props z Hz) as (H1 & H2 & H3 & H4). rewrite groups_value_eq.
  split; [exact H1|]. split; [apply marked_terminated; exact H2|]. split; [exact H3|exact H4].
Qed.
Lemma int_encode_z cf D kf z : zlen (integer_format z) <= isize_max ->
  to_bytes cf D kf (VInt z) TZ = ROk (integer_format z).
Proof. intros Hl. apply (scalar_encode cf D kf (VInt z) TZ eq_refl eq_refl eq_refl Hl). Qed.
Lemma int_encode_meaning cf D kf z : zlen (integer_format z) <= isize_max ->
  exists out, to_bytes cf D kf (VInt z) TZ = ROk out /\ bytes_ok out /\ marked out /\ signed_groups_value out = z /\ integer_minimal out.
Proof.
  intros Hl. exists (integer_format z). split; [apply int_encode_z; assumption|].
  destruct (integer_format_props z) as (H1 & H2 & H3 & H4). rewrite signed_groups_value_eq.
  split; [exact H1|]. split; [apply marked_terminated; exact H2|]. split; [exact H3|exact H4].
Qed.

Lemma st_split_marked l rest : bytes_ok l -> marked l -> st_split zarith_terminal (l ++ rest) = Some (l, rest).
Proof.
  induction l as [|b l IH]; intros HB HM; [destruct HM|]. apply Forall_cons_iff in HB. destruct HB as [Hb HB].
  cbn [app st_split]. rewrite terminal_spec by exact Hb. destruct l as [|c l].
  - cbn in HM. replace (b <? 128) with true by lia. reflexivity.
  - cbn [marked] in HM. replace (b <? 128) with false by lia. rewrite IH by tauto. reflexivity.
Qed.
Lemma st_split_some_marked l : forall p rest, bytes_ok l -> st_split zarith_terminal l = Some (p, rest) -> l = p ++ rest /\ marked p.
Proof.
  induction l as [|b l IH]; intros p rest HB E; [discriminate E|]. apply Forall_cons_iff in HB. destruct HB as [Hb HB].
  cbn [st_split] in E. rewrite terminal_spec in E by exact Hb. destruct (Z.ltb_spec b 128).
  - injection E as <- <-. split; [reflexivity|assumption].
  - destruct (st_split zarith_terminal l) as [[q r]|] eqn:Es; [|discriminate E]. injection E as <- <-.
    destruct (IH q r HB eq_refl) as [-> Hm]. split; [reflexivity|]. destruct q as [|c q]; [destruct Hm|]. cbn [marked]. split; [lia|exact Hm].
Qed.
Lemma marked_nonempty l : marked l -> l <> [].
Proof. intros H ->; exact H. Qed.
Lemma n_decode w cf D input v rest : bytes_ok input -> zlen input <= isize_max ->
  reads w cf D TN input (ROk (v, rest)) <->
  exists bs, input = bs ++ rest /\ marked bs /\ v = VInt (groups_value bs).
Proof.
  intros HB HL. rewrite scalar_reads by (assumption || reflexivity). cbn [dec]. unfold d_bind, d_st, d_lift. split.
  - destruct (st_split zarith_terminal input) as [[p r]|] eqn:E; [|discriminate].
    destruct (st_split_some_marked _ _ _ HB E) as [-> Hm]. apply bytes_ok_app in HB. destruct HB as [HB _].
    rewrite n_deserialize_value by exact HB. intros H. injection H as <- <-. exists p. rewrite groups_value_eq. auto.
  - intros (bs & -> & Hm & ->). pose proof HB as HB'. apply bytes_ok_app in HB'. destruct HB' as [HB' _].
    rewrite st_split_marked by assumption. rewrite n_deserialize_value by exact HB'. rewrite groups_value_eq. reflexivity.
Qed.
Lemma z_decode w cf D input v rest : bytes_ok input -> zlen input <= isize_max ->
  reads w cf D TZ input (ROk (v, rest)) <->
  exists bs, input = bs ++ rest /\ marked bs /\ v = VInt (signed_groups_value bs).
Proof.
  intros HB HL. rewrite scalar_reads by (assumption || reflexivity). cbn [dec]. unfold d_bind, d_st, d_lift. split.
  - destruct (st_split zarith_terminal input) as [[p r]|] eqn:E; [|discriminate].
    destruct (st_split_some_marked _ _ _ HB E) as [-> Hm]. apply bytes_ok_app in HB. destruct HB as [HB _].
    rewrite z_deserialize_value by (auto using marked_nonempty). intros H. injection H as <- <-. exists p. rewrite signed_groups_value_eq. auto.
  - intros (bs & -> & Hm & ->). pose proof HB as HB'. apply bytes_ok_app in HB'. destruct HB' as [HB' _].
    rewrite st_split_marked by assumption. rewrite z_deserialize_value by (auto using marked_nonempty). rewrite signed_groups_value_eq. reflexivity.
Qed.
Lemma n_round_trip w cf D z rest : 0 <= z -> bytes_ok rest -> zlen (natural_format z ++ rest) <= isize_max ->
  exists out, to_bytes cf D 0 (VInt z) TN = ROk out /\ reads w cf D TN (out ++ rest) (ROk (VInt z, rest)).
Proof.
  intros Hz HR HL. pose proof (zlen_nonneg rest). rewrite zlen_app in HL.
  destruct (nat_encode_meaning cf D 0 z Hz ltac:(unfold byte in *; lia)) as (out & E & HB & HM & HV & _). exists out. split; [exact E|].
  rewrite nat_encode in E by (unfold byte in *; lia || assumption). injection E as E. subst out.
  apply n_decode; [apply bytes_ok_app; auto|rewrite zlen_app; unfold byte in *; lia|]. exists (natural_format z). rewrite HV. auto.
Qed.
Lemma z_round_trip w cf D z rest : bytes_ok rest -> zlen (integer_format z ++ rest) <= isize_max ->
  exists out, to_bytes cf D 0 (VInt z) TZ = ROk out /\ reads w cf D TZ (out ++ rest) (ROk (VInt z, rest)).
Proof.
  intros HR HL. pose proof (zlen_nonneg rest). rewrite zlen_app in HL.
  destruct (int_encode_meaning cf D 0 z ltac:(unfold byte in *; lia)) as (out & E & HB & HM & HV & _). exists out. split; [exact E|].
  rewrite int_encode_z in E by (unfold byte in *; lia || assumption). injection E as E. subst out.
  apply z_decode; [apply bytes_ok_app; auto|rewrite zlen_app; unfold byte in *; lia|]. exists (integer_format z). rewrite HV. auto.
Qed.
(** The written form is the only minimal one and no longer than any other. *)
Lemma n_canonical w cf D kf input z rest : bytes_ok input -> zlen input <= isize_max ->
  reads w cf D TN input (ROk (VInt z, rest)) ->
  exists bs out, input = bs ++ rest /\ to_bytes cf D kf (VInt z) TN = ROk out /\ zlen out <= zlen bs /\
    (natural_minimal bs <-> bs = out).
Proof.
  intros HB HL H. apply n_decode in H; [|assumption..]. destruct H as (bs & -> & HM & E). injection E as ->.
  apply bytes_ok_app in HB. destruct HB as [HB _]. rewrite zlen_app in HL. pose proof (zlen_nonneg rest).
  pose proof (natural_shortest bs (marked_nonempty _ HM)) as Hs. rewrite groups_value_eq. pose proof (nat_value_nonneg bs) as Hn.
  exists bs, (natural_format (nat_value bs)). split; [reflexivity|]. split; [apply nat_encode; unfold byte in *; lia|]. split; [exact Hs|]. split.
  - intros Hm. symmetry. apply natural_unique; [exact HB|apply marked_terminated; exact HM|exact Hm].
  - intros ->. destruct (natural_format_props (nat_value bs) Hn) as (_ & _ & _ & Hm). exact Hm.
Qed.
Lemma z_canonical w cf D kf input z rest : bytes_ok input -> zlen input <= isize_max ->
  reads w cf D TZ input (ROk (VInt z, rest)) ->
  exists bs out, input = bs ++ rest /\ to_bytes cf D kf (VInt z) TZ = ROk out /\ zlen out <= zlen bs /\
    (integer_minimal bs <-> bs = out).
Proof.
  intros HB HL H. apply z_decode in H; [|assumption..]. destruct H as (bs & -> & HM & E). injection E as ->.
  apply bytes_ok_app in HB. destruct HB as [HB _]. rewrite zlen_app in HL. pose proof (zlen_nonneg rest).
  pose proof (integer_shortest bs (marked_nonempty _ HM)) as Hs. rewrite signed_groups_value_eq.
  exists bs, (integer_format (int_value bs)). split; [reflexivity|]. split; [apply int_encode_z; unfold byte in *; lia|]. split; [exact Hs|]. split.
  - intros Hm. symmetry. apply integer_unique; [exact HB|apply marked_terminated; exact HM|exact Hm].
  - intros ->. destruct (integer_format_props (int_value bs)) as (_ & _ & _ & Hm). exact Hm.
Qed.
Lemma unterminated_rejected w cf D input : bytes_ok input -> zlen input <= isize_max -> Forall (fun b => 128 <= b) input ->
  rejects w cf D TN input /\ rejects w cf D TZ input.
Proof.
  intros HB HL HF.
  assert (N : st_split zarith_terminal input = None).
  { clear HL. induction input as [|b l IH]; [reflexivity|]. apply Forall_cons_iff in HB, HF. cbn [st_split].
    rewrite terminal_spec by tauto. replace (b <? 128) with false by lia. rewrite IH by tauto. reflexivity. }
  split; (apply scalar_rejects; [reflexivity..|exact HB|exact HL|]; intros v r; cbn [dec]; unfold d_bind, d_st; rewrite N; discriminate).
Qed.

(** ** C20 *)
Lemma float_round_trip w cf D kf b rest : 0 <= b < 2 ^ 64 -> bytes_ok rest -> zlen rest <= isize_max - 8 ->
  to_bytes cf D kf (VInt b) TF64 = ROk (big_endian 8 b) /\
  reads w cf D TF64 (big_endian 8 b ++ rest) (ROk (VInt b, rest)).
Proof.
  intros Hb HR HL. assert (Hk : ik_in U64 b = true) by (apply ik_in_spec; change (ik_min U64) with 0; change (ik_max U64) with (2 ^ 64 - 1); lia).
  split.
  - rewrite (scalar_encode cf D kf (VInt b) TF64 eq_refl eq_refl); [cbn [format]; reflexivity|cbn [valid valid_gen]; unfold is_u64; lia|].
    cbn [format]. rewrite be8_len. discriminate.
  - rewrite (be8_int b) by (unfold is_u64; lia). apply scalar_reads; try reflexivity.
    + apply bytes_ok_app. split; [apply int_format_bytes|exact HR].
    + rewrite zlen_app, int_format_length. change (ik_len U64) with 8. unfold byte in *. lia.
    + cbn [dec]. unfold d_bind. rewrite d_int_app by exact Hk. reflexivity.
Qed.
Lemma f64_every_bytes w cf D kf input rest : bytes_ok (input ++ rest) -> zlen (input ++ rest) <= isize_max -> zlen input = 8 ->
  exists b, reads w cf D TF64 (input ++ rest) (ROk (VInt b, rest)) /\ 0 <= b < 2 ^ 64 /\ to_bytes cf D kf (VInt b) TF64 = ROk input.
Proof.
  intros HB HL Hl. apply bytes_ok_app in HB. destruct HB as [HB HR]. set (b := from_be_bytes U64 input).
  pose proof (to_from_be_bytes U64 input HB Hl) as E. fold b in E.
  assert (Hb : 0 <= b < 2 ^ 64).
  { pose proof (from_be_bytes_in U64 input) as H. fold b in H. apply ik_in_spec in H. change (ik_min U64) with 0 in H. change (ik_max U64) with (2 ^ 64 - 1) in H. lia. }
  rewrite zlen_app in HL. destruct (float_round_trip w cf D kf b rest Hb HR) as [H1 H2]; [unfold byte in *; lia|].
  rewrite (be8_int b), E in H1, H2 by (unfold is_u64; lia). exists b. auto.
Qed.
Lemma ranged_float_decode w cf D lo hi input v rest : bytes_ok input -> zlen input <= isize_max -> is_u64 lo = true -> is_u64 hi = true ->
  reads w cf D (TRangedF lo hi) input (ROk (v, rest)) <->
  exists b, v = VInt b /\ 0 <= b < 2 ^ 64 /\ input = big_endian 8 b ++ rest /\ f64_le lo b = true /\ f64_le b hi = true.
Proof.
  intros HB HL H1 H2. rewrite scalar_reads; [|reflexivity|cbn [wf_ty]; rewrite H1, H2; reflexivity|assumption..]. cbn [dec]. split.
  - intros H. apply d_bind_ok in H. destruct H as (z & r & Hz & H). apply d_int_ok in Hz; [|exact HB]. destruct Hz as [-> Hz].
    apply d_bind_ok in H. destruct H as (y & r' & Hy & H). apply d_ret_ok in H. destruct H as [-> ->]. apply d_lift_ok in Hy. destruct Hy as [Hy ->].
    unfold ext_float, rf_try_from_f64 in Hy. destruct (restrict_float_spec z lo hi) as (R1 & R2 & _).
    destruct (restrict_float z lo hi) as [a|e| | |] eqn:E; cbn in Hy; try discriminate Hy. injection Hy as ->.
    rewrite (R2 _ eq_refl) in *. exists z. apply ik_in_spec in Hz. change (ik_min U64) with 0 in Hz. change (ik_max U64) with (2 ^ 64 - 1) in Hz.
    rewrite (be8_int z) by (unfold is_u64; lia). destruct (proj1 R1 eq_refl). repeat (split; [first [reflexivity|lia|assumption]|]). assumption.
  - intros (b & -> & Hb & -> & L1 & L2). unfold d_bind. rewrite (be8_int b) by (unfold is_u64; lia).
    rewrite d_int_app by (apply ik_in_spec; change (ik_min U64) with 0; change (ik_max U64) with (2 ^ 64 - 1); lia).
    unfold rf_try_from_f64. rewrite (proj2 (proj1 (restrict_float_spec b lo hi)) (conj L1 L2)). reflexivity.
Qed.
(** Rust's comparison of finite doubles compares their exact values. *)
Lemma f64_decompose b : 0 <= b < 2 ^ 64 -> f64_finite b = true ->
  exists m e, 0 <= e /\ 0 <= m < 2 ^ 53 /\ (0 < e -> 2 ^ 52 <= m) /\
    f64_value b = (if b <? 2 ^ 63 then 1 else -1) * (m * 2 ^ e) /\
    f64_of_bits b = match m with Zpos p => S754_finite (negb (b <? 2 ^ 63)) p (e - 1074) | _ => S754_zero (negb (b <? 2 ^ 63)) end.
Proof.
  intros Hb Hf. unfold f64_finite in Hf. apply negb_true_iff in Hf. apply Z.eqb_neq in Hf.
  unfold f64_value, f64_of_bits, f64_exp, f64_frac, f64_sign. change (2 ^ 11) with 2048. cbv zeta.
  replace (2 ^ 63 <=? b) with (negb (b <? 2 ^ 63)) by lia.
  pose proof (Z.mod_pos_bound (b / 2 ^ 52) 2048 ltac:(lia)) as He. pose proof (Z.mod_pos_bound b (2 ^ 52) ltac:(lia)) as Hm.
  set (e := (b / 2 ^ 52) mod 2048) in *. set (f := b mod 2 ^ 52) in *.
  replace (e =? 2047) with false by lia. destruct (Z.eqb_spec e 0) as [E0|E0].
  - exists f, 0. split; [lia|]. split; [lia|]. split; [lia|]. split; [rewrite Z.mul_1_r; reflexivity|].
    destruct f; reflexivity.
  - exists (2 ^ 52 + f), (e - 1). split; [lia|]. split; [lia|]. split; [lia|]. split; [reflexivity|].
    rewrite (Z.add_comm f). destruct (2 ^ 52 + f) eqn:Ef; [lia| |lia]. f_equal. lia.
Qed.
Lemma pow_shift m1 m2 e1 e2 : 0 <= e1 < e2 -> 0 <= m1 < 2 ^ 53 -> 2 ^ 52 <= m2 -> m1 * 2 ^ e1 < m2 * 2 ^ e2.
Proof.
  intros He H1 H2. assert (E : 2 ^ e2 = 2 ^ (e2 - e1 - 1) * 2 * 2 ^ e1).
  { rewrite <- (Z.mul_assoc), <- (Z.pow_succ_r 2 e1) by lia. rewrite <- Z.pow_add_r by lia. f_equal. lia. }
  assert (P1 : 0 < 2 ^ e1) by (apply Z.pow_pos_nonneg; lia). assert (P2 : 0 < 2 ^ (e2 - e1 - 1)) by (apply Z.pow_pos_nonneg; lia).
  rewrite E, !Z.mul_assoc. apply Z.mul_lt_mono_pos_r; [exact P1|]. nia.
Qed.
Lemma f64_le_value a b : 0 <= a < 2 ^ 64 -> 0 <= b < 2 ^ 64 -> f64_finite a = true -> f64_finite b = true ->
  f64_le a b = (f64_value a <=? f64_value b).
Proof.
  intros Ha Hb Fa Fb. destruct (f64_decompose a Ha Fa) as (m1 & e1 & He1 & Hm1 & Hn1 & -> & E1).
  destruct (f64_decompose b Hb Fb) as (m2 & e2 & He2 & Hm2 & Hn2 & -> & E2).
  unfold f64_le. rewrite E1, E2. clear E1 E2.
  assert (P1 : 0 < 2 ^ e1) by (apply Z.pow_pos_nonneg; lia). assert (P2 : 0 < 2 ^ e2) by (apply Z.pow_pos_nonneg; lia).
  assert (C : e1 < e2 /\ m1 * 2 ^ e1 < m2 * 2 ^ e2 \/ e2 < e1 /\ m2 * 2 ^ e2 < m1 * 2 ^ e1 \/ e1 = e2).
  { destruct (Z.lt_trichotomy e1 e2) as [L|[L|L]]; [left|auto|right; left]; (split; [exact L|apply pow_shift; lia]). }
  unfold SFleb. destruct m1 as [|p1|p1]; [| |lia]; (destruct m2 as [|p2|p2]; [| |lia]);
    destruct (a <? 2 ^ 63), (b <? 2 ^ 63); cbn [negb SFcompare]; try lia; try nia.
  all: replace (e1 - 1074 ?= e2 - 1074) with (e1 ?= e2) by (destruct (Z.compare_spec e1 e2), (Z.compare_spec (e1 - 1074) (e2 - 1074)); (reflexivity || (exfalso; lia))).
  all: destruct C as [[L C]|[[L C]|L]].
  all: try (replace (e1 ?= e2) with Lt by (symmetry; apply Z.compare_lt_iff; exact L); cbn [CompOpp]; lia).
  all: try (replace (e1 ?= e2) with Gt by (symmetry; apply Z.compare_gt_iff; exact L); cbn [CompOpp]; lia).
  all: subst e2; rewrite Z.compare_refl; change (Pos.compare_cont Eq p1 p2) with (Pos.compare p1 p2);
    destruct (Pos.compare_spec p1 p2) as [->|L|L]; cbn [CompOpp]; try (symmetry; apply Z.leb_le; nia); try (symmetry; apply Z.leb_gt; nia).
Qed.
Lemma float_between lo b hi : f64_le lo b = true -> f64_le b hi = true -> f64_is_nan b = false.
Proof. intros H _. apply (f64_le_not_nan _ _ H). Qed.
Lemma ranged_float_constructor lo hi x :
  (f64_le lo x = true /\ f64_le x hi = true <-> rf_try_from_f64 lo hi x = ROk x) /\
  (forall y, rf_try_from_f64 lo hi x = ROk y -> y = x) /\
  (forall E y, @rf_from_f64 E lo hi x = ROk y <-> y = x /\ f64_le lo x = true /\ f64_le x hi = true).
Proof.
  destruct (restrict_float_spec x lo hi) as (H1 & H2 & _). split; [symmetry; exact H1|]. split; [exact H2|].
  intros E y. unfold rf_from_f64, rassert. destruct (f64_le lo x), (f64_le x hi); cbn; split; intros H; try discriminate H;
    try (destruct H as (_ & ? & ?); discriminate); [injection H as <-; auto|destruct H as (-> & _); reflexivity].
Qed.

Lemma SFle_total a b : a <> S754_nan -> b <> S754_nan -> SFltb a b = false -> SFleb b a = true.
Proof.
  unfold SFltb, SFleb. intros Ha Hb. destruct a as [[]|[]| |[] m1 e1]; destruct b as [[]|[]| |[] m2 e2]; cbn [SFcompare]; try congruence.
  all: rewrite (Z.compare_antisym e2 e1); replace (Pos.compare_cont Eq m1 m2) with (CompOpp (Pos.compare_cont Eq m2 m1)) by (apply Pos.compare_cont_antisym); destruct (e2 ?= e1); cbn [CompOpp]; try congruence;
    destruct (Pos.compare_cont Eq m2 m1); cbn [CompOpp]; congruence.
Qed.
Lemma f64_not_nan b : f64_is_nan b = false -> f64_of_bits b <> S754_nan.
Proof. unfold f64_is_nan. destruct (f64_of_bits b); congruence. Qed.
Lemma f64_le_refl a : f64_is_nan a = false -> f64_le a a = true.
Proof. intros H. apply SFle_total; auto using f64_not_nan. unfold SFltb. 
  destruct (f64_of_bits a) as [[]|[]| |[] m e]; cbn [SFcompare]; try reflexivity;
    rewrite Z.compare_refl; change (Pos.compare_cont Eq m m) with (Pos.compare m m); rewrite Pos.compare_refl; reflexivity.
Qed.
Lemma f64_lt_le a b : f64_lt a b = true -> f64_le a b = true.
Proof. unfold f64_lt, f64_le, SFltb, SFleb. destruct (SFcompare _ _) as [[]|]; congruence. Qed.
Lemma f64_le_not_lt a b : f64_le a b = true -> f64_lt b a = false.
Proof.
  unfold f64_le, f64_lt, SFleb, SFltb.
  destruct (f64_of_bits a) as [[]|[]| |[] m1 e1]; destruct (f64_of_bits b) as [[]|[]| |[] m2 e2]; cbn [SFcompare]; try congruence.
  all: rewrite (Z.compare_antisym e1 e2); replace (Pos.compare_cont Eq m2 m1) with (CompOpp (Pos.compare_cont Eq m1 m2)) by (apply Pos.compare_cont_antisym); destruct (e1 ?= e2); cbn [CompOpp]; try congruence;
    destruct (Pos.compare_cont Eq m1 m2); cbn [CompOpp]; congruence.
Qed.
Lemma ranged_float_default {E} lo hi :
  (f64_le lo hi = true -> exists z, @rf_default E lo hi = ROk z /\ f64_le lo z = true /\ f64_le z hi = true /\
     (f64_le lo 0 = true -> f64_le 0 hi = true -> z = 0) /\ (f64_lt 0 lo = true -> z = lo) /\ (f64_lt hi 0 = true -> z = hi)) /\
  (f64_le lo hi = false -> @rf_default E lo hi = RPanic).
Proof.
  unfold rf_default, rassert. split; intros H; rewrite H; cbn [rbind]; [|reflexivity].
  destruct (f64_le_not_nan _ _ H) as [Nl Nh]. eexists; split; [reflexivity|].
  destruct (f64_lt 0 lo) eqn:E0.
  - rewrite (f64_le_not_lt _ _ H). split; [apply f64_le_refl; exact Nl|]. split; [exact H|].
    split; [intros A; rewrite (f64_le_not_lt _ _ A) in E0; discriminate E0|]. split; [reflexivity|].
    intros A. rewrite (f64_le_not_lt 0 hi) in A; [discriminate A|].
    apply f64_le_trans with lo; [apply f64_lt_le; exact E0|exact H].
  - assert (L0 : f64_le lo 0 = true) by (apply SFle_total; [discriminate|apply f64_not_nan; exact Nl|exact E0]).
    destruct (f64_lt hi 0) eqn:E1.
    + split; [exact H|]. split; [apply f64_le_refl; exact Nh|].
      split; [intros _ A; rewrite (f64_le_not_lt _ _ A) in E1; discriminate E1|]. split; [discriminate|reflexivity].
    + split; [exact L0|]. split; [apply SFle_total; [apply f64_not_nan; exact Nh|discriminate|exact E1]|].
      split; [reflexivity|]. split; discriminate.
Qed.

(** ** C40 *)
Lemma string_round_trip w cf D kf cs : Forall scalar cs -> zlen (utf8_string cs) <= isize_max ->
  (w = WSlice -> cf_complete cf = false) ->
  to_bytes cf D kf (VBytes (utf8_string cs)) TString = ROk (utf8_string cs) /\
  decodes w cf D TString (utf8_string cs) (ROk (VBytes (utf8_string cs))).
Proof.
  intros HC HL HS. pose proof (utf8_string_bytes cs HC) as HB.
  assert (HU : utf8_valid (utf8_string cs) = true) by (apply utf8_valid_iff; [exact HB|eauto]). split.
  - apply (scalar_encode cf D kf (VBytes (utf8_string cs)) TString eq_refl eq_refl); [|exact HL].
    cbn [valid valid_gen]. rewrite HU, andb_true_r. apply forallb_forall. intros x Hx.
    unfold bytes_ok in HB. rewrite Forall_forall in HB. specialize (HB x Hx). unfold byteb. unfold is_byte in HB. lia.
  - apply (scalar_decodes w cf D TString _ eq_refl HL _ []); [|exact HS|reflexivity].
    cbn [dec]. unfold d_bind, d_rem, d_consume.
    assert (Sz : size_ok (zlen (utf8_string cs)) = true) by (unfold size_ok; pose proof (zlen_nonneg (utf8_string cs)); unfold byte in *; lia).
    unfold byte in *. rewrite Sz, Z.leb_refl. rewrite ztake_all, zdrop_all. rewrite utf8_lossy_valid_id by assumption. reflexivity.
Qed.
Lemma string_lossy w cf D input : bytes_ok input -> zlen input <= isize_max -> (w = WSlice -> cf_complete cf = false) ->
  decodes w cf D TString input (ROk (VBytes (utf8_lossy input))).
Proof.
  intros HB HL HS. apply (scalar_decodes w cf D TString _ eq_refl HL _ []); [|exact HS|reflexivity].
  cbn [dec]. unfold d_bind, d_rem, d_consume.
  assert (Sz : size_ok (zlen input) = true) by (unfold size_ok; pose proof (zlen_nonneg input); unfold byte in *; lia).
  unfold byte in *. rewrite Sz, Z.leb_refl. rewrite ztake_all, zdrop_all. reflexivity.
Qed.
Lemma string_not_utf8 w cf D input : bytes_ok input -> zlen input <= isize_max -> (w = WSlice -> cf_complete cf = false) ->
  (forall cs, Forall scalar cs -> input <> utf8_string cs) ->
  exists good bad cs, input = utf8_string good ++ bad /\ bad <> [] /\ (forall c rest, scalar c -> bad <> utf8_encode c ++ rest) /\
    Forall scalar good /\ Forall scalar cs /\
    decodes w cf D TString input (ROk (VBytes (utf8_string (good ++ 0xfffd :: cs)))).
Proof.
  intros HB HL HS HN.
  assert (HU : utf8_valid input = false).
  { destruct (utf8_valid input) eqn:E; [|reflexivity]. apply utf8_valid_iff in E; [|exact HB].
    destruct E as (cs & HC & E). destruct (HN cs HC E). }
  destruct (utf8_lossy_invalid input HB HU) as (good & bad & cs & H1 & H2 & H2' & H3 & H4 & H5).
  exists good, bad, cs. repeat (split; [assumption|]). rewrite <- H5. apply string_lossy; assumption.
Qed.
