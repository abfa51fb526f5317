(** Enum helpers, tag validators, numeric parser methods. *)
From Verif Require Import Base BaseLemmas ModelErrors ModelParser ModelInt ModelFloat ModelZarith
  ModelUtf8 ModelTarget ModelSchema ModelEnum ModelTake SpecParser SpecCodec SpecError SpecEnum ProofInt
  ProofParser ProofParserSim ProofParserProps ProofDec ProofCodec ProofMeta ProofRoundTrip ProofSafe ProofTransfer ProofView ProofNum
  ProofSettle ProofCodecThms.
From Coq Require Import ZifyBool String.
Local Open Scope Z_scope. Local Open Scope list_scope. Local Open Scope prog_scope.

(** ** The generated helpers *)
Lemma nodupb_spec l : nodupb l = true -> NoDup l.
Proof.
  induction l as [|x l IH]; cbn [nodupb]; intros H; [constructor|]. apply andb_prop in H. destruct H as [H1 H2].
  constructor; [|auto]. intros Hin. apply negb_true_iff in H1.
  assert (existsb (Z.eqb x) l = true) by (apply existsb_exists; exists x; split; [exact Hin|apply Z.eqb_refl]). congruence.
Qed.
Lemma find_tag_none z tags : find_tag z tags = None <-> ~ In z tags.
Proof.
  split; intros H.
  - intros Hin. destruct (find_tag_in z tags Hin) as (ix & E & _). congruence.
  - destruct (find_tag z tags) eqn:E; [|reflexivity]. exfalso. apply H. clear H. revert n E.
    induction tags as [|t tags IH]; cbn [find_tag]; [discriminate|]. intros n. destruct (Z.eqb_spec z t) as [->|].
    + intros _. left; reflexivity.
    + destruct (find_tag z tags); [|discriminate]. intros _. right. apply (IH _ eq_refl).
Qed.
Lemma find_tag_some z tags ix : find_tag z tags = Some ix -> nth_error tags ix = Some z.
Proof.
  revert ix. induction tags as [|t tags IH]; cbn [find_tag]; [discriminate|]. intros ix. destruct (Z.eqb_spec z t) as [->|].
  - intros H. injection H as <-. reflexivity.
  - destruct (find_tag z tags) as [j|] eqn:E; [|discriminate]. cbn [option_map]. intros H. injection H as <-. apply IH; reflexivity.
Qed.
Lemma valid_tag_iff tags z :
  (is_valid_tag tags z = true <-> In z (iter_tags tags)) /\
  (is_valid_tag tags z = true <-> exists ix, try_from_tag tags z = ROk ix) /\
  (is_valid_tag tags z = false <-> try_from_tag tags z = RErr (mkTagError z (Some tags))).
Proof.
  unfold is_valid_tag, try_from_tag, iter_tags. destruct (find_tag z tags) as [ix|] eqn:E.
  - apply find_tag_some, nth_error_In in E. (split; [|split]); split; intros H; eauto; discriminate.
  - apply (proj1 (find_tag_none _ _)) in E. (split; [|split]); split; intros H; try discriminate; try contradiction; auto.
    destruct H as [? H]. discriminate H.
Qed.
Lemma try_from_inverse tags : NoDup tags -> forall z ix,
  try_from_tag tags z = ROk ix <-> get_tagval tags ix = Some z.
Proof.
  intros HN z ix. unfold try_from_tag, get_tagval. split.
  - destruct (find_tag z tags) eqn:E; [|discriminate]. intros H. injection H as ->. apply find_tag_some, E.
  - intros H. destruct (find_tag z tags) as [j|] eqn:E.
    + apply find_tag_some in E. f_equal. apply (proj1 (NoDup_nth_error tags) HN).
      * apply nth_error_Some. congruence.
      * congruence.
    + exfalso. apply (proj1 (find_tag_none z tags) E). eapply nth_error_In; exact H.
Qed.
Lemma name_of_variant tags names : NoDup tags -> List.length names = List.length tags -> forall z name,
  get_name tags names z = Some name <-> exists ix, get_tagval tags ix = Some z /\ nth_error names ix = Some name.
Proof.
  intros HN HL z name. unfold get_name, get_tagval. split.
  - destruct (find_tag z tags) as [ix|] eqn:E; [|discriminate]. intros H. exists ix. split; [apply find_tag_some, E|exact H].
  - intros (ix & H & Hn). pose proof (proj2 (try_from_inverse tags HN z ix) H) as T. unfold try_from_tag in T.
    destruct (find_tag z tags); [|discriminate T]. injection T as ->. exact Hn.
Qed.
Lemma named_iff_valid tags names : List.length names = List.length tags -> forall z,
  get_name tags names z = None <-> is_valid_tag tags z = false.
Proof.
  intros HL z. unfold get_name, is_valid_tag. destruct (find_tag z tags) as [ix|] eqn:E; [|tauto].
  apply find_tag_some in E. split; [|discriminate]. intros H. apply nth_error_None in H.
  assert (ix < List.length tags)%nat by (apply nth_error_Some; congruence). lia.
Qed.

(** ** Exact outcomes on a number that was just read *)
Lemma run_with_bind_ok w m {A B} (pg : prog A) (k : A -> prog B) input a r :
  run_with w m pg input = ROk a -> (forall P (h : handler P) p, fst (run h (k a) p) = r) ->
  run_with w m (pbind pg k) input = r.
Proof.
  destruct w; cbn [run_with]; rewrite run_pbind.
  - destruct (run (byte_h m) pg (bp_from_buffer input)) as [x p]. cbn [fst]. intros -> H. apply H.
  - destruct (run (memo_h m) pg (mp_from_buffer input)) as [x p]. cbn [fst]. intros -> H. apply H.
  - destruct (run slice_h pg (sp_from_buffer input)) as [x p]. cbn [fst]. intros -> H. apply H.
Qed.
Lemma try_int k : try_bytes_only (p_int k).
Proof. unfold p_int, p_take_fixed, p_consume_arr, p_consume. tries. Qed.
Lemma run_int w m k z rest : ik_in k z = true -> zlen (int_format k z ++ rest) <= isize_max ->
  run_with w m (p_int k) (int_format k z ++ rest) = ROk z.
Proof.
  intros Hz HL. pose proof (with_seen w m (p_int k) (d_int k) _ (runs_int k) (try_int k) HL) as H.
  rewrite d_int_app in H by exact Hz. exact H.
Qed.

Lemma tagword_bad w m k tags z rest : ik_in k z = true -> zlen (int_format k z ++ rest) <= isize_max -> ~ In z tags ->
  run_with w m (p_take_tagword k tags) (int_format k z ++ rest) =
  RErr (match tags with [] => EInternal NoValidTags | _ => promote k (mkTagError z (Some tags)) end).
Proof.
  intros Hz HL Hn. unfold p_take_tagword. eapply run_with_bind_ok; [apply run_int; assumption|].
  intros P h p. cbv beta. destruct (existsb (Z.eqb z) tags) eqn:E.
  - exfalso. apply existsb_exists in E. destruct E as (y & Hy & Ey). apply Z.eqb_eq in Ey. subst. contradiction.
  - destruct tags; reflexivity.
Qed.

Section Enum.
Variables (w : which_parser) (cf : config) (D : list def) (i : nat).
Hypothesis HD : wf_defs D = true.

Lemma reads_error_at t input f e : run_with w (cf_mode cf) (parse cf D f t) input = RErr e ->
  reads w cf D t input (RErr e) /\ decodes w cf D t input (RErr (DParse e)).
Proof.
  intros H. split.
  - apply (reads_at w cf D t input f); [|discriminate]. unfold then_rest. apply run_with_bind_error, H.
  - apply (decodes_at w cf D t input f); [|discriminate]. apply decode_run_error, H.
Qed.

Lemma cstyle_tags k tags : nth_error D i = Some (DCStyle k tags) -> NoDup tags /\ forallb (ik_in k) tags = true.
Proof.
  intros Ei. unfold wf_defs in HD. rewrite forallb_forall in HD. pose proof (HD (DCStyle k tags) (nth_error_In _ _ Ei)) as W.
  cbn [wf_def] in W. apply andb_prop in W. destruct W as [W W3]. apply andb_prop in W. destruct W as [_ W2].
  split; [apply nodupb_spec; exact W2|exact W3].
Qed.
Lemma data_tags k alts : nth_error D i = Some (DData k alts) -> NoDup (map fst alts) /\ forallb (ik_in k) (map fst alts) = true.
Proof.
  intros Ei. unfold wf_defs in HD. rewrite forallb_forall in HD. pose proof (HD (DData k alts) (nth_error_In _ _ Ei)) as W.
  cbn [wf_def] in W. apply andb_prop in W. destruct W as [W _]. apply andb_prop in W. destruct W as [W W3].
  apply andb_prop in W. destruct W as [_ W2]. split; [apply nodupb_spec; exact W2|exact W3].
Qed.

(** Decoding an enum without payload is [try_from] on the number read. *)
Lemma cstyle_decode_try_from k tags z rest : nth_error D i = Some (DCStyle k tags) -> tags <> [] ->
  ik_in k z = true -> bytes_ok rest -> zlen (int_format k z ++ rest) <= isize_max ->
  reads w cf D (TNamed i) (int_format k z ++ rest)
    (match try_from_tag tags z with
     | ROk ix => ROk (VEnum ix [], rest)
     | RErr e => RErr (promote k e)
     | _ => RPanic
     end).
Proof.
  intros Ei Hne Hz HB HL. destruct (cstyle_tags k tags Ei) as [HN _].
  assert (HI : (i < List.length D)%nat) by (apply nth_error_Some; congruence).
  destruct (try_from_tag tags z) as [ix|e| | |] eqn:E.
  - apply (cstyle_decode w cf D i (int_format k z ++ rest)) with (k := k) (tags := tags); auto.
    + apply bytes_ok_app. split; [apply int_format_bytes|exact HB].
    + exists ix, z. split; [reflexivity|]. split; [|reflexivity]. exact (proj1 (try_from_inverse tags HN z ix) E).
  - unfold try_from_tag in E. destruct (find_tag z tags) eqn:Ef; [discriminate E|]. injection E as <-.
    apply (proj1 (find_tag_none _ _)) in Ef. apply (reads_error_at _ _ 1). cbn [parse]. rewrite Ei. apply run_with_bind_error.
    rewrite tagword_bad by assumption. destruct tags; [congruence|reflexivity].
  - unfold try_from_tag in E. destruct (find_tag z tags); discriminate E.
  - unfold try_from_tag in E. destruct (find_tag z tags); discriminate E.
  - unfold try_from_tag in E. destruct (find_tag z tags); discriminate E.
Qed.

(** An enum with payload rejects an undeclared number with the error that
    quotes it and lists the declared ones. *)
Lemma data_bad_tag k alts z rest : nth_error D i = Some (DData k alts) -> alts <> [] ->
  ik_in k z = true -> zlen (int_format k z ++ rest) <= isize_max -> ~ In z (map fst alts) ->
  decodes w cf D (TNamed i) (int_format k z ++ rest)
    (RErr (DParse (promote k (mkTagError z (Some (map fst alts)))))).
Proof.
  intros Ei Hne Hz HL Hn. apply (reads_error_at _ _ 1). cbn [parse]. rewrite Ei. apply run_with_bind_error.
  rewrite tagword_bad by assumption. destruct alts; [congruence|reflexivity].
Qed.
Lemma option_bad_tag t z rest : ik_in U8 z = true -> zlen (z :: rest) <= isize_max -> z <> 0 -> z <> 255 ->
  decodes w cf D (TOption t) (z :: rest) (RErr (DParse (EToken (InvalidTag TagU8 z (Some [0; 255]))))).
Proof.
  clear HD. intros Hz HL H0 H1.
  assert (F : z :: rest = int_format U8 z ++ rest).
  { unfold ik_in in Hz. change (ik_min U8) with 0 in Hz. change (ik_max U8) with 255 in Hz.
    unfold int_format. change (256 ^ ik_len U8) with 256. rewrite Z.mod_small by lia.
    change (Z.to_nat (ik_len U8)) with 1%nat. cbn [big_endian app]. rewrite Z.mod_small by lia. reflexivity. }
  rewrite F in *. apply (reads_error_at _ _ 1). cbn [parse]. apply run_with_bind_error.
  rewrite tagword_bad; [reflexivity|assumption..|]. intros [E|[E|[]]]; congruence.
Qed.

(** Encodings start with the discriminant of the variant. *)
Lemma enum_encoding_tag kf ix vs bs k tags :
  (nth_error D i = Some (DCStyle k tags) \/ exists alts, nth_error D i = Some (DData k alts) /\ tags = map fst alts) ->
  cf_est_override cf = false -> well_typed D (VEnum ix vs) (TNamed i) = true ->
  zlen (format D (VEnum ix vs) (TNamed i)) <= isize_max ->
  to_bytes cf D kf (VEnum ix vs) (TNamed i) = ROk bs ->
  exists tag payload, get_tagval tags ix = Some tag /\ In tag (iter_tags tags) /\ bs = int_format k tag ++ payload.
Proof.
  intros Hd Ho W HL H.
  assert (HI : wf_ty D (TNamed i) = true).
  { cbn [wf_ty]. apply Nat.ltb_lt. apply nth_error_Some. destruct Hd as [Hd|(a & Hd & _)]; congruence. }
  rewrite (encode_is_format cf D kf _ _ HD HI W Ho HL) in H. destruct (valid _ _ _); [|discriminate H]. injection H as <-.
  unfold well_typed in W. cbn [valid_gen] in W. cbn [format]. unfold get_tagval, iter_tags.
  destruct Hd as [Ei|(alts & Ei & ->)]; rewrite Ei in *.
  - destruct (nth_error tags ix) as [tag|] eqn:Et.
    + exists tag, []. split; [reflexivity|]. split; [eapply nth_error_In; exact Et|].
      rewrite (nth_error_nth _ _ _ Et), app_nil_r. reflexivity.
    + exfalso. apply nth_error_None in Et. destruct vs; [|discriminate W]. apply Nat.ltb_lt in W. lia.
  - destruct (nth_error alts ix) as [[tag ts]|] eqn:Et; [|discriminate W].
    exists tag. eexists. rewrite nth_error_map, Et. split; [reflexivity|]. split.
    + apply in_map_iff. exists (tag, ts). split; [reflexivity|eapply nth_error_In; exact Et].
    + rewrite (nth_error_nth _ _ _ Et). reflexivity.
Qed.
End Enum.

(** ** take_tagword over any validator *)
Lemma tagword_by w m k v tags z rest : lists v tags -> ik_in k z = true -> zlen (int_format k z ++ rest) <= isize_max ->
  run_with w m (then_rest (p_take_tagword_by k v)) (int_format k z ++ rest) =
  if existsb (Z.eqb z) tags then ROk (z, rest)
  else RErr (match tags with [] => EInternal NoValidTags | _ => EToken (InvalidTag (tag_width_of k) z (Some tags)) end).
Proof.
  intros Hv Hz HL.
  assert (Hd : runs (p_take_tagword_by k v) (d_tag k tags)).
  { unfold p_take_tagword_by, d_tag. apply runs_bind; [auto with dec..|]. intros a.
    destruct Hv as [->|[->| ->]]; cbn [tv_is_valid tv_array tv_slice tv_hashset]; unfold contains;
      (destruct (existsb (Z.eqb a) tags); [auto with dec|]);
      match goal with |- runs (if ?b then _ else _) _ => destruct b end; apply runs_err. }
  assert (Ht : try_bytes_only (p_take_tagword_by k v)).
  { unfold p_take_tagword_by. apply try_bind; [apply try_int|]. intros a. destruct (tv_is_valid v a); [exact Logic.I|].
    destruct (tv_has_valid v); exact Logic.I. }
  destruct (existsb (Z.eqb z) tags) eqn:E.
  - pose proof (with_seen w m _ _ (int_format k z ++ rest) (runs_then _ _ Hd (shrinks_tag k tags)) (try_then _ Ht) HL) as H.
    rewrite d_then_eq in H by auto with dec. unfold d_tag, d_bind in H. rewrite d_int_app, E in H by exact Hz. exact H.
  - unfold then_rest. apply run_with_bind_error. unfold p_take_tagword_by. eapply run_with_bind_ok; [apply run_int; assumption|].
    intros P h p. cbv beta. destruct Hv as [->|[->| ->]]; cbn [tv_is_valid tv_has_valid tv_into_valid tv_array tv_slice tv_hashset];
      unfold contains; rewrite E.
    + destruct tags as [|y tags]; [reflexivity|]. replace (0 <? zlen (y :: tags)) with true; [reflexivity|].
      rewrite zlen_cons. pose proof (zlen_nonneg tags). lia.
    + destruct tags; reflexivity.
    + destruct tags; reflexivity.
Qed.
Lemma tagword_only_valid {P} (h : handler P) k v tags p z p' : lists v tags ->
  run h (p_take_tagword_by k v) p = (ROk z, p') -> In z tags.
Proof.
  intros Hv H. unfold p_take_tagword_by in H. rewrite run_pbind in H. destruct (run h (p_int k) p) as [[a|e| | |] s]; try discriminate H.
  destruct (tv_is_valid v a) eqn:E; [|destruct (tv_has_valid v); discriminate H]. injection H as <- _.
  assert (Ec : existsb (Z.eqb a) tags = true) by (destruct Hv as [->|[->| ->]]; exact E).
  apply existsb_exists in Ec. destruct Ec as (y & Hy & Ey). apply Z.eqb_eq in Ey. subst. exact Hy.
Qed.


