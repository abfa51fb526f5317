(** Groups as written and as read (C93): the theorems. *)
From Verif Require Import Base BaseLemmas ModelErrors ModelParser ModelSplitVec ModelInt ModelTarget ModelBuilder ModelSchema
  SpecParser SpecCodec SpecSplitVec SpecBuilder SpecGroups ProofZarith ProofGrammar ProofEncValid ProofParser ProofParserSim ProofParserClean ProofParserExact ProofSplitVec ProofBuilder ProofTarget
  ProofDec ProofCodec ProofRoundTrip ProofCodecThms ProofGroups ProofGroupsRead.
From Coq Require Import ZifyBool.

(** ** The bytes are those of the format *)
Section Bytes.
Variables (number : list byte -> list (list byte)) (tagged : val -> ty -> list (list byte) -> list (list byte)) (D : list def).
Hypothesis Hn : forall bs, concat (number bs) = bs.
Hypothesis Ht : forall v t gs, concat (tagged v t gs) = 255 :: concat gs.
Lemma by_fields_concat vs : Forall (fun v => forall t, well_typed D v t = true -> concat (groups_of number tagged D v t) = format D v t) vs ->
  forall ts, all2 (well_typed D) vs ts = true -> concat (by_fields (groups_of number tagged D) vs ts) = concat2 (format D) vs ts.
Proof.
  induction 1 as [|v vs Hv _ IH]; intros [|t ts] V; try discriminate V; [reflexivity|].
  cbn [all2] in V. apply andb_prop in V; destruct V as [V1 V2].
  cbn [by_fields]. rewrite concat_app, Hv, IH, concat2_cons by assumption. reflexivity.
Qed.
Lemma elems_concat t vs : Forall (fun v => forall t, well_typed D v t = true -> concat (groups_of number tagged D v t) = format D v t) vs ->
  forallb (fun v => well_typed D v t) vs = true -> concat (concat (map (fun v => groups_of number tagged D v t) vs)) = concat (map (fun v => format D v t) vs).
Proof.
  induction 1 as [|v vs Hv _ IH]; intros V; [reflexivity|]. cbn [forallb] in V. apply andb_prop in V; destruct V as [V1 V2].
  cbn [map concat]. rewrite concat_app, Hv, IH by assumption. reflexivity.
Qed.
Lemma groups_concat v : forall t, well_typed D v t = true -> concat (groups_of number tagged D v t) = format D v t.
Proof.
  induction v as [| | | | |v IHv|vs IHvs|vs IHvs|ix vs IHvs|v IHv] using val_ind'; intros t V;
    destruct t; try discriminate V; unfold well_typed in V; cbn [valid_gen] in V;
    try (destruct (nth_error D i) as [[?|?|?]|] eqn:Ei; discriminate V);
    cbn [groups_of format]; rewrite ?Hn, ?Ht; cbn [concat]; rewrite ?app_nil_r; try reflexivity; auto.
  - rewrite IHv by exact V. reflexivity.
  - apply elems_concat; assumption.
  - apply andb_prop in V; destruct V as [V _]. apply elems_concat; assumption.
  - apply andb_prop in V; destruct V as [V _]. apply elems_concat; assumption.
  - destruct (nth_error D i) as [[ts|?|?]|]; try discriminate V. apply by_fields_concat; assumption.
  - destruct (nth_error D i) as [[ts|k tags|k alts]|]; try discriminate V.
    + cbn [concat]. apply app_nil_r.
    + destruct (nth_error alts ix) as [[tag ts]|] eqn:Ea; [|discriminate V].
      rewrite (nth_error_nth _ _ _ Ea). cbn [concat fst snd]. f_equal. apply by_fields_concat; assumption.
  - apply andb_prop in V; destruct V as [V _]. rewrite IHv by exact V. reflexivity.
  - rewrite concat_app, IHv by exact V. cbn [concat]. rewrite app_nil_r. reflexivity.
Qed.
End Bytes.
Lemma taken_concat D v t : well_typed D v t = true -> concat (groups_taken D v t) = format D v t.
Proof.
  apply groups_concat; [|reflexivity]. intros bs. induction bs as [|b bs IH]; cbn [map concat app]; [reflexivity|]. rewrite IH. reflexivity.
Qed.
Lemma written_concat D v t : well_typed D v t = true -> concat (groups_written D v t) = format D v t.
Proof.
  apply groups_concat; [intros bs; apply app_nil_r|]. intros v' t' gs. destruct (begins D v' t') as [[|]|]; [destruct gs| |]; reflexivity.
Qed.

(** ** Reading groups finer than writing *)
Lemma merges_app a b c d : merges a b -> merges c d -> merges (a ++ c) (b ++ d).
Proof.
  intros (p & <- & <- & Hp) (q & <- & <- & Hq). exists (p ++ q). rewrite concat_app, map_app. repeat split. apply Forall_app; auto.
Qed.
Lemma merges_same l : merges l l.
Proof.
  exists (map (fun g => [g]) l). rewrite map_map. repeat split.
  - induction l as [|g l IH]; cbn [map concat app]; [reflexivity|]. rewrite IH. reflexivity.
  - rewrite <- (map_id l) at 2. apply map_ext. intros g. cbn. apply app_nil_r.
  - apply Forall_forall. intros p Hp. apply in_map_iff in Hp. destruct Hp as (? & <- & _). discriminate.
Qed.

Lemma merges_bytes bs : bs <> [] -> merges (map (fun b : byte => [b]) bs) [bs].
Proof.
  intros Hn. exists [map (fun b => [b]) bs]. cbn [concat map]. rewrite app_nil_r. repeat split.
  - f_equal. induction bs as [|b [|c bs] IH]; [contradiction|reflexivity|]. cbn [map concat app] in *. rewrite IH by discriminate. reflexivity.
  - constructor; [|constructor]. destruct bs; [contradiction|discriminate].
Qed.
Lemma merges_tag b fine coarse : merges fine coarse ->
  merges ([255] :: fine) (match b, coarse with Some true, g :: gs => (255 :: g) :: gs | _, gs => [255] :: gs end).
Proof.
  intros H. assert (H0 : merges ([255] :: fine) ([255] :: coarse)) by (apply (merges_app [[255]] [[255]]); [apply merges_same|exact H]).
  destruct b as [[|]|]; try exact H0. destruct coarse as [|g gs]; [exact H0|].
  destruct H as (parts & H1 & H2 & H3). destruct parts as [|p parts]; [discriminate H2|]. cbn [map] in H2. injection H2 as E1 E2.
  exists (([255] :: p) :: parts). inversion H3; subst. repeat split. constructor; [discriminate|assumption].
Qed.
Lemma merges_fields D vs : Forall (fun v => forall t, well_typed D v t = true -> merges (groups_taken D v t) (groups_written D v t)) vs ->
  forall ts, all2 (well_typed D) vs ts = true -> merges (by_fields (groups_taken D) vs ts) (by_fields (groups_written D) vs ts).
Proof.
  induction 1 as [|v vs Hv _ IH]; intros [|t ts] V; try discriminate V; [apply merges_same|].
  cbn [all2] in V. apply andb_prop in V; destruct V as [V1 V2]. cbn [by_fields]. apply merges_app; auto.
Qed.
Lemma merges_elems D t vs : Forall (fun v => forall t, well_typed D v t = true -> merges (groups_taken D v t) (groups_written D v t)) vs ->
  forallb (fun v => well_typed D v t) vs = true ->
  merges (concat (map (fun v => groups_taken D v t) vs)) (concat (map (fun v => groups_written D v t) vs)).
Proof.
  induction 1 as [|v vs Hv _ IH]; intros V; [apply merges_same|]. cbn [forallb] in V. apply andb_prop in V; destruct V as [V1 V2].
  cbn [map concat]. apply merges_app; auto.
Qed.
Lemma groups_merge D v : forall t, well_typed D v t = true -> merges (groups_taken D v t) (groups_written D v t).
Proof.
  induction v as [| | | | |v IHv|vs IHvs|vs IHvs|ix vs IHvs|v IHv] using val_ind'; intros t V;
    destruct t; try discriminate V; unfold well_typed in V; cbn [valid_gen] in V;
    try (destruct (nth_error D i) as [[?|?|?]|] eqn:Ei; discriminate V);
    unfold groups_taken, groups_written; cbn [groups_of format]; fold (groups_taken D) (groups_written D); try apply merges_same; auto.
  - apply merges_bytes. intros E. destruct (natural_format_props z ltac:(lia)) as (_ & Ht & _). rewrite E in Ht. discriminate.
  - apply merges_bytes. intros E. destruct (integer_format_props z) as (_ & Ht & _). rewrite E in Ht. discriminate.
  - apply merges_tag, IHv, V.
  - apply merges_elems; assumption.
  - apply andb_prop in V; destruct V as [V _]. apply merges_elems; assumption.
  - apply andb_prop in V; destruct V as [V _]. apply merges_elems; assumption.
  - destruct (nth_error D i) as [[ts|?|?]|]; try discriminate V. apply merges_fields; assumption.
  - destruct (nth_error D i) as [[ts|k tags|k alts]|]; try discriminate V; [apply merges_same|].
    destruct (nth_error alts ix) as [[tag ts]|] eqn:Ea; [|discriminate V].
    rewrite (nth_error_nth _ _ _ Ea). cbn [fst snd]. change (?a :: ?b) with ([a] ++ b). apply merges_app; [apply merges_same|apply merges_fields; assumption].
  - apply andb_prop in V; destruct V as [V _]. change (?a :: ?b) with ([a] ++ b). apply merges_app; [apply merges_same|apply IHv, V].
  - apply merges_app; [apply IHv, V|apply merges_same].
Qed.

(** ** Alike without Some, N and Z *)
Lemma groups_alike D v : forall t, no_option_number D v t = true -> groups_written D v t = groups_taken D v t.
Proof.
  assert (HF : forall vs, Forall (fun v => forall t, no_option_number D v t = true -> groups_written D v t = groups_taken D v t) vs ->
    forall ts, all2 (no_option_number D) vs ts = true -> by_fields (groups_written D) vs ts = by_fields (groups_taken D) vs ts).
  { induction 1 as [|v' vs Hv _ IH]; intros [|t ts] V; try discriminate V; [reflexivity|].
    cbn [all2] in V. apply andb_prop in V; destruct V as [V1 V2]. cbn [by_fields]. rewrite Hv, IH by assumption. reflexivity. }
  assert (HE : forall vs t, Forall (fun v => forall t, no_option_number D v t = true -> groups_written D v t = groups_taken D v t) vs ->
    forallb (fun v => no_option_number D v t) vs = true ->
    concat (map (fun v => groups_written D v t) vs) = concat (map (fun v => groups_taken D v t) vs)).
  { induction 1 as [|v' vs Hv _ IH]; intros V; [reflexivity|].
    cbn [forallb] in V. apply andb_prop in V; destruct V as [V1 V2]. cbn [map concat]. rewrite Hv, IH by assumption. reflexivity. }
  induction v as [| | | | |v IHv|vs IHvs|vs IHvs|ix vs IHvs|v IHv] using val_ind'; intros t V;
    destruct t; try discriminate V; cbn [no_option_number] in V;
    unfold groups_taken, groups_written; cbn [groups_of format]; fold (groups_taken D) (groups_written D); auto.
  - destruct (nth_error D i) as [[ts|?|?]|]; try reflexivity. apply HF; assumption.
  - destruct (nth_error D i) as [[ts|k tags|k alts]|]; try reflexivity. f_equal. apply HF; assumption.
  - f_equal. auto.
  - f_equal. auto.
Qed.

(** ** Encoding into a MemoBuilder *)
Lemma groups_as_written cf D kf v t m u : wf_defs D = true -> wf_ty D t = true -> valid D v t = true ->
  zlen (format D v t) <= isize_max -> (cf_est_override cf = true -> zeros D v t = 0) ->
  encode cf D kf tg_memo v t = ROk u ->
  sv_into_parts u = (format D v t, map zlen (groups_written D v t)) /\
  exists s, sv_show m u = ROk s /\ shows (groups_written D v t) s.
Proof.
  intros HD W V L Z0 E. unfold encode in E.
  destruct (write_to cf D kf v _ tg_memo t (tg_create tg_memo)) as [[n u']| | | |] eqn:Ew; try discriminate E. injection E as <-.
  pose proof (wrel_vals tg_memo tg_segs sv_history segs_related cf D kf v t (tg_create tg_memo) (tg_create tg_segs) H_new) as R. rewrite Ew in R.
  destruct (write_to cf D kf v _ tg_segs t (tg_create tg_segs)) as [[n' s]| | | |] eqn:Es; cbn [same_out] in R; try contradiction.
  destruct R as [_ R]. cbn [snd] in *.
  destruct (says_vals cf D kf HD v t W V L Z0) as [S H]. apply H in Es.
  assert (Ea : sg_all s = groups_written D v t).
  { subst s. destruct (begins D v t) as [[|]|]; cbn [told shape tg_create tg_segs sg_closed sg_open opt_bytes app] in *; unfold sg_all; cbn [sg_closed sg_open app];
      rewrite ?app_nil_r; [destruct (groups_written D v t); [contradiction|reflexivity]|reflexivity|symmetry; exact S]. }
  assert (Ee : sg_elems s = format D v t) by (unfold sg_elems; rewrite Ea; apply written_concat, valid_typed, V).
  destruct (splitvec_adds_up u' s R) as (_ & _ & _ & Hp & _). rewrite Ea, Ee in Hp. split; [exact Hp|]. rewrite <- Ea.
  apply sv_show_history; [exact R| |]; rewrite Ee; [|apply format_bytes, valid_typed, V].
  assert (isize_max < usize_mod) by reflexivity. lia.
Qed.

(** ** Decoding from a MemoParser *)
Lemma memo_glog m {A} (pg : prog A) : forall p a w', mp_inv p -> try_bytes_only pg -> run contract_h pg (bp_alpha (mp_bp p)) = (ROk a, w') ->
  exists p', run (memo_h m) pg p = (ROk a, p') /\ mp_inv p' /\ mp_buf p' = mp_buf p /\ mp_munches p' = mp_munches p ++ glog pg (bp_alpha (mp_bp p)).
Proof.
  assert (HS : forall (X : Set) (o : pop X) p x w' r q, mp_inv p -> in_contract o (bp_alpha (mp_bp p)) = true ->
    spec_op Keep o (bp_alpha (mp_bp p)) = (x, w') -> memo_h m X o p = (r, q) -> r <> RPanic ->
    mp_buf q = mp_buf p /\ mp_munches q = mp_munches p ++ match x with Some y => one o y | None => [] end).
  { intros X o p x w' r q Hi Hc Es Eh Hr. pose proof (in_contract_fits m o _ Hc) as Hfit.
    destruct (mp_step m o p Hi Hfit _ _ Eh) as [Hb _]. pose proof (bp_buf_const m o (mp_bp p)) as HB. rewrite Hb in HB. split; [exact HB|].
    destruct (spec_op Merge o (bp_alpha (mp_bp p))) as [x2 w2] eqn:Es2.
    pose proof (spec_op_policy o Merge (bp_alpha (mp_bp p))) as [Hp1 _]. rewrite Es, Es2 in Hp1. cbn [fst] in Hp1. subst x2.
    rewrite (munches_exact m o p r q x w2 Hi Hfit Es2 Eh Hr). f_equal. destruct o, x; reflexivity. }
  induction pg as [a0|e| | | |X o k IH|X o k IHk f IHf]; intros p a w' Hi Ht R; cbn [run glog] in *; try discriminate R.
  - injection R as <- _. exists p. rewrite app_nil_r. auto.
  - unfold contract_h at 1 in R. unfold contract_h at 1. destruct (in_contract o (bp_alpha (mp_bp p))) eqn:Ec; [|discriminate R].
    destruct (spec_op Keep o (bp_alpha (mp_bp p))) as [x w1] eqn:Es. rewrite (spec_h_eq _ _ _ _ _ Es) in *.
    destruct (memo_h m X o p) as [r q] eqn:Eh. pose proof (memo_refines m X o p x w1 r q Hi Ec Es Eh) as Hst.
    destruct r; try contradiction; [|destruct Hst as (-> & _); discriminate R|destruct Hst as (_ & -> & _); discriminate R].
    destruct Hst as (-> & Hi' & <-). destruct (HS X o p _ _ _ q Hi Ec Es Eh ltac:(discriminate)) as [Hb Hm].
    destruct (IH _ q a w' Hi' (Ht _) R) as (p' & R' & Hi2 & Hb2 & Hm2). exists p'. split; [exact R'|split; [exact Hi2|split; [congruence|]]].
    rewrite Hm2, Hm, <- app_assoc. reflexivity.
  - destruct Ht as (Hbop & Hk & Hf).
    unfold contract_h at 1 in R. unfold contract_h at 1. destruct (in_contract o (bp_alpha (mp_bp p))) eqn:Ec; [|discriminate R].
    destruct (spec_op Keep o (bp_alpha (mp_bp p))) as [x w1] eqn:Es. rewrite (spec_h_eq _ _ _ _ _ Es) in *.
    destruct (memo_h m X o p) as [r q] eqn:Eh. pose proof (memo_refines m X o p x w1 r q Hi Ec Es Eh) as Hst.
    destruct r; try contradiction; [| |destruct Hst as (_ & _ & ?); congruence].
    + destruct Hst as (-> & Hi' & <-). destruct (HS X o p _ _ _ q Hi Ec Es Eh ltac:(discriminate)) as [Hb Hm].
      destruct (IHk _ q a w' Hi' (Hk _) R) as (p' & R' & Hi2 & Hb2 & Hm2). exists p'. split; [exact R'|split; [exact Hi2|split; [congruence|]]].
      rewrite Hm2, Hm, <- app_assoc. reflexivity.
    + destruct Hst as (-> & Hst). destruct (Hst Hbop) as [Hi' <-]. destruct (HS X o p _ _ _ q Hi Ec Es Eh ltac:(discriminate)) as [Hb Hm].
      destruct (IHf q a w' Hi' Hf R) as (p' & R' & Hi2 & Hb2 & Hm2). exists p'. split; [exact R'|split; [exact Hi2|split; [congruence|]]].
      rewrite Hm2, Hm, app_nil_r. reflexivity.
Qed.
Lemma memo_took m {A} (pg : prog A) input a x gs : zlen input <= isize_max -> try_bytes_only pg -> took pg input a x (map zlen gs) ->
  concat gs ++ x = input ->
  exists p sv, run (memo_h m) pg (mp_from_buffer input) = (ROk a, p) /\ @mp_dump unit m p = ROk sv /\
    sv_into_parts sv = (concat gs, map zlen gs).
Proof.
  intros Hz Ht Hk Hc. destruct (Hk []) as [R G].
  pose proof (memo_glog m pg (mp_from_buffer input) a (mkW x []) (mp_init_inv input Hz) Ht) as H.
  change (bp_alpha (mp_bp (mp_from_buffer input))) with (bp_alpha (bp_from_buffer input)) in *. rewrite bp_init_alpha in H.
  destruct (H R) as (p & Rp & (I1 & I2 & I3) & Hb & Hm). unfold w_init in Hm. rewrite G in Hm. cbn [mp_from_buffer mp_munches mp_buf app] in *.
  exists p. unfold mp_dump. rewrite Hb, Hm in *. pose proof (co_inv_limit _ _ I1) as HL.
  destruct (@mp_dump_loop_value unit m input (map zlen gs) 0 sv_new) as (sv & E1 & E2 & E3 & E4); auto; try lia.
  exists sv. repeat split; [exact Rp|exact E1|]. unfold sv_into_parts, sb_into_vec. rewrite E2, E3, E4, Z.add_0_l.
  cbn [sv_new sv_buffer sv_spans sb_new sb_stable app]. unfold zslice. rewrite zdrop_0, Z.sub_0_r.
  assert (Es : zsum (map zlen gs) = zlen (concat gs)) by (apply (zsum_concat gs)). rewrite Es, <- Hc, ztake_app. reflexivity.
Qed.
Lemma groups_as_taken cf D I t v : wf_defs D = true -> disciplined D I = true -> wf_ty D t = true -> valid D v t = true ->
  decodable I t = true -> zlen (format D v t) <= isize_max ->
  exists f0, forall f, (f0 <= f)%nat -> exists p sv,
    run (memo_h (cf_mode cf)) (parse cf D f t) (mp_from_buffer (format D v t)) = (ROk v, p) /\
    @mp_dump unit (cf_mode cf) p = ROk sv /\ sv_into_parts sv = (format D v t, map zlen (groups_taken D v t)).
Proof.
  intros HD HI W V K L. unfold decodable in K. destruct (kind_of I t) as [k|] eqn:Ek; [|discriminate K].
  destruct (tk_all cf D I HI HD v t k Ek W V) as [f0 H]. exists f0. intros f Hf. rewrite <- (taken_concat D v t (valid_typed D v t V)).
  apply memo_took with (x := []); rewrite ?(taken_concat D v t (valid_typed D v t V)); [exact L|apply try_parse| |apply app_nil_r].
  rewrite <- (app_nil_r (format D v t)). apply H; [exact Hf|apply adm_greedy, K|rewrite app_nil_r; exact L].
Qed.
Lemma groups_as_taken_extra cf D I t v extra : wf_defs D = true -> disciplined D I = true -> wf_ty D t = true -> valid D v t = true ->
  self_delimiting I t = true -> zlen (format D v t ++ extra) <= isize_max ->
  exists f0, forall f, (f0 <= f)%nat -> exists p sv,
    run (memo_h (cf_mode cf)) (parse cf D f t) (mp_from_buffer (format D v t ++ extra)) = (ROk v, p) /\
    @mp_dump unit (cf_mode cf) p = ROk sv /\ sv_into_parts sv = (format D v t, map zlen (groups_taken D v t)).
Proof.
  intros HD HI W V K L. unfold self_delimiting in K. destruct (kind_of I t) as [[|]|] eqn:Ek; try discriminate K.
  destruct (tk_all cf D I HI HD v t Delim Ek W V) as [f0 H]. exists f0. intros f Hf.
  pose proof (memo_took (cf_mode cf) (parse cf D f t) (format D v t ++ extra) v extra (groups_taken D v t) L) as M.
  rewrite (taken_concat D v t (valid_typed D v t V)) in M. apply M; [apply try_parse| |reflexivity].
  apply H; [exact Hf|exact Logic.I|exact L].
Qed.
