(** [to_bytes] in terms of the wire format. *)
From Verif Require Import Base BaseLemmas ModelErrors ModelSplitVec ModelParser ModelInt ModelFloat ModelZarith
  ModelUtf8 ModelTarget ModelSchema SpecCodec ProofInt ProofZarith ProofCodec ProofMeta ProofRoundTrip
  ProofEnc ProofEstimate ProofEncValid.
From Coq Require Import ZifyBool.

Section Len.
Variables (cf : config) (D : list def) (kf : nat).

Lemma to_bytes_wr v t : to_bytes cf D kf v t = rmap snd (wr cf D kf v t).
Proof.
  unfold to_bytes. pose proof (sim_all_vals cf D kf v _ _ _ lawful_vec t [] [] eq_refl) as S.
  destruct (wr cf D kf v t) as [[n bs]| | | |]; [|rewrite S; reflexivity..].
  destruct S as (u & -> & ->). reflexivity.
Qed.

(** Whatever is written has the length of the wire format. *)
Definition same_len (r : pw) (x : list byte) : Prop := forall n bs, r = ROk (n, bs) -> zlen bs = zlen x.
Lemma sl_put bs x : zlen bs = zlen x -> same_len (r_put bs) x.
Proof. intros E n bs' H. injection H as _ <-. exact E. Qed.
Lemma sl_add a b x y : same_len a x -> same_len b y -> same_len (r_add cf a b) (x ++ y).
Proof.
  intros Ha Hb n bs H. unfold r_add in H. destruct a as [[n1 b1]| | | |]; try discriminate H. cbn [rbind] in H.
  destruct b as [[n2 b2]| | | |]; try discriminate H. cbn [rbind fst snd] in H.
  destruct (uadd (cf_mode cf) n1 n2); try discriminate H. cbn [rbind] in H. injection H as <- <-.
  rewrite !zlen_app, (Ha _ _ eq_refl), (Hb _ _ eq_refl). reflexivity.
Qed.
Lemma sl_end a x : same_len a x -> same_len (r_end cf a) x.
Proof. intros H. rewrite <- (app_nil_r x). apply sl_add; [exact H|]. intros n bs E; injection E as _ <-; reflexivity. Qed.
Lemma sl_bind {A} (r : wres A) f x : (forall a, same_len (f a) x) -> same_len (rbind r f) x.
Proof. intros H. destruct r; cbn [rbind]; try (intros ? ? E; discriminate E). apply H. Qed.
Lemma sl_sum l xs : Forall2 same_len l xs -> forall acc, same_len (r_sum cf acc l) (concat xs).
Proof.
  induction 1 as [|w x l xs Hw _ IH]; intros acc n bs H; cbn [r_sum concat] in *.
  - injection H as _ <-. reflexivity.
  - destruct w as [[n1 b1]| | | |]; try discriminate H. cbn [rbind fst snd] in H.
    destruct (uadd (cf_mode cf) acc n1) as [s| | | |]; try discriminate H. cbn [rbind] in H.
    destruct (r_sum cf s l) as [[n2 b2]| | | |] eqn:Es; try discriminate H. cbn [rbind fst snd] in H.
    injection H as <- <-. rewrite !zlen_app, (Hw _ _ eq_refl), (IH _ _ _ Es). reflexivity.
Qed.
Lemma sl_none r x : (forall n bs, r <> ROk (n, bs)) -> same_len r x.
Proof. intros H n bs E. destruct (H _ _ E). Qed.
Lemma sl_int k z k' z' : ik_len k = ik_len k' -> same_len (r_end cf (r_put (to_be_bytes k z))) (int_format k' z').
Proof. intros E. apply sl_end, sl_put. rewrite to_be_bytes_format, !int_format_length. exact E. Qed.
Lemma sl_ranged k lo hi z z' : same_len (r_ranged cf k lo hi z) (int_format k z').
Proof. apply sl_bind. intros x. apply sl_end, sl_int. reflexivity. Qed.
Lemma sl_pref s lp n : same_len (r_pref cf s lp) (pref_format s n).
Proof.
  intros k bs H. rewrite pref_format_len.
  destruct s; cbn [r_pref] in H; [apply (sl_int U8 lp U8 lp eq_refl) in H|apply (sl_int U16 lp U16 lp eq_refl) in H
    |apply (sl_ranged _ _ _ _ lp) in H]; rewrite int_format_length in H; exact H.
Qed.

Definition sl_val (v : val) : Prop := forall t, well_typed D v t = true -> same_len (wr cf D kf v t) (format D v t).

Lemma sl_fields vs : Forall sl_val vs -> forall ts, all2 (well_typed D) vs ts = true -> forall acc,
  same_len (r_sum cf acc (map2 (wr cf D kf) (RErr tt) vs ts)) (concat2 (format D) vs ts).
Proof.
  intros HF ts V acc.
  assert (HX : exists xs, Forall2 same_len (map2 (wr cf D kf) (RErr tt) vs ts) xs /\ concat xs = concat2 (format D) vs ts).
  { revert ts V. induction HF as [|v vs Hv _ IH]; intros [|t ts] V; try discriminate V.
    - exists []. split; [constructor|reflexivity].
    - cbn [all2] in V. apply andb_prop in V; destruct V as [V1 V2]. destruct (IH ts V2) as (xs & F & E).
      exists (format D v t :: xs). split; [constructor; [apply Hv; exact V1|exact F]|cbn [concat]; rewrite E; reflexivity]. }
  destruct HX as (xs & F & <-). apply sl_sum; exact F.
Qed.
Lemma sl_elems vs t : Forall sl_val vs -> forallb (fun v => well_typed D v t) vs = true -> forall acc,
  same_len (r_sum cf acc (map (fun v => wr cf D kf v t) vs)) (concat (map (fun v => format D v t) vs)).
Proof.
  intros HF V. apply sl_sum. induction HF as [|v vs Hv _ IH]; cbn [map]; [constructor|].
  cbn [forallb] in V. apply andb_prop in V; destruct V as [V1 V2]. constructor; [apply Hv; exact V1|apply IH; exact V2].
Qed.

Lemma sl_wr v : sl_val v.
Proof.
  induction v as [| | | | |v IHv|vs IHvs|vs IHvs|ix vs IHvs|v IHv] using val_ind';
    intros t V; destruct t; try discriminate V;
    unfold well_typed in V; cbn [valid_gen] in V;
    try (destruct (nth_error D i) as [[?|?|?]|] eqn:Ei; discriminate V);
    cbn [wr format] in *; try (apply sl_int; reflexivity);
    try (apply sl_end, sl_put; reflexivity).
  - intros n bs H; injection H as _ <-; reflexivity.
  - apply sl_ranged.
  - rewrite n_serialize_format by lia. cbn [rbind]. apply sl_end, sl_put; reflexivity.
  - rewrite z_serialize_format. cbn [rbind]. apply sl_end, sl_put; reflexivity.
  - intros n bs H; injection H as _ <-; reflexivity.
  - apply sl_end. change (255 :: format D v t) with ([255] ++ format D v t).
    apply sl_add; [apply sl_put; reflexivity|apply IHv; exact V].
  - apply sl_end, IHv; exact V.
  - apply sl_end, sl_elems; assumption.
  - apply andb_prop in V; destruct V as [V V2]. apply sl_end, sl_elems; assumption.
  - apply andb_prop in V; destruct V as [V V2]. apply sl_end, sl_elems; assumption.
  - destruct (nth_error D i) as [[ts|?|?]|] eqn:Ei; try discriminate V. apply sl_end, sl_fields; assumption.
  - destruct (nth_error D i) as [[ts|k tags|k alts]|] eqn:Ei; try discriminate V.
    + destruct vs; [|discriminate V]. destruct (nth_error tags ix) as [tag|] eqn:Et; [apply sl_int; reflexivity|].
      apply sl_none; discriminate.
    + destruct (nth_error alts ix) as [[tag ts]|] eqn:Ea; [|discriminate V].
      rewrite (nth_error_nth _ _ _ Ea). cbn [fst snd].
      apply sl_end, sl_add; [apply sl_int; reflexivity|]. apply sl_end, sl_fields; assumption.
  - apply andb_prop in V; destruct V as [V _].
    apply sl_bind; intros l. apply sl_bind; intros _. destruct (pref_try_from cf s l); [|apply sl_none; discriminate].
    apply sl_bind; intros ll. apply sl_bind; intros _. apply sl_end, sl_add; [apply sl_pref|apply IHv; exact V].
  - apply IHv; exact V.
  - apply sl_end, sl_add; [apply IHv; exact V|apply sl_put; reflexivity].
  - apply IHv; exact V.
Qed.

Hypothesis HD : wf_defs D = true.

(** A well-typed value that encodes, encodes to its wire format, and all its
    payloads fit. *)
Lemma to_bytes_format v t bs : wf_ty D t = true -> well_typed D v t = true -> to_bytes cf D kf v t = ROk bs ->
  zlen bs <= isize_max -> (cf_est_override cf = true -> zeros D v t = 0) ->
  bs = format D v t /\ valid D v t = true.
Proof.
  intros W V H L Z0. rewrite to_bytes_wr in H. destruct (wr cf D kf v t) as [[n b]| | | |] eqn:E; try discriminate H.
  injection H as <-. pose proof (sl_wr v t V n b E) as SL. cbn [snd] in *. unfold byte in *.
  pose proof (fate_wr cf D kf HD v t W V ltac:(unfold byte in *; lia) Z0) as F. unfold fate in F. rewrite E in F.
  destruct (valid D v t).
  - destruct F as [F|[_ F]]; [|discriminate F]. injection F as _ ->. split; reflexivity.
  - destruct F as [F|[_ F]]; discriminate F.
Qed.

(** Conversely an encodable value encodes. *)
Lemma to_bytes_valid v t : wf_ty D t = true -> valid D v t = true -> zlen (format D v t) <= isize_max ->
  cf_est_override cf = false -> to_bytes cf D kf v t = ROk (format D v t).
Proof.
  intros W V L EO. rewrite to_bytes_wr.
  destruct (puts_wr cf D kf HD v t W V L ltac:(congruence)) as [->|[E _]]; [reflexivity|congruence].
Qed.
End Len.
