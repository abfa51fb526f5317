(** The length estimate and the KNOWN length against the wire format. *)
From Verif Require Import Base BaseLemmas ModelErrors ModelSplitVec ModelParser ModelInt ModelFloat ModelZarith
  ModelUtf8 ModelTarget ModelSchema SpecCodec ProofInt ProofZarith ProofCodec ProofMeta.
From Coq Require Import ZifyBool.

(** ** N and Z *)
Lemma div_ceil7_spec n : div_ceil7 n = (n + 6) / 7.
Proof.
  unfold div_ceil7. pose proof (Z.div_mod n 7 ltac:(lia)). pose proof (Z.mod_pos_bound n 7 ltac:(lia)).
  destruct (Z.eqb_spec (n mod 7) 0).
  - apply (Z.div_unique (n + 6) 7 (n / 7) 6); lia.
  - apply (Z.div_unique (n + 6) 7 (n / 7 + 1) (n mod 7 - 1)); lia.
Qed.
Lemma bits_pos z : 0 < z -> bits z = Z.log2 z + 1.
Proof. intros. unfold bits. destruct (Z.eqb_spec z 0); [lia|]. rewrite Z.abs_eq by lia. reflexivity. Qed.
Lemma natural_len z : 0 <= z -> zlen (natural_format z) = (if z =? 0 then 1 else n_unknown z).
Proof.
  revert z. apply (natural_ind (fun z => zlen (natural_format z) = (if z =? 0 then 1 else n_unknown z))).
  - intros z Hz. rewrite natural_format_eq by lia. destruct (Z.ltb_spec z 128); [|lia].
    change (zlen [z]) with 1. destruct (Z.eqb_spec z 0); [reflexivity|].
    unfold n_unknown. rewrite bits_pos, div_ceil7_spec by lia.
    assert (0 <= Z.log2 z <= 6).
    { split; [apply Z.log2_nonneg|]. pose proof (Z.log2_lt_pow2 z 7 ltac:(lia)). change (2 ^ 7) with 128 in *. lia. }
    apply (Z.div_unique _ 7 1 (Z.log2 z)); lia.
  - intros z Hz IH. rewrite natural_format_eq by lia. destruct (Z.ltb_spec z 128); [lia|].
    rewrite zlen_cons, IH. destruct (Z.eqb_spec z 0); [lia|].
    assert (Hq : 0 < z / 128). { apply Z.div_str_pos; lia. }
    destruct (Z.eqb_spec (z / 128) 0); [lia|]. unfold n_unknown. rewrite !bits_pos, !div_ceil7_spec by lia.
    replace (z / 128) with (Z.shiftr z 7) by (rewrite Z.shiftr_div_pow2 by lia; reflexivity).
    rewrite Z.log2_shiftr by lia.
    pose proof (Z.log2_le_pow2 z 7 ltac:(lia)) as H7. change (2 ^ 7) with 128 in H7.
    rewrite Z.max_r by lia. rewrite <- (Z.div_add_l 1 7) by lia. f_equal. lia.
Qed.
Lemma integer_len z : zlen (integer_format z) = z_unknown z.
Proof.
  unfold integer_format, z_unknown. assert (Hb : bits z = bits (Z.abs z)).
  { unfold bits. rewrite Z.abs_involutive. destruct (Z.eqb_spec z 0), (Z.eqb_spec (Z.abs z) 0); lia. }
  rewrite Hb. assert (Ha : 0 <= Z.abs z) by lia. revert Ha. generalize (Z.abs z) as a. intros a Ha.
  destruct (Z.eqb_spec a 0) as [->|N0]; [reflexivity|].
  rewrite bits_pos by lia.
  pose proof (Z.log2_lt_pow2 a 6 ltac:(lia)) as H6. change (2 ^ 6) with 64 in H6.
  destruct (Z.ltb_spec a 64).
  - change (zlen [_]) with 1. destruct (Z.leb_spec (Z.log2 a + 1) 6); [reflexivity|lia].
  - destruct (Z.leb_spec (Z.log2 a + 1) 6); [lia|]. rewrite zlen_cons.
    assert (Hq : 0 < a / 64). { apply Z.div_str_pos; lia. }
    rewrite natural_len by lia. destruct (Z.eqb_spec (a / 64) 0); [lia|].
    unfold n_unknown. rewrite bits_pos by lia. f_equal. f_equal.
    replace (a / 64) with (Z.shiftr a 6) by (rewrite Z.shiftr_div_pow2 by lia; reflexivity).
    rewrite Z.log2_shiftr by lia. lia.
Qed.

Lemma pref_format_len s n : zlen (pref_format s n) = pref_len s.
Proof. unfold pref_format, zlen. rewrite big_endian_length. destruct s; reflexivity. Qed.

Lemma concat_len_const (f : val -> list byte) m vs :
  Forall (fun v => zlen (f v) = m) vs -> zlen (concat (map f vs)) = zlen vs * m.
Proof. induction 1; cbn [map concat]; [reflexivity|]. rewrite zlen_app, zlen_cons. lia. Qed.

Section Est.
Variables (cf : config) (D : list def) (kf : nat).
Hypothesis HD : wf_defs D = true.

Lemma sum2_cons {A B} (f : A -> B -> Z) a l b l' : sum2 f (a :: l) (b :: l') = f a b + sum2 f l l'.
Proof. reflexivity. Qed.

Lemma zeros_nonneg : forall v t, 0 <= zeros D v t.
Proof.
  clear HD.
  assert (HS : forall vs ts, Forall (fun v => forall t, 0 <= zeros D v t) vs -> 0 <= sum2 (zeros D) vs ts).
  { intros vs ts H. revert ts. induction H as [|v vs Hv _ IH]; intros [|t ts]; try (cbn [sum2]; lia).
    specialize (Hv t). specialize (IH ts). change (0 <= zeros D v t + sum2 (zeros D) vs ts). lia. }
  intros v; induction v as [| | | | |v IHv|vs IHvs|vs IHvs|ix vs IHvs|v IHv] using val_ind'; intros t;
    destruct t; cbn [zeros]; try lia; try apply IHv;
    try (destruct (nth_error D i) as [[| |]|]; try lia; apply HS; assumption).
  - destruct (z =? 0); lia.
  - induction IHvs as [|v vs Hv _ IH]; cbn [map fold_right]; [lia|]. specialize (Hv t). lia.
  - induction IHvs as [|v vs Hv _ IH]; cbn [map fold_right]; [lia|]. specialize (Hv t). lia.
  - induction IHvs as [|v vs Hv _ IH]; cbn [map fold_right]; [lia|]. specialize (Hv t). lia.
Qed.

(** ** KNOWN *)
Lemma known_sum_format kn ts : forall n vs,
  (forall t n v, wf_ty D t = true -> kn t = Some (Some n) -> well_typed D v t = true ->
     zlen (format D v t) = n /\ zeros D v t = 0) ->
  forallb (wf_ty D) ts = true -> known_sum kn ts = Some (Some n) -> all2 (well_typed D) vs ts = true ->
  zlen (concat2 (format D) vs ts) = n /\ sum2 (zeros D) vs ts = 0.
Proof.
  induction ts as [|t ts IH]; intros n vs HK W K V; destruct vs as [|v vs]; try discriminate V.
  - cbn [known_sum] in K. injection K as <-. split; reflexivity.
  - cbn [known_sum] in K. cbn [forallb] in W. apply andb_prop in W; destruct W as [W1 W2].
    cbn [all2] in V. apply andb_prop in V; destruct V as [V1 V2].
    destruct (kn t) as [[a|]|] eqn:Ea; destruct (known_sum kn ts) as [[b|]|] eqn:Eb; try discriminate K.
    injection K as <-. destruct (HK t a v W1 Ea V1) as [H1 H2]. destruct (IH b vs HK W2 eq_refl V2) as [H3 H4].
    rewrite concat2_cons, zlen_app, sum2_cons. lia.
Qed.

Lemma known_format f : forall t n v, wf_ty D t = true -> known cf D f t = Some (Some n) -> well_typed D v t = true ->
  zlen (format D v t) = n /\ zeros D v t = 0.
Proof.
  induction f as [|f IH]; intros t n v W K V; [discriminate K|].
  unfold well_typed in V.
  destruct t; cbn [known] in K; try discriminate K; destruct v; try discriminate V;
    cbn [format zeros]; cbn [valid_gen] in V; cbn [wf_ty] in W; try (injection K as <-).
  - split; reflexivity.
  - split; reflexivity.
  - split; [apply int_format_length|reflexivity].
  - split; [apply int_format_length|reflexivity].
  - split; reflexivity.
  - split; reflexivity.
  - split; [lia|reflexivity].
  - split; [lia|reflexivity].
  - destruct (known cf D f t) as [[m|]|] eqn:Ek; try discriminate K. destruct (m =? 0); try discriminate K.
    injection K as <-. split; reflexivity.
  - destruct (known cf D f t) as [[m|]|] eqn:Ek; try discriminate K. destruct (Z.eqb_spec m 0); try discriminate K.
    injection K as <-. destruct (IH _ _ v W Ek V). rewrite zlen_cons. lia.
  - destruct (known cf D f t) as [[m|]|] eqn:Ek; try discriminate K. destruct (m =? 0); try discriminate K.
    injection K as <-. split; reflexivity.
  - destruct (known cf D f t) as [[m|]|] eqn:Ek; try discriminate K. destruct (Z.eqb_spec m 0); try discriminate K.
    injection K as <-. destruct (IH _ _ v W Ek V). lia.
  - apply andb_prop in W; destruct W as [W1 W]. apply andb_prop in V; destruct V as [V1 V2].
    destruct (known cf D f t) as [[m|]|] eqn:Ek; try discriminate K. injection K as <-.
    rewrite forallb_forall in V1. split.
    + rewrite (concat_len_const _ m); [lia|]. rewrite Forall_forall. intros v Hv. apply (IH _ _ v W Ek (V1 v Hv)).
    + clear V2. induction vs as [|v vs IHv]; cbn [map fold_right]; [reflexivity|].
      rewrite IHv by (intros; apply V1; right; assumption).
      destruct (IH _ _ v W Ek (V1 v (or_introl eq_refl))). lia.
  - apply andb_prop in V; destruct V as [V1 V2].
    destruct (known cf D f t) as [[m|]|] eqn:Ek; try discriminate K. injection K as <-.
    destruct (IH _ _ v W Ek V1). rewrite zlen_app, pref_format_len. lia.
  - apply andb_prop in W; destruct W as [W1 W]. apply (IH _ _ v W K V).
  - apply andb_prop in W; destruct W as [W1 W].
    destruct (known cf D f t) as [[m|]|] eqn:Ek; try discriminate K; [|destruct (cf_relaxed_padding cf); discriminate K].
    injection K as <-. destruct (IH _ _ v W Ek V). rewrite zlen_app, zlen_repeat. unfold sizeb in W1. lia.
  - apply (IH _ _ v W K V).
  - destruct (nth_error D i) as [[| |]|]; discriminate V.
  - destruct (nth_error D i) as [[| |]|]; discriminate V.
  - destruct (nth_error D i) as [[| |]|]; discriminate V.
  - destruct (nth_error D i) as [[| |]|]; discriminate V.
  - destruct (nth_error D i) as [[| |]|]; discriminate V.
  - destruct (nth_error D i) as [[| |]|]; discriminate V.
  - destruct (nth_error D i) as [[| |]|]; discriminate V.
  - destruct (nth_error D i) as [[ts| |]|] eqn:Ei; try discriminate V.
    apply (known_sum_format (known cf D f) ts n vs IH (wf_struct D i ts HD Ei) K V).
  - destruct (nth_error D i) as [[ts|k tags|k alts]|] eqn:Ei; try discriminate V; try discriminate K.
    injection K as <-. rewrite int_format_length. destruct vs; [split; reflexivity|discriminate V].
  - destruct (nth_error D i) as [[| |]|]; discriminate V.
Qed.

(** ** unknown and estimate *)
Lemma rbind_div {E A B} (r : res E A) (f : A -> res E B) : rbind r f <> RDiv -> r <> RDiv.
Proof. destruct r; cbn [rbind]; congruence. Qed.

Definition est_at (v : val) : Prop := forall t, wf_ty D t = true -> well_typed D v t = true ->
  zlen (format D v t) <= isize_max ->
  unknown cf D kf v t <> RDiv -> unknown cf D kf v t = ROk (zlen (format D v t) - zeros D v t).

Lemma estimate_from v t : est_at v -> wf_ty D t = true -> well_typed D v t = true ->
  zlen (format D v t) <= isize_max ->
  estimate_with (known cf D kf t) (unknown cf D kf v t) <> RDiv ->
  estimate_with (known cf D kf t) (unknown cf D kf v t) = ROk (zlen (format D v t) - zeros D v t).
Proof.
  intros H W V L N. unfold estimate_with in *. destruct (known cf D kf t) as [[n|]|] eqn:Ek.
  - destruct (known_format kf t n v W Ek V). f_equal; lia.
  - apply H; assumption.
  - congruence.
Qed.

Lemma usum_format (g : val -> wres Z) t vs :
  Forall (fun v => zlen (format D v t) <= isize_max -> g v <> RDiv -> g v = ROk (zlen (format D v t) - zeros D v t)) vs ->
  forall acc, zlen (concat (map (fun v => format D v t) vs)) <= isize_max ->
  acc + zlen (concat (map (fun v => format D v t) vs)) <= isize_max ->
  usum (cf_mode cf) acc (map g vs) <> RDiv ->
  usum (cf_mode cf) acc (map g vs) =
    ROk (acc + zlen (concat (map (fun v => format D v t) vs)) - fold_right Z.add 0 (map (fun v => zeros D v t) vs)).
Proof.
  induction 1 as [|v vs Hv _ IH]; intros acc L0 L N; cbn [map concat usum fold_right] in *.
  - f_equal. change (zlen []) with 0. lia.
  - rewrite zlen_app in *. pose proof (zlen_nonneg (format D v t)) as P1. pose proof (zeros_nonneg v t) as P2.
    pose proof (zlen_nonneg (concat (map (fun v => format D v t) vs))) as P3.
    pose proof (rbind_div _ _ N) as N1. rewrite (Hv ltac:(lia) N1) in *. cbn [rbind] in *.
    assert (isize_max < usize_mod) by reflexivity.
    rewrite uadd_ok in * by lia. cbn [rbind] in *.
    rewrite IH; [f_equal; lia|lia|lia|exact N].
Qed.

Lemma usum2_format vs : Forall est_at vs -> forall ts acc,
  forallb (wf_ty D) ts = true -> all2 (well_typed D) vs ts = true ->
  zlen (concat2 (format D) vs ts) <= isize_max -> acc + zlen (concat2 (format D) vs ts) <= isize_max ->
  usum (cf_mode cf) acc (map2 (unknown cf D kf) (RErr tt) vs ts) <> RDiv ->
  usum (cf_mode cf) acc (map2 (unknown cf D kf) (RErr tt) vs ts) =
    ROk (acc + zlen (concat2 (format D) vs ts) - sum2 (zeros D) vs ts).
Proof.
  induction 1 as [|v vs Hv _ IH]; intros [|t ts] acc W V L0 L N; try discriminate V.
  - cbn. f_equal. lia.
  - cbn [forallb] in W. apply andb_prop in W; destruct W as [W1 W2].
    cbn [all2] in V. apply andb_prop in V; destruct V as [V1 V2].
    rewrite concat2_cons, zlen_app in *. rewrite sum2_cons. cbn [map2 usum] in *.
    pose proof (zlen_nonneg (format D v t)) as P1. pose proof (zeros_nonneg v t) as P2.
    pose proof (zlen_nonneg (concat2 (format D) vs ts)) as P3.
    pose proof (rbind_div _ _ N) as N1.
    assert (isize_max < usize_mod) by reflexivity.
    rewrite (Hv t W1 V1 ltac:(lia) N1) in *. cbn [rbind] in *.
    rewrite uadd_ok in * by lia. cbn [rbind] in *. rewrite IH; [f_equal; lia|assumption|assumption|lia|lia|exact N].
Qed.

Lemma unknown_format v : est_at v.
Proof.
  assert (HM : isize_max < usize_mod - 8) by reflexivity.
  assert (HP : forall s, 0 <= pref_len s <= 4) by (destruct s; cbn; lia).
  induction v as [| | | | |v IHv|vs IHvs|vs IHvs|ix vs IHvs|v IHv] using val_ind';
    intros t W V L N; destruct t; try discriminate V;
    unfold well_typed in V; cbn [valid_gen] in V; cbn [wf_ty] in W;
    try (destruct (nth_error D i) as [[?|?|?]|] eqn:Ei; discriminate V);
    cbn [unknown format zeros] in *; try (rewrite int_format_length); try reflexivity.
  all: try (apply f_equal; lia).
  - rewrite natural_len by lia. destruct (Z.eqb_spec z 0) as [->|]; [reflexivity|]. f_equal; lia.
  - rewrite integer_len. f_equal; lia.
  - rewrite zlen_cons in *. pose proof (rbind_div _ _ N) as N1. pose proof (zeros_nonneg v t).
    rewrite (estimate_from v t IHv W V ltac:(lia) N1). cbn [rbind]. rewrite uadd_ok by lia. f_equal; lia.
  - apply (estimate_from v t IHv W V L N).
  - apply (usum_format (fun v => estimate_with (known cf D kf t) (unknown cf D kf v t)) t vs); try assumption.
    rewrite forallb_forall in V. rewrite Forall_forall in IHvs |- *. intros v Hv Hl Hn.
    apply (estimate_from v t (IHvs v Hv) W (V v Hv) Hl Hn).
  - apply andb_prop in W; destruct W as [W1 W]. apply andb_prop in V; destruct V as [V V2].
    apply (usum_format (fun v => estimate_with (known cf D kf t) (unknown cf D kf v t)) t vs); try assumption.
    rewrite forallb_forall in V. rewrite Forall_forall in IHvs |- *. intros v Hv Hl Hn.
    apply (estimate_from v t (IHvs v Hv) W (V v Hv) Hl Hn).
  - apply andb_prop in W; destruct W as [W1 W]. apply andb_prop in V; destruct V as [V V2].
    apply (usum_format (fun v => unknown cf D kf v t) t vs); try assumption.
    rewrite forallb_forall in V. rewrite Forall_forall in IHvs |- *. intros v Hv Hl Hn.
    apply (IHvs v Hv t W (V v Hv) Hl Hn).
  - destruct (nth_error D i) as [[ts|?|?]|] eqn:Ei; try discriminate V.
    apply (usum2_format vs IHvs ts 0); try assumption. apply (wf_struct D i ts HD Ei).
  - destruct (nth_error D i) as [[ts|k tags|k alts]|] eqn:Ei; try discriminate V.
    + destruct vs; [|discriminate V]. rewrite int_format_length. f_equal; lia.
    + destruct (nth_error alts ix) as [[tag ts]|] eqn:Ea; [|discriminate V].
      rewrite (nth_error_nth _ _ _ Ea) in *. cbn [fst snd] in *. rewrite zlen_app, int_format_length in *.
      pose proof (wf_data D i k alts ix tag ts HD Ei Ea) as W'. pose proof (zlen_nonneg (concat2 (format D) vs ts)).
      assert (0 < ik_len k <= 8) by (destruct k; cbn; lia).
      assert (HZ : 0 <= sum2 (zeros D) vs ts).
      { clear. revert ts; induction vs as [|v vs IH]; intros [|t ts]; try (cbn [sum2]; lia).
        rewrite sum2_cons. pose proof (zeros_nonneg v t). specialize (IH ts). lia. }
      pose proof (rbind_div _ _ N) as N1. unfold estimate_with in *.
      destruct (known_sum (known cf D kf) ts) as [[n|]|] eqn:Ek; [| |congruence].
      * destruct (known_sum_format (known cf D kf) ts n vs (known_format kf) W' Ek V) as [K1 K2].
        cbn [rbind] in *. rewrite uadd_ok by lia. f_equal; lia.
      * rewrite (usum2_format vs IHvs ts 0 W' V ltac:(lia) ltac:(lia) N1). cbn [rbind].
        rewrite uadd_ok by lia. f_equal; lia.
  - apply andb_prop in V; destruct V as [V V2]. rewrite zlen_app, pref_format_len in *.
    pose proof (zlen_nonneg (format D v t)). pose proof (zeros_nonneg v t). specialize (HP s).
    pose proof (rbind_div _ _ N) as N1. rewrite (IHv t W V ltac:(lia) N1). cbn [rbind].
    rewrite uadd_ok by lia. f_equal; lia.
  - apply andb_prop in W; destruct W as [W1 W]. apply (IHv t W V L N).
  - apply andb_prop in W; destruct W as [W1 W]. rewrite zlen_app, zlen_repeat in *. unfold sizeb in W1.
    pose proof (zlen_nonneg (format D v t)). pose proof (zeros_nonneg v t).
    pose proof (rbind_div _ _ N) as N1. rewrite (IHv t W V ltac:(lia) N1). cbn [rbind].
    rewrite uadd_ok by lia. f_equal; lia.
  - apply (IHv t W V L N).
Qed.

Lemma estimate_format v t : wf_ty D t = true -> well_typed D v t = true -> zlen (format D v t) <= isize_max ->
  estimate cf D kf v t <> RDiv -> estimate cf D kf v t = ROk (zlen (format D v t) - zeros D v t).
Proof. intros W V L N. apply (estimate_from v t (unknown_format v) W V L N). Qed.
End Est.
