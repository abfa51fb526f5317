(** What decoding returns is a value of the type; where the type has no String
    it is one that can be encoded again, in no more bytes. *)
From Verif Require Import Base BaseLemmas ModelErrors ModelParser ModelInt ModelFloat ModelZarith
  ModelUtf8 ModelTarget ModelSchema SpecParser SpecCodec ProofInt ProofZarith ProofUtf8 ProofFloat ProofDec ProofCodec
  ProofMeta ProofSafe.
From Coq Require Import ZifyBool.

(** Successive elements. *)
Inductive steps (elem : dm val) : list byte -> list val -> list byte -> Prop :=
| steps_nil cur : steps elem cur [] cur
| steps_cons cur v r vs rest : elem cur = ROk (v, r) -> steps elem r vs rest -> steps elem cur (v :: vs) rest.

Lemma d_seq_steps elem f : forall acc cur vs rest, d_seq f elem acc cur = ROk (vs, rest) ->
  exists new, vs = acc ++ new /\ steps elem cur new rest /\ rest = [].
Proof.
  induction f as [|f IH]; intros acc cur vs rest H; [discriminate H|]. cbn [d_seq] in H.
  apply d_bind_ok in H. destruct H as (n & r & Hr & H). injection Hr as <- <-.
  destruct (Z.eqb_spec (zlen cur) 0) as [E|E].
  - apply d_ret_ok in H. destruct H as [-> ->]. exists []. rewrite app_nil_r.
    split; [reflexivity|]. split; [constructor|]. apply zlen_0_nil; exact E.
  - apply d_bind_ok in H. destruct H as (v & r & Hv & H). apply IH in H. destruct H as (new & -> & Hs & Hn).
    exists (v :: new). rewrite <- app_assoc. split; [reflexivity|]. split; [econstructor; eassumption|exact Hn].
Qed.
Lemma d_lim_steps elem n f : forall acc cur vs rest, d_lim f n elem acc cur = ROk (vs, rest) -> zlen acc <= n ->
  exists new, vs = acc ++ new /\ steps elem cur new rest /\ rest = [] /\ zlen vs <= n.
Proof.
  induction f as [|f IH]; intros acc cur vs rest H Ha; [discriminate H|]. cbn [d_lim] in H.
  apply d_bind_ok in H. destruct H as (m & r & Hr & H). injection Hr as <- <-.
  destruct (Z.eqb_spec (zlen cur) 0) as [E|E].
  - apply d_ret_ok in H. destruct H as [-> ->]. exists []. rewrite app_nil_r.
    split; [reflexivity|]. split; [constructor|]. split; [apply zlen_0_nil; exact E|exact Ha].
  - apply d_bind_ok in H. destruct H as (v & r & Hv & H). apply d_bind_ok in H. destruct H as (acc' & r' & Hp & H).
    apply d_lift_ok in Hp. destruct Hp as [Hp ->]. unfold try_push in Hp.
    destruct (Z.ltb_spec (zlen acc) n); [|discriminate]. injection Hp as <-.
    apply IH in H; [|rewrite zlen_app; change (zlen [v]) with 1; lia]. destruct H as (new & -> & Hs & Hn & Hl).
    exists (v :: new). rewrite <- app_assoc in *. split; [reflexivity|]. split; [econstructor; eassumption|]. split; [exact Hn|exact Hl].
Qed.
Lemma d_fix_steps elem n f : forall acc cur vs rest, d_fix f n elem acc cur = ROk (vs, rest) ->
  exists new, vs = acc ++ new /\ steps elem cur new rest /\ zlen vs = n.
Proof.
  induction f as [|f IH]; intros acc cur vs rest H; [discriminate H|]. cbn [d_fix] in H.
  apply d_bind_ok in H. destruct H as (m & r & Hr & H). injection Hr as <- <-.
  destruct (_ && _).
  - apply d_bind_ok in H. destruct H as (v & r & Hv & H). apply IH in H. destruct H as (new & -> & Hs & Hn).
    exists (v :: new). rewrite <- app_assoc in *. split; [reflexivity|]. split; [econstructor; eassumption|exact Hn].
  - destruct (Z.eqb_spec (zlen acc) n); [|discriminate]. apply d_ret_ok in H. destruct H as [-> ->].
    exists []. rewrite app_nil_r. split; [reflexivity|]. split; [constructor|assumption].
Qed.

Lemma d_st_ok t cur bs rest : d_st t cur = ROk (bs, rest) -> cur = bs ++ rest /\ bs <> [].
Proof.
  intros H. pose proof (consumes_st t _ _ _ H) as Hc. unfold d_st in H.
  destruct (st_split t cur) as [[p r]|] eqn:E; [|discriminate]. injection H as <- <-. apply st_split_app in E. subst cur.
  split; [reflexivity|]. intros ->. cbn [app] in Hc. lia.
Qed.
Lemma d_bool_ok cur b rest : d_bool cur = ROk (b, rest) -> cur = (if b then 255 else 0) :: rest.
Proof.
  unfold d_bool. intros H. apply d_bind_ok in H. destruct H as (x & r & H1 & H2). unfold d_byte in H1.
  destruct cur as [|c cur]; [discriminate|]. injection H1 as <- <-.
  destruct (Z.eqb_spec c 255) as [->|]; [apply d_ret_ok in H2; destruct H2 as [-> ->]; reflexivity|].
  destruct (Z.eqb_spec c 0) as [->|]; [apply d_ret_ok in H2; destruct H2 as [-> ->]; reflexivity|discriminate].
Qed.
Lemma u64_bits z : ik_in U64 z = true -> is_u64 z = true.
Proof. intros H. apply ik_in_spec in H. change (ik_min U64) with 0 in H. change (ik_max U64) with (2 ^ 64 - 1) in H. unfold is_u64; lia. Qed.
Lemma be8_len z : zlen (big_endian 8 z) = 8.
Proof. unfold zlen. rewrite big_endian_length. reflexivity. Qed.

Lemma bytes_rest (d : dm val) cur v rest : shrinks d -> d cur = ROk (v, rest) -> bytes_ok cur -> bytes_ok rest.
Proof. intros Hs H. eapply suffix_bytes. eapply Hs; exact H. Qed.

Section Typed.
Variables (cf : config) (D : list def) (fits : bool).
Hypothesis HD : wf_defs D = true.
Hypothesis HS : fits = true -> string_free_defs D = true.

Definition typed_at (f : nat) : Prop := forall t cur v rest,
  wf_ty D t = true -> (fits = true -> string_free t = true) -> bytes_ok cur ->
  dec cf D f t cur = ROk (v, rest) ->
  valid_gen fits D v t = true /\ (fits = true -> zlen (format D v t) + zlen rest <= zlen cur).

Lemma typed_steps f t : typed_at f -> wf_ty D t = true -> (fits = true -> string_free t = true) ->
  forall cur vs rest, steps (dec cf D f t) cur vs rest -> bytes_ok cur ->
  forallb (fun v => valid_gen fits D v t) vs = true /\
  (fits = true -> zlen (concat (map (fun v => format D v t) vs)) + zlen rest <= zlen cur).
Proof.
  intros IH HW HF cur vs rest H. induction H as [cur|cur v r vs rest Hv Hs IHs]; intros Hb.
  - split; [reflexivity|]. intros _. cbn [map concat]. change (zlen []) with 0. lia.
  - destruct (IH t cur v r HW HF Hb Hv) as [H1 H2].
    destruct IHs as [H3 H4]; [eapply bytes_rest; [|exact Hv|exact Hb]; auto with dec|].
    cbn [forallb map concat]. rewrite H1, H3. split; [reflexivity|]. intros E. rewrite zlen_app. specialize (H2 E). specialize (H4 E). lia.
Qed.

Lemma typed_fields f ts : typed_at f -> forallb (wf_ty D) ts = true -> (fits = true -> forallb string_free ts = true) ->
  forall cur vs rest, d_fields (dec cf D f) ts cur = ROk (vs, rest) -> bytes_ok cur ->
  all2 (valid_gen fits D) vs ts = true /\
  (fits = true -> zlen (concat2 (format D) vs ts) + zlen rest <= zlen cur).
Proof.
  intros IH. induction ts as [|t ts IHts]; intros HW HF cur vs rest H Hb.
  - apply d_ret_ok in H. destruct H as [-> ->]. split; [reflexivity|]. intros _. change (zlen (concat2 (format D) [] [])) with 0. lia.
  - cbn [forallb] in HW. apply andb_prop in HW; destruct HW as [HW1 HW2]. cbn [d_fields] in H.
    apply d_bind_ok in H. destruct H as (v & r & Hv & H). apply d_bind_ok in H. destruct H as (vs' & r' & Hvs & H).
    apply d_ret_ok in H. destruct H as [-> ->].
    destruct (IH t cur v r HW1) as [H1 H2]; [|assumption|assumption|].
    { intros E. specialize (HF E). cbn [forallb] in HF. apply andb_prop in HF; tauto. }
    destruct (IHts HW2) with (cur := r) (vs := vs') (rest := r') as [H3 H4]; [|assumption| |].
    { intros E. specialize (HF E). cbn [forallb] in HF. apply andb_prop in HF; tauto. }
    { eapply bytes_rest; [|exact Hv|exact Hb]; auto with dec. }
    rewrite concat2_cons. cbn [all2]. fold (all2 (valid_gen fits D) vs' ts). rewrite H1, H3. split; [reflexivity|].
    intros E. rewrite zlen_app. specialize (H2 E). specialize (H4 E). lia.
Qed.

Lemma typed_all f : typed_at f.
Proof.
  induction f as [|f IH]; intros t cur v rest HW HF Hb H; [discriminate H|].
  cbn [dec] in H. destruct t; cbn [wf_ty string_free] in HW, HF.
  - dinv. cbn [valid_gen format]. split; [reflexivity|]. intros _; change (zlen []) with 0; lia.
  - dinv. apply d_bool_ok in H0. subst cur. cbn [valid_gen format]. split; [reflexivity|]. intros _.
    rewrite !zlen_cons; change (zlen []) with 0; lia.
  - dinv. apply d_int_ok in H0; [|assumption]. destruct H0 as [-> Hi]. cbn [valid_gen format].
    split; [exact Hi|]. intros _. rewrite zlen_app. lia.
  - dinv. apply d_ranged_ok in H0; [|assumption]. destruct H0 as [-> Hi]. cbn [valid_gen format].
    split; [exact Hi|]. intros _. rewrite zlen_app. lia.
  - dinv. apply d_int_ok in H0; [|assumption]. destruct H0 as [-> Hi]. cbn [valid_gen format].
    split; [apply u64_bits; exact Hi|]. intros _. rewrite zlen_app, be8_len, int_format_length. cbn [ik_len]. lia.
  - dinv. apply d_int_ok in H0; [|assumption]. destruct H0 as [-> Hi]. 
    destruct (restrict_float_spec x lo hi) as (S1 & S2 & _).
    match goal with E : ext_float _ = _ |- _ => rename E into H1 end. unfold rf_try_from_f64 in H1.
    destruct (restrict_float x lo hi) as [y| | | |] eqn:Er; try discriminate H1. injection H1 as <-.
    pose proof (S2 _ eq_refl) as ->. apply proj1 in S1. specialize (S1 eq_refl).
    cbn [valid_gen format]. rewrite (u64_bits _ Hi). destruct S1 as [-> ->]. split; [reflexivity|].
    intros _. rewrite zlen_app, be8_len, int_format_length. cbn [ik_len]. lia.
  - dinv. apply d_st_ok in H0. destruct H0 as [-> Hne]. apply bytes_ok_app in Hb; destruct Hb as [Hb _].
    match goal with E : n_deserialize _ = _ |- _ => rename E into H1 end.
    rewrite n_deserialize_value in H1 by assumption. injection H1 as <-. cbn [valid_gen format].
    pose proof (nat_value_nonneg x). split; [lia|]. intros _. rewrite zlen_app. pose proof (natural_shortest x Hne). unfold byte in *; lia.
  - dinv. apply d_st_ok in H0. destruct H0 as [-> Hne]. apply bytes_ok_app in Hb; destruct Hb as [Hb _].
    match goal with E : z_deserialize _ = _ |- _ => rename E into H1 end.
    rewrite z_deserialize_value in H1 by assumption. injection H1 as <-. cbn [valid_gen format].
    split; [reflexivity|]. intros _. rewrite zlen_app. pose proof (integer_shortest x Hne). unfold byte in *; lia.
  - dinv. match goal with E : d_consume _ _ = _ |- _ => rename E into H1 end. apply d_consume_ok in H1. destruct H1 as [Hcur Hl]. cbn [valid_gen format].
    rewrite Hcur in Hb |- *. apply bytes_ok_app in Hb; destruct Hb as [Hb _].
    split; [apply forallb_byteb; exact Hb|]. intros _. rewrite zlen_app; lia.
  - dinv. match goal with E : d_consume _ _ = _ |- _ => rename E into H1 end. apply d_consume_ok in H1. destruct H1 as [Hcur Hl]. cbn [valid_gen format].
    rewrite Hcur in Hb |- *. apply bytes_ok_app in Hb; destruct Hb as [Hb _].
    destruct (utf8_lossy_valid _ Hb) as [Hv1 Hv2]. rewrite Hv1, (proj2 (forallb_byteb _) Hv2).
    split; [reflexivity|]. intros E. specialize (HF E). discriminate.
  - dinv. apply d_fixed_ok in H0. destruct H0 as [-> Hl]. apply bytes_ok_app in Hb; destruct Hb as [Hb _].
    cbn [valid_gen format]. rewrite (proj2 (forallb_byteb _) Hb), Hl, Z.eqb_refl. split; [reflexivity|].
    intros _. rewrite zlen_app; lia.
  - dinv. apply d_fixed_ok in H0. destruct H0 as [-> Hl]. apply bytes_ok_app in Hb; destruct Hb as [Hb _].
    cbn [valid_gen format]. rewrite (proj2 (forallb_byteb _) Hb), Hl, Z.eqb_refl. split; [reflexivity|].
    intros _. rewrite zlen_app; lia.
  - (* option *)
    apply d_bind_ok in H. destruct H as (tag & r & Ht & H). apply d_tag_ok in Ht; [|assumption].
    destruct Ht as [-> Ht]. apply bytes_ok_app in Hb; destruct Hb as [_ Hb].
    destruct Ht as [<-|[<-|[]]]; cbn [Z.eqb] in H; dinv.
    + cbn [valid_gen format]. split; [reflexivity|]. intros _. change (int_format U8 0) with [0]. rewrite zlen_app; lia.
    + change (Pos.eqb 255 255) with true in H. cbn iota in H. dinv. apply IH in H0; auto. destruct H0 as [H1 H2].
      cbn [valid_gen format]. split; [exact H1|]. intros E. change (int_format U8 255) with [255].
      rewrite zlen_app, !zlen_cons. specialize (H2 E). change (zlen []) with 0. lia.
  - (* nullable *)
    apply d_bind_ok in H. destruct H as (n & r & Hr & H). injection Hr as <- <-. destruct (negb _).
    + dinv. apply IH in H0; auto.
    + dinv. cbn [valid_gen format]. split; [reflexivity|]. intros _; change (zlen []) with 0; lia.
  - dinv. apply d_seq_steps in H0. destruct H0 as (new & Hn & Hs & _). cbn [app] in Hn; subst x.
    destruct (typed_steps f t IH HW HF _ _ _ Hs Hb) as [H1 H2]. cbn [valid_gen format]. auto.
  - apply andb_prop in HW; destruct HW as [Hn HW].
    dinv. apply d_lim_steps in H0; [|change (zlen (@nil val)) with 0; unfold sizeb in Hn; lia]. destruct H0 as (new & Hne & Hs & _ & Hl). cbn [app] in Hne; subst x.
    destruct (typed_steps f t IH HW HF _ _ _ Hs Hb) as [H1 H2]. cbn [valid_gen format]. rewrite H1. split; [lia|auto].
  - apply andb_prop in HW; destruct HW as [Hn HW].
    dinv. apply d_fix_steps in H0. destruct H0 as (new & Hne & Hs & Hl). cbn [app] in Hne; subst x.
    destruct (typed_steps f t IH HW HF _ _ _ Hs Hb) as [H1 H2]. cbn [valid_gen format]. rewrite H1. split; [lia|auto].
  - (* dynamic *)
    apply d_bind_ok in H. destruct H as (n & r & Hp & H). apply d_bind_ok in H. destruct H as (v' & r' & Hw & H). dinv.
    apply d_pref_ok in Hp; [|assumption]. destruct Hp as [-> Hp]. apply bytes_ok_app in Hb; destruct Hb as [_ Hb].
    apply d_window_ok in Hw. destruct Hw as (w & -> & Hl & _ & Hd). apply bytes_ok_app in Hb; destruct Hb as [Hb _].
    destruct (IH t w v' [] HW HF Hb Hd) as [H1 H2]. cbn [valid_gen format]. rewrite H1. change (zlen []) with 0 in H2.
    split; [destruct fits; cbn [implb]; [specialize (H2 eq_refl); lia|reflexivity]|]. intros E. specialize (H2 E).
    unfold pref_format. rewrite !zlen_app. unfold zlen at 1 5. rewrite !big_endian_length. lia.
  - (* vpadded *)
    apply andb_prop in HW; destruct HW as [Hn HW].
    apply d_bind_ok in H. destruct H as (rem & r & Hr & H). injection Hr as <- <-.
    apply d_bind_ok in H. destruct H as (u1 & r1 & Hr1 & H). apply d_lift_ok in Hr1. destruct Hr1 as [_ ->].
    apply d_bind_ok in H. destruct H as (win & r2 & Hr2 & H). apply d_lift_ok in Hr2. destruct Hr2 as [_ ->].
    apply d_bind_ok in H. destruct H as (v' & r' & Hw & H). dinv.
    apply d_window_ok in Hw. destruct Hw as (w & -> & Hl & _ & Hd). apply bytes_ok_app in Hb; destruct Hb as [Hb _].
    destruct (IH t w v' [] HW HF Hb Hd) as [H1 H2]. cbn [valid_gen format]. split; [exact H1|]. intros E.
    specialize (H2 E). change (zlen []) with 0 in H2. rewrite zlen_app. lia.
  - (* padded *)
    apply andb_prop in HW; destruct HW as [Hn HW].
    apply d_bind_ok in H. destruct H as (v' & r & Hv & H). apply d_bind_ok in H. destruct H as (pd & r' & Hp & H).
    apply d_consume_ok in Hp. destruct Hp as [-> Hp]. destruct (_ && _); [discriminate|]. dinv.
    destruct (IH t cur v' _ HW HF Hb Hv) as [H1 H2]. cbn [valid_gen format]. split; [exact H1|].
    intros E. specialize (H2 E). rewrite zlen_app in *. rewrite zlen_repeat. unfold sizeb in Hn. lia.
  - dinv. destruct (IH t cur x _ HW HF Hb H0) as [H1 H2]. cbn [valid_gen format]. auto.
  - (* named *)
    destruct (nth_error D i) as [[ts|k tags|k alts]|] eqn:Ei; [| | |discriminate H].
    + dinv. cbn [valid_gen format]. rewrite Ei. apply (typed_fields f ts IH) in H0; [exact H0| | |exact Hb].
      * apply (wf_struct D i ts HD Ei).
      * intros E. apply (field_types_struct D _ i ts (HS E) Ei).
    + apply d_bind_ok in H. destruct H as (tag & r & Ht & H). apply d_tag_ok in Ht; [|assumption].
      destruct Ht as [-> Ht]. destruct (find_tag_in _ _ Ht) as (ix & E1 & E2). rewrite E1 in H. dinv.
      cbn [valid_gen format]; rewrite Ei. split; [apply Nat.ltb_lt; apply nth_error_Some; congruence|]. intros _. rewrite zlen_app, !int_format_length. lia.
    + apply d_bind_ok in H. destruct H as (tag & r & Ht & H). apply d_tag_ok in Ht; [|assumption].
      destruct Ht as [-> Ht]. destruct (find_tag_in _ _ Ht) as (ix & E1 & E2). rewrite E1 in H.
      rewrite nth_error_map in E2. destruct (nth_error alts ix) as [[tg ts]|] eqn:Ea; [|discriminate]. dinv.
      cbn [valid_gen format]; rewrite Ei. cbv zeta. rewrite Ea, (nth_error_nth _ _ (0, []) Ea). cbn [fst snd].
      apply bytes_ok_app in Hb; destruct Hb as [_ Hb]. apply (typed_fields f ts IH) in H0; [| | |exact Hb].
      * destruct H0 as [H1 H2]. split; [exact H1|]. intros E. specialize (H2 E). rewrite !zlen_app, !int_format_length. lia.
      * apply (wf_data D i k alts ix tg ts HD Ei Ea).
      * intros E. apply (field_types_data D _ i k alts ix tg ts (HS E) Ei Ea).
Qed.
End Typed.
