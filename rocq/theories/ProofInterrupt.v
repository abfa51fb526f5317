(** Encodings that are interrupted by a panic (C95). *)
From Coq Require Import ZifyBool.
From Verif Require Import Base ModelTarget ModelInt ModelZarith ModelSchema ModelInterrupt SpecTarget SpecCodec SpecInterrupt
  BaseLemmas ProofMeta ProofEstimate ProofCodec ProofEnc ProofEncBytes ProofEncValid ProofCodecProps ProofTarget.

(** ** The two models agree *)
Section Agree.
Variables (cf : config) (D : list def) (kf : nat).
Local Notation m := (cf_mode cf).
Definition forget {U} (x : wres Z * U) : wres (Z * U) := rmap (fun n => (n, snd x)) (fst x).
Definition agrees {U} (s : swriter U) (w : writer U) : Prop := forall u, w u = forget (s u).

Lemma ag_bind {U A} (r : wres A) (f : A -> swriter U) (g : A -> writer U) :
  (forall a, agrees (f a) (g a)) -> agrees (s_bind r f) (fun u => rbind r (fun a => g a u)).
Proof. intros H u. destruct r; cbn [s_bind rbind]; try reflexivity. apply H. Qed.
Lemma ag_add {U} (a b : swriter U) (a' b' : writer U) : agrees a a' -> agrees b b' -> agrees (s_add cf a b) (w_add cf a' b').
Proof.
  intros Ha Hb u. unfold s_add, w_add. rewrite Ha. destruct (a u) as [[n| | | |] u1]; unfold forget, rmap; cbn [fst snd rbind]; try reflexivity.
  rewrite Hb. destruct (b u1) as [[k| | | |] u2]; unfold forget, rmap; cbn [fst snd rbind]; reflexivity.
Qed.
Lemma ag_call {U} (f : U -> Z * U) : agrees (s_call f) (w_call f).
Proof. intros u. unfold s_call, w_call, forget, rmap. cbn [fst snd rbind]. destruct (f u); reflexivity. Qed.
Lemma ag_bad {U} : agrees (U:=U) s_bad w_bad. Proof. intros u; reflexivity. Qed.
Lemma ag_sum {U} (l : list (swriter U)) l' : Forall2 agrees l l' -> forall acc, agrees (s_sum cf acc l) (w_sum cf acc l').
Proof.
  induction 1 as [|a b l l' H _ IH]; intros acc u; cbn [s_sum w_sum]; [reflexivity|].
  rewrite H. destruct (a u) as [[n| | | |] u1]; unfold forget, rmap; cbn [fst snd rbind]; try reflexivity.
  exact (ag_bind (uadd m acc n) (fun acc => s_sum cf acc l) (fun acc => w_sum cf acc l') IH u1).
Qed.
Lemma ag_int {U} (T : target U) k z : agrees (s_int cf T k z) (w_int cf T k z).
Proof. apply ag_add; apply ag_call. Qed.
Lemma ag_ranged {U} (T : target U) k lo hi z : agrees (s_ranged cf T k lo hi z) (w_ranged cf T k lo hi z).
Proof. apply (ag_bind _ _ (fun x u => _)). intros x. apply ag_add; [apply ag_int|apply ag_call]. Qed.
Lemma ag_pref {U} (T : target U) s lp : agrees (s_pref cf T s lp) (w_pref cf T s lp).
Proof. destruct s; try apply ag_int. apply ag_ranged. Qed.
Lemma ag_fst {U} (s : swriter U) w u : agrees s w -> rmap fst (w u) = fst (s u).
Proof. intros H. rewrite H. destruct (s u) as [[| | | |] ?]; reflexivity. Qed.

Lemma ag_vals v : forall U (T : target U) t, agrees (write_st cf D kf v U T t) (write_to cf D kf v U T t).
Proof.
  induction v as [| | | | |v IHv|vs IHvs|vs IHvs|ix vs IHvs|v IHv] using val_ind'; intros U T t; destruct t;
    cbn [write_st write_to]; try apply ag_bad; try apply ag_call; try apply ag_int; try apply ag_ranged; try (apply ag_add; apply ag_call); try apply IHv;
    try (destruct (nth_error D i) as [[| |]|]; apply ag_bad).
  - apply (ag_bind _ _ (fun x u => _)). intros x. apply ag_add; apply ag_call.
  - apply (ag_bind _ _ (fun x u => _)). intros x. apply ag_add; apply ag_call.
  - apply ag_add; [apply ag_add; [apply ag_call|apply IHv]|apply ag_call].
  - apply ag_add; [apply IHv|apply ag_call].
  - apply ag_add; [|apply ag_call]. apply ag_sum. induction IHvs as [|v vs Hv _ IH]; cbn [map]; constructor; auto.
  - apply ag_add; [|apply ag_call]. apply ag_sum. induction IHvs as [|v vs Hv _ IH]; cbn [map]; constructor; auto.
  - apply ag_add; [|apply ag_call]. apply ag_sum. induction IHvs as [|v vs Hv _ IH]; cbn [map]; constructor; auto.
  - destruct (nth_error D i) as [[ts| |]|]; try apply ag_bad.
    apply ag_add; [|apply ag_call]. apply ag_sum. apply map2_forall2; [apply ag_bad|].
    eapply Forall_impl; [|exact IHvs]. intros v Hv t'. apply Hv.
  - destruct (nth_error D i) as [[ts|k tags|k alts]|]; try apply ag_bad.
    + destruct vs; [|apply ag_bad]. destruct (nth_error tags ix); [apply ag_int|apply ag_bad].
    + destruct (nth_error alts ix) as [[tag ts]|]; [|apply ag_bad].
      apply ag_add; [|apply ag_call]. apply ag_add; [apply ag_int|].
      apply ag_add; [|apply ag_call]. apply ag_sum. apply map2_forall2; [apply ag_bad|].
      eapply Forall_impl; [|exact IHvs]. intros v Hv t'. apply Hv.
  - rewrite (ag_fst _ _ tt (IHv unit tg_counter t)). apply (ag_bind _ _ (fun x u => _)). intros l.
    apply (ag_bind _ _ (fun x u => _)). intros _. destruct (pref_try_from cf s l) as [lp|]; [|intros u; reflexivity].
    rewrite (ag_fst _ _ tt (ag_pref tg_counter s lp)). apply (ag_bind _ _ (fun x u => _)). intros ll.
    apply (ag_bind _ _ (fun x u => _)). intros total u.
    exact (ag_add _ _ _ _ (ag_add _ _ _ _ (ag_pref T s lp) (IHv U T t)) (ag_call (tg_resolve_zero T)) (tg_anticipate T total u)).
  - apply ag_add; [|apply ag_call]. apply ag_add; [apply IHv|apply ag_call].
Qed.
End Agree.

(** ** [written] *)
Section Written.
Variables (c : bool) (D : list def).

Lemma and_then_prefix a b x y : (exists r, x = fst a ++ r) -> (snd a = true -> fst a = x) -> (exists r, y = fst b ++ r) ->
  exists r, x ++ y = fst (and_then a b) ++ r.
Proof.
  intros [r ->] Ha [r2 ->]. unfold and_then. destruct (snd a).
  - specialize (Ha eq_refl). exists r2. cbn [fst]. rewrite <- Ha. rewrite app_assoc. reflexivity.
  - exists (r ++ fst b ++ r2). rewrite <- app_assoc. reflexivity.
Qed.
Lemma and_then_whole a b x y : (snd a = true -> fst a = x) -> (snd b = true -> fst b = y) ->
  snd (and_then a b) = true -> fst (and_then a b) = x ++ y.
Proof. intros Ha Hb. unfold and_then. destruct (snd a) eqn:E; cbn [snd fst]; [|congruence]. intros H. rewrite Ha, Hb; auto. Qed.
Lemma and_then_done a b : snd (and_then a b) = snd a && snd b.
Proof. unfold and_then. destruct (snd a) eqn:E; [reflexivity|exact E]. Qed.

Definition good (x : list byte * bool) (bs : list byte) (ok : bool) : Prop :=
  (exists r, bs = fst x ++ r) /\ (snd x = true -> fst x = bs) /\ snd x = ok.
Lemma good_then a b x y o1 o2 : good a x o1 -> good b y o2 -> good (and_then a b) (x ++ y) (o1 && o2).
Proof.
  intros (A1 & A2 & A3) (B1 & B2 & B3). split; [|split].
  - apply and_then_prefix; assumption.
  - apply and_then_whole; assumption.
  - rewrite and_then_done, A3, B3. reflexivity.
Qed.
Lemma good_put bs : good (bs, true) bs true.
Proof. split; [exists []; symmetry; apply app_nil_r|]. split; reflexivity. Qed.
Lemma good_ok a x o o' : good a x o -> o = o' -> good a x o'. Proof. intros H <-. exact H. Qed.
Lemma good_none bs : good ([], false) bs false.
Proof. split; [exists bs; reflexivity|]. split; [discriminate|reflexivity]. Qed.

Definition good_val (v : val) : Prop := forall t, well_typed D v t = true -> good (written c D v t) (format D v t) (valid D v t).

Lemma good_elems vs t : Forall good_val vs -> forallb (fun v => well_typed D v t) vs = true ->
  good (in_turn (map (fun v => written c D v t) vs)) (concat (map (fun v => format D v t) vs)) (forallb (fun v => valid D v t) vs).
Proof.
  induction 1 as [|v vs Hv _ IH]; intros V; [apply good_put|]. cbn [forallb] in V. apply andb_prop in V; destruct V as [V1 V2].
  cbn [map concat forallb]. change (in_turn (?x :: ?l)) with (and_then x (in_turn l)). apply good_then; auto.
Qed.
Lemma good_fields vs : Forall good_val vs -> forall ts, all2 (well_typed D) vs ts = true ->
  good (in_turn (map2 (written c D) ([], true) vs ts)) (concat2 (format D) vs ts) (all2 (valid D) vs ts).
Proof.
  induction 1 as [|v vs Hv _ IH]; intros [|t ts] V; try discriminate V; [apply good_put|].
  cbn [all2] in V. apply andb_prop in V; destruct V as [V1 V2].
  cbn [map2 all2]. rewrite concat2_cons. change (in_turn (?x :: ?l)) with (and_then x (in_turn l)). apply good_then; auto.
Qed.

Lemma good_vals v : good_val v.
Proof.
  induction v as [| | | | |v IHv|vs IHvs|vs IHvs|ix vs IHvs|v IHv] using val_ind'; intros t V; destruct t; try discriminate V;
    unfold well_typed in V; unfold valid; cbn [written format valid_gen] in *;
    try (apply (good_ok _ _ true); [apply good_put|symmetry; exact V]);
    try (destruct (nth_error D i) as [[?|?|?]|] eqn:Ei; discriminate V).
  - change (255 :: format D v t) with ([255] ++ format D v t). change (valid_gen true D v t) with (true && valid D v t).
    apply good_then; [apply good_put|apply IHv; exact V].
  - apply IHv; exact V.
  - apply good_elems; assumption.
  - apply andb_prop in V; destruct V as [V V2]. rewrite V2, andb_true_r. apply good_elems; assumption.
  - apply andb_prop in V; destruct V as [V V2]. rewrite V2, andb_true_r. apply good_elems; assumption.
  - destruct (nth_error D i) as [[ts|?|?]|] eqn:Ei; try discriminate V. apply good_fields; assumption.
  - destruct (nth_error D i) as [[ts|k tags|k alts]|] eqn:Ei; try discriminate V.
    + apply (good_ok _ _ true); [apply good_put|symmetry; exact V].
    + destruct (nth_error alts ix) as [[tag ts]|] eqn:Ea; [|discriminate V]. rewrite (nth_error_nth _ _ _ Ea). cbn [fst snd].
      match goal with |- good _ _ ?b => change b with (true && b) end. apply good_then; [apply good_put|apply good_fields; assumption].
  - apply andb_prop in V; destruct V as [V _]. specialize (IHv t V). cbn [implb]. fold (valid D v t).
    destruct (pref_max s <? zlen (format D v t)) eqn:E.
    + replace (zlen (format D v t) <=? pref_max s) with false by lia. rewrite andb_false_r. apply good_none.
    + replace (zlen (format D v t) <=? pref_max s) with true by lia. rewrite andb_true_r.
      destruct (c && negb (valid D v t)) eqn:Ec.
      * destruct (valid D v t); [destruct c; discriminate Ec|]. apply good_none.
      * change (valid D v t) with (true && valid D v t) at 1. apply good_then; [apply good_put|exact IHv].
  - apply IHv; exact V.
  - rewrite <- (andb_true_r (valid_gen true D v t)). apply good_then; [apply IHv; exact V|apply good_put].
  - apply IHv; exact V.
Qed.
End Written.

(** ** What is written *)
Section Outcome.
Variables (cf : config) (D : list def) (kf : nat).
Hypothesis HD : wf_defs D = true.
Local Notation m := (cf_mode cf).
Local Notation c := (negb (cf_est_override cf)).

Section One.
Context {U : Type} (T : target U) (R : U -> list byte -> Prop) (HL : lawful T R).
Definition outcome (s : swriter U) (x : list byte * bool) : Prop := forall u pre, R u pre ->
  match s u with
  | (ROk n, u') => snd x = true /\ n = zlen (fst x) /\ R u' (pre ++ fst x)
  | (RPanic, u') => snd x = false /\ R u' (pre ++ fst x)
  | (RDiv, _) => cf_est_override cf = true
  | _ => False
  end.
Lemma out_add a b x y : outcome a x -> outcome b y -> zlen (fst x) + zlen (fst y) <= isize_max ->
  outcome (s_add cf a b) (and_then x y).
Proof.
  intros Ha Hb L u pre Hu. specialize (Ha u pre Hu). unfold s_add, and_then. destruct (a u) as [[n| | | |] u1]; try contradiction; auto.
  - destruct Ha as (-> & -> & H1). specialize (Hb u1 _ H1). destruct (b u1) as [[k| | | |] u2]; try contradiction; auto.
    + destruct Hb as (E & -> & H2). assert (isize_max < usize_mod) by reflexivity.
      pose proof (zlen_nonneg (fst x)). pose proof (zlen_nonneg (fst y)).
      rewrite uadd_ok by lia. cbn [fst snd]. rewrite zlen_app, app_assoc. auto.
    + cbn [fst snd]. rewrite app_assoc. exact Hb.
  - destruct Ha as (E & H1). rewrite E. auto.
Qed.
Lemma out_resolve : outcome (s_call (tg_resolve_zero T)) ([], true).
Proof.
  intros u pre Hu. cbn [s_call fst snd]. destruct (law_resolve_zero _ _ HL u pre Hu) as [E H].
  rewrite app_nil_r. auto.
Qed.
Lemma and_then_nil x : and_then x ([], true) = x.
Proof. destruct x as [bs []]; unfold and_then; cbn [fst snd]; rewrite ?app_nil_r; reflexivity. Qed.
Lemma out_end a x : outcome a x -> zlen (fst x) <= isize_max -> outcome (s_add cf a (s_call (tg_resolve_zero T))) x.
Proof. intros H L. rewrite <- (and_then_nil x). apply out_add; [exact H|apply out_resolve|]. cbn [fst]. change (zlen []) with 0. lia. Qed.
Lemma out_macro a x : outcome a x -> zlen (fst x) <= isize_max -> outcome (s_add cf a (s_call (tg_resolve_macro T))) x.
Proof.
  intros H L. rewrite <- (and_then_nil x). apply out_add; [exact H| |cbn [fst]; change (zlen []) with 0; lia].
  intros u pre Hu. cbn [s_call tg_resolve_macro fst snd]. rewrite app_nil_r. split; [reflexivity|]. split; [reflexivity|].
  apply (law_resolve _ _ HL); exact Hu.
Qed.
Lemma out_writes s w bs : agrees s w -> (exists r, sim R w r /\ puts cf r bs) -> outcome s (bs, true).
Proof.
  intros Ha (r & Hs & Hp) u pre Hu. specialize (Hs u pre Hu). rewrite Ha in Hs. destruct Hp as [->|[E ->]].
  - destruct Hs as (u' & H1 & H2). destruct (s u) as [[n| | | |] u1]; unfold forget, rmap in H1; cbn [fst snd rbind] in H1; try discriminate H1.
    injection H1 as -> ->. auto.
  - destruct (s u) as [[n| | | |] u1]; unfold forget, rmap in Hs; cbn [fst snd rbind] in Hs; try discriminate Hs. exact E.
Qed.
Lemma out_one b : outcome (s_call (tg_push_one T b)) ([b], true).
Proof.
  apply (out_writes _ (w_call (tg_push_one T b))); [apply ag_call|]. exists (r_put [b]). split; [apply sim_one; exact HL|apply puts_put].
Qed.
Lemma out_many bs : outcome (s_call (tg_push_many T bs)) (bs, true).
Proof.
  apply (out_writes _ (w_call (tg_push_many T bs))); [apply ag_call|]. exists (r_put bs). split; [apply sim_many; exact HL|apply puts_put].
Qed.
Lemma out_int k z : outcome (s_int cf T k z) (int_format k z, true).
Proof.
  apply (out_writes _ (w_int cf T k z)); [apply ag_int|]. eexists. split; [apply sim_int; exact HL|eapply puts_int; eassumption].
Qed.
Lemma out_pref s n : 0 <= n <= pref_max s -> outcome (s_pref cf T s n) (pref_format s n, true).
Proof.
  intros Hn. apply (out_writes _ (w_pref cf T s n)); [apply ag_pref|]. eexists. split; [apply sim_pref; exact HL|]. eapply puts_pref; eassumption.
Qed.
Lemma out_sum l xs : Forall2 outcome l xs -> forall acc, 0 <= acc -> acc + zlen (fst (in_turn xs)) <= isize_max ->
  forall u pre, R u pre ->
  match s_sum cf acc l u with
  | (ROk n, u') => snd (in_turn xs) = true /\ n = acc + zlen (fst (in_turn xs)) /\ R u' (pre ++ fst (in_turn xs))
  | (RPanic, u') => snd (in_turn xs) = false /\ R u' (pre ++ fst (in_turn xs))
  | (RDiv, _) => cf_est_override cf = true
  | _ => False
  end.
Proof.
  induction 1 as [|s x l xs Hs _ IH]; intros acc Ha L u pre Hu.
  - cbn [s_sum in_turn fold_right fst snd]. change (zlen []) with 0. rewrite app_nil_r. split; [reflexivity|]. split; [lia|exact Hu].
  - change (in_turn (x :: xs)) with (and_then x (in_turn xs)) in *. cbn [s_sum]. specialize (Hs u pre Hu).
    unfold and_then in *. destruct (s u) as [[n| | | |] u1]; try contradiction; auto.
    + destruct Hs as (E & -> & H1). rewrite E in *. cbn [fst snd] in *. rewrite zlen_app in *.
      pose proof (zlen_nonneg (fst x)). pose proof (zlen_nonneg (fst (in_turn xs))). assert (isize_max < usize_mod) by reflexivity.
      rewrite uadd_ok by lia. cbn [s_bind]. specialize (IH (acc + zlen (fst x)) ltac:(lia) ltac:(lia) u1 _ H1).
      destruct (s_sum cf (acc + zlen (fst x)) l u1) as [[k| | | |] u2]; try contradiction; auto.
      * destruct IH as (E2 & -> & HQ). rewrite app_assoc. split; [exact E2|]. split; [lia|exact HQ].
      * rewrite app_assoc. exact IH.
    + destruct Hs as (E & H1). rewrite E. auto.
Qed.
Lemma out_sum0 l xs : Forall2 outcome l xs -> zlen (fst (in_turn xs)) <= isize_max -> outcome (s_sum cf 0 l) (in_turn xs).
Proof. intros H L u pre Hu. exact (out_sum l xs H 0 ltac:(lia) L u pre Hu). Qed.
End One.

Definition out_val (v : val) : Prop := forall U (T : target U) R, lawful T R -> forall t, wf_ty D t = true -> well_typed D v t = true ->
  zlen (format D v t) <= isize_max -> (cf_est_override cf = true -> zeros D v t = 0) ->
  outcome R (write_st cf D kf v U T t) (written c D v t).

Lemma good_len x bs ok : good x bs ok -> zlen (fst x) <= zlen bs.
Proof. intros ((r & ->) & _). rewrite zlen_app. pose proof (zlen_nonneg r). lia. Qed.

Lemma out_valid v U (T : target U) R t : lawful T R -> wf_ty D t = true -> valid D v t = true ->
  zlen (format D v t) <= isize_max -> (cf_est_override cf = true -> zeros D v t = 0) ->
  outcome R (write_st cf D kf v U T t) (format D v t, true).
Proof.
  intros HL W V L Z0. apply (out_writes R _ (write_to cf D kf v U T t)); [apply ag_vals|].
  exists (wr cf D kf v t). split; [apply sim_all_vals; exact HL|]. apply puts_wr; assumption.
Qed.

Lemma out_fields vs U (T : target U) R : lawful T R -> Forall out_val vs -> forall ts, forallb (wf_ty D) ts = true -> all2 (well_typed D) vs ts = true ->
  zlen (concat2 (format D) vs ts) <= isize_max -> (cf_est_override cf = true -> sum2 (zeros D) vs ts = 0) ->
  outcome R (s_sum cf 0 (map2 (fun v t => write_st cf D kf v U T t) s_bad vs ts)) (in_turn (map2 (written c D) ([], true) vs ts)).
Proof.
  intros HL HF ts W V L Z0. apply out_sum0.
  - revert ts W V L Z0. induction HF as [|v vs Hv _ IH]; intros [|t ts] W V L Z0; try discriminate V; cbn [map2]; constructor.
    + cbn [forallb] in W. apply andb_prop in W; destruct W as [W1 W2].
      cbn [all2] in V. apply andb_prop in V; destruct V as [V1 V2].
      rewrite concat2_cons, zlen_app in L. rewrite sum2_cons in Z0.
      pose proof (zlen_nonneg (concat2 (format D) vs ts)). pose proof (zeros_nonneg D v t). pose proof (sum2_nonneg D vs ts).
      apply Hv; auto; [lia|intros HO; specialize (Z0 HO); lia].
    + cbn [forallb] in W. apply andb_prop in W; destruct W as [W1 W2].
      cbn [all2] in V. apply andb_prop in V; destruct V as [V1 V2].
      rewrite concat2_cons, zlen_app in L. rewrite sum2_cons in Z0.
      pose proof (zlen_nonneg (format D v t)). pose proof (zeros_nonneg D v t). pose proof (sum2_nonneg D vs ts).
      apply IH; auto; [lia|intros HO; specialize (Z0 HO); lia].
  - assert (G : Forall (good_val c D) vs) by (apply Forall_forall; intros; apply good_vals).
    pose proof (good_len _ _ _ (good_fields c D vs G ts V)). lia.
Qed.
Lemma out_elems vs t U (T : target U) R : lawful T R -> Forall out_val vs -> wf_ty D t = true -> forallb (fun v => well_typed D v t) vs = true ->
  zlen (concat (map (fun v => format D v t) vs)) <= isize_max ->
  (cf_est_override cf = true -> fold_right Z.add 0 (map (fun v => zeros D v t) vs) = 0) ->
  outcome R (s_sum cf 0 (map (fun v => write_st cf D kf v U T t) vs)) (in_turn (map (fun v => written c D v t) vs)).
Proof.
  intros HL HF W V L Z0. apply out_sum0.
  - induction HF as [|v vs Hv _ IH]; cbn [map]; constructor.
    + cbn [forallb] in V. apply andb_prop in V; destruct V as [V1 V2]. cbn [map concat fold_right] in L, Z0. rewrite zlen_app in L.
      pose proof (zlen_nonneg (concat (map (fun v => format D v t) vs))). pose proof (zeros_nonneg D v t). pose proof (fold_zeros_nonneg D vs t).
      apply Hv; auto; [lia|intros HO; specialize (Z0 HO); lia].
    + cbn [forallb] in V. apply andb_prop in V; destruct V as [V1 V2]. cbn [map concat fold_right] in L, Z0. rewrite zlen_app in L.
      pose proof (zlen_nonneg (format D v t)). pose proof (zeros_nonneg D v t). pose proof (fold_zeros_nonneg D vs t).
      apply IH; auto; [lia|intros HO; specialize (Z0 HO); lia].
  - assert (G : Forall (good_val c D) vs) by (apply Forall_forall; intros; apply good_vals).
    pose proof (good_len _ _ _ (good_elems c D vs t G V)). lia.
Qed.

Lemma out_vals v : out_val v.
Proof.
  induction v as [| | | | |v IHv|vs IHvs|vs IHvs|ix vs IHvs|v IHv] using val_ind'; intros U T R HL t W V L Z0; destruct t; try discriminate V;
    try (apply out_valid; [assumption|assumption|exact V|assumption|assumption]);
    unfold well_typed in V; cbn [valid_gen] in V;
    try (destruct (nth_error D i) as [[?|?|?]|] eqn:Ei; discriminate V);
    cbn [wf_ty] in W.
  - pose proof (good_len _ _ _ (good_vals c D (VSome v) (TOption t) V)) as GL.
    cbn [written write_st format zeros] in *. apply out_macro; [exact HL| |lia].
    apply out_add; [apply out_one; exact HL| |].
    + rewrite zlen_cons in L. apply IHv; auto. lia.
    + rewrite zlen_cons in L. pose proof (good_len _ _ _ (good_vals c D v t V)). cbn [fst]. change (zlen [255]) with 1. lia.
  - pose proof (good_len _ _ _ (good_vals c D v t V)) as GL.
    cbn [written write_st format zeros] in *. apply out_end; [exact HL|apply IHv; auto|lia].
  - pose proof (good_len _ _ _ (good_vals c D (VSeq vs) (TSeq t) V)) as GL.
    cbn [written write_st format zeros] in *. apply out_end; [exact HL|apply out_elems; auto|lia].
  - pose proof (good_len _ _ _ (good_vals c D (VSeq vs) (TLim n t) V)) as GL.
    apply andb_prop in W; destruct W as [W1 W]. apply andb_prop in V; destruct V as [V V2].
    cbn [written write_st format zeros] in *. apply out_end; [exact HL|apply out_elems; auto|lia].
  - pose proof (good_len _ _ _ (good_vals c D (VSeq vs) (TFix n t) V)) as GL.
    apply andb_prop in W; destruct W as [W1 W]. apply andb_prop in V; destruct V as [V V2].
    cbn [written write_st format zeros] in *. apply out_end; [exact HL|apply out_elems; auto|lia].
  - assert (V' : well_typed D (VStruct vs) (TNamed i) = true) by exact V.
    pose proof (good_len _ _ _ (good_vals c D (VStruct vs) (TNamed i) V')) as GL.
    cbn [written write_st format zeros] in *. destruct (nth_error D i) as [[ts|?|?]|] eqn:Ei; try discriminate V.
    apply out_end; [exact HL|apply out_fields; auto; apply (wf_struct D i ts HD Ei)|lia].
  - assert (V' : well_typed D (VEnum ix vs) (TNamed i) = true) by exact V.
    pose proof (good_len _ _ _ (good_vals c D (VEnum ix vs) (TNamed i) V')) as GL.
    destruct (nth_error D i) as [[ts|k tags|k alts]|] eqn:Ei; try discriminate V.
    + destruct vs; [|discriminate V]. replace (written c D (VEnum ix []) (TNamed i)) with (format D (VEnum ix []) (TNamed i), true)
        by (cbn [written]; rewrite Ei; reflexivity).
      apply out_valid; auto.
    + cbn [written write_st format zeros] in *. rewrite Ei in *. destruct (nth_error alts ix) as [[tag ts]|] eqn:Ea; [|discriminate V].
      rewrite (nth_error_nth _ _ _ Ea) in *. cbn [fst snd] in *. rewrite zlen_app in L.
      assert (G : Forall (good_val c D) vs) by (apply Forall_forall; intros; apply good_vals).
      pose proof (good_len _ _ _ (good_fields c D vs G ts V)) as GL2. pose proof (zlen_nonneg (int_format k tag)).
      pose proof (zlen_nonneg (concat2 (format D) vs ts)).
      apply out_end; [exact HL| |rewrite zlen_app in GL; lia]. apply out_add; [apply out_int; exact HL| |cbn [fst]; lia].
      apply out_end; [exact HL| |lia]. apply out_fields; auto; [|lia]. apply (wf_data D i k alts ix tag ts HD Ei Ea).
  - apply andb_prop in V; destruct V as [V _]. cbn [written write_st format zeros] in *. rewrite zlen_app, pref_format_len in L.
    assert (0 <= pref_len s) by (destruct s; cbn; lia). pose proof (zlen_nonneg (format D v t)).
    pose proof (fate_wr cf D kf HD v t W V ltac:(lia) Z0) as HF.
    assert (HC : fst (write_st cf D kf v unit tg_counter t tt) = rmap fst (wr cf D kf v t)).
    { rewrite <- (count_wr cf D kf v t (sim_all_vals cf D kf v)). symmetry. apply ag_fst, ag_vals. }
    assert (HX : forall A (r : wres A) f x, (r = RDiv /\ cf_est_override cf = true) \/ (r = RPanic /\ x = ([], false)) \/
              (exists a, r = ROk a /\ outcome R (f a) x) -> outcome R (s_bind r f) x).
    { intros A r f x [[-> E]|[[-> ->]|(a & -> & E)]] u0 pre0 Hu0; cbn [s_bind fst snd]; [exact E|rewrite app_nil_r; auto|exact (E u0 pre0 Hu0)]. }
    assert (HP : 0 <= zlen (format D v t) <= pref_max s -> cf_est_override cf = true \/ valid D v t = true ->
      outcome R (s_bind (if cf_est_override cf then ROk (pref_len s) else fst (s_pref cf tg_counter s (zlen (format D v t)) tt)) (fun ll =>
          s_bind (uadd m (zlen (format D v t)) ll) (fun total u =>
            s_add cf (s_add cf (s_pref cf T s (zlen (format D v t))) (write_st cf D kf v U T t)) (s_call (tg_resolve_zero T)) (tg_anticipate T total u))))
        (and_then (pref_format s (zlen (format D v t)), true) (written c D v t))).
    { intros Hp _. apply HX. right; right. exists (pref_len s). split.
      - destruct (cf_est_override cf) eqn:EO; [reflexivity|].
        pose proof (out_pref tg_counter (fun _ _ => True) lawful_counter s _ Hp tt [] Logic.I) as H1.
        destruct (s_pref cf tg_counter s (zlen (format D v t)) tt) as [[n| | | |] u1]; try contradiction; cbn [fst snd] in *.
        + destruct H1 as (_ & -> & _). rewrite pref_format_len. reflexivity.
        + destruct H1. discriminate.
        + congruence.
      - apply HX. right; right. exists (zlen (format D v t) + pref_len s). assert (isize_max < usize_mod - 8) by reflexivity.
        split; [apply uadd_ok; lia|]. intros u pre Hu.
        assert (GL : zlen (fst (written c D v t)) <= zlen (format D v t)) by exact (good_len _ _ _ (good_vals c D v t V)).
        assert (GL2 : zlen (fst (pref_format s (zlen (format D v t)), true)) = pref_len s) by apply pref_format_len.
        refine (out_end T R HL _ _ (out_add R _ _ _ _ (out_pref T R HL s _ Hp) (IHv U T R HL t W V _ Z0) _) _ _ pre _); [lia|lia| |].
        + unfold and_then. cbn [fst snd]. rewrite zlen_app, pref_format_len. lia.
        + apply (law_anticipate _ _ HL); exact Hu. }
    assert (HA : zlen (format D v t) <= isize_max) by lia.
    apply HX. destruct (cf_est_override cf) eqn:EO.
    + assert (HN : estimate cf D kf v t = RDiv \/ estimate cf D kf v t <> RDiv)
        by (destruct (estimate cf D kf v t); auto; right; discriminate).
      destruct HN as [HN|HN]; [left; auto|]. right; right. exists (zlen (format D v t)). split.
      { rewrite (estimate_format cf D kf HD v t W V HA HN). f_equal. specialize (Z0 eq_refl). lia. }
      apply HX. unfold rassert. destruct (pref_max s <? zlen (format D v t)) eqn:E.
      * replace (zlen (format D v t) <=? pref_max s) with false by lia. right; left; auto.
      * replace (zlen (format D v t) <=? pref_max s) with true by lia. right; right. exists tt. split; [reflexivity|].
        rewrite (pref_len_ok cf D HD) by lia. cbn [negb andb]. apply HP; auto; lia.
    + rewrite HC. cbn [negb andb] in *. destruct (valid D v t) eqn:EV; cbn [fate] in HF.
      * right; right. exists (zlen (format D v t)). split; [destruct HF as [->|[E _]]; [reflexivity|congruence]|].
        apply HX. unfold rassert. destruct (pref_max s <? zlen (format D v t)) eqn:E.
        -- replace (zlen (format D v t) <=? pref_max s) with false by lia. right; left; auto.
        -- replace (zlen (format D v t) <=? pref_max s) with true by lia. right; right. exists tt. split; [reflexivity|].
           rewrite (pref_len_ok cf D HD) by lia. apply HP; auto; lia.
      * right; left. split; [destruct HF as [->|[E _]]; [reflexivity|congruence]|]. destruct (pref_max s <? _); reflexivity.
  - cbn [written write_st format zeros] in *. apply andb_prop in W; destruct W as [W1 W]. apply IHv; auto.
  - cbn [written write_st format zeros] in *. apply andb_prop in W; destruct W as [W1 W]. rewrite zlen_app in L.
    pose proof (good_len _ _ _ (good_vals c D v t V)) as GL. pose proof (zlen_nonneg (repeat 0 (Z.to_nat n))).
    apply out_end; [exact HL| |].
    + apply out_add; [apply IHv; auto; unfold byte in *; lia|apply out_many; exact HL|cbn [fst]; unfold byte in *; lia].
    + unfold and_then. destruct (snd (written c D v t)); cbn [fst]; rewrite ?zlen_app; unfold byte in *; lia.
  - cbn [written write_st format zeros] in *. apply IHv; auto.
Qed.
End Outcome.

Lemma interrupt_same cf D kf v U (T : target U) t u :
  write_to cf D kf v U T t u =
  match write_st cf D kf v U T t u with
  | (ROk n, u') => ROk (n, u')
  | (RErr e, _) => RErr e
  | (RPanic, _) => RPanic
  | (RUB, _) => RUB
  | (RDiv, _) => RDiv
  end.
Proof. rewrite (ag_vals cf D kf v U T t u). destruct (write_st cf D kf v U T t u) as [[| | | |] ?]; reflexivity. Qed.

Lemma interrupt_exact cf D kf v t : wf_defs D = true -> wf_ty D t = true -> well_typed D v t = true ->
  zlen (format D v t) <= isize_max -> (cf_est_override cf = true -> zeros D v t = 0) ->
  forall U (T : target U) holds, collects T holds -> forall u pre, holds u pre ->
  match write_st cf D kf v U T t u with
  | (ROk n, u') => snd (written (negb (cf_est_override cf)) D v t) = true /\ n = zlen (format D v t) /\ holds u' (pre ++ format D v t)
  | (RPanic, u') => snd (written (negb (cf_est_override cf)) D v t) = false /\
                    holds u' (pre ++ fst (written (negb (cf_est_override cf)) D v t))
  | (RDiv, _) => cf_est_override cf = true
  | _ => False
  end.
Proof.
  intros HD HW HT HL HZ U T holds HC u pre Hu. apply collects_lawful in HC.
  pose proof (out_vals cf D kf HD v U T holds HC t HW HT HL HZ u pre Hu) as H.
  destruct (write_st cf D kf v U T t u) as [[| | | |] ?]; auto.
  destruct H as (E & H). destruct (good_vals (negb (cf_est_override cf)) D v t HT) as (_ & H2 & _). rewrite (H2 E) in H. auto.
Qed.

Lemma interrupt_written c D v t : well_typed D v t = true ->
  (exists rest, format D v t = fst (written c D v t) ++ rest) /\ snd (written c D v t) = valid D v t.
Proof. intros HT. destruct (good_vals c D v t HT) as (H1 & _ & H3). auto. Qed.

Lemma interrupt_whole cf D kf v s t : wf_defs D = true -> wf_ty D t = true -> well_typed D v (TDyn s t) = true ->
  zlen (format D v (TDyn s t)) <= isize_max -> cf_est_override cf = false ->
  forall U (T : target U) holds, collects T holds -> forall u pre, holds u pre ->
  (exists u', write_st cf D kf v U T (TDyn s t) u = (ROk (zlen (format D v (TDyn s t))), u') /\ holds u' (pre ++ format D v (TDyn s t))) \/
  (exists u', write_st cf D kf v U T (TDyn s t) u = (RPanic, u') /\ holds u' pre).
Proof.
  intros HD HW HT HL HO U T holds HC u pre Hu.
  pose proof (interrupt_exact cf D kf v (TDyn s t) HD HW HT HL ltac:(congruence) U T holds HC u pre Hu) as H. rewrite HO in H.
  destruct (write_st cf D kf v U T (TDyn s t) u) as [[n| | | |] u']; try contradiction; try discriminate H.
  - left. exists u'. destruct H as (_ & -> & H). auto.
  - right. exists u'. split; [reflexivity|]. destruct H as (E & H).
    assert (E2 : fst (written true D v (TDyn s t)) = []).
    { destruct v; try discriminate HT. cbn [negb] in E, H. cbn [written] in *. destruct (pref_max s <? _); [reflexivity|].
      destruct (valid D v t) eqn:EV; [|reflexivity]. cbn [andb negb] in *. rewrite and_then_done in E. cbn [snd andb] in E.
      unfold well_typed in HT. cbn [valid_gen] in HT. apply andb_prop in HT as [HT _].
      destruct (good_vals true D v t HT) as (_ & _ & H3). congruence. }
    cbn [negb] in H. rewrite E2, app_nil_r in H. exact H.
Qed.

Lemma interrupt_library cf D kf v t : wf_defs D = true -> wf_ty D t = true -> well_typed D v t = true ->
  zlen (format D v t) <= isize_max -> (cf_est_override cf = true -> zeros D v t = 0) ->
  forall w u u', write_st cf D kf v (tg_state w) (tg_of w) t u = (RPanic, u') ->
  valid D v t = false /\ tg_bytes w u' = tg_bytes w u ++ fst (written (negb (cf_est_override cf)) D v t).
Proof.
  intros HD HW HT HL HZ w u u' E.
  pose proof (interrupt_exact cf D kf v t HD HW HT HL HZ _ _ _ (library_collects w) u (tg_bytes w u) eq_refl) as H.
  rewrite E in H. destruct H as [H1 H2]. split; [|exact H2]. destruct (interrupt_written (negb (cf_est_override cf)) D v t HT) as [_ H3].
  congruence.
Qed.

Lemma interrupt_dangling : exists cf D kf v s t u', cf_est_override cf = true /\ wf_ty D (TDyn s t) = true /\ well_typed D v (TDyn s t) = true /\
  write_st cf D kf v (list byte) tg_vec (TDyn s t) [7] = (RPanic, u') /\ u' = [7; 1; 1].
Proof.
  exists (mkConfig Release false true false false false), [], 5%nat, (VWrap (VWrap (VBytes (repeat 9 256)))), PrefU16, (TDyn PrefU8 TBytes), [7; 1; 1].
  repeat apply conj; vm_compute; reflexivity.
Qed.
