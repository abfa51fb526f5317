(** Announcements and capacity (C91). *)
From Verif Require Import Base ModelErrors ModelTarget ModelInt ModelSchema ModelOverride ModelCapacity SpecTarget SpecCodec SpecCapacity
  BaseLemmas ProofCodec ProofEnc ProofEncBytes ProofEncValid ProofEstimate ProofCodecProps ProofMeter ProofTarget.
From Coq Require Import ZifyBool.

Lemma usize_isize : isize_max < usize_mod. Proof. reflexivity. Qed.

(** ** Announcements *)
Section Announce.
Variables (cf : config) (D : list def) (kf : nat).

Fixpoint good (cs : list target_call) : Prop :=
  match cs with
  | [] => True
  | CAnticipate n :: after =>
      (exists mid rest, after = mid ++ rest /\ n <= zlen (pushed_by mid) /\ (cf_est_override cf = false -> zlen (pushed_by mid) = n)) /\ good after
  | _ :: after => good after
  end.
Lemma good_app a b : good a -> good b -> good (a ++ b).
Proof.
  induction a as [|c a IH]; intros Ha Hb; [exact Hb|]. destruct c; cbn [good app] in *; auto.
  destruct Ha as ((mid & rest & -> & H1 & H2) & Ha). split; [|auto]. exists mid, (rest ++ b). rewrite app_assoc. auto.
Qed.
Lemma good_idle cs : good cs -> no_idle_announcement cs.
Proof.
  intros H before n after ->. induction before as [|c before IH]; cbn [app good] in H.
  - destruct H as ((mid & rest & -> & H1 & _) & _). rewrite pushed_app, zlen_app. pose proof (zlen_nonneg (pushed_by rest)). lia.
  - destruct c; auto. apply IH, H.
Qed.
Lemma good_exact cs : cf_est_override cf = false -> good cs -> exact_announcements cs.
Proof.
  intros EO H before n after ->. induction before as [|c before IH]; cbn [app good] in H.
  - destruct H as ((mid & rest & -> & _ & H1) & _). exists mid, rest. auto.
  - destruct c; auto. apply IH, H.
Qed.

Definition fair (w : writer (list target_call)) : Prop := forall u n u', w u = ROk (n, u') ->
  exists calls, u' = u ++ calls /\ (zlen (pushed_by calls) <= isize_max -> good calls).
Lemma short_app a b : zlen (pushed_by (a ++ b)) <= isize_max -> zlen (pushed_by a) <= isize_max /\ zlen (pushed_by b) <= isize_max.
Proof. rewrite pushed_app, zlen_app. pose proof (zlen_nonneg (pushed_by a)). pose proof (zlen_nonneg (pushed_by b)). lia. Qed.
Lemma fair_app a b : (zlen (pushed_by a) <= isize_max -> good a) -> (zlen (pushed_by b) <= isize_max -> good b) ->
  zlen (pushed_by (a ++ b)) <= isize_max -> good (a ++ b).
Proof. intros Ha Hb H. apply short_app in H. apply good_app; tauto. Qed.
Lemma fair_add w1 w2 : fair w1 -> fair w2 -> fair (w_add cf w1 w2).
Proof.
  intros H1 H2 u n u'. unfold w_add. destruct (w1 u) as [[n1 u1]| | | |] eqn:E1; try discriminate. cbn [rbind snd].
  destruct (w2 u1) as [[n2 u2]| | | |] eqn:E2; try discriminate. cbn [rbind snd fst].
  destruct (uadd (cf_mode cf) n1 n2); try discriminate. cbn [rbind]. intros E. injection E as _ <-.
  destruct (H1 _ _ _ E1) as (c1 & -> & G1). destruct (H2 _ _ _ E2) as (c2 & -> & G2).
  exists (c1 ++ c2). rewrite app_assoc. split; [reflexivity|]. apply fair_app; assumption.
Qed.
Lemma fair_sum ws : Forall fair ws -> forall acc, fair (w_sum cf acc ws).
Proof.
  induction 1 as [|w ws Hw _ IH]; intros acc u n u'; cbn [w_sum].
  - intros E. injection E as _ <-. exists []. rewrite app_nil_r. split; [reflexivity|]. intros _. exact Logic.I.
  - destruct (w u) as [[n1 u1]| | | |] eqn:E1; try discriminate. cbn [rbind snd fst].
    destruct (uadd (cf_mode cf) acc n1); try discriminate. cbn [rbind]. intros E.
    destruct (Hw _ _ _ E1) as (c1 & -> & G1). destruct (IH _ _ _ _ E) as (c2 & -> & G2).
    exists (c1 ++ c2). rewrite app_assoc. split; [reflexivity|]. apply fair_app; assumption.
Qed.
Lemma fair_bad : fair w_bad. Proof. intros u n u'. discriminate. Qed.
Lemma fair_rbind {A} (r : wres A) (w : A -> writer (list target_call)) : (forall a, r = ROk a -> fair (w a)) -> fair (fun u => rbind r (fun a => w a u)).
Proof. intros H u n u'. destruct r as [a| | | |]; cbn [rbind]; try discriminate. apply H. reflexivity. Qed.
Ltac one := intros u n u' E; injection E as _ <-; eexists; split; [reflexivity|]; intros _; exact Logic.I.
Lemma fair_one b : fair (w_call (tg_push_one tg_log b)). Proof. one. Qed.
Lemma fair_many b : fair (w_call (tg_push_many tg_log b)). Proof. one. Qed.
Lemma fair_all b : fair (w_call (tg_push_all tg_log b)). Proof. one. Qed.
Lemma fair_resolve : fair (w_call (tg_resolve_zero tg_log)). Proof. one. Qed.
Lemma fair_macro : fair (w_call (tg_resolve_macro tg_log)). Proof. one. Qed.
Lemma fair_end w : fair w -> fair (w_add cf w (w_call (tg_resolve_zero tg_log))).
Proof. intros H. apply fair_add; [exact H|apply fair_resolve]. Qed.
Lemma fair_mend w : fair w -> fair (w_add cf w (w_call (tg_resolve_macro tg_log))).
Proof. intros H. apply fair_add; [exact H|apply fair_macro]. Qed.
Lemma fair_int k z : fair (w_int cf tg_log k z). Proof. apply fair_end, fair_all. Qed.
Lemma fair_ranged k lo hi z : fair (w_ranged cf tg_log k lo hi z).
Proof.
  unfold w_ranged. apply (fair_rbind _ (fun x u => w_add cf (w_int cf tg_log k x) (w_call (tg_resolve_zero tg_log)) u)).
  intros x _. apply fair_end, fair_int.
Qed.
Lemma fair_pref s lp : fair (w_pref cf tg_log s lp).
Proof. destruct s; [apply fair_int|apply fair_int|apply fair_ranged]. Qed.

(** The prefix takes its number of bytes, and the counter says so. *)
Lemma pref_pushes s lp u n u' : w_pref cf tg_log s lp u = ROk (n, u') -> exists calls, u' = u ++ calls /\ zlen (pushed_by calls) = pref_len s.
Proof.
  assert (I : forall k z u n u', w_int cf tg_log k z u = ROk (n, u') -> exists calls, u' = u ++ calls /\ zlen (pushed_by calls) = ik_len k).
  { intros k z u0 n0 u0'. unfold w_int, w_push_all, w_add, w_call. cbn [rbind snd fst tg_push_all tg_resolve_zero tg_log].
    destruct (uadd _ _ _); try discriminate. cbn [rbind]. intros E. injection E as _ <-. rewrite <- app_assoc. eexists. split; [reflexivity|].
    cbn [app pushed_by]. rewrite app_nil_r. apply be_bytes_len. }
  destruct s; [apply (I U8)|apply (I U16)|]. cbn [w_pref pref_len]. unfold w_ranged.
  destruct (ri_to_underlying _ _ _ _); try discriminate. cbn [rbind]. unfold w_add.
  destruct (w_int cf tg_log U32 a u) as [[n1 u1]| | | |] eqn:E1; try discriminate. cbn [rbind snd fst w_call tg_resolve_zero tg_log].
  destruct (uadd _ _ _); try discriminate. cbn [rbind]. intros E. injection E as _ <-. destruct (I _ _ _ _ _ E1) as (c & -> & H).
  exists (c ++ [CResolveZero]). rewrite app_assoc. split; [reflexivity|]. rewrite pushed_app, app_nil_r. exact H.
Qed.
Lemma pref_counts s lp n : rmap fst (w_pref cf tg_counter s lp tt) = ROk n -> n = pref_len s.
Proof.
  assert (I : forall k z n, rmap fst (w_int cf tg_counter k z tt) = ROk n -> n = ik_len k).
  { intros k z n0. unfold w_int, w_push_all, w_add, w_call. cbn [rbind snd fst tg_push_all tg_resolve_zero tg_counter default_resolve_zero].
    unfold byte. rewrite be_bytes_len.
    destruct (uadd _ _ _) as [x| | | |] eqn:E; try discriminate. cbn. intros H. injection H as <-.
    destruct k; vm_compute in E; destruct (cf_mode cf) in E; try (injection E as <-); try reflexivity; discriminate. }
  destruct s; [apply (I U8)|apply (I U16)|]. cbn [w_pref pref_len]. unfold w_ranged.
  destruct (ri_to_underlying _ _ _ _) as [a| | | |]; try discriminate. cbn [rbind]. unfold w_add.
  destruct (w_int cf tg_counter U32 a tt) as [[n1 u1]| | | |] eqn:E1; try discriminate. cbn [rbind snd fst w_call tg_resolve_zero tg_counter default_resolve_zero].
  pose proof (I U32 a n1) as H. rewrite E1 in H. specialize (H eq_refl). subst n1.
  destruct (uadd _ _ _) as [x| | | |] eqn:E; try discriminate. cbn. intros H. injection H as <-.
  vm_compute in E; destruct (cf_mode cf) in E; try (injection E as <-); try reflexivity; discriminate.
Qed.
Lemma log_pushes v t u n u' : write_to cf D kf v _ tg_log t u = ROk (n, u') -> forall calls, u' = u ++ calls ->
  to_bytes cf D kf v t = ROk (pushed_by calls) /\ (zlen (pushed_by calls) <= isize_max -> n = zlen (pushed_by calls)).
Proof.
  intros E calls ->. pose proof (custom_same tg_log _ (lawful_collects _ _ log_collects) cf D kf v t u _ eq_refl) as S.
  destruct (to_bytes cf D kf v t) as [bs|e| | |]; try (rewrite S in E; discriminate).
  destruct S as (k & u2 & E2 & H & Hn). rewrite E in E2. injection E2 as -> <-. rewrite pushed_app in H. apply app_inv_head in H. subst bs.
  split; [reflexivity|]. intros HL. apply Hn. pose proof usize_isize. lia.
Qed.

Definition typed (v : val) (t : ty) : Prop := cf_est_override cf = false \/ (wf_ty D t = true /\ well_typed D v t = true).
Hypothesis WD : cf_est_override cf = false \/ wf_defs D = true.

Lemma announced v t l n u u' calls :
  typed v t -> (if cf_est_override cf then estimate cf D kf v t else rmap fst (write_to cf D kf v unit tg_counter t tt)) = ROk l ->
  write_to cf D kf v _ tg_log t u = ROk (n, u') -> u' = u ++ calls -> zlen (pushed_by calls) <= isize_max ->
  l <= zlen (pushed_by calls) /\ (cf_est_override cf = false -> l = zlen (pushed_by calls)).
Proof.
  intros T EL E Hc HL. destruct (log_pushes v t u n u' E calls Hc) as [EB _]. destruct (cf_est_override cf) eqn:EO.
  - destruct WD as [|WD']; [discriminate|]. destruct T as [|[WT HV]]; [congruence|].
    rewrite (estimate_exact cf D kf v t _ l WD' WT HV EB HL EL). split; [|discriminate].
    pose proof (zeros_nonneg D v t). lia.
  - destruct (enc_len_exact cf D kf v t _ EO EB HL) as [EN _]. unfold enc_len in EN. rewrite EO in EN. rewrite EN in EL. injection EL as <-.
    split; [lia|reflexivity].
Qed.

Lemma typed_fields vs ts : (cf_est_override cf = false \/ (forallb (wf_ty D) ts = true /\ all2 (well_typed D) vs ts = true)) ->
  Forall (fun v => forall t, typed v t -> fair (write_to cf D kf v _ tg_log t)) vs ->
  Forall fair (map2 (fun v t => write_to cf D kf v _ tg_log t) w_bad vs ts).
Proof.
  intros H F. revert ts H. induction F as [|v vs Hv _ IH]; intros ts H; destruct ts as [|t ts]; cbn [map2];
    [constructor|constructor; [apply fair_bad|constructor]|constructor; [apply fair_bad|constructor]|].
  destruct H as [H|[H1 H2]].
  - constructor; [apply Hv; left; exact H|apply IH; left; exact H].
  - cbn [forallb all2] in *. apply andb_prop in H1. apply andb_prop in H2. destruct H1, H2.
    constructor; [apply Hv; right; auto|apply IH; right; auto].
Qed.
Lemma typed_nth i d : nth_error D i = Some d -> cf_est_override cf = false \/ wf_def D d = true.
Proof. intros E. destruct WD as [H|H]; [left; exact H|right; exact (wf_nth D i d H E)]. Qed.

Lemma dyn_log s v t : typed v t -> fair (write_to cf D kf v _ tg_log t) -> forall u n u',
  write_to cf D kf (VWrap v) _ tg_log (TDyn s t) u = ROk (n, u') ->
  exists total c, u' = u ++ CAnticipate total :: c /\ (zlen (pushed_by c) <= isize_max ->
    total <= zlen (pushed_by c) /\ (cf_est_override cf = false -> total = zlen (pushed_by c)) /\ good c /\ 1 <= zlen (pushed_by c)).
Proof.
  intros Tv IHv u n u'. cbn [write_to].
  destruct (if cf_est_override cf then _ else _) as [l| | | |] eqn:EL; try discriminate. cbn [rbind].
  destruct (rassert _); try discriminate. cbn [rbind].
  destruct (pref_try_from cf s l) as [lp|]; [|discriminate].
  destruct (if cf_est_override cf then ROk (pref_len s) else _) as [ll| | | |] eqn:ELL; try discriminate. cbn [rbind].
  destruct (uadd (cf_mode cf) l ll) as [total| | | |] eqn:ET; try discriminate. cbn [rbind].
  assert (HL : ll = pref_len s).
  { destruct (cf_est_override cf); [injection ELL as <-; reflexivity|]. exact (pref_counts s lp ll ELL). }
  cbn [tg_anticipate tg_log]. set (u0 := u ++ [CAnticipate total]). unfold w_add.
  destruct (w_pref cf tg_log s lp u0) as [[n1 u1]| | | |] eqn:E1; try discriminate. cbn [rbind snd fst].
  destruct (write_to cf D kf v _ tg_log t u1) as [[n2 u2]| | | |] eqn:E2; try discriminate. cbn [rbind snd fst].
  destruct (uadd (cf_mode cf) n1 n2); try discriminate. cbn [rbind snd fst w_call tg_resolve_zero tg_log].
  destruct (uadd (cf_mode cf) _ 0); try discriminate. cbn [rbind]. intros E. injection E as _ <-.
  destruct (pref_pushes s lp _ _ _ E1) as (c1 & -> & P1).
  destruct (fair_pref s lp _ _ _ E1) as (c1' & EC & G1). apply app_inv_head in EC. subst c1'.
  destruct (IHv _ _ _ E2) as (c2 & -> & G2). exists total, (c1 ++ c2 ++ [CResolveZero]). split.
  { unfold u0. rewrite <- !app_assoc. reflexivity. }
  intros HS. rewrite !pushed_app, !zlen_app in *. cbn [pushed_by] in *. change (zlen []) with 0 in *.
  pose proof (zlen_nonneg (pushed_by c1)). pose proof (zlen_nonneg (pushed_by c2)).
  destruct (announced v t l n2 _ _ c2 Tv EL E2 eq_refl ltac:(lia)) as [A1 A2]. pose proof usize_isize.
  assert (total <= l + ll /\ (0 <= l + ll < usize_mod -> total = l + ll)).
  { unfold uadd in ET. destruct (cf_mode cf); destruct (Z.ltb_spec (l + ll) usize_mod); try discriminate; injection ET as <-; split; intros; lia. }
  assert (1 <= pref_len s) by (destruct s; discriminate).
  split; [lia|]. split; [lia|]. split; [|lia]. repeat apply good_app; [apply G1; lia|apply G2; lia|exact Logic.I].
Qed.

Lemma fair_vals v : forall t, typed v t -> fair (write_to cf D kf v _ tg_log t).
Proof.
  induction v as [| | | | |v IHv|vs IHvs|vs IHvs|ix vs IHvs|v IHv] using val_ind'; intros t T.
  - destruct t; cbn [write_to]; try apply fair_bad.
    + intros u n u' E. injection E as _ <-. exists []. rewrite app_nil_r. split; [reflexivity|intros _; exact Logic.I].
    + destruct (nth_error D i) as [[| |]|]; apply fair_bad.
  - destruct t; cbn [write_to]; try apply fair_bad.
    + apply fair_mend, fair_one.
    + destruct (nth_error D i) as [[| |]|]; apply fair_bad.
  - destruct t; cbn [write_to]; try apply fair_bad; try apply fair_int.
    + apply fair_ranged.
    + apply (fair_rbind _ (fun bs u => w_push_all cf tg_log bs u)). intros bs _. apply fair_end, fair_all.
    + apply (fair_rbind _ (fun bs u => w_push_all cf tg_log bs u)). intros bs _. apply fair_end, fair_all.
    + destruct (nth_error D i) as [[| |]|]; apply fair_bad.
  - destruct t; cbn [write_to]; try apply fair_bad; try (apply fair_end, fair_all); try (apply fair_mend, fair_all); try (apply fair_end, fair_many).
    destruct (nth_error D i) as [[| |]|]; apply fair_bad.
  - destruct t; cbn [write_to]; try apply fair_bad.
    + apply fair_mend, fair_one.
    + apply fair_resolve.
    + destruct (nth_error D i) as [[| |]|]; apply fair_bad.
  - destruct t; cbn [write_to]; try apply fair_bad.
    + apply fair_mend, fair_add; [apply fair_one|apply IHv; exact T].
    + apply fair_end, IHv; exact T.
    + destruct (nth_error D i) as [[| |]|]; apply fair_bad.
  - assert (Hs : forall t, (cf_est_override cf = false \/ (wf_ty D t = true /\ forallb (fun v => well_typed D v t) vs = true)) ->
      Forall fair (map (fun v => write_to cf D kf v _ tg_log t) vs)).
    { intros t' H. clear T. induction IHvs as [|v vs Hv _ IH]; cbn [map]; constructor.
      - apply Hv. destruct H as [H|[H1 H2]]; [left; exact H|right]. cbn [forallb] in H2. apply andb_prop in H2. tauto.
      - apply IH. destruct H as [H|[H1 H2]]; [left; exact H|right]. cbn [forallb] in H2. apply andb_prop in H2. tauto. }
    destruct t; cbn [write_to]; try apply fair_bad.
    + apply fair_end, fair_sum, Hs. destruct T as [T|[W V]]; auto.
    + apply fair_end, fair_sum, Hs. destruct T as [T|[W V]]; auto. right. unfold well_typed in V. cbn [wf_ty valid_gen] in *. apply andb_prop in W. apply andb_prop in V. tauto.
    + apply fair_end, fair_sum, Hs. destruct T as [T|[W V]]; auto. right. unfold well_typed in V. cbn [wf_ty valid_gen] in *. apply andb_prop in W. apply andb_prop in V. tauto.
    + destruct (nth_error D i) as [[| |]|]; apply fair_bad.
  - destruct t; cbn [write_to]; try apply fair_bad. destruct (nth_error D i) as [[ts| |]|] eqn:EN; try apply fair_bad.
    apply fair_end, fair_sum, typed_fields; [|exact IHvs]. destruct T as [T|[W V]]; [left; exact T|].
    destruct (typed_nth i _ EN) as [H|H]; [left; exact H|right]. unfold well_typed in V. cbn [valid_gen] in V. rewrite EN in V. auto.
  - destruct t; cbn [write_to]; try apply fair_bad. destruct (nth_error D i) as [[ts|k tags|k alts]|] eqn:EN; try apply fair_bad.
    + destruct vs; [|apply fair_bad]. destruct (nth_error tags ix); [apply fair_int|apply fair_bad].
    + destruct (nth_error alts ix) as [[tag ts]|] eqn:EA; [|apply fair_bad].
      apply fair_end, fair_add; [apply fair_int|]. apply fair_end, fair_sum, typed_fields; [|exact IHvs].
      destruct T as [T|[W V]]; [left; exact T|]. destruct (typed_nth i _ EN) as [H|H]; [left; exact H|right].
      unfold well_typed in V. cbn [valid_gen] in V. rewrite EN, EA in V. split; [|exact V].
      cbn [wf_def] in H. apply andb_prop in H. destruct H as [_ H]. rewrite forallb_forall in H. exact (H _ (nth_error_In _ _ EA)).
  - assert (TT : forall t', (wf_ty D t = true -> wf_ty D t' = true) -> (well_typed D (VWrap v) t = true -> well_typed D v t' = true) -> typed v t').
    { intros t' H1 H2. destruct T as [T|[W V]]; [left; exact T|right; auto]. }
    destruct t; cbn [write_to]; try apply fair_bad.
    + assert (Tv : typed v t).
      { apply TT; [exact (fun H => H)|]. unfold well_typed. cbn [valid_gen]. intros H. apply andb_prop in H. tauto. }
      intros u n u' E. destruct (dyn_log s v t Tv (IHv t Tv) _ _ _ E) as (total & c & -> & G).
      exists (CAnticipate total :: c). split; [reflexivity|]. cbn [pushed_by]. intros HS. destruct (G HS) as (G1 & G2 & G3 & _).
      cbn [good]. split; [|exact G3]. exists c, []. rewrite app_nil_r. repeat split; auto. intros EO. symmetry. auto.
    + apply IHv, TT; intros H; [|exact H]. cbn [wf_ty] in H. apply andb_prop in H. tauto.
    + apply fair_end, fair_add; [|apply fair_many]. apply IHv, TT; intros H; [|exact H]. cbn [wf_ty] in H. apply andb_prop in H. tauto.
    + apply IHv, TT; intros H; exact H.
    + destruct (nth_error D i) as [[| |]|]; apply fair_bad.
Qed.
End Announce.

Lemma announced_calls cf D kf v t bs :
  (cf_est_override cf = false \/ (wf_defs D = true /\ wf_ty D t = true /\ well_typed D v t = true)) ->
  to_bytes cf D kf v t = ROk bs -> zlen bs <= isize_max ->
  exists calls, pushed_by calls = bs /\ good cf calls /\
    forall U (T : target U), counts T -> forall u, write_to cf D kf v U T t u = ROk (zlen bs, receive_all T calls u).
Proof.
  intros H EB HL. pose proof (same_calls cf D kf v t) as S. rewrite EB in S. destruct S as (n & calls & HP & Hn & HC).
  assert (n = zlen bs) by (apply Hn; pose proof usize_isize; lia). subst n.
  exists calls. split; [exact HP|]. split; [|exact HC].
  assert (CL : counts tg_log) by (intros u; repeat split).
  pose proof (HC _ tg_log CL []) as E.
  assert (RL : forall cs u, receive_all tg_log cs u = u ++ cs).
  { induction cs as [|c cs IH]; intros u; cbn [receive_all]; [rewrite app_nil_r; reflexivity|]. rewrite IH.
    destruct c; cbn [receive tg_log tg_anticipate tg_push_one tg_push_many tg_push_all tg_resolve tg_resolve_zero snd]; rewrite <- app_assoc; reflexivity. }
  rewrite RL in E. cbn [app] in E.
  assert (WD : cf_est_override cf = false \/ wf_defs D = true) by tauto.
  destruct (fair_vals cf D kf WD v t ltac:(unfold typed; tauto) _ _ _ E) as (c & EC & G). cbn [app] in EC. subst c. apply G. rewrite HP. exact HL.
Qed.

(** ** Capacity *)
Lemma capacity_counts : counts tg_capacity. Proof. intros u. repeat split. Qed.
Definition vec_len (u : vec) : Z := zlen (vec_bytes u).
Lemma reserve_bytes n u : vec_bytes (vec_reserve n u) = vec_bytes u.
Proof. unfold vec_reserve. destruct (_ <? _); reflexivity. Qed.
Lemma append_bytes bs u : vec_bytes (vec_append bs u) = vec_bytes u ++ bs.
Proof. unfold vec_append. cbn [vec_bytes]. rewrite reserve_bytes. reflexivity. Qed.
Lemma receive_bytes cs : forall u, vec_bytes (receive_all tg_capacity cs u) = vec_bytes u ++ pushed_by cs.
Proof.
  induction cs as [|c cs IH]; intros u; cbn [receive_all pushed_by]; [rewrite app_nil_r; reflexivity|].
  rewrite IH. destruct c; cbn [receive tg_capacity tg_anticipate tg_push_one tg_push_many tg_push_all tg_resolve tg_resolve_zero default_resolve_zero snd];
    rewrite ?reserve_bytes, ?append_bytes, <- ?app_assoc; reflexivity.
Qed.

(** What a call asks for is within the bytes still to come. *)
Definition asks (c : target_call) : option (Z * list byte) :=
  match c with
  | CAnticipate n => Some (n, [])
  | CPushOne b => Some (1, [b])
  | CPushMany bs | CPushAll bs => Some (zlen bs, bs)
  | CResolve | CResolveZero => None
  end.
Lemma receive_asks c u : receive tg_capacity c u =
  match asks c with
  | Some (n, bs) => let w := vec_reserve n u in mkVec (vec_bytes w ++ bs) (vec_capacity w) (vec_allocations w)
  | None => u
  end.
Proof.
  destruct c; cbn [asks receive tg_capacity tg_anticipate tg_push_one tg_push_many tg_push_all tg_resolve tg_resolve_zero default_resolve_zero snd]; try reflexivity.
  cbv zeta. rewrite app_nil_r. destruct (vec_reserve n u); reflexivity.
Qed.
Lemma asks_fit c cs : no_idle_announcement (c :: cs) ->
  match asks c with
  | Some (n, bs) => n <= zlen (pushed_by (c :: cs)) /\ pushed_by (c :: cs) = bs ++ pushed_by cs
  | None => pushed_by (c :: cs) = pushed_by cs
  end.
Proof.
  intros H. pose proof (zlen_nonneg (pushed_by cs)) as Hn. destruct c; cbn [asks pushed_by]; try reflexivity; (split; [|reflexivity]).
  - exact (H [] n cs eq_refl).
  - change (b :: pushed_by cs) with ([b] ++ pushed_by cs). rewrite zlen_app. change (zlen [b]) with 1. lia.
  - rewrite zlen_app. lia.
  - rewrite zlen_app. lia.
Qed.
Lemma idle_tail c cs : no_idle_announcement (c :: cs) -> no_idle_announcement cs.
Proof. intros H before n after E. apply (H (c :: before) n after). cbn [app]. rewrite E. reflexivity. Qed.
(** [I] holds throughout if it survives one reservation within the final length [L]. *)
Lemma receive_ind (L : Z) (I : Z -> Z -> Z -> Prop) :
  (forall len c a n, I len c a -> 0 <= len -> len + n <= L -> c - len < n -> I len (Z.max 8 (Z.max (2 * c) (len + n))) (a + 1)) ->
  (forall len len' c a, I len c a -> len <= len' -> len' <= c \/ len' = len -> len' <= L -> I len' c a) ->
  forall cs u, no_idle_announcement cs -> vec_len u + zlen (pushed_by cs) = L -> I (vec_len u) (vec_capacity u) (vec_allocations u) ->
    let w := receive_all tg_capacity cs u in I (vec_len w) (vec_capacity w) (vec_allocations w).
Proof.
  intros HG HA. induction cs as [|c cs IH]; intros u N HL Hi; [exact Hi|]. cbn [receive_all]. cbv zeta. pose proof (asks_fit c cs N) as F.
  pose proof (zlen_nonneg (vec_bytes u)) as Hu. pose proof (zlen_nonneg (pushed_by cs)) as Hc.
  rewrite receive_asks. destruct (asks c) as [[n bs]|] eqn:EA.
  - destruct F as [F1 F2]. rewrite F2, zlen_app in *. pose proof (zlen_nonneg bs) as Hb.
    assert (Hbs : bs = [] \/ zlen bs = n) by (destruct c; cbn [asks] in EA; try discriminate; injection EA as <- <-; auto).
    cbv zeta. apply IH; [exact (idle_tail _ _ N)|unfold vec_len in *; cbn [vec_bytes]; rewrite zlen_app, reserve_bytes; lia|].
    unfold vec_len in *. cbn [vec_bytes vec_capacity vec_allocations]. rewrite zlen_app, reserve_bytes.
    apply (HA (zlen (vec_bytes u))); [|lia| |lia].
    + unfold vec_reserve. destruct (Z.ltb_spec (vec_capacity u - zlen (vec_bytes u)) n); [|exact Hi]. cbn [vec_capacity vec_allocations]. apply HG; auto. lia.
    + destruct Hbs as [-> |Hbs]; [right; change (zlen []) with 0; lia|]. left. unfold vec_reserve.
      destruct (Z.ltb_spec (vec_capacity u - zlen (vec_bytes u)) n); cbn [vec_capacity]; lia.
  - rewrite F in *. apply IH; auto. exact (idle_tail _ _ N).
Qed.

Lemma enough_room cs u : no_idle_announcement cs -> zlen (pushed_by cs) <= vec_capacity u - zlen (vec_bytes u) ->
  receive_all tg_capacity cs u = mkVec (vec_bytes u ++ pushed_by cs) (vec_capacity u) (vec_allocations u).
Proof.
  intros N H. pose proof (receive_ind (zlen (vec_bytes u) + zlen (pushed_by cs)) (fun _ c a => c = vec_capacity u /\ a = vec_allocations u)) as R.
  cbn beta in R. pose proof (receive_bytes cs u) as B. destruct (R ltac:(intros; lia) ltac:(auto) cs u N eq_refl (conj eq_refl eq_refl)) as [E1 E2].
  cbv zeta in E1, E2. destruct (receive_all tg_capacity cs u) as [b c a]. cbn [vec_bytes vec_capacity vec_allocations] in *. subst. reflexivity.
Qed.
Lemma grown_by_doubling cs : no_idle_announcement cs ->
  let w := receive_all tg_capacity cs vec_new in let L := zlen (pushed_by cs) in
  L <= vec_capacity w <= Z.max 8 (2 * L) /\
  (vec_allocations w = 0 /\ vec_capacity w = 0 \/ 1 <= vec_allocations w /\ 4 * 2 ^ vec_allocations w <= vec_capacity w).
Proof.
  intros N. cbv zeta. pose proof (receive_bytes cs vec_new) as B.
  pose proof (receive_ind (zlen (pushed_by cs)) (fun len c a => (len <= c <= Z.max 8 (2 * zlen (pushed_by cs))) /\ (a = 0 /\ c = 0 \/ 1 <= a /\ 4 * 2 ^ a <= c))) as R.
  cbn beta in R. unshelve epose proof (R _ _ cs vec_new N eq_refl _) as [R1 R2].
  - intros len c a n [H1 H2] H3 H4 H5. split; [lia|]. right. split; [lia|]. destruct H2 as [[-> _]|[H2 H6]]; [change (2 ^ (0 + 1)) with 2; lia|].
    rewrite Z.pow_add_r by lia. change (2 ^ 1) with 2. lia.
  - intros len len' c a [H1 H2] H3 H4 H5. split; [lia|exact H2].
  - cbn [vec_new vec_len vec_bytes vec_capacity vec_allocations]. change (vec_len vec_new) with 0. pose proof (zlen_nonneg (pushed_by cs)). lia.
  - cbv zeta in R1, R2. unfold vec_len in R1. rewrite B in R1. cbn [vec_bytes vec_new app] in R1. split; [exact R1|exact R2].
Qed.

(** ** The three functions *)
Lemma rel_capacity : related tg_capacity tg_vec (fun u bs => vec_bytes u = bs).
Proof.
  split; unfold both; cbn [tg_capacity tg_vec tg_anticipate tg_push_one tg_push_many tg_push_all tg_resolve tg_resolve_zero default_resolve_zero fst snd];
    intros; subst; rewrite ?reserve_bytes, ?append_bytes; auto.
Qed.
Lemma default_bytes cf D kf v t u :
  rmap vec_bytes (rmap snd (write_to cf D kf v vec tg_capacity t u)) = rmap snd (write_to cf D kf v (list byte) tg_vec t (vec_bytes u)).
Proof.
  pose proof (wrel_vals tg_capacity tg_vec _ rel_capacity cf D kf v t u _ eq_refl) as S.
  destruct (write_to cf D kf v vec tg_capacity t u) as [[n w]| | | |], (write_to cf D kf v (list byte) tg_vec t (vec_bytes u)) as [[n' w']| | | |];
    cbn [same_out] in S; try contradiction; cbn [rmap rbind snd]; try reflexivity.
  - destruct S as [_ S]. cbn [snd] in S. subst. reflexivity.
  - subst. reflexivity.
Qed.
Lemma append_to_vec_bytes cf D kf v t u : rmap vec_bytes (append_to_vec cf D kf v t u) = call_write_to_vec cf D kf v t (vec_bytes u).
Proof.
  pose proof (default_bytes cf D kf v t u) as S.
  destruct t; try exact S; destruct v; try exact S; cbn [append_to_vec call_write_to_vec]; unfold rmap; cbn [rbind]; rewrite ?append_bytes; reflexivity.
Qed.
Lemma capacity_same_bytes cf D kf v t :
  rmap vec_bytes (vec_to_bytes cf D kf v t) = call_to_bytes cf D kf v t /\
  rmap vec_bytes (vec_to_bytes_full cf D kf v t) = call_to_bytes_full cf D kf v t.
Proof.
  split.
  - pose proof (append_to_vec_bytes cf D kf v t vec_new) as S.
    destruct t; try exact S; destruct v; try exact S; cbn [vec_to_bytes call_to_bytes]; unfold rmap; cbn [rbind]; rewrite ?append_bytes; reflexivity.
  - unfold vec_to_bytes_full, call_to_bytes_full. destruct (enc_len cf D kf v t); try reflexivity. cbn [rbind].
    destruct (a <=? isize_max); [|reflexivity]. apply append_to_vec_bytes.
Qed.

Definition encodes (cf : config) (D : list def) (kf : nat) (v : val) (t : ty) (bs : list byte) : Prop :=
  (cf_est_override cf = false \/ (wf_defs D = true /\ wf_ty D t = true /\ well_typed D v t = true)) /\
  to_bytes cf D kf v t = ROk bs /\ zlen bs <= isize_max.

Lemma announcements_thm cf D kf v t bs : encodes cf D kf v t bs -> exists calls, pushed_by calls = bs /\ no_idle_announcement calls /\
  (cf_est_override cf = false -> exact_announcements calls) /\
  forall U (T : target U), counts T -> forall u, write_to cf D kf v U T t u = ROk (zlen bs, receive_all T calls u).
Proof.
  intros (HT & HB & HL). destruct (announced_calls cf D kf v t bs HT HB HL) as (calls & H1 & H2 & H3). exists calls. repeat split; auto.
  - apply (good_idle cf), H2.
  - intros EO. apply (good_exact cf); auto.
Qed.
Lemma append_calls cf D kf v t bs : encodes cf D kf v t bs -> exists calls, pushed_by calls = bs /\ no_idle_announcement calls /\
  (forall u, append_to_vec cf D kf v t u = ROk (receive_all tg_capacity calls u)).
Proof.
  intros HE. destruct (announcements_thm _ _ _ _ _ _ HE) as (calls & H1 & H2 & _ & H3).
  assert (S : forall u, rmap snd (write_to cf D kf v vec tg_capacity t u) = ROk (receive_all tg_capacity calls u)).
  { intros u. rewrite (H3 _ _ capacity_counts u). reflexivity. }
  assert (A : forall b, bs = b -> (forall u, append_to_vec cf D kf v t u = ROk (vec_append b u)) -> exists calls, pushed_by calls = bs /\ no_idle_announcement calls /\
    (forall u, append_to_vec cf D kf v t u = ROk (receive_all tg_capacity calls u))).
  { intros b E HA. exists [CPushAll b]. split; [cbn [pushed_by]; rewrite app_nil_r; auto|]. split; [|exact HA].
    intros [|c [|]] n after; discriminate. }
  destruct HE as (_ & HB & _). pose proof (append_to_vec_bytes cf D kf v t vec_new) as EB. pose proof (default_bytes cf D kf v t vec_new) as ED.
  change (rmap snd (write_to cf D kf v (list byte) tg_vec t (vec_bytes vec_new))) with (to_bytes cf D kf v t) in ED. rewrite HB in ED.
  destruct t; try (exists calls; auto; fail); destruct v; try (exists calls; auto; fail).
  - apply (A bs0); [|reflexivity]. cbv [to_bytes rmap rbind write_to w_write_all w_add w_call tg_vec tg_push_all tg_resolve_macro tg_resolve fst snd] in HB.
    destruct (uadd _ _ _); try discriminate. injection HB as <-. reflexivity.
  - apply (A bs0); [|reflexivity]. cbv [to_bytes rmap rbind write_to w_push_many w_add w_call tg_vec tg_push_many tg_resolve_zero default_resolve_zero fst snd] in HB.
    destruct (uadd _ _ _); try discriminate. injection HB as <-. reflexivity.
Qed.
Lemma room_thm cf D kf v t bs u : encodes cf D kf v t bs -> zlen bs <= vec_capacity u - zlen (vec_bytes u) ->
  append_to_vec cf D kf v t u = ROk (mkVec (vec_bytes u ++ bs) (vec_capacity u) (vec_allocations u)).
Proof.
  intros HE H. destruct (append_calls _ _ _ _ _ _ HE) as (calls & HP & N & E). rewrite E, enough_room; rewrite ?HP; auto.
Qed.
Lemma growth_thm cf D kf v t bs : encodes cf D kf v t bs -> exists u, vec_to_bytes cf D kf v t = ROk u /\ vec_bytes u = bs /\
  zlen bs <= vec_capacity u <= Z.max 8 (2 * zlen bs) /\
  (vec_allocations u = 0 /\ vec_capacity u = 0 \/ 1 <= vec_allocations u /\ 4 * 2 ^ vec_allocations u <= Z.max 8 (2 * zlen bs)).
Proof.
  intros HE. destruct (append_calls _ _ _ _ _ _ HE) as (calls & HP & N & E). clear HE. pose proof (zlen_nonneg bs) as Hn.
  assert (A : exists u, append_to_vec cf D kf v t vec_new = ROk u /\ vec_bytes u = bs /\
    zlen bs <= vec_capacity u <= Z.max 8 (2 * zlen bs) /\
    (vec_allocations u = 0 /\ vec_capacity u = 0 \/ 1 <= vec_allocations u /\ 4 * 2 ^ vec_allocations u <= Z.max 8 (2 * zlen bs))).
  { rewrite E. eexists. split; [reflexivity|]. rewrite receive_bytes, HP. split; [reflexivity|].
    pose proof (grown_by_doubling calls N) as G. cbv zeta in G. rewrite HP in G. destruct G as [G1 G2]. split; [exact G1|]. lia. }
  assert (B : vec_to_bytes cf D kf v t = ROk (vec_append bs (vec_with_capacity (zlen bs))) -> exists u, vec_to_bytes cf D kf v t = ROk u /\ vec_bytes u = bs /\
    zlen bs <= vec_capacity u <= Z.max 8 (2 * zlen bs) /\
    (vec_allocations u = 0 /\ vec_capacity u = 0 \/ 1 <= vec_allocations u /\ 4 * 2 ^ vec_allocations u <= Z.max 8 (2 * zlen bs))).
  { intros EV. eexists. split; [exact EV|]. rewrite append_bytes. split; [reflexivity|]. unfold vec_append, vec_reserve, vec_with_capacity.
    cbn [vec_bytes vec_capacity vec_allocations]. change (zlen []) with 0. replace (zlen bs - 0 <? zlen bs) with false by lia.
    cbn [vec_capacity vec_allocations]. destruct (Z.eqb_spec (zlen bs) 0); split; try lia; right; change (4 * 2 ^ 1) with 8; lia. }
  assert (C : forall u b, append_to_vec cf D kf v t vec_new = ROk u -> vec_bytes u = b -> b = bs).
  { intros u b HA <-. destruct A as (u' & A1 & A2 & _). rewrite HA in A1. injection A1 as ->. exact A2. }
  destruct t; try exact A; destruct v; try exact A.
  - apply B. rewrite <- (C _ bs0 eq_refl) at 1 2; [reflexivity|rewrite append_bytes; reflexivity].
  - apply B. rewrite <- (C _ bs0 eq_refl) at 1 2; [reflexivity|rewrite append_bytes; reflexivity].
Qed.
Lemma full_thm cf D kf v t bs :
  (cf_est_override cf = false \/ (wf_defs D = true /\ wf_ty D t = true /\ well_typed D v t = true /\ zeros D v t = 0)) ->
  to_bytes_full cf D kf v t = ROk bs -> zlen bs <= isize_max ->
  vec_to_bytes_full cf D kf v t = ROk (mkVec bs (zlen bs) (if zlen bs =? 0 then 0 else 1)).
Proof.
  intros HT HB HL. unfold to_bytes_full in HB. destruct (enc_len cf D kf v t) as [n| | | |] eqn:EN; try discriminate. cbn [rbind] in HB.
  destruct (Z.leb_spec n isize_max) as [L|]; [|discriminate].
  assert (n = zlen bs).
  { destruct (cf_est_override cf) eqn:EO.
    - destruct HT as [|(H1 & H2 & H3 & H4)]; [discriminate|]. unfold enc_len in EN. rewrite EO in EN.
      rewrite (estimate_exact cf D kf v t bs n H1 H2 H3 HB HL EN). lia.
    - destruct (enc_len_exact cf D kf v t bs EO HB HL) as [E _]. rewrite E in EN. injection EN as <-. reflexivity. }
  subst n. unfold vec_to_bytes_full. rewrite EN. cbn [rbind]. replace (zlen bs <=? isize_max) with true by lia.
  rewrite (room_thm cf D kf v t bs _ ltac:(unfold encodes; tauto)); [reflexivity|]. cbn. lia.
Qed.
Lemma dynamic_thm cf D kf s v t bs : cf_est_override cf = false -> to_bytes cf D kf (VWrap v) (TDyn s t) = ROk bs -> zlen bs <= isize_max ->
  vec_to_bytes cf D kf (VWrap v) (TDyn s t) = ROk (mkVec bs (Z.max 8 (zlen bs)) 1).
Proof.
  intros EO HB HL. destruct (announcements_thm cf D kf (VWrap v) (TDyn s t) bs (conj (or_introl EO) (conj HB HL))) as (calls & HP & N & _ & HC).
  assert (CL : counts tg_log) by (intros u; repeat split). pose proof (HC _ tg_log CL []) as E.
  assert (RL : forall cs u, receive_all tg_log cs u = u ++ cs).
  { induction cs as [|c cs IH]; intros u; cbn [receive_all]; [rewrite app_nil_r; reflexivity|]. rewrite IH.
    destruct c; cbn [receive tg_log tg_anticipate tg_push_one tg_push_many tg_push_all tg_resolve tg_resolve_zero snd]; rewrite <- app_assoc; reflexivity. }
  rewrite RL in E. cbn [app] in E.
  destruct (dyn_log cf D kf (or_introl EO) s v t (or_introl EO) (fair_vals cf D kf (or_introl EO) v t (or_introl EO)) _ _ _ E) as (n & c & EC & G).
  cbn [app] in EC. subst calls. cbn [pushed_by] in HP. rewrite HP in G. destruct (G HL) as (_ & G2 & _ & G4). specialize (G2 EO). subst n.
  cbn [vec_to_bytes append_to_vec]. rewrite (HC _ _ capacity_counts vec_new). unfold rmap. cbn [rbind snd receive_all receive tg_capacity tg_anticipate].
  change (vec_reserve (zlen bs) vec_new) with (if 0 <? zlen bs then mkVec [] (Z.max 8 (Z.max 0 (zlen bs))) 1 else vec_new).
  replace (0 <? zlen bs) with true by lia. change (tg_capacity) with tg_capacity.
  fold tg_capacity. rewrite enough_room; [|exact (idle_tail _ _ N)|cbn [vec_capacity vec_bytes]; rewrite HP; change (zlen []) with 0; lia].
  cbn [vec_bytes vec_capacity vec_allocations app]. rewrite HP. do 2 f_equal. lia.
Qed.
