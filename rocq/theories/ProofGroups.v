(** Groups as written and as read (C93): writing. *)
From Verif Require Import Base BaseLemmas ModelErrors ModelParser ModelInt ModelFloat ModelZarith ModelUtf8 ModelSplitVec ModelTarget ModelSchema
  SpecCodec SpecSplitVec SpecGroups ProofSplitVec ProofInt ProofZarith ProofRoundTrip ProofCodec ProofEnc ProofEstimate ProofMeta ProofEncValid ProofTarget.
From Coq Require Import ZifyBool.

(** ** A builder that is its groups *)
Definition tg_segs : target (segs byte) := {|
  tg_create := mkSegs [] None;
  tg_anticipate := fun _ s => s;
  tg_push_one := fun b s => (1, sg_append [b] s);
  tg_push_many := fun a s => (zlen a, sg_append a s);
  tg_push_all := fun a s => (zlen a, sg_append a s);
  tg_resolve := sg_close;
  tg_resolve_zero := default_resolve_zero sg_close
|}.
Lemma segs_related : related tg_memo tg_segs sv_history.
Proof.
  split; cbn; unfold both, default_resolve_zero; cbn; intros; auto; try (split; [reflexivity|]); auto using H_push, H_extend_slice, H_split.
Qed.

(** ** What a writer says *)
Definition opt_bytes (o : option (list byte)) : list byte := match o with Some l => l | None => [] end.
Definition told (b : option bool) (gs : list (list byte)) (s : segs byte) : segs byte :=
  match b with
  | None => s
  | Some false => mkSegs (sg_all s ++ gs) None
  | Some true => mkSegs (sg_closed s ++ match gs with g :: gs => (opt_bytes (sg_open s) ++ g) :: gs | [] => [] end) None
  end.
Definition shape (b : option bool) (gs : list (list byte)) : Prop :=
  match b with None => gs = [] | Some true => gs <> [] | Some false => True end.
Definition says (w : writer (segs byte)) (b : option bool) (gs : list (list byte)) : Prop :=
  shape b gs /\ forall s n s', w s = ROk (n, s') -> s' = told b gs s.
Definition or_else (b b' : option bool) : option bool := match b with None => b' | _ => b end.

Lemma told_two b gs b' gs' s : shape b gs -> shape b' gs' -> told b' gs' (told b gs s) = told (or_else b b') (gs ++ gs') s.
Proof.
  destruct b as [[|]|], b' as [[|]|]; cbn [shape told or_else]; intros H H'; subst; cbn [app]; try reflexivity.
  - destruct gs as [|g gs]; [contradiction|]. destruct gs' as [|g' gs']; [contradiction|]. cbn [sg_closed sg_open opt_bytes app]. rewrite <- app_assoc. reflexivity.
  - destruct gs as [|g gs]; [contradiction|]. unfold sg_all. cbn [sg_closed sg_open opt_bytes app]. rewrite !app_nil_r, <- app_assoc. reflexivity.
  - rewrite app_nil_r. reflexivity.
  - destruct gs' as [|g' gs']; [contradiction|]. cbn [sg_closed sg_open opt_bytes app]. rewrite <- app_assoc. reflexivity.
  - unfold sg_all at 1. cbn [sg_closed sg_open]. rewrite app_nil_r, <- app_assoc. reflexivity.
  - rewrite app_nil_r. reflexivity.
Qed.
Lemma shape_two b gs b' gs' : shape b gs -> shape b' gs' -> shape (or_else b b') (gs ++ gs').
Proof.
  destruct b as [[|]|]; cbn [shape or_else]; auto.
  - intros H _ E. apply app_eq_nil in E. tauto.
  - intros -> H. exact H.
Qed.

Section Says.
Variable cf : config.
Lemma w_add_inv (w1 w2 : writer (segs byte)) s n s' : w_add cf w1 w2 s = ROk (n, s') -> exists n1 s1 n2, w1 s = ROk (n1, s1) /\ w2 s1 = ROk (n2, s').
Proof.
  unfold w_add. destruct (w1 s) as [[n1 s1]| | | |]; cbn [rbind]; try discriminate. cbn [snd fst].
  destruct (w2 s1) as [[n2 s2]| | | |] eqn:E2; cbn [rbind]; try discriminate. cbn [snd fst].
  match goal with |- rbind ?x _ = _ -> _ => destruct x; cbn [rbind]; try discriminate end. intros E. injection E as _ <-. eauto.
Qed.
Lemma says_add w1 b1 g1 w2 b2 g2 : says w1 b1 g1 -> says w2 b2 g2 -> says (w_add cf w1 w2) (or_else b1 b2) (g1 ++ g2).
Proof.
  intros [S1 H1] [S2 H2]. split; [apply shape_two; assumption|]. intros s n s'. intros E.
  apply w_add_inv in E; destruct E as (n1 & s1 & n2 & E1 & E2).
  rewrite (H2 _ _ _ E2), (H1 _ _ _ E1). apply told_two; assumption.
Qed.
Lemma says_resolve : says (w_call (tg_resolve_zero tg_segs)) (Some false) [].
Proof. split; [exact I|]. intros s n s' E. injection E as _ <-. cbn [told]. rewrite app_nil_r. reflexivity. Qed.
Lemma says_macro : says (w_call (tg_resolve_macro tg_segs)) (Some false) [].
Proof. split; [exact I|]. intros s n s' E. injection E as _ <-. cbn [told]. rewrite app_nil_r. reflexivity. Qed.
Lemma says_end w b gs : says w b gs -> says (w_add cf w (w_call (tg_resolve_zero tg_segs))) (or_else b (Some false)) gs.
Proof. intros H. rewrite <- (app_nil_r gs). apply says_add; [exact H|apply says_resolve]. Qed.
Lemma says_put (f last : segs byte -> Z * segs byte) bs :
  (forall s, snd (f s) = sg_append bs s) -> (forall s, snd (last s) = sg_close s) ->
  says (w_add cf (w_call f) (w_call last)) (Some true) [bs].
Proof.
  intros Hf Hl. split; [discriminate|]. intros s n s'. intros E.
  apply w_add_inv in E; destruct E as (n1 & s1 & n2 & E1 & E2). unfold w_call in E1, E2. injection E1 as E1. injection E2 as E2.
  apply (f_equal snd) in E1, E2. cbn [snd] in E1, E2. subst s1 s'.
  rewrite Hl, Hf. unfold sg_close, sg_all, sg_append. cbn [sg_closed sg_open told]. destruct (sg_open s); reflexivity.
Qed.
Lemma says_int k z : says (w_int cf tg_segs k z) (Some true) [int_format k z].
Proof. rewrite <- to_be_bytes_format. apply says_put; reflexivity. Qed.
Lemma says_bind {A} (r : wres A) (w : A -> writer (segs byte)) b gs : shape b gs -> (forall a, r = ROk a -> says (w a) b gs) -> says (fun u => rbind r (fun a => w a u)) b gs.
Proof.
  intros S H. split; [exact S|]. intros s n s'. destruct r; cbn [rbind]; try discriminate. apply (H a eq_refl).
Qed.
Lemma says_ranged k lo hi z : ri_sanity lo hi = true -> ranged_ok k lo hi z = true -> says (w_ranged cf tg_segs k lo hi z) (Some true) [int_format k z].
Proof.
  intros Hs Hz. unfold w_ranged. apply (says_bind _ (fun x => w_add cf (w_int cf tg_segs k x) (w_call (tg_resolve_zero tg_segs)))); [discriminate|].
  intros x E. assert (x = z).
  { unfold ri_to_underlying, ri_check in E. rewrite Hs in E.
    assert (R : restrict z lo hi = ROk z). { apply restrict_ok. unfold ranged_ok in Hz. apply andb_prop in Hz; destruct Hz as [_ Hz]. destruct (0 <? lo); lia. }
    rewrite R in E. destruct (cf_range_check cf); cbn in E; congruence. }
  subst. apply (says_end _ (Some true)), says_int.
Qed.
Lemma says_pref s n : 0 <= n <= pref_max s -> says (w_pref cf tg_segs s n) (Some true) [pref_format s n].
Proof.
  intros Hn. rewrite pref_format_int by assumption. destruct s; cbn [w_pref]; try apply says_int.
  apply says_ranged; [reflexivity|]. apply (pref_ranged_ok [] eq_refl); exact Hn.
Qed.
Lemma says_sum ws bgs : Forall2 (fun w bg => says w (fst bg) (snd bg)) ws bgs -> forall acc,
  says (w_sum cf acc ws) (fold_right or_else None (map fst bgs)) (concat (map snd bgs)).
Proof.
  induction 1 as [|w bg ws bgs Hw _ IH]; intros acc; cbn [w_sum map fold_right concat].
  - split; [reflexivity|]. intros s n s' E. injection E as _ <-. reflexivity.
  - destruct Hw as [S1 H1]. split; [apply shape_two; [exact S1|apply (IH 0)]|]. intros s n s'.
    destruct (w s) as [[n1 s1]| | | |] eqn:E1; cbn [rbind]; try discriminate. cbn [snd fst].
    destruct (uadd (cf_mode cf) acc n1) as [a| | | |]; cbn [rbind]; try discriminate. intros E.
    destruct (IH a) as [S2 H2]. rewrite (H2 _ _ _ E), (H1 _ _ _ E1). apply told_two; assumption.
Qed.

Variables (D : list def) (kf : nat).
Hypothesis HD : wf_defs D = true.
Definition says_val (v : val) : Prop := forall t, wf_ty D t = true -> valid D v t = true ->
  zlen (format D v t) <= isize_max -> (cf_est_override cf = true -> zeros D v t = 0) ->
  says (write_to cf D kf v _ tg_segs t) (begins D v t) (groups_written D v t).

Lemma or_else_end bs : or_else (fold_right or_else None bs) (Some false) = fold_right or_else (Some false) bs.
Proof. induction bs as [|[b|] bs IH]; cbn [fold_right or_else]; auto. Qed.

Lemma says_fields vs : Forall says_val vs -> forall ts, forallb (wf_ty D) ts = true -> all2 (valid D) vs ts = true ->
  zlen (concat2 (format D) vs ts) <= isize_max -> (cf_est_override cf = true -> sum2 (zeros D) vs ts = 0) ->
  says (w_add cf (w_sum cf 0 (map2 (fun v t => write_to cf D kf v _ tg_segs t) w_bad vs ts)) (w_call (tg_resolve_zero tg_segs)))
    (first_said (begins D) vs ts) (by_fields (groups_written D) vs ts).
Proof.
  intros HF ts W V L Z0.
  assert (HX : exists bgs, Forall2 (fun w bg => says w (fst bg) (snd bg)) (map2 (fun v t => write_to cf D kf v _ tg_segs t) w_bad vs ts) bgs /\
    fold_right or_else (Some false) (map fst bgs) = first_said (begins D) vs ts /\ concat (map snd bgs) = by_fields (groups_written D) vs ts).
  { revert ts W V L Z0. induction HF as [|v vs Hv _ IH]; intros [|t ts] W V L Z0; try discriminate V.
    - exists []. split; [constructor|split; reflexivity].
    - cbn [forallb] in W. apply andb_prop in W; destruct W as [W1 W2].
      cbn [all2] in V. apply andb_prop in V; destruct V as [V1 V2].
      rewrite concat2_cons, zlen_app in L. rewrite sum2_cons in Z0.
      pose proof (zlen_nonneg (format D v t)). pose proof (zlen_nonneg (concat2 (format D) vs ts)).
      pose proof (zeros_nonneg D v t). pose proof (sum2_nonneg D vs ts).
      destruct (IH ts W2 V2 ltac:(lia) ltac:(intros HO; specialize (Z0 HO); lia)) as (bgs & F & E1 & E2).
      exists ((begins D v t, groups_written D v t) :: bgs). cbn [map fold_right concat fst snd first_said by_fields]. split; [constructor; [|exact F]|].
      + cbn [fst snd]. apply Hv; [exact W1|exact V1|lia|intros HO; specialize (Z0 HO); lia].
      + rewrite E1, E2. split; [|reflexivity]. destruct (begins D v t); reflexivity. }
  destruct HX as (bgs & F & E1 & E2). rewrite <- E1, <- E2, <- or_else_end. apply says_end, says_sum, F.
Qed.
Lemma says_elems vs t : Forall says_val vs -> wf_ty D t = true -> forallb (fun v => valid D v t) vs = true ->
  zlen (concat (map (fun v => format D v t) vs)) <= isize_max ->
  (cf_est_override cf = true -> fold_right Z.add 0 (map (fun v => zeros D v t) vs) = 0) ->
  says (w_add cf (w_sum cf 0 (map (fun v => write_to cf D kf v _ tg_segs t) vs)) (w_call (tg_resolve_zero tg_segs)))
    (fold_right (fun v said => match begins D v t with None => said | said => said end) (Some false) vs) (concat (map (fun v => groups_written D v t) vs)).
Proof.
  intros HF W V L Z0.
  assert (F : Forall2 (fun w bg => says w (fst bg) (snd bg)) (map (fun v => write_to cf D kf v _ tg_segs t) vs) (map (fun v => (begins D v t, groups_written D v t)) vs)).
  { induction HF as [|v vs Hv _ IH]; cbn [map]; [constructor|].
    cbn [forallb] in V. apply andb_prop in V; destruct V as [V1 V2].
    cbn [map concat fold_right] in L, Z0. rewrite zlen_app in L.
    pose proof (zlen_nonneg (format D v t)). pose proof (zlen_nonneg (concat (map (fun v => format D v t) vs))).
    pose proof (zeros_nonneg D v t). pose proof (fold_zeros_nonneg D vs t).
    constructor; [|apply IH; [exact V2|lia|intros HO; specialize (Z0 HO); lia]].
    cbn [fst snd]. apply Hv; [exact W|exact V1|lia|intros HO; specialize (Z0 HO); lia]. }
  apply (fun F => says_sum _ _ F 0) in F. apply says_end in F. rewrite or_else_end, !map_map in F. cbn [fst snd] in F.
  replace (fold_right (fun v said => match begins D v t with None => said | said => said end) (Some false) vs)
    with (fold_right or_else (Some false) (map (fun v => begins D v t) vs)); [exact F|].
  clear. induction vs as [|v vs IH]; cbn [map fold_right]; [reflexivity|]. rewrite IH. destruct (begins D v t); reflexivity.
Qed.

Lemma says_some w b gs : says w b gs ->
  says (w_add cf (w_add cf (w_call (tg_push_one tg_segs 255)) w) (w_call (tg_resolve_macro tg_segs))) (Some true)
    (match b, gs with Some true, g :: gs => (255 :: g) :: gs | _, gs => [255] :: gs end).
Proof.
  intros [S H]. split; [destruct b as [[|]|]; [destruct gs| |]; discriminate|]. intros s n s'. intros E.
  apply w_add_inv in E; destruct E as (n1 & s1 & n2 & E1 & E2). apply w_add_inv in E1; destruct E1 as (n3 & s3 & n4 & E3 & E1).
  injection E3 as _ <-. injection E2 as _ <-. fold (sg_append [255] s) in E1.
  rewrite (H _ _ _ E1). unfold told, sg_append, sg_close, sg_all. cbn [sg_closed sg_open opt_bytes].
  destruct b as [[|]|]; cbn [shape] in S.
  - destruct gs as [|g gs]; [contradiction|]. cbn [sg_closed sg_open]. rewrite app_nil_r. unfold opt_bytes.
    change (255 :: g) with ([255] ++ g). rewrite app_assoc. reflexivity.
  - cbn [sg_closed sg_open]. rewrite app_nil_r, <- app_assoc. reflexivity.
  - subst gs. reflexivity.
Qed.

Lemma says_padded w b gs z : says w b gs ->
  says (w_add cf (w_add cf w (w_call (tg_push_many tg_segs z))) (w_call (tg_resolve_zero tg_segs)))
    (match b with None => Some true | said => said end) (gs ++ [z]).
Proof.
  intros [S H]. replace (match b with None => Some true | said => said end) with (or_else b (Some true)) by (destruct b; reflexivity).
  split; [apply shape_two; [exact S|discriminate]|]. intros s n s'. intros E.
  apply w_add_inv in E; destruct E as (n1 & s1 & n2 & E1 & E2). apply w_add_inv in E1; destruct E1 as (n3 & s3 & n4 & E3 & E1).
  injection E1 as _ <-. injection E2 as _ <-. fold (sg_append z s3).
  rewrite <- told_two; [|exact S|discriminate]. rewrite <- (H _ _ _ E3). cbn [tg_resolve_zero tg_segs default_resolve_zero snd].
  unfold sg_close, sg_all, sg_append. cbn [sg_closed sg_open told]. destruct (sg_open s3); reflexivity.
Qed.

Lemma says_vals v : says_val v.
Proof.
  induction v as [| | | | |v IHv|vs IHvs|vs IHvs|ix vs IHvs|v IHv] using val_ind';
    intros t W V L Z0; destruct t; try discriminate V;
    unfold valid in V; cbn [valid_gen] in V; cbn [wf_ty] in W;
    try (destruct (nth_error D i) as [[?|?|?]|] eqn:Ei; discriminate V);
    unfold groups_written; cbn [write_to format zeros begins groups_of] in *; fold (groups_written D);
    try apply says_int; try (apply says_put; reflexivity).
  - split; [reflexivity|]. intros s n s' E. injection E as _ <-. reflexivity.
  - apply says_ranged; assumption.
  - rewrite be8_int by assumption. apply says_int.
  - apply andb_prop in V; destruct V as [V _]. apply andb_prop in V; destruct V as [V _]. rewrite be8_int by assumption. apply says_int.
  - rewrite n_serialize_format by lia. cbn [rbind]. apply says_put; reflexivity.
  - rewrite z_serialize_format. cbn [rbind]. apply says_put; reflexivity.
  - apply says_resolve.
  - apply says_some. rewrite zlen_cons in L. apply IHv; try assumption. lia.
  - pose proof (says_end _ _ _ (IHv t W V L Z0)) as S. destruct (begins D v t); exact S.
  - apply says_elems; assumption.
  - apply andb_prop in W; destruct W as [W1 W]. apply andb_prop in V; destruct V as [V V2]. apply says_elems; assumption.
  - apply andb_prop in W; destruct W as [W1 W]. apply andb_prop in V; destruct V as [V V2]. apply says_elems; assumption.
  - destruct (nth_error D i) as [[ts|?|?]|] eqn:Ei; try discriminate V.
    apply says_fields; try assumption. apply (wf_struct D i ts HD Ei).
  - destruct (nth_error D i) as [[ts|k tags|k alts]|] eqn:Ei; try discriminate V.
    + destruct vs; [|discriminate V]. destruct (nth_error tags ix) as [tag|] eqn:Et.
      * rewrite (nth_error_nth _ _ _ Et). apply says_int.
      * apply nth_error_None in Et. apply Nat.ltb_lt in V. lia.
    + destruct (nth_error alts ix) as [[tag ts]|] eqn:Ea; [|discriminate V].
      rewrite (nth_error_nth _ _ _ Ea) in *. cbn [fst snd] in *. rewrite zlen_app in L.
      pose proof (zlen_nonneg (int_format k tag)). pose proof (zlen_nonneg (concat2 (format D) vs ts)).
      apply (says_end _ (Some true)). change (?x :: ?y) with ([x] ++ y). apply (says_add _ (Some true) _ _ (first_said (begins D) vs ts)); [apply says_int|].
      apply says_fields; try assumption; [|lia]. apply (wf_data D i k alts ix tag ts HD Ei Ea).
  - apply andb_prop in V; destruct V as [V V2]. cbn [implb] in V2.
    rewrite zlen_app in L. pose proof (zlen_nonneg (format D v t)) as P. rewrite pref_format_len in L.
    assert (0 <= pref_len s) by (destruct s; cbn; lia).
    assert (Hp : 0 <= zlen (format D v t) <= pref_max s) by lia.
    match goal with |- says (fun u => rbind ?x (fun l => @?f l u)) _ _ => apply (says_bind x f); [discriminate|]; intros l El end.
    assert (l = zlen (format D v t)).
    { destruct (cf_est_override cf) eqn:EO.
      - assert (HN : estimate cf D kf v t <> RDiv) by congruence.
        rewrite (estimate_format cf D kf HD v t W (valid_typed D v t V) ltac:(lia) HN) in El. injection El as <-. specialize (Z0 eq_refl). lia.
      - rewrite (count_wr cf D kf v t (sim_all_vals cf D kf v)) in El.
        destruct (puts_wr cf D kf HD v t W V ltac:(lia) ltac:(congruence)) as [E|[E _]]; [|congruence]. rewrite E in El. injection El as <-. reflexivity. }
    subst l. clear El.
    match goal with |- says (fun u => rbind ?x (fun l => @?f l u)) _ _ => apply (says_bind x f); [discriminate|]; intros l _ end.
    rewrite (pref_len_ok cf D HD) by exact Hp.
    match goal with |- says (fun u => rbind ?x (fun l => @?f l u)) _ _ => apply (says_bind x f); [discriminate|]; intros ll _ end.
    match goal with |- says (fun u => rbind ?x (fun l => @?f l u)) _ _ => apply (says_bind x f); [discriminate|]; intros lt _ end.
    cbn [tg_anticipate tg_segs].
    apply (says_end _ (Some true)). change (?x :: ?y) with ([x] ++ y). apply (says_add _ (Some true) _ _ (begins D v t)); [apply says_pref; exact Hp|].
    apply IHv; try assumption. lia.
  - apply andb_prop in W; destruct W as [W1 W]. apply IHv; assumption.
  - apply andb_prop in W; destruct W as [W1 W]. rewrite zlen_app in L.
    pose proof (zlen_nonneg (repeat 0 (Z.to_nat n))).
    assert (S : says (write_to cf D kf v _ tg_segs t) (begins D v t) (groups_written D v t)) by (apply IHv; try assumption; unfold byte in *; lia).
    apply (says_padded _ _ _ (repeat 0 (Z.to_nat n))) in S. destruct (begins D v t); exact S.
  - apply IHv; assumption.
Qed.
End Says.
