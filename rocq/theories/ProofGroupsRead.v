(** Groups as written and as read (C93): reading. *)
From Verif Require Import Base BaseLemmas ModelErrors ModelParser ModelSplitVec ModelInt ModelFloat ModelZarith ModelUtf8 ModelTarget ModelSchema
  SpecParser SpecCodec SpecGroups ProofParserSim ProofParserClean ProofParserExact ProofInt ProofZarith ProofUtf8 ProofFloat ProofDec ProofCodec ProofRoundTrip.
From Coq Require Import ZifyBool.

(** ** What a program takes, call by call *)
Definition one {X : Set} (o : pop X) (x : X) : list Z :=
  match o in pop X return X -> list Z with
  | OpConsumeByte => fun _ => [1] | OpConsume n => fun _ => [n] | OpSkip n => fun d => [d] | _ => fun _ => []
  end x.
Fixpoint glog {A} (pg : prog A) (w : wstack) : list Z :=
  match pg with
  | POp o k => match contract_h _ o w with (ROk y, w') => one o y ++ glog (k y) w' | _ => [] end
  | PTry o k f => match contract_h _ o w with (ROk y, w') => one o y ++ glog (k y) w' | (RErr _, w') => glog f w' | _ => [] end
  | _ => []
  end.
Lemma glog_pbind {A B} (pg : prog A) (k : A -> prog B) : forall w,
  glog (pbind pg k) w = glog pg w ++ match run contract_h pg w with (ROk a, w') => glog (k a) w' | _ => [] end.
Proof.
  induction pg as [a|e| | | |X o kk IH|X o kk IHk f IHf]; intros w; cbn [pbind glog run]; try reflexivity.
  - destruct (contract_h X o w) as [[y|e| | |] w']; try reflexivity. rewrite IH, app_assoc. reflexivity.
  - destruct (contract_h X o w) as [[y|e| | |] w']; try reflexivity; [rewrite IHk, app_assoc; reflexivity|apply IHf].
Qed.

(** From [cur], with anything outside, the program succeeds with [a], leaves [x] and
    logs [gs]. *)
Definition took {A} (pg : prog A) (cur : list byte) (a : A) (x : list byte) (gs : list Z) : Prop :=
  forall outer, run contract_h pg (mkW cur outer) = (ROk a, mkW x outer) /\ glog pg (mkW cur outer) = gs.
Lemma took_bind {A B} (pg : prog A) (k : A -> prog B) cur a x gs b y hs :
  took pg cur a x gs -> took (k a) x b y hs -> took (pbind pg k) cur b y (gs ++ hs).
Proof.
  intros H1 H2 outer. destruct (H1 outer) as [R1 G1]. destruct (H2 outer) as [R2 G2].
  rewrite run_pbind, glog_pbind, R1, G1, R2, G2. split; reflexivity.
Qed.
Lemma took_ret {A} (a : A) cur : took (PRet a) cur a cur [].
Proof. intros outer. split; reflexivity. Qed.
Lemma took_map {A B} (pg : prog A) (f : A -> B) cur a x gs : took pg cur a x gs -> took (pbind pg (fun a => PRet (f a))) cur (f a) x gs.
Proof. intros H. rewrite <- (app_nil_r gs). eapply took_bind; [exact H|apply took_ret]. Qed.
Lemma took_lift {A} (r : pres A) a cur : r = ROk a -> took (plift r) cur a cur [].
Proof. intros ->. apply took_ret. Qed.
Lemma took_rem {B} (k : Z -> prog B) cur b x gs : took (k (zlen cur)) cur b x gs -> took (pbind p_remainder k) cur b x gs.
Proof. intros H. change gs with ([] ++ gs). eapply took_bind; [|exact H]. intros outer. split; reflexivity. Qed.
Lemma took_bindl {A B} (r : pres A) (k : A -> prog B) a cur b x gs : r = ROk a -> took (k a) cur b x gs -> took (pbind (plift r) k) cur b x gs.
Proof. intros E H. change gs with ([] ++ gs). eapply took_bind; [apply took_lift, E|exact H]. Qed.
Lemma took_byte b x : took p_consume_byte (b :: x) b x [1].
Proof. intros outer. split; reflexivity. Qed.
Lemma took_consume n bs x : zlen bs = n -> n <= isize_max -> took (p_consume n) (bs ++ x) bs x [n].
Proof.
  intros Hn Hm outer. pose proof (zlen_nonneg bs). pose proof (zlen_nonneg x).
  unfold p_consume, do_op. cbn [run glog]. unfold contract_h. cbn [in_contract]. rewrite size_ok_true by lia.
  unfold spec_h; cbn [spec_op w_cur w_outer]. rewrite zlen_app.
  destruct (Z.leb_spec n (zlen bs + zlen x)); [|lia]. rewrite <- Hn, ztake_app, zdrop_app. split; reflexivity.
Qed.
Lemma took_fixed n bs x : zlen bs = n -> n <= isize_max -> took (p_take_fixed n) (bs ++ x) bs x [n].
Proof.
  intros Hn Hm. unfold p_take_fixed. change [n] with ([n] ++ []). eapply took_bind; [apply took_consume; assumption|].
  apply took_lift. unfold coerce_slice. rewrite Hn, Z.eqb_refl. reflexivity.
Qed.
Lemma took_int k z x : ik_in k z = true -> took (p_int k) (int_format k z ++ x) z x [zlen (int_format k z)].
Proof.
  intros Hz. rewrite int_format_length. rewrite <- (from_to_be_bytes k z Hz) at 2.
  apply (took_map _ (from_be_bytes k)), took_fixed; [apply int_format_length|apply ik_len_small].
Qed.
Lemma took_tag k tags z x : ik_in k z = true -> In z tags -> took (p_take_tagword k tags) (int_format k z ++ x) z x [zlen (int_format k z)].
Proof.
  intros Hz Hi. unfold p_take_tagword. rewrite <- (app_nil_r [_]). eapply took_bind; [apply took_int, Hz|].
  replace (existsb (Z.eqb z) tags) with true; [apply took_ret|].
  symmetry; apply existsb_exists. exists z; split; [assumption|apply Z.eqb_refl].
Qed.
Lemma took_ranged cf k lo hi z x : ri_sanity lo hi = true -> ranged_ok k lo hi z = true ->
  took (p_ranged cf k lo hi) (int_format k z ++ x) z x [zlen (int_format k z)].
Proof.
  intros Hs Hz. unfold ranged_ok in Hz. apply andb_prop in Hz; destruct Hz as [Hz1 Hz2].
  unfold p_ranged. rewrite <- (app_nil_r [_]). eapply took_bind; [apply took_int, Hz1|]. apply took_lift. rewrite ri_ok by assumption. reflexivity.
Qed.
Lemma took_pref cf s n x : 0 <= n <= pref_max s -> took (p_pref cf s) (pref_format s n ++ x) n x [zlen (pref_format s n)].
Proof.
  intros Hn. rewrite pref_format_int by assumption. destruct s; cbn [p_pref pref_max] in *.
  - apply took_int. unfold ik_in; cbn; lia.
  - apply took_int. unfold ik_in; cbn; lia.
  - assert (Hi : ik_in U64 n = true).
    { apply ik_in_spec. change (ik_min U64) with 0. change (ik_max U64) with (2 ^ 64 - 1). unfold u30_max in Hn; lia. }
    replace n with (ri_into U64 n) at 2 by (unfold ri_into; apply ik_wrap_id, Hi). apply took_map, took_ranged; [reflexivity|].
    unfold ranged_ok. apply andb_true_intro; split; [|cbn [Z.ltb Z.compare]; lia].
    apply ik_in_spec. change (ik_min U32) with 0. change (ik_max U32) with (2 ^ 32 - 1). unfold u30_max in Hn; lia.
Qed.
Lemma took_st_loop l x : bytes_ok l -> terminated l = true -> forall fuel acc, (length l < fuel)%nat ->
  took (p_self_terminating_loop fuel zarith_terminal acc) (l ++ x) (acc ++ l) x (map (fun _ => 1) l).
Proof.
  induction l as [|b l IH]; [discriminate|]. intros Hb Ht fuel acc Hf outer. inversion Hb as [|? ? Hb1 Hb2]; subst.
  destruct fuel as [|fuel]; [cbn [length] in Hf; lia|]. cbn [app p_self_terminating_loop run glog map length] in *.
  change (contract_h byte OpConsumeByte (mkW (b :: l ++ x) outer)) with (@ROk parse_error _ b, mkW (l ++ x) outer). cbv iota beta.
  cbn [one app]. rewrite terminal_spec by assumption. destruct l as [|c l].
  - cbn [terminated] in Ht. rewrite Ht. split; reflexivity.
  - rewrite terminated_cons in Ht by discriminate. apply andb_prop in Ht; destruct Ht as [Ht1 Ht2].
    destruct (Z.ltb_spec b 128); [lia|]. destruct (IH Hb2 Ht2 fuel (acc ++ [b]) ltac:(cbn [length] in *; lia) outer) as [R G].
    rewrite R, G, <- app_assoc. split; reflexivity.
Qed.
Lemma took_st l x : bytes_ok l -> terminated l = true -> zlen (l ++ x) <= isize_max ->
  took (p_take_self_terminating zarith_terminal) (l ++ x) l x (map (fun _ => 1) l).
Proof.
  intros Hb Ht Hz. unfold p_take_self_terminating. apply took_rem. destruct (Z.leb_spec (zlen (l ++ x)) isize_max); [|lia].
  apply (took_st_loop l x Hb Ht _ []). unfold zlen. rewrite app_length. lia.
Qed.
Lemma took_window {A B} n (pg : prog A) (f : A -> B) bs x a gs : zlen bs = n -> n <= isize_max -> took pg bs a [] gs ->
  took (pbind (p_set_fit n) (fun _ => pbind pg (fun v => pbind p_enforce_target (fun _ => PRet (f v))))) (bs ++ x) (f a) x gs.
Proof.
  intros Hn Hm H outer. pose proof (zlen_nonneg bs). pose proof (zlen_nonneg x). destruct (H (x :: outer)) as [R G].
  assert (RS : run contract_h (p_set_fit n) (mkW (bs ++ x) outer) = (ROk tt, mkW bs (x :: outer))).
  { unfold p_set_fit. rewrite run_do_op, contract_set_fit, size_ok_true by lia. rewrite zlen_app.
    destruct (Z.leb_spec n (zlen bs + zlen x)); [|lia]. rewrite <- Hn, ztake_app, zdrop_app. reflexivity. }
  assert (GS : glog (p_set_fit n) (mkW (bs ++ x) outer) = []).
  { unfold p_set_fit, do_op. cbn [glog]. destruct (contract_h unit (OpSetFit n) _) as [[] ?]; reflexivity. }
  rewrite run_pbind, glog_pbind, RS, GS. rewrite run_pbind, glog_pbind, R, G. split; [reflexivity|]. cbn. apply app_nil_r.
Qed.

(** ** Loops *)
Definition took_back (pg : prog val) (v : val) (bg : list byte * list Z) : Prop :=
  forall x, zlen (fst bg ++ x) <= isize_max -> took pg (fst bg ++ x) v x (snd bg).
Lemma took_seq elem vs bgs : Forall2 (took_back elem) vs bgs -> Forall (fun bg => 0 < zlen (fst bg)) bgs ->
  forall fuel acc, (length vs < fuel)%nat -> zlen (concat (map fst bgs)) <= isize_max ->
  took (p_seq_loop fuel elem acc) (concat (map fst bgs)) (acc ++ vs) [] (concat (map snd bgs)).
Proof.
  induction 1 as [|v [bs gs] vs bgs Hv _ IH]; intros Hne fuel acc Hf Hz; (destruct fuel as [|fuel]; [cbn in Hf; lia|]).
  - rewrite app_nil_r. intros outer. split; reflexivity.
  - apply Forall_cons_iff in Hne; destruct Hne as [Hb Hbs]. cbn [map concat length p_seq_loop fst snd] in *. apply took_rem.
    pose proof (zlen_nonneg (concat (map fst bgs))). rewrite zlen_app in *.
    destruct (Z.eqb_spec (zlen bs + zlen (concat (map fst bgs))) 0); [lia|].
    eapply took_bind; [apply Hv; cbn [fst]; rewrite zlen_app; lia|].
    replace (acc ++ v :: vs) with ((acc ++ [v]) ++ vs) by (rewrite <- app_assoc; reflexivity). apply IH; [exact Hbs|lia|lia].
Qed.
Lemma took_lim elem n vs bgs : Forall2 (took_back elem) vs bgs -> Forall (fun bg => 0 < zlen (fst bg)) bgs ->
  forall fuel acc, (length vs < fuel)%nat -> zlen (concat (map fst bgs)) <= isize_max -> zlen acc + zlen vs <= n ->
  took (p_lim_loop fuel n elem acc) (concat (map fst bgs)) (acc ++ vs) [] (concat (map snd bgs)).
Proof.
  induction 1 as [|v [bs gs] vs bgs Hv _ IH]; intros Hne fuel acc Hf Hz Hn; (destruct fuel as [|fuel]; [cbn in Hf; lia|]).
  - rewrite app_nil_r. intros outer. split; reflexivity.
  - apply Forall_cons_iff in Hne; destruct Hne as [Hb Hbs]. cbn [map concat length p_lim_loop fst snd] in *. apply took_rem.
    pose proof (zlen_nonneg (concat (map fst bgs))). rewrite zlen_app in *. rewrite zlen_cons in Hn. pose proof (zlen_nonneg vs).
    destruct (Z.eqb_spec (zlen bs + zlen (concat (map fst bgs))) 0); [lia|].
    eapply took_bind; [apply Hv; cbn [fst]; rewrite zlen_app; lia|].
    apply took_bindl with (a := acc ++ [v]); [unfold try_push; destruct (Z.ltb_spec (zlen acc) n); [reflexivity|lia]|].
    replace (acc ++ v :: vs) with ((acc ++ [v]) ++ vs) by (rewrite <- app_assoc; reflexivity). apply IH; [exact Hbs|lia|lia|].
    rewrite zlen_app. change (zlen [v]) with 1. lia.
Qed.
Lemma took_fix elem n vs bgs : Forall2 (took_back elem) vs bgs -> Forall (fun bg => 0 < zlen (fst bg)) bgs ->
  forall fuel acc x, (length vs < fuel)%nat -> zlen (concat (map fst bgs) ++ x) <= isize_max -> zlen acc + zlen vs = n ->
  took (p_fix_loop fuel n elem acc) (concat (map fst bgs) ++ x) (acc ++ vs) x (concat (map snd bgs)).
Proof.
  induction 1 as [|v [bs gs] vs bgs Hv _ IH]; intros Hne fuel acc x Hf Hz Hn; (destruct fuel as [|fuel]; [cbn in Hf; lia|]).
  - cbn [concat map app p_fix_loop]. apply took_rem. change (zlen []) with 0 in Hn.
    destruct (Z.ltb_spec (zlen acc) n); [lia|]. rewrite andb_false_r.
    destruct (Z.eqb_spec (zlen acc) n); [|lia]. rewrite app_nil_r. apply took_ret.
  - apply Forall_cons_iff in Hne; destruct Hne as [Hb Hbs]. cbn [map concat length p_fix_loop fst snd] in *. rewrite <- app_assoc in *. apply took_rem.
    pose proof (zlen_nonneg (concat (map fst bgs) ++ x)). rewrite (zlen_app bs) in *. rewrite zlen_cons in Hn. pose proof (zlen_nonneg vs).
    destruct (Z.eqb_spec (zlen bs + zlen (concat (map fst bgs) ++ x)) 0); [lia|].
    destruct (Z.ltb_spec (zlen acc) n); [|lia]. cbn [negb andb].
    eapply took_bind; [apply Hv; cbn [fst]; rewrite zlen_app; lia|].
    replace (acc ++ v :: vs) with ((acc ++ [v]) ++ vs) by (rewrite <- app_assoc; reflexivity). apply IH; [exact Hbs|lia|lia|].
    rewrite zlen_app. change (zlen [v]) with 1. lia.
Qed.

(** ** Every value *)
Section Taken.
Variables (cf : config) (D : list def) (I : list tinfo).
Hypothesis HI : disciplined D I = true.
Hypothesis HD : wf_defs D = true.
Let sizes v t := map zlen (groups_taken D v t).
Definition tk_val (v : val) : Prop := forall t k, kind_of I t = Some k -> wf_ty D t = true -> valid D v t = true ->
  exists f0, forall f x, (f0 <= f)%nat -> adm k x -> zlen (format D v t ++ x) <= isize_max ->
    took (parse cf D f t) (format D v t ++ x) v x (sizes v t).

Lemma tk_fields vs : Forall tk_val vs -> forall ts k,
  kind_fields I ts = Some k -> forallb (wf_ty D) ts = true -> all2 (valid D) vs ts = true ->
  exists f0, forall f x, (f0 <= f)%nat -> adm k x -> zlen (concat2 (format D) vs ts ++ x) <= isize_max ->
    took (p_fields (parse cf D f) ts) (concat2 (format D) vs ts ++ x) vs x (map zlen (by_fields (groups_taken D) vs ts)).
Proof.
  induction 1 as [|v vs Hv _ IH]; intros [|t ts] k Hk Hw Ha; cbn [all2] in Ha; try discriminate.
  - exists O. intros. apply took_ret.
  - cbn [forallb] in Hw; apply andb_prop in Hw; destruct Hw as [Hw1 Hw2].
    apply andb_prop in Ha; destruct Ha as [Ha1 Ha2]. cbn [kind_fields] in Hk.
    destruct (kind_of I t) as [kt|] eqn:Ekt; [|discriminate].
    destruct (Hv t kt Ekt Hw1 Ha1) as [f1 H1].
    assert (Hrest : exists k', kind_fields I ts = Some k').
    { destruct kt; [eauto|]. destruct (kind_fields I ts); [eauto|discriminate]. }
    destruct Hrest as [k' Hk']. destruct (IH ts k' Hk' Hw2 Ha2) as [f2 H2].
    exists (Nat.max f1 f2). intros f x Hf Hx Hz. rewrite concat2_cons, <- app_assoc in *.
    cbn [p_fields by_fields]. rewrite map_app.
    assert (Hzr : zlen (concat2 (format D) vs ts ++ x) <= isize_max).
    { rewrite zlen_app in Hz. pose proof (zlen_nonneg (format D v t)). lia. }
    destruct kt as [|n].
    + rewrite Hk' in Hk; injection Hk as <-. eapply took_bind; [apply H1; try assumption; [lia|exact Logic.I]|].
      apply (took_map _ (cons v)), H2; [lia|assumption|assumption].
    + rewrite Hk' in Hk. destruct k'; [|discriminate].
      destruct (len_fields I ts) as [m|] eqn:El; [|discriminate].
      destruct ((0 <=? m) && (m <=? n)) eqn:Em; [|discriminate]. injection Hk as <-. cbn [adm] in Hx.
      assert (Hlen : zlen (concat2 (format D) vs ts) = m).
      { apply (len_fields_concat2 D I); try assumption.
        apply Forall_forall. intros v' _. apply (len_of_format D I HI HD). }
      eapply took_bind; [apply H1; [lia| |assumption]|].
      * cbn [adm]. rewrite zlen_app. lia.
      * apply (took_map _ (cons v)), H2; [lia|exact Logic.I|assumption].
Qed.
Lemma tk_list vs t : Forall tk_val vs -> kind_of I t = Some Delim -> wf_ty D t = true ->
  forallb (fun v => valid D v t) vs = true ->
  exists f0, forall f, (f0 <= f)%nat ->
    Forall2 (took_back (parse cf D f t)) vs (map (fun v => (format D v t, sizes v t)) vs).
Proof.
  intros Hvs Hk Hw. induction Hvs as [|v vs Hv _ IH]; intros Ha.
  - exists O. intros; constructor.
  - cbn [forallb] in Ha. apply andb_prop in Ha; destruct Ha as [Ha1 Ha2].
    destruct (IH Ha2) as [f1 H1]. destruct (Hv t Delim Hk Hw Ha1) as [f2 H2].
    exists (Nat.max f1 f2). intros f Hf. cbn [map]. constructor; [|apply H1; lia].
    intros x Hz. apply H2; [lia|exact Logic.I|assumption].
Qed.
Lemma tk_nonempty vs t : wf_ty D t = true -> nonempty I t = true -> forallb (fun v => valid D v t) vs = true ->
  Forall (fun bg => 0 < zlen (fst bg)) (map (fun v => (format D v t, sizes v t)) vs).
Proof.
  intros Hw Hn Ha. rewrite forallb_forall in Ha. apply Forall_forall. intros bs Hin.
  apply in_map_iff in Hin. destruct Hin as (v & <- & Hv). cbn [fst].
  apply (nonempty_format D I HI HD); auto.
Qed.
Lemma sizes_list vs t : map zlen (concat (map (fun v => groups_taken D v t) vs)) = concat (map snd (map (fun v => (format D v t, sizes v t)) vs)).
Proof. rewrite map_map. cbn [snd]. unfold sizes. induction vs as [|v vs IH]; cbn [map concat]; [reflexivity|]. rewrite map_app, IH. reflexivity. Qed.
Lemma formats_list vs t : concat (map (fun v => format D v t) vs) = concat (map fst (map (fun v => (format D v t, sizes v t)) vs)).
Proof. rewrite map_map. reflexivity. Qed.
Lemma sizes_bytes bs : map zlen (map (fun b : byte => [b]) bs) = map (fun _ => 1) bs.
Proof. rewrite map_map. reflexivity. Qed.

Ltac leaf := exists 1%nat; intros f x Hf _ Hz; (destruct f as [|f]; [lia|]); cbn [parse].
Lemma tk_all v : tk_val v.
Proof.
  induction v as [| | | | |v IHv|vs IHvs|vs IHvs|ix vs IHvs|v IHv] using val_ind';
    intros t k K W V; destruct t; try exact (False_ind _ (diff_false_true V)); try discriminate V;
    try (unfold valid in V; cbn [valid_gen] in V; destruct (nth_error D i) as [[?|?|?]|] eqn:Ei; discriminate V);
    unfold sizes, groups_taken; cbn [format groups_of]; fold groups_taken; unfold valid in V; cbn [valid_gen] in V; cbn [wf_ty] in W; cbn [kind_of] in K;
    cbn [map].
  - leaf. apply took_ret.
  - leaf. destruct b; intros outer; split; reflexivity.
  - leaf. apply (took_map _ VInt), took_int, V.
  - leaf. apply (took_map _ VInt), took_ranged; assumption.
  - leaf. rewrite be8_int in * by assumption. apply (took_map _ VInt), took_int, is_u64_in, V.
  - apply andb_prop in V; destruct V as [V V2]. apply andb_prop in V; destruct V as [V V1].
    leaf. rewrite be8_int in * by assumption. rewrite <- (app_nil_r [_]). eapply took_bind; [apply took_int, is_u64_in, V|].
    apply took_bindl with (a := z); [|apply took_ret].
    unfold rf_try_from_f64, restrict_float. rewrite V1, V2, (f64_le_trans _ _ _ V1 V2). reflexivity.
  - leaf. destruct (natural_format_props z ltac:(lia)) as (Hb & Ht & Hv & _). rewrite sizes_bytes, <- (app_nil_r (map _ _)).
    eapply took_bind; [apply took_st; assumption|]. apply took_bindl with (a := z); [|apply took_ret].
    rewrite n_deserialize_value, Hv by assumption. reflexivity.
  - leaf. destruct (integer_format_props z) as (Hb & Ht & Hv & _). rewrite sizes_bytes, <- (app_nil_r (map _ _)).
    eapply took_bind; [apply took_st; assumption|]. apply took_bindl with (a := z); [|apply took_ret].
    rewrite z_deserialize_value, Hv by (try (intros E; rewrite E in Ht; discriminate); assumption). reflexivity.
  - injection K as <-. exists 1%nat; intros f x Hf Hx Hz; (destruct f as [|f]; [lia|]); cbn [parse adm] in *.
    apply zlen_0_nil in Hx; subst x. apply took_rem. rewrite app_nil_r in *. apply (took_map _ VBytes). rewrite <- (app_nil_r bs) at 2.
    apply took_consume; [reflexivity|exact Hz].
  - injection K as <-. exists 1%nat; intros f x Hf Hx Hz; (destruct f as [|f]; [lia|]); cbn [parse adm] in *.
    apply zlen_0_nil in Hx; subst x. apply took_rem. rewrite app_nil_r in *.
    apply andb_prop in V; destruct V as [V1 V2]. rewrite <- (utf8_lossy_valid_id bs) at 3 by (try apply forallb_byteb; assumption).
    apply (took_map _ (fun bs => VBytes (utf8_lossy bs))). rewrite <- (app_nil_r bs) at 2. apply took_consume; [reflexivity|exact Hz].
  - apply andb_prop in V; destruct V as [V1 V2]. unfold sizeb in W.
    leaf. apply (took_map _ VBytes). replace (zlen bs) with n by lia. apply took_fixed; lia.
  - apply andb_prop in V; destruct V as [V1 V2]. unfold sizeb in W.
    leaf. apply (took_map _ VBytes). replace (zlen bs) with n by lia. apply took_fixed; lia.
  - leaf. change [0] with (int_format U8 0). rewrite <- (app_nil_r [zlen _]).
    eapply took_bind; [apply took_tag; [reflexivity|left; reflexivity]|]. apply took_ret.
  - destruct (kind_of I t) as [k'|]; [|discriminate]. destruct (greedy_ok k' && nonempty I t); [|discriminate].
    injection K as <-. exists 1%nat; intros f x Hf Hx Hz; (destruct f as [|f]; [lia|]); cbn [parse adm] in *.
    apply zlen_0_nil in Hx; subst x. intros outer; split; reflexivity.
  - destruct (IHv t k K W V) as [f0 H]. exists (S f0). intros f x Hf Hx Hz. destruct f as [|f]; [lia|].
    cbn [parse]. change ((255 :: format D v t) ++ x) with (int_format U8 255 ++ (format D v t ++ x)) in *.
    change (?a :: ?b) with ([a] ++ b). eapply took_bind; [apply took_tag; [reflexivity|right; left; reflexivity]|]. cbn [Z.eqb Pos.eqb].
    apply (took_map _ VSome), H; [lia|assumption|]. rewrite zlen_app in Hz. pose proof (zlen_nonneg (int_format U8 255)). lia.
  - destruct (kind_of I t) as [k'|] eqn:Ek; [|discriminate].
    destruct (greedy_ok k' && nonempty I t) eqn:Eg; [|discriminate]. apply andb_prop in Eg; destruct Eg as [Eg En].
    injection K as <-. destruct (IHv t k' Ek W V) as [f0 H]. exists (S f0). intros f x Hf Hx Hz.
    destruct f as [|f]; [lia|]. cbn [parse adm] in *. apply zlen_0_nil in Hx; subst x.
    pose proof (nonempty_format D I HI HD v t W En V) as Hpos.
    apply took_rem. rewrite app_nil_r in *. destruct (Z.eqb_spec (zlen (format D v t)) 0); [lia|].
    cbn [negb]. apply (took_map _ VSome). specialize (H f [] ltac:(lia) (adm_greedy _ Eg)). rewrite app_nil_r in H. apply H, Hz.
  - destruct (kind_of I t) as [[|]|] eqn:Ek; try discriminate. destruct (nonempty I t) eqn:En; [|discriminate].
    injection K as <-. destruct (tk_list vs t IHvs Ek W V) as [f0 H].
    exists (S (Nat.max f0 (S (length vs)))). intros f x Hf Hx Hz. destruct f as [|f]; [lia|]. cbn [parse adm] in *.
    apply zlen_0_nil in Hx; subst x. rewrite app_nil_r in *. apply (took_map _ VSeq). rewrite sizes_list, formats_list in *.
    apply (took_seq _ vs _ (H f ltac:(lia)) (tk_nonempty vs t W En V) f []); [lia|exact Hz].
  - apply andb_prop in V; destruct V as [V1 V2]. apply andb_prop in W; destruct W as [W1 W].
    destruct (kind_of I t) as [[|]|] eqn:Ek; try discriminate. destruct (nonempty I t) eqn:En; [|discriminate].
    injection K as <-. destruct (tk_list vs t IHvs Ek W V1) as [f0 H].
    exists (S (Nat.max f0 (S (length vs)))). intros f x Hf Hx Hz. destruct f as [|f]; [lia|]. cbn [parse adm] in *.
    apply zlen_0_nil in Hx; subst x. rewrite app_nil_r in *. apply (took_map _ VSeq). rewrite sizes_list, formats_list in *.
    apply (took_lim _ n vs _ (H f ltac:(lia)) (tk_nonempty vs t W En V1) f []); [lia|exact Hz|]. change (zlen []) with 0. lia.
  - apply andb_prop in V; destruct V as [V1 V2]. apply andb_prop in W; destruct W as [W1 W].
    destruct (kind_of I t) as [[|]|] eqn:Ek; try discriminate.
    destruct (nonempty I t || (n =? 0)) eqn:En; [|discriminate]. injection K as <-.
    destruct (tk_list vs t IHvs Ek W V1) as [f0 H].
    assert (Hne : Forall (fun bg => 0 < zlen (fst bg)) (map (fun v => (format D v t, sizes v t)) vs)).
    { apply orb_prop in En. destruct En as [En|En]; [apply tk_nonempty; assumption|].
      assert (vs = []) by (apply zlen_0_nil; lia). subst vs. constructor. }
    exists (S (Nat.max f0 (S (length vs)))). intros f x Hf Hx Hz. destruct f as [|f]; [lia|]. cbn [parse adm] in *.
    apply (took_map _ VSeq). rewrite sizes_list, formats_list in *.
    apply (took_fix _ n vs _ (H f ltac:(lia)) Hne f []); [lia|exact Hz|]. change (zlen []) with 0. lia.
  - destruct (nth_error D i) as [[ts|?|?]|] eqn:Ei; try discriminate V. injection K as <-.
    destruct (struct_nth D I HI HD _ _ Ei) as (Hk & _ & _ & Hw). unfold kind_check in Hk.
    destruct (kind_fields I ts) as [k'|] eqn:Ek; [|discriminate].
    destruct (tk_fields vs IHvs ts k' Ek Hw V) as [f0 H].
    exists (S f0). intros f x Hf Hx Hz. destruct f as [|f]; [lia|]. cbn [parse]. rewrite Ei.
    apply (took_map _ VStruct), H; [lia| |assumption]. eapply kind_check_adm; eassumption.
  - destruct (nth_error D i) as [[ts|kk tags|kk alts]|] eqn:Ei; try discriminate V; injection K as <-.
    + destruct vs; [|discriminate V]. apply Nat.ltb_lt in V.
      destruct (cstyle_nth D I HI HD _ _ _ Ei) as (_ & Hn & Hin).
      exists 1%nat. intros f x Hf _ Hz. destruct f as [|f]; [lia|]. cbn [parse]. rewrite Ei.
      assert (Hi : In (nth ix tags 0) tags) by (apply nth_In; assumption).
      rewrite forallb_forall in Hin. cbn [map]. rewrite <- (app_nil_r [_]).
      eapply took_bind; [apply took_tag; auto|]. rewrite find_tag_nth by assumption. apply took_ret.
    + destruct (nth_error alts ix) as [[tag ts]|] eqn:Ea; [|discriminate V].
      destruct (data_nth D I HI HD _ _ _ Ei) as (Hn & _ & H). destruct (H _ _ _ Ea) as (Hk & _ & Hw & Htag).
      unfold kind_check in Hk. destruct (kind_fields I ts) as [k'|] eqn:Ek; [|discriminate].
      rewrite (nth_error_nth _ _ _ Ea). cbn [fst snd map].
      destruct (tk_fields vs IHvs ts k' Ek Hw V) as [f0 Hf0].
      exists (S f0). intros f x Hf Hx Hz. destruct f as [|f]; [lia|]. cbn [parse]. rewrite Ei.
      rewrite <- app_assoc in *.
      assert (Emap : nth_error (map fst alts) ix = Some tag) by (rewrite nth_error_map, Ea; reflexivity).
      change (?a :: ?b) with ([a] ++ b). eapply took_bind; [apply took_tag; [assumption|eapply nth_error_In; exact Emap]|].
      assert (Eft : find_tag tag (map fst alts) = Some ix).
      { rewrite <- (nth_error_nth _ _ 0 Emap). apply find_tag_nth; [assumption|]. apply nth_error_Some; congruence. }
      rewrite Eft, Ea. apply (took_map _ (VEnum ix)), Hf0; [lia|eapply kind_check_adm; eassumption|].
      rewrite zlen_app in Hz. pose proof (zlen_nonneg (int_format kk tag)). lia.
  - apply andb_prop in V; destruct V as [V1 V2]. cbn [implb] in V2.
    destruct (kind_of I t) as [k'|] eqn:Ek; [|discriminate]. destruct (greedy_ok k') eqn:Eg; [|discriminate].
    injection K as <-. destruct (IHv t k' Ek W V1) as [f0 H].
    exists (S f0). intros f x Hf Hx Hz. destruct f as [|f]; [lia|]. cbn [parse].
    rewrite <- app_assoc in *. pose proof (zlen_nonneg (format D v t)). pose proof (pref_max_isize s).
    change (?a :: ?b) with ([a] ++ b). eapply took_bind; [apply took_pref; lia|].
    specialize (H f [] ltac:(lia) (adm_greedy _ Eg)). rewrite app_nil_r in H.
    apply (took_window _ _ VWrap); [reflexivity|lia|]. apply H; lia.
  - apply andb_prop in W; destruct W as [W1 W]. unfold sizeb in W1.
    destruct (kind_of I t) as [k'|] eqn:Ek; [|discriminate]. destruct (greedy_ok k') eqn:Eg; [|discriminate].
    injection K as <-. destruct (IHv t k' Ek W V) as [f0 H].
    exists (S f0). intros f x Hf Hx Hz. destruct f as [|f]; [lia|]. cbn [parse adm] in *. apply took_rem.
    rewrite zlen_app in *. pose proof (zlen_nonneg (format D v t)).
    apply took_bindl with (a := tt). { unfold debug_assert. replace (n <=? zlen (format D v t) + zlen x) with true by lia. destruct (cf_mode cf); reflexivity. }
    apply took_bindl with (a := zlen (format D v t)). { rewrite usub_ok by lia. f_equal. lia. }
    specialize (H f [] ltac:(lia) (adm_greedy _ Eg)). rewrite app_nil_r in H.
    apply (took_window _ _ VWrap); [reflexivity|lia|]. apply H; lia.
  - apply andb_prop in W; destruct W as [W1 W]. unfold sizeb in W1.
    destruct (kind_of I t) as [k'|] eqn:Ek; [|discriminate].
    destruct (IHv t k' Ek W V) as [f0 H].
    exists (S f0). intros f x Hf Hx Hz. destruct f as [|f]; [lia|]. cbn [parse].
    rewrite <- app_assoc in *. unfold byte in *. set (z := repeat 0 (Z.to_nat n)) in *.
    assert (Lz : zlen z = n) by (subst z; rewrite zlen_repeat; lia).
    assert (Fz : forallb (Z.eqb 0) z = true).
    { apply forallb_forall. intros b Hb. apply repeat_spec in Hb. subst b. reflexivity. }
    clearbody z. rewrite map_app. cbn [map]. rewrite Lz. eapply took_bind; [apply H; [lia| |assumption]|].
    + destruct k' as [|m]; cbn [adm]; [exact Logic.I|].
      destruct (n <=? m) eqn:Enm; [|discriminate]. injection K as <-. cbn [adm] in Hx.
      rewrite zlen_app. unfold byte in *. lia.
    + rewrite <- (app_nil_r [n]). eapply took_bind; [apply (took_consume n z x Lz); lia|]. rewrite Fz, andb_false_r. apply took_ret.
  - destruct (IHv t k K W V) as [f0 H]. exists (S f0). intros f x Hf Hx Hz. destruct f as [|f]; [lia|].
    cbn [parse]. apply (took_map _ VWrap), H; [lia|assumption|assumption].
Qed.
End Taken.
