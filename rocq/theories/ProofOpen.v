(** Wrappers around types written outside the library (C85). *)
From Verif Require Import Base BaseLemmas ModelErrors ModelParser ModelInt ModelTarget ModelSchema ModelOpen
  SpecParser SpecTarget SpecCodec SpecOpen ProofInt ProofDec ProofCodec ProofRoundTrip ProofEnc ProofEncBytes ProofEncValid
  ProofTarget ModelSplitVec ProofParser ProofParserSim ProofParserProps ProofParserClean ProofEstimate ProofTransfer.
From Coq Require Import ZifyBool.

Lemma isize_usize : isize_max < usize_mod - 8. Proof. reflexivity. Qed.

(** ** Running programs *)
Lemma run_of {A} (pg : prog A) (d : dm A) cur outer a rest : runs pg d -> zlen cur <= isize_max -> d cur = ROk (a, rest) ->
  run contract_h pg (mkW cur outer) = (ROk a, mkW rest outer).
Proof. intros H L E. specialize (H cur outer L). rewrite E in H. exact H. Qed.
Lemma run_tag k tags z x outer : ik_in k z = true -> In z tags -> zlen (int_format k z ++ x) <= isize_max ->
  run contract_h (p_take_tagword k tags) (mkW (int_format k z ++ x) outer) = (ROk z, mkW x outer).
Proof. intros Hz Hi L. eapply run_of; [apply runs_tag|exact L|]. apply d_tag_app; assumption. Qed.
Lemma run_pref cf s n x outer : 0 <= n <= pref_max s -> zlen (pref_format s n ++ x) <= isize_max ->
  run contract_h (p_pref cf s) (mkW (pref_format s n ++ x) outer) = (ROk n, mkW x outer).
Proof. intros Hn L. eapply run_of; [apply runs_pref|exact L|]. apply d_pref_app; assumption. Qed.
Lemma run_rem (cur : list byte) outer : run contract_h p_remainder (mkW cur outer) = (ROk (zlen cur), mkW cur outer).
Proof. reflexivity. Qed.
Lemma run_lift {P A} (h : handler P) (r : pres A) p : run h (plift r) p = (r, p).
Proof. destruct r; reflexivity. Qed.
Lemma run_consume bs x outer : zlen bs <= isize_max ->
  run contract_h (p_consume (zlen bs)) (mkW (bs ++ x) outer) = (ROk bs, mkW x outer).
Proof.
  intros L. unfold p_consume. rewrite run_do_op. unfold contract_h. cbn [in_contract]. pose proof (zlen_nonneg bs).
  rewrite size_ok_true by lia. unfold spec_h; cbn [spec_op w_cur w_outer]. rewrite zlen_app. pose proof (zlen_nonneg x).
  replace (zlen bs <=? zlen bs + zlen x) with true by lia. rewrite ztake_app, zdrop_app. reflexivity.
Qed.
Lemma run_set_fit (bs x : list byte) outer : zlen bs <= isize_max ->
  run contract_h (p_set_fit (zlen bs)) (mkW (bs ++ x) outer) = (ROk tt, mkW bs (x :: outer)).
Proof.
  intros L. unfold p_set_fit. rewrite run_do_op, contract_set_fit. pose proof (zlen_nonneg bs).
  rewrite size_ok_true by lia. rewrite zlen_app. pose proof (zlen_nonneg x).
  replace (zlen bs <=? zlen bs + zlen x) with true by lia. rewrite ztake_app, zdrop_app. reflexivity.
Qed.
Lemma run_enforce x outer : run contract_h p_enforce_target (mkW [] (x :: outer)) = (ROk tt, mkW x outer).
Proof. reflexivity. Qed.
(** A window around a program that reads all of it. *)
Lemma run_window {A} (pg : prog A) bs x outer a : zlen bs <= isize_max ->
  (forall outer, run contract_h pg (mkW bs outer) = (ROk a, mkW [] outer)) ->
  run contract_h (p_set_fit (zlen bs) ;;; v <- pg ;; p_enforce_target ;;; PRet v) (mkW (bs ++ x) outer) = (ROk a, mkW x outer).
Proof.
  intros L H. rewrite run_pbind, run_set_fit by exact L. rewrite run_pbind, H. rewrite run_pbind, run_enforce. reflexivity.
Qed.

(** ** Writing *)
Section Writes.
Variable cf : config.
Definition wok {U} (holds : U -> list byte -> Prop) (w : writer U) (bs : list byte) : Prop := sim holds w (r_put bs).

Section T.
Context {U : Type} (T : target U) (holds : U -> list byte -> Prop) (HC : collects T holds).
Lemma puts_only (r : pw) bs : cf_est_override cf = false -> puts cf r bs -> r = r_put bs.
Proof. intros E [->|[E' _]]; [reflexivity|congruence]. Qed.
Lemma wok_add w1 w2 a b : wok holds w1 a -> wok holds w2 b -> zlen (a ++ b) <= isize_max -> wok holds (w_add cf w1 w2) (a ++ b).
Proof.
  intros H1 H2 L. pose proof (sim_add cf holds w1 (r_put a) w2 (r_put b) H1 H2) as S. unfold wok.
  replace (r_put (a ++ b)) with (r_add cf (r_put a) (r_put b)); [exact S|].
  unfold r_add, r_put; cbn [rbind fst snd]. rewrite zlen_app in *. pose proof isize_usize. rewrite uadd_ok by lia. reflexivity.
Qed.
Lemma wok_resolve : wok holds (w_call (tg_resolve_zero T)) [].
Proof. exact (sim_resolve T holds (collects_lawful _ _ HC)). Qed.
Lemma wok_end w a : wok holds w a -> zlen a <= isize_max -> wok holds (w_add cf w (w_call (tg_resolve_zero T))) a.
Proof.
  intros H L. rewrite <- (app_nil_r a). apply wok_add; [exact H|apply wok_resolve|]. rewrite app_nil_r. exact L.
Qed.
Lemma wok_mend w a : wok holds w a -> zlen a <= isize_max -> wok holds (w_add cf w (w_call (tg_resolve_macro T))) a.
Proof.
  intros H L. rewrite <- (app_nil_r a). apply wok_add; [exact H|exact (sim_macro T holds (collects_lawful _ _ HC))|]. rewrite app_nil_r. exact L.
Qed.
Lemma wok_one b : wok holds (w_call (tg_push_one T b)) [b].
Proof. exact (sim_one T holds (collects_lawful _ _ HC) b). Qed.
Lemma wok_many bs : wok holds (w_call (tg_push_many T bs)) bs.
Proof. exact (sim_many T holds (collects_lawful _ _ HC) bs). Qed.
Lemma wok_all bs : wok holds (w_call (tg_push_all T bs)) bs.
Proof. exact (sim_all T holds (collects_lawful _ _ HC) bs). Qed.
Lemma wok_int k z : wok holds (w_int cf T k z) (int_format k z).
Proof.
  rewrite <- to_be_bytes_format. apply wok_end; [apply wok_all|]. rewrite to_be_bytes_format. apply ik_len_isize.
Qed.
Lemma wok_pref s n : 0 <= n <= pref_max s -> wok holds (w_pref cf T s n) (pref_format s n).
Proof.
  intros Hn. pose proof (sim_pref cf T holds (collects_lawful _ _ HC) s n) as S. unfold wok.
  replace (r_put (pref_format s n)) with (r_pref cf s n); [exact S|].
  destruct (puts_pref cf [] eq_refl s n Hn) as [E|[_ E]]; [exact E|].
  exfalso. destruct s; try discriminate E. cbn [r_pref] in E. unfold r_ranged in E.
  destruct (ri_to_underlying _ _ _ _) eqn:R in E; try discriminate E.
  unfold ri_to_underlying, ri_check in R.
  destruct (cf_range_check cf); cbn in R; unfold restrict in R; repeat match type of R with context [if ?b then _ else _] => destruct b end; discriminate R.
Qed.
Lemma wok_sum ws bss : Forall2 (wok holds) ws bss -> forall acc u pre, 0 <= acc -> acc + zlen (concat bss) <= isize_max -> holds u pre ->
  exists u', w_sum cf acc ws u = ROk (acc + zlen (concat bss), u') /\ holds u' (pre ++ concat bss).
Proof.
  induction 1 as [|w bs ws bss Hw _ IH]; intros acc u pre Ha L Hu; cbn [w_sum concat] in *.
  - exists u. rewrite app_nil_r. change (zlen []) with 0. rewrite Z.add_0_r. auto.
  - rewrite zlen_app in *. pose proof (zlen_nonneg bs). pose proof (zlen_nonneg (concat bss)). pose proof isize_usize.
    destruct (Hw u pre Hu) as (u1 & -> & Hu1). cbn [rbind fst snd]. rewrite uadd_ok by lia. cbn [rbind].
    destruct (IH (acc + zlen bs) u1 _ ltac:(lia) ltac:(lia) Hu1) as (u2 & -> & Hu2). exists u2.
    rewrite Z.add_assoc, app_assoc. auto.
Qed.
Lemma wok_sum0 ws bss : Forall2 (wok holds) ws bss -> zlen (concat bss) <= isize_max -> wok holds (w_sum cf 0 ws) (concat bss).
Proof. intros H L u pre Hu. apply (wok_sum ws bss H 0 u pre); [lia|exact L|exact Hu]. Qed.
Lemma wok_anticipate n w bs : wok holds w bs -> wok holds (fun u => w (tg_anticipate T n u)) bs.
Proof. apply (sim_anticipate T holds (collects_lawful _ _ HC)). Qed.
End T.

Lemma counter_collects : collects tg_counter (fun _ _ => True).
Proof. apply lawful_collects, lawful_counter. Qed.
Lemma im_wok {A} (c : codec A) (ok : A -> Prop) (fmt : A -> list byte) (after : list byte -> Prop) : implements cf c ok fmt after -> forall v, ok v -> zlen (fmt v) <= isize_max ->
  forall U (T : target U) holds, collects T holds -> wok holds (c_write c v U T) (fmt v).
Proof. intros H v Hv L U T holds HC u pre Hu. apply (im_write _ _ _ _ _ H v Hv L U T holds HC u pre Hu). Qed.

(** ** Implementations made by the library *)
Lemma make {A} (known : option (option Z)) (unknown : A -> wres Z) (write : A -> forall U, target U -> writer U)
  (parse : nat -> prog A) (ok : A -> Prop) (fmt : A -> list byte) (after : list byte -> Prop) :
  (forall v, ok v -> zlen (fmt v) <= isize_max -> forall U (T : target U) holds, collects T holds -> wok holds (write v U T) (fmt v)) ->
  (cf_est_override cf = true -> estimates (with_blanket cf known unknown write parse) ok fmt) ->
  (forall v x outer, ok v -> after x -> zlen (fmt v ++ x) <= isize_max ->
    exists f0, forall f, (f0 <= f)%nat -> run contract_h (parse f) (mkW (fmt v ++ x) outer) = (ROk v, mkW x outer)) ->
  (forall f, try_bytes_only (parse f)) ->
  implements cf (with_blanket cf known unknown write parse) ok fmt after.
Proof.
  intros HW HE HP HT. split; [| |exact HE|exact HP|exact HT].
  - intros v Hv L U T holds HC u pre Hu. exact (HW v Hv L U T holds HC u pre Hu).
  - intros v Hv L. cbn [c_enc_len with_blanket]. unfold blanket. destruct (cf_est_override cf) eqn:E.
    + destruct (HE eq_refl) as (H0 & H1 & H2). cbn [c_known c_unknown with_blanket] in *.
      destruct known as [[n|]|]; [|apply H2; assumption|congruence]. cbn [estimate_with]. rewrite (H1 n eq_refl v Hv). reflexivity.
    + destruct (HW v Hv L unit tg_counter (fun _ _ => True) counter_collects tt [] Logic.I) as (u & -> & _). reflexivity.
Qed.
End Writes.

Lemma weaker {A} cf (c : codec A) (ok ok' : A -> Prop) fmt (after after' : list byte -> Prop) : implements cf c ok fmt after ->
  (forall v, ok' v -> ok v) -> (forall x, after' x -> after x) -> implements cf c ok' fmt after'.
Proof.
  intros [HW HL HE HP HT] Ho Ha. split; auto. intros E. destruct (HE E) as (H0 & H1 & H2). split; [exact H0|]. split; eauto.
Qed.

(** ** The wrappers *)
Section Wrap.
Variable cf : config.
Section One.
Context {A : Type} (c : codec A) (ok : A -> Prop) (fmt : A -> list byte) (after : list byte -> Prop).
Hypothesis H : implements cf c ok fmt after.

Lemma c_estimate_ok : estimates c ok fmt -> forall v, ok v -> zlen (fmt v) <= isize_max -> c_estimate c v = ROk (zlen (fmt v)).
Proof.
  intros (H0 & H1 & H2) v Hv L. unfold c_estimate. destruct (c_known c) as [[n|]|] eqn:E; [|apply H2; assumption|congruence].
  cbn [estimate_with]. rewrite (H1 n eq_refl v Hv). reflexivity.
Qed.

Definition opt_ok (v : option A) : Prop := match v with Some v => ok v | None => True end.
Definition opt_fmt (v : option A) : list byte := match v with Some v => 255 :: fmt v | None => [0] end.
Lemma est_option : estimates c ok fmt -> estimates (c_option cf c) opt_ok opt_fmt.
Proof.
  intros HE. pose proof (c_estimate_ok HE) as HC. destruct HE as (H0 & H1 & H2). unfold estimates, c_option; cbn [c_known c_unknown with_blanket].
  split; [destruct (c_known c) as [[n|]|]; congruence|]. split.
  - intros n Hn [v|] Hv; destruct (c_known c) as [[k|]|]; try discriminate Hn; destruct (Z.eqb_spec k 0); try discriminate Hn; injection Hn as <-; [|reflexivity].
    cbn [opt_fmt]. rewrite zlen_cons, (H1 k eq_refl v Hv). lia.
  - intros [v|] Hv L; [|reflexivity]. cbn [opt_fmt opt_ok] in *. rewrite zlen_cons in *. rewrite HC by (assumption || lia). cbn [rbind].
    pose proof isize_usize. rewrite uadd_ok by lia. f_equal; lia.
Qed.
Lemma wrap_option : implements cf (c_option cf c) opt_ok opt_fmt after.
Proof.
  apply make.
  - intros [v|] Hv L U T holds HC; cbn [opt_fmt opt_ok] in *.
    + change (255 :: fmt v) with ([255] ++ fmt v) in *. apply wok_mend; [exact HC| |exact L].
      apply wok_add; [apply wok_one; exact HC| |exact L]. rewrite zlen_app in L. apply (im_wok cf c ok fmt after H); auto.
      change (zlen [255]) with 1 in L. lia.
    + apply wok_mend; [exact HC|apply wok_one; exact HC|exact L].
  - intros E. apply est_option, (im_size _ _ _ _ _ H E).
  - intros [v|] x outer Hv Hx L; cbn [opt_fmt opt_ok] in *.
    + assert (L' : zlen (fmt v ++ x) <= isize_max) by (cbn [app] in L; rewrite zlen_cons in L; lia).
      destruct (im_parse _ _ _ _ _ H v x outer Hv Hx L') as [f0 Hf]. exists f0. intros f Hle.
      change ((255 :: fmt v) ++ x) with (int_format U8 255 ++ (fmt v ++ x)) in *.
      rewrite run_pbind, run_tag; [|reflexivity|right; left; reflexivity|exact L]. cbn [Z.eqb Pos.eqb].
      rewrite run_pbind, (Hf f Hle). reflexivity.
    + exists O. intros f _. change ([0] ++ x) with (int_format U8 0 ++ x) in *.
      rewrite run_pbind, run_tag; [reflexivity|reflexivity|left; reflexivity|exact L].
  - intros f. pose proof (im_try _ _ _ _ _ H f) as Ht.
    unfold p_take_tagword, p_int, p_take_fixed, p_consume_arr, p_consume. tries.
Qed.

Definition null_fmt (v : option A) : list byte := match v with Some v => fmt v | None => [] end.
Lemma est_nullable : estimates c ok fmt -> estimates (c_nullable cf c) opt_ok null_fmt.
Proof.
  intros HE. pose proof (c_estimate_ok HE) as HC. destruct HE as (H0 & H1 & H2). unfold estimates, c_nullable; cbn [c_known c_unknown with_blanket].
  split; [destruct (c_known c) as [[n|]|]; congruence|]. split.
  - intros n Hn [v|] Hv; destruct (c_known c) as [[k|]|]; try discriminate Hn; destruct (Z.eqb_spec k 0); try discriminate Hn; injection Hn as <-; [|reflexivity].
    cbn [null_fmt]. rewrite (H1 k eq_refl v Hv). lia.
  - intros [v|] Hv L; [|reflexivity]. apply HC; assumption.
Qed.
Lemma wrap_nullable : after [] -> (forall v, ok v -> fmt v <> []) -> implements cf (c_nullable cf c) opt_ok null_fmt nothing.
Proof.
  intros Ha Hne. apply make.
  - intros [v|] Hv L U T holds HC; cbn [null_fmt opt_ok] in *.
    + apply wok_end; [exact HC| |exact L]. apply (im_wok cf c ok fmt after H); auto.
    + apply wok_resolve; exact HC.
  - intros E. apply est_nullable, (im_size _ _ _ _ _ H E).
  - intros [v|] x outer Hv Hx L; cbn [null_fmt opt_ok] in *; red in Hx; subst x.
    + destruct (im_parse _ _ _ _ _ H v [] outer Hv Ha L) as [f0 Hf]. exists f0. intros f Hle.
      rewrite run_pbind, run_rem. rewrite (proj2 (Z.eqb_neq _ 0)).
      * cbn [negb]. rewrite run_pbind, (Hf f Hle). reflexivity.
      * rewrite app_nil_r. intros E. apply zlen_0_nil in E. exact (Hne v Hv E).
    + exists O. intros f _. reflexivity.
  - intros f. pose proof (im_try _ _ _ _ _ H f) as Ht. unfold p_remainder. tries.
Qed.

(** Sequences *)
Definition seq_fmt (vs : list A) : list byte := concat (map fmt vs).
Lemma elem_len vs : Forall ok vs -> zlen (seq_fmt vs) <= isize_max -> Forall (fun v => zlen (fmt v) <= isize_max) vs.
Proof.
  unfold seq_fmt. induction 1 as [|v vs Hv _ IH]; cbn [map concat]; intros L; constructor; rewrite zlen_app in L;
    pose proof (zlen_nonneg (fmt v)); pose proof (zlen_nonneg (concat (map fmt vs))); [lia|apply IH; lia].
Qed.
Lemma usum_ok (g : A -> wres Z) vs : (forall v, ok v -> zlen (fmt v) <= isize_max -> g v = ROk (zlen (fmt v))) ->
  Forall ok vs -> zlen (seq_fmt vs) <= isize_max ->
  forall acc, 0 <= acc -> acc + zlen (seq_fmt vs) <= isize_max -> usum (cf_mode cf) acc (map g vs) = ROk (acc + zlen (seq_fmt vs)).
Proof.
  intros Hg. unfold seq_fmt. induction 1 as [|v vs Hv _ IH]; cbn [map concat usum]; intros L acc Ha La.
  - change (zlen []) with 0. f_equal. lia.
  - rewrite zlen_app in *. pose proof (zlen_nonneg (fmt v)). pose proof (zlen_nonneg (concat (map fmt vs))). pose proof isize_usize.
    rewrite Hg by (assumption || lia). cbn [rbind]. rewrite uadd_ok by lia. cbn [rbind]. rewrite IH by lia. f_equal. lia.
Qed.
Lemma wok_elements vs : Forall ok vs -> zlen (seq_fmt vs) <= isize_max ->
  forall U (T : target U) holds, collects T holds -> wok holds (write_elements cf c vs U T) (seq_fmt vs).
Proof.
  intros Hv L U T holds HC. unfold write_elements. apply wok_end; [exact HC| |exact L]. apply wok_sum0; [|exact L].
  pose proof (elem_len vs Hv L) as HL. clear L. induction Hv as [|v vs Hv _ IH]; cbn [map]; constructor.
  - apply Forall_cons_iff in HL. apply (im_wok cf c ok fmt after H); tauto.
  - apply IH. apply Forall_cons_iff in HL. tauto.
Qed.
Lemma est_seq : estimates c ok fmt -> forall vs, Forall ok vs -> zlen (seq_fmt vs) <= isize_max ->
  usum (cf_mode cf) 0 (map (c_estimate c) vs) = ROk (zlen (seq_fmt vs)).
Proof. intros HE vs Hv L. rewrite (usum_ok _ vs (c_estimate_ok HE) Hv L 0) by lia. reflexivity. Qed.
Lemma est_sequence : estimates c ok fmt -> estimates (c_seq cf c) (Forall ok) seq_fmt.
Proof. intros HE. repeat apply conj; cbn [c_seq c_known c_unknown with_blanket]; try discriminate. apply est_seq, HE. Qed.
Lemma est_limseq n : estimates c ok fmt -> estimates (c_lim cf n c) (fun vs => Forall ok vs /\ zlen vs <= n) seq_fmt.
Proof.
  intros HE. repeat apply conj; cbn [c_lim c_known c_unknown with_blanket]; try discriminate. intros vs [Hv _]. apply est_seq; assumption.
Qed.
Lemma seq_known k vs : (forall v, ok v -> zlen (fmt v) = k) -> Forall ok vs -> zlen (seq_fmt vs) = zlen vs * k.
Proof.
  intros Hk. unfold seq_fmt. induction 1 as [|v vs Hv _ IH]; cbn [map concat]; [reflexivity|].
  rewrite zlen_app, zlen_cons, IH, (Hk v Hv). lia.
Qed.
Lemma est_fixseq n : estimates c ok fmt -> estimates (c_fix cf n c) (fun vs => Forall ok vs /\ zlen vs = n) seq_fmt.
Proof.
  intros HE. destruct HE as (H0 & H1 & H2). unfold estimates, c_fix; cbn [c_known c_unknown with_blanket].
  split; [destruct (c_known c) as [[k|]|]; congruence|]. split.
  - intros N HN vs [Hv Hn]. destruct (c_known c) as [[k|]|]; try discriminate HN. injection HN as <-.
    rewrite (seq_known k vs (H1 k eq_refl) Hv), Hn. reflexivity.
  - intros vs [Hv _] L. rewrite (usum_ok _ vs H2 Hv L 0) by lia. reflexivity.
Qed.
End One.

Section Loops.
Context {A : Type} (c : codec A) (ok : A -> Prop) (fmt : A -> list byte).
Hypothesis H : implements cf c ok fmt anything.
Hypothesis Hne : forall v, ok v -> fmt v <> [].
Local Notation sf := (seq_fmt fmt).

Lemma one_elem v x outer : ok v -> zlen (fmt v ++ x) <= isize_max ->
  exists f0, forall f, (f0 <= f)%nat -> run contract_h (c_parse c f) (mkW (fmt v ++ x) outer) = (ROk v, mkW x outer).
Proof. intros Hv L. exact (im_parse _ _ _ _ _ H v x outer Hv Logic.I L). Qed.
Lemma nonempty_rem v x : ok v -> (zlen (fmt v ++ x) =? 0) = false.
Proof.
  intros Hv. apply Z.eqb_neq. rewrite zlen_app. pose proof (zlen_nonneg x). pose proof (zlen_nonneg (fmt v)).
  intros E. apply (Hne v Hv), zlen_0_nil. lia.
Qed.
Lemma loop_seq vs outer : Forall ok vs -> zlen (sf vs) <= isize_max ->
  exists f0, forall f, (f0 <= f)%nat -> forall fl acc, (List.length vs < fl)%nat ->
  run contract_h (p_seq_loop fl (c_parse c f) acc) (mkW (sf vs) outer) = (ROk (acc ++ vs), mkW [] outer).
Proof.
  unfold seq_fmt. induction 1 as [|v vs Hv _ IH]; cbn [map concat]; intros L.
  - exists O. intros f _ [|fl] acc Hf; [lia|]. cbn [p_seq_loop]. rewrite run_pbind, run_rem. rewrite app_nil_r. reflexivity.
  - rewrite zlen_app in L. pose proof (zlen_nonneg (fmt v)). destruct IH as [f1 H1]; [lia|].
    destruct (one_elem v (concat (map fmt vs)) outer Hv) as [f2 H2]; [rewrite zlen_app; exact L|].
    exists (Nat.max f1 f2). intros f Hf [|fl] acc Hl; cbn [List.length] in Hl; [lia|]. cbn [p_seq_loop].
    rewrite run_pbind, run_rem, nonempty_rem by exact Hv. rewrite run_pbind, H2 by lia. rewrite H1 by lia.
    rewrite <- app_assoc. reflexivity.
Qed.
Lemma loop_lim n vs outer : Forall ok vs -> zlen (sf vs) <= isize_max ->
  exists f0, forall f, (f0 <= f)%nat -> forall fl acc, (List.length vs < fl)%nat -> zlen acc + zlen vs <= n ->
  run contract_h (p_lim_loop fl n (c_parse c f) acc) (mkW (sf vs) outer) = (ROk (acc ++ vs), mkW [] outer).
Proof.
  unfold seq_fmt. induction 1 as [|v vs Hv _ IH]; cbn [map concat]; intros L.
  - exists O. intros f _ [|fl] acc Hf _; [lia|]. cbn [p_lim_loop]. rewrite run_pbind, run_rem. rewrite app_nil_r. reflexivity.
  - rewrite zlen_app in L. pose proof (zlen_nonneg (fmt v)). destruct IH as [f1 H1]; [lia|].
    destruct (one_elem v (concat (map fmt vs)) outer Hv) as [f2 H2]; [rewrite zlen_app; exact L|].
    exists (Nat.max f1 f2). intros f Hf [|fl] acc Hl Hn; cbn [List.length] in Hl; [lia|]. rewrite zlen_cons in Hn. pose proof (zlen_nonneg vs).
    cbn [p_lim_loop]. rewrite run_pbind, run_rem, nonempty_rem by exact Hv. rewrite run_pbind, H2 by lia.
    unfold try_push. replace (zlen acc <? n) with true by lia. cbn [ext_len plift]. rewrite run_pbind. cbn [run].
    rewrite H1; [rewrite <- app_assoc; reflexivity|lia|lia|]. rewrite zlen_app. change (zlen [v]) with 1. lia.
Qed.
Lemma loop_fix n vs x outer : Forall ok vs -> zlen (sf vs ++ x) <= isize_max ->
  exists f0, forall f, (f0 <= f)%nat -> forall fl acc, (List.length vs < fl)%nat -> zlen acc + zlen vs = n ->
  run contract_h (p_fix_loop fl n (c_parse c f) acc) (mkW (sf vs ++ x) outer) = (ROk (acc ++ vs), mkW x outer).
Proof.
  unfold seq_fmt. induction 1 as [|v vs Hv _ IH]; cbn [map concat]; intros L.
  - exists O. intros f _ [|fl] acc Hf Hn; [lia|]. change (zlen []) with 0 in Hn. cbn [p_fix_loop app]. rewrite run_pbind, run_rem.
    replace (zlen acc <? n) with false by lia. rewrite andb_false_r. replace (zlen acc =? n) with true by lia. rewrite app_nil_r. reflexivity.
  - rewrite <- app_assoc in *. rewrite zlen_app in L. pose proof (zlen_nonneg (fmt v)). destruct IH as [f1 H1]; [lia|].
    destruct (one_elem v (concat (map fmt vs) ++ x) outer Hv) as [f2 H2]; [rewrite zlen_app; exact L|].
    exists (Nat.max f1 f2). intros f Hf [|fl] acc Hl Hn; cbn [List.length] in Hl; [lia|]. rewrite zlen_cons in Hn. pose proof (zlen_nonneg vs).
    cbn [p_fix_loop]. rewrite run_pbind, run_rem, nonempty_rem by exact Hv. replace (zlen acc <? n) with true by lia. cbn [negb andb].
    rewrite run_pbind, H2 by lia. rewrite H1; [rewrite <- app_assoc; reflexivity|lia|lia|]. rewrite zlen_app. change (zlen [v]) with 1. lia.
Qed.
Lemma try_seq f : forall fl acc, try_bytes_only (p_seq_loop fl (c_parse c f) acc).
Proof. pose proof (im_try _ _ _ _ _ H f) as Ht. induction fl as [|fl IH]; intros acc; cbn [p_seq_loop]; unfold p_remainder; tries. Qed.
Lemma try_lim n f : forall fl acc, try_bytes_only (p_lim_loop fl n (c_parse c f) acc).
Proof. pose proof (im_try _ _ _ _ _ H f) as Ht. induction fl as [|fl IH]; intros acc; cbn [p_lim_loop]; unfold p_remainder; tries. Qed.
Lemma try_fix n f : forall fl acc, try_bytes_only (p_fix_loop fl n (c_parse c f) acc).
Proof. pose proof (im_try _ _ _ _ _ H f) as Ht. induction fl as [|fl IH]; intros acc; cbn [p_fix_loop]; unfold p_remainder; tries. Qed.

Lemma wrap_seq : implements cf (c_seq cf c) (Forall ok) sf nothing.
Proof.
  apply make.
  - intros vs Hv L U T holds HC. apply (wok_elements c ok fmt anything H vs Hv L U T holds HC).
  - intros E. apply est_sequence, (im_size _ _ _ _ _ H E).
  - intros vs x outer Hv Hx L. red in Hx; subst x. rewrite app_nil_r in *. destruct (loop_seq vs outer Hv L) as [f0 Hf].
    exists (Nat.max f0 (S (List.length vs))). intros f Hle. apply Hf; lia.
  - intros f. apply try_seq.
Qed.
Lemma wrap_lim n : implements cf (c_lim cf n c) (fun vs => Forall ok vs /\ zlen vs <= n) sf nothing.
Proof.
  apply make.
  - intros vs [Hv _] L U T holds HC. apply (wok_elements c ok fmt anything H vs Hv L U T holds HC).
  - intros E. apply est_limseq, (im_size _ _ _ _ _ H E).
  - intros vs x outer [Hv Hn] Hx L. red in Hx; subst x. rewrite app_nil_r in *. destruct (loop_lim n vs outer Hv L) as [f0 Hf].
    exists (Nat.max f0 (S (List.length vs))). intros f Hle. apply (Hf f ltac:(lia) f []); [lia|]. change (zlen []) with 0. lia.
  - intros f. apply try_lim.
Qed.
Lemma wrap_fix n : implements cf (c_fix cf n c) (fun vs => Forall ok vs /\ zlen vs = n) sf anything.
Proof.
  apply make.
  - intros vs [Hv _] L U T holds HC. apply (wok_elements c ok fmt anything H vs Hv L U T holds HC).
  - intros E. apply est_fixseq, (im_size _ _ _ _ _ H E).
  - intros vs x outer [Hv Hn] _ L. destruct (loop_fix n vs x outer Hv L) as [f0 Hf].
    exists (Nat.max f0 (S (List.length vs))). intros f Hle. apply (Hf f ltac:(lia) f []); [lia|]. change (zlen []) with 0. lia.
  - intros f. apply try_fix.
Qed.
End Loops.

(** Length prefixes and windows *)
Section Windows.
Context {A : Type} (c : codec A) (ok : A -> Prop) (fmt : A -> list byte) (after : list byte -> Prop).
Hypothesis H : implements cf c ok fmt after.

Definition dyn_fmt (s : len_pref) (v : A) : list byte := pref_format s (zlen (fmt v)) ++ fmt v.
Lemma try_tag k tags : try_bytes_only (p_take_tagword k tags).
Proof. unfold p_take_tagword, p_int, p_take_fixed, p_consume_arr, p_consume. tries. Qed.
Lemma try_pref s : try_bytes_only (p_pref cf s).
Proof. unfold p_pref, p_ranged, p_int, p_take_fixed, p_consume_arr, p_consume; destruct s; tries. Qed.
Lemma pref_len_pos s : 0 < pref_len s. Proof. destruct s; reflexivity. Qed.
Lemma wrap_dyn s : after [] -> implements cf (c_dyn cf s c) (fun v => ok v /\ zlen (fmt v) <= pref_max s) (dyn_fmt s) anything.
Proof.
  intros Ha. pose proof isize_usize as HI. pose proof (pref_len_pos s) as HP. unfold dyn_fmt. apply make.
  - intros v [Hv Hm] L U T holds HC u pre Hu. pose proof (zlen_nonneg (fmt v)) as P.
    rewrite zlen_app, pref_format_len in L. unfold c_dyn.
    rewrite (im_len _ _ _ _ _ H v Hv) by lia. cbn [rbind]. unfold rassert. replace (zlen (fmt v) <=? pref_max s) with true by lia. cbn [rbind].
    rewrite (pref_len_ok cf [] eq_refl) by lia.
    match goal with |- context [rbind ?x _] => assert (HLL : x = ROk (pref_len s)) end.
    { destruct (cf_est_override cf) eqn:EO; [reflexivity|].
      destruct (wok_pref cf tg_counter (fun _ _ => True) counter_collects s (zlen (fmt v)) ltac:(lia) tt [] Logic.I) as (u' & -> & _).
      cbn [rmap fst]. rewrite pref_format_len. reflexivity. }
    rewrite HLL. cbn [rbind]. rewrite uadd_ok by lia. cbn [rbind].
    assert (L' : zlen (pref_format s (zlen (fmt v)) ++ fmt v) <= isize_max) by (rewrite zlen_app, pref_format_len; lia).
    refine (wok_anticipate T holds HC _ _ _ (wok_end cf T holds HC _ _ (wok_add cf holds _ _ _ _ (wok_pref cf T holds HC s (zlen (fmt v)) _) _ L') L') u pre Hu); [lia|].
    apply (im_wok cf c ok fmt after H); auto. lia.
  - intros E. destruct (im_size _ _ _ _ _ H E) as (H0 & H1 & H2). unfold estimates, c_dyn; cbn [c_known c_unknown with_blanket].
    split; [destruct (c_known c) as [[n|]|]; congruence|]. split.
    + intros n Hn v [Hv _]. destruct (c_known c) as [[k|]|]; try discriminate Hn. injection Hn as <-.
      rewrite zlen_app, pref_format_len, (H1 k eq_refl v Hv). reflexivity.
    + intros v [Hv _] L. rewrite zlen_app, pref_format_len in *. pose proof (zlen_nonneg (fmt v)). rewrite H2 by (assumption || lia).
      cbn [rbind]. rewrite uadd_ok by lia. reflexivity.
  - intros v x outer [Hv Hm] _ L. rewrite <- app_assoc in *. pose proof (zlen_nonneg (fmt v)) as P. pose proof (zlen_nonneg x) as Px.
    assert (L' : zlen (fmt v) <= isize_max).
    { rewrite !zlen_app, pref_format_len in L. lia. }
    destruct (im_parse _ _ _ _ _ H v [] (x :: outer) Hv Ha) as [f0 Hf]; [rewrite app_nil_r; exact L'|].
    exists f0. intros f Hle. specialize (Hf f Hle). rewrite app_nil_r in Hf.
    rewrite run_pbind, run_pref by (lia || exact L). rewrite run_pbind, run_set_fit by exact L'. rewrite run_pbind, Hf, run_pbind, run_enforce. reflexivity.
  - intros f. pose proof (im_try _ _ _ _ _ H f) as Ht. pose proof (try_pref s). unfold p_set_fit, p_enforce_target. tries.
Qed.

Lemma wrap_vpad n : 0 <= n -> after [] -> implements cf (c_vpad cf n c) ok fmt (left_over n).
Proof.
  intros Hn Ha. apply make.
  - apply (im_wok cf c ok fmt after H).
  - intros E. exact (im_size _ _ _ _ _ H E).
  - intros v x outer Hv Hx L. red in Hx. pose proof (zlen_nonneg (fmt v)) as P. rewrite zlen_app in L.
    destruct (im_parse _ _ _ _ _ H v [] (x :: outer) Hv Ha) as [f0 Hf]; [rewrite app_nil_r; lia|].
    exists f0. intros f Hle. specialize (Hf f Hle). rewrite app_nil_r in Hf. rewrite run_pbind, run_rem, run_pbind, run_lift, zlen_app.
    replace (debug_assert (cf_mode cf) (n <=? zlen (fmt v) + zlen x)) with (@ROk parse_error unit tt)
      by (unfold debug_assert; destruct (cf_mode cf); [replace (n <=? zlen (fmt v) + zlen x) with true by lia|]; reflexivity).
    rewrite run_pbind, run_lift. unfold usub. replace (n <=? zlen (fmt v) + zlen x) with true by lia.
    replace (zlen (fmt v) + zlen x - n) with (zlen (fmt v)) by lia.
    rewrite run_pbind, run_set_fit by lia. rewrite run_pbind, Hf, run_pbind, run_enforce. reflexivity.
  - intros f. pose proof (im_try _ _ _ _ _ H f) as Ht. unfold p_remainder, p_set_fit, p_enforce_target. tries.
Qed.

Definition pad_fmt (n : Z) (v : A) : list byte := fmt v ++ repeat 0 (Z.to_nat n).
Lemma zlen_zeros n : 0 <= n -> @zlen byte (@repeat Z 0 (Z.to_nat n)) = n.
Proof. intros Hn. unfold zlen. rewrite repeat_length. lia. Qed.
Lemma wrap_pad n : 0 <= n -> (cf_est_override cf = true -> cf_relaxed_padding cf = true \/ c_known c <> Some None) ->
  implements cf (c_pad cf n c) ok (pad_fmt n) (fun x => after (repeat 0 (Z.to_nat n) ++ x)).
Proof.
  intros Hn HR. pose proof isize_usize as HI. pose proof (zlen_zeros n Hn) as HZ. unfold pad_fmt. apply make.
  - intros v Hv L U T holds HC. pose proof (zlen_nonneg (fmt v)). apply wok_end; [exact HC| |exact L]. apply wok_add; [|apply wok_many, HC|exact L].
    rewrite zlen_app in L. apply (im_wok cf c ok fmt after H); auto. unfold byte in *; lia.
  - intros E. destruct (im_size _ _ _ _ _ H E) as (H0 & H1 & H2). unfold estimates, c_pad; cbn [c_known c_unknown with_blanket].
    split; [destruct (c_known c) as [[k|]|]; try congruence; destruct (HR E) as [->|]; congruence|]. split.
    + intros N HN v Hv. destruct (c_known c) as [[k|]|]; [|destruct (cf_relaxed_padding cf); discriminate HN|discriminate HN]. injection HN as <-.
      rewrite zlen_app, HZ, (H1 k eq_refl v Hv). reflexivity.
    + intros v Hv L. rewrite zlen_app, HZ in *. pose proof (zlen_nonneg (fmt v)). rewrite H2 by (assumption || (unfold byte in *; lia)).
      cbn [rbind]. rewrite uadd_ok by (unfold byte in *; lia). reflexivity.
  - intros v x outer Hv Hx L. rewrite <- app_assoc in *. destruct (im_parse _ _ _ _ _ H v _ outer Hv Hx L) as [f0 Hf].
    exists f0. intros f Hle. rewrite run_pbind, Hf by exact Hle. rewrite run_pbind.
    assert (LZ : @zlen byte (@repeat Z 0 (Z.to_nat n)) <= isize_max).
    { rewrite !zlen_app, HZ in L. pose proof (zlen_nonneg (fmt v)). pose proof (zlen_nonneg x). rewrite HZ. unfold byte in *; lia. }
    replace (p_consume n) with (p_consume (@zlen byte (@repeat Z 0 (Z.to_nat n)))) by (rewrite HZ; reflexivity).
    rewrite run_consume by exact LZ. replace (forallb (Z.eqb 0) (repeat 0 (Z.to_nat n))) with true; [rewrite andb_false_r; reflexivity|].
    symmetry. apply forallb_forall. intros z Hz. apply repeat_spec in Hz. subst z. reflexivity.
  - intros f. pose proof (im_try _ _ _ _ _ H f) as Ht. unfold p_consume. tries.
Qed.

Lemma wrap_box : implements cf (c_box cf c) ok fmt after.
Proof.
  apply make.
  - apply (im_wok cf c ok fmt after H).
  - intros E. exact (im_size _ _ _ _ _ H E).
  - intros v x outer Hv Hx L. destruct (im_parse _ _ _ _ _ H v x outer Hv Hx L) as [f0 Hf]. exists f0. intros f Hle.
    rewrite run_pbind, Hf by exact Hle. reflexivity.
  - intros f. pose proof (im_try _ _ _ _ _ H f) as Ht. tries.
Qed.
End Windows.

(** Structs and enums *)
Section Fields.
Variable after : list byte -> Prop.
Lemma fi_write B (fs : fields B) ok fmt : fields_implement cf after B fs ok fmt -> forall v, ok v -> zlen (fmt v) <= isize_max ->
  forall U (T : target U) holds, collects T holds ->
  exists bss, Forall2 (wok holds) (fields_write fs v U T) bss /\ concat bss = fmt v.
Proof.
  induction 1 as [|A B c fs ok fmt here ok' fmt' Hc _ IH _]; intros v Hv L U T holds HC.
  - exists []. split; [constructor|reflexivity].
  - destruct v as [v vs]; destruct Hv as [Hv Hvs]; cbn [fst snd fields_write] in *. rewrite zlen_app in L.
    pose proof (zlen_nonneg (fmt v)). pose proof (zlen_nonneg (fmt' vs)).
    destruct (IH vs Hvs ltac:(lia) U T holds HC) as (bss & F & E). exists (fmt v :: bss). split; [|cbn [concat]; rewrite E; reflexivity].
    constructor; [|exact F]. apply (im_wok cf c ok fmt here Hc); auto. lia.
Qed.
Lemma fi_wok B (fs : fields B) ok fmt : fields_implement cf after B fs ok fmt -> forall v, ok v -> zlen (fmt v) <= isize_max ->
  forall U (T : target U) holds, collects T holds ->
  wok holds (w_add cf (w_sum cf 0 (fields_write fs v U T)) (w_call (tg_resolve_zero T))) (fmt v).
Proof.
  intros HF v Hv L U T holds HC. destruct (fi_write B fs ok fmt HF v Hv L U T holds HC) as (bss & F & E). rewrite <- E in *.
  apply wok_end; [exact HC| |exact L]. apply wok_sum0; assumption.
Qed.
Lemma fi_known B (fs : fields B) ok fmt : cf_est_override cf = true -> fields_implement cf after B fs ok fmt ->
  fields_known fs <> None /\ (forall n, fields_known fs = Some (Some n) -> forall v, ok v -> zlen (fmt v) = n).
Proof.
  intros EO. induction 1 as [|A B c fs ok fmt here ok' fmt' Hc _ IH _]; cbn [fields_known].
  - split; [discriminate|]. intros n Hn v _. injection Hn as <-. reflexivity.
  - destruct IH as [I0 I1]. destruct (im_size _ _ _ _ _ Hc EO) as (H0 & H1 & _). split.
    + destruct (c_known c) as [[a|]|]; destruct (fields_known fs) as [[b|]|]; congruence.
    + intros n Hn v [Hv Hvs]. destruct (c_known c) as [[a|]|]; destruct (fields_known fs) as [[b|]|]; try discriminate Hn.
      injection Hn as <-. rewrite zlen_app, (H1 a eq_refl _ Hv), (I1 b eq_refl _ Hvs). reflexivity.
Qed.
Lemma fi_unknown B (fs : fields B) ok fmt : cf_est_override cf = true -> fields_implement cf after B fs ok fmt ->
  forall v, ok v -> forall acc, 0 <= acc -> acc + zlen (fmt v) <= isize_max ->
  usum (cf_mode cf) acc (fields_unknown fs v) = ROk (acc + zlen (fmt v)).
Proof.
  intros EO. pose proof isize_usize as HI. induction 1 as [|A B c fs ok fmt here ok' fmt' Hc _ IH _]; intros v Hv acc Ha L; cbn [fields_unknown usum].
  - change (zlen []) with 0. f_equal. lia.
  - destruct v as [v vs]; destruct Hv as [Hv Hvs]; cbn [fst snd] in *. rewrite zlen_app in *.
    pose proof (zlen_nonneg (fmt v)). pose proof (zlen_nonneg (fmt' vs)).
    destruct (im_size _ _ _ _ _ Hc EO) as (_ & _ & H2). rewrite H2 by (assumption || lia). cbn [rbind].
    rewrite uadd_ok by lia. cbn [rbind]. rewrite IH by (assumption || lia). f_equal. lia.
Qed.
Lemma fi_parse B (fs : fields B) ok fmt : fields_implement cf after B fs ok fmt -> forall v x outer, ok v -> after x ->
  zlen (fmt v ++ x) <= isize_max ->
  exists f0, forall f, (f0 <= f)%nat -> run contract_h (fields_parse fs f) (mkW (fmt v ++ x) outer) = (ROk v, mkW x outer).
Proof.
  induction 1 as [|A B c fs ok fmt here ok' fmt' Hc _ IH HA]; intros v x outer Hv Hx L; cbn [fields_parse].
  - exists O. intros f _. destruct v. reflexivity.
  - destruct v as [v vs]; destruct Hv as [Hv Hvs]; cbn [fst snd] in *. rewrite <- app_assoc in *.
    destruct (im_parse _ _ _ _ _ Hc v (fmt' vs ++ x) outer Hv (HA vs x Hvs Hx) L) as [f1 H1].
    destruct (IH vs x outer Hvs Hx) as [f2 H2]; [rewrite zlen_app in L; pose proof (zlen_nonneg (fmt v)); lia|].
    exists (Nat.max f1 f2). intros f Hf. rewrite run_pbind, H1 by lia. rewrite run_pbind, H2 by lia. reflexivity.
Qed.
Lemma fi_try B (fs : fields B) ok fmt : fields_implement cf after B fs ok fmt -> forall f, try_bytes_only (fields_parse fs f).
Proof.
  induction 1 as [|A B c fs ok fmt here ok' fmt' Hc _ IH _]; intros f; cbn [fields_parse]; [exact Logic.I|].
  pose proof (im_try _ _ _ _ _ Hc f) as Ht. specialize (IH f). tries.
Qed.

Lemma wrap_struct B S (fs : fields B) ok fmt (build : B -> S) (split : S -> B) :
  fields_implement cf after B fs ok fmt -> (forall s, build (split s) = s) ->
  implements cf (c_struct cf fs build split) (fun s => ok (split s)) (fun s => fmt (split s)) after.
Proof.
  intros HF Hb. apply make.
  - intros s Hs L U T holds HC. apply (fi_wok B fs ok fmt HF); assumption.
  - intros E. destruct (fi_known B fs ok fmt E HF) as [H0 H1]. repeat apply conj; cbn [c_struct c_known c_unknown with_blanket]; [exact H0| |].
    + intros n Hn s Hs. exact (H1 n Hn _ Hs).
    + intros s Hs L. rewrite (fi_unknown B fs ok fmt E HF _ Hs 0) by lia. reflexivity.
  - intros s x outer Hs Hx L. destruct (fi_parse B fs ok fmt HF _ x outer Hs Hx L) as [f0 Hf]. exists f0. intros f Hle.
    rewrite run_pbind, Hf by exact Hle. rewrite <- (Hb s) at 2. reflexivity.
  - intros f. pose proof (fi_try B fs ok fmt HF f) as Ht. tries.
Qed.

Section Data.
Context {S : Type} (k : int_kind) (vs : list (variant S)) (ok : S -> Prop) (fmt : S -> list byte).
Hypothesis Hvs : Forall (fun va => exists ok' fmt', fields_implement cf after _ (va_fields va) ok' fmt' /\
  forall s x, ok s -> va_split va s = Some x ->
    ok' x /\ fmt s = int_format k (va_tag va) ++ fmt' x /\ va_build va x = s) vs.
Hypothesis Hok : forall s, ok s -> exists va x, In va vs /\ va_split va s = Some x.
Hypothesis Htags : NoDup (map va_tag vs).
Hypothesis Hk : Forall (fun va => ik_in k (va_tag va) = true) vs.

Lemma on_variant_is (ws : list (variant S)) s : (exists va x, In va ws /\ va_split va s = Some x) ->
  exists va x, In va ws /\ va_split va s = Some x /\ forall R (bad : R) g, on_variant ws s bad g = g va x.
Proof.
  induction ws as [|w ws IH]; intros (va & x & Hi & E); [destruct Hi|].
  destruct (va_split w s) as [y|] eqn:Ew.
  - exists w, y. repeat apply conj; [left; reflexivity|exact Ew|]. intros R bad g. cbn [on_variant]. rewrite Ew. reflexivity.
  - destruct Hi as [->|Hi]; [congruence|]. destruct IH as (va' & x' & Hi' & E' & HX); [exists va, x; auto|].
    exists va', x'. repeat apply conj; [right; exact Hi'|exact E'|]. intros R bad g. cbn [on_variant]. rewrite Ew. apply HX.
Qed.
Lemma on_tag_is {R} (ws : list (variant S)) va (bad : R) g : NoDup (map va_tag ws) -> In va ws -> on_tag ws (va_tag va) bad g = g va.
Proof.
  induction ws as [|w ws IH]; cbn [map on_tag In]; [tauto|]; intros ND [->|Hi].
  - rewrite Z.eqb_refl. reflexivity.
  - inversion ND as [|? ? Hn ND']; subst. destruct (Z.eqb_spec (va_tag va) (va_tag w)) as [E|_]; [|apply IH; assumption].
    exfalso. apply Hn. rewrite <- E. apply in_map. exact Hi.
Qed.
Lemma variant_of s : ok s -> exists va x ok' fmt', (forall R (bad : R) g, on_variant vs s bad g = g va x) /\ In va vs /\
  fields_implement cf after _ (va_fields va) ok' fmt' /\
  ok' x /\ fmt s = int_format k (va_tag va) ++ fmt' x /\ va_build va x = s /\ ik_in k (va_tag va) = true.
Proof.
  intros Hs. destruct (on_variant_is vs s (Hok s Hs)) as (va & x & Hi & E & Hva).
  rewrite Forall_forall in Hvs, Hk. destruct (Hvs va Hi) as (ok' & fmt' & HF & HX). destruct (HX s x Hs E) as (H1 & H2 & H3).
  exists va, x, ok', fmt'. repeat apply conj; auto.
Qed.
Lemma wrap_data : implements cf (c_data cf k vs) ok fmt after.
Proof.
  pose proof isize_usize as HI. apply make.
  - intros s Hs L U T holds HC. destruct (variant_of s Hs) as (va & x & ok' & fmt' & Hva & Hi & HF & H1 & H2 & H3 & H4).
    rewrite Hva. rewrite H2 in *. apply wok_end; [exact HC| |exact L].
    apply wok_add; [apply wok_int, HC| |exact L]. apply (fi_wok _ _ ok' fmt' HF); auto. rewrite zlen_app in L.
    pose proof (zlen_nonneg (int_format k (va_tag va))). lia.
  - intros E. repeat apply conj; cbn [c_data c_known c_unknown with_blanket]; try discriminate.
    intros s Hs L. destruct (variant_of s Hs) as (va & x & ok' & fmt' & Hva & Hi & HF & H1 & H2 & H3 & H4).
    rewrite Hva. rewrite H2 in *. rewrite zlen_app in *.
    assert (HL : zlen (int_format k (va_tag va)) = ik_len k) by apply int_format_length. rewrite HL in *.
    assert (0 < ik_len k) by (destruct k; reflexivity). pose proof (zlen_nonneg (fmt' x)).
    assert (HE : estimate_with (fields_known (va_fields va)) (usum (cf_mode cf) 0 (fields_unknown (va_fields va) x)) = ROk (zlen (fmt' x))).
    { destruct (fi_known _ _ ok' fmt' E HF) as [K0 K1]. destruct (fields_known (va_fields va)) as [[n|]|]; [| |congruence]; cbn [estimate_with].
      - rewrite (K1 n eq_refl x H1). reflexivity.
      - rewrite (fi_unknown _ _ ok' fmt' E HF x H1 0) by lia. reflexivity. }
    rewrite HE. cbn [rbind]. rewrite uadd_ok by lia. reflexivity.
  - intros s x0 outer Hs Hx L. destruct (variant_of s Hs) as (va & x & ok' & fmt' & Hva & Hi & HF & H1 & H2 & H3 & H4).
    rewrite H2 in *. rewrite <- app_assoc in *.
    destruct (fi_parse _ _ ok' fmt' HF x x0 outer H1 Hx) as [f0 Hf].
    { rewrite zlen_app in L. pose proof (zlen_nonneg (int_format k (va_tag va))). lia. }
    exists f0. intros f Hle. rewrite run_pbind, run_tag; [|exact H4|apply in_map; exact Hi|exact L].
    rewrite on_tag_is by assumption. rewrite run_pbind, Hf by exact Hle. cbn [run]. rewrite H3. reflexivity.
  - intros f. pose proof (try_tag k (map va_tag vs)). apply try_bind; [assumption|]. intros tag. clear Hok Htags Hk H.
    assert (HT : Forall (fun va => try_bytes_only (fields_parse (va_fields va) f)) vs).
    { eapply Forall_impl; [|exact Hvs]. intros va (ok' & fmt' & HF & _). apply (fi_try _ _ ok' fmt' HF). }
    clear Hvs. induction HT as [|va ws Hva _ IH]; cbn [on_tag]; [exact Logic.I|]. destruct (tag =? va_tag va); [tries|exact IH].
Qed.
End Data.
End Fields.
End Wrap.

(** ** Encoding and decoding *)
Lemma open_to_bytes {A} cf (c : codec A) ok fmt after v : implements cf c ok fmt after -> ok v -> zlen (fmt v) <= isize_max ->
  c_to_bytes c v = ROk (fmt v).
Proof.
  intros H Hv L. destruct (im_write _ _ _ _ _ H v Hv L _ tg_vec _ (lawful_collects _ _ lawful_vec) [] [] eq_refl) as (u & E & Hu).
  unfold c_to_bytes. rewrite E, Hu. reflexivity.
Qed.
Lemma open_seen {P A} m (h : handler P) inv alpha cleanup (p0 : P) cf (c : codec A) f input v rest :
  refines_contract m h inv alpha -> inv p0 -> alpha p0 = mkW input [] -> try_bytes_only (c_parse c f) ->
  (cf_complete cf = true -> forall p rest, inv p -> alpha p = mkW rest [] -> cleanup p = ROk (lo_add LEmpty rest)) ->
  run contract_h (c_parse c f) (mkW input []) = (ROk v, mkW rest []) ->
  (cf_complete cf = true -> rest = []) ->
  c_decode h cleanup p0 cf c f = ROk v.
Proof.
  intros Href Hi Ha Ht Hc Hr He. rewrite <- Ha in Hr.
  pose proof (run_refines m h inv alpha Href (c_parse c f) p0 Hi Ht) as Ho.
  unfold outcome_rel in Ho. unfold c_decode. destruct (run h (c_parse c f) p0) as [r p]. cbn [fst snd] in Ho.
  rewrite Hr in Ho. cbn [fst snd] in Ho. destruct Ho as (-> & Hip & Hap).
  destruct (cf_complete cf); [|reflexivity]. rewrite (Hc eq_refl p rest Hip Hap). rewrite (He eq_refl).
  reflexivity.
Qed.
Lemma open_decode {A} w cf (c : codec A) f input v rest : zlen input <= isize_max -> (w = WSlice -> cf_complete cf = false) ->
  try_bytes_only (c_parse c f) -> run contract_h (c_parse c f) (mkW input []) = (ROk v, mkW rest []) ->
  (cf_complete cf = true -> rest = []) -> c_decode_with w cf c f input = ROk v.
Proof.
  intros Hl Hw Ht Hr He. destruct w; cbn [c_decode_with].
  - eapply (open_seen _ _ bp_inv bp_alpha); eauto using byte_refines, bp_init_inv.
    + exact (bp_init_alpha input).
    + intros _ p r Hi Ha. apply bp_cleanup_at; assumption.
  - eapply (open_seen _ _ mp_inv (fun p => bp_alpha (mp_bp p))); eauto using memo_refines, mp_init_inv.
    + exact (bp_init_alpha input).
    + intros _ p r Hi Ha. unfold mp_cleanup. rewrite mp_cleanup_loop by exact Hi.
      apply (bp_cleanup_at (cf_mode cf) (mp_bp p) r (proj1 Hi) Ha).
  - eapply (open_seen Release _ sp_inv sp_alpha); eauto using slice_refines.
    + unfold sp_inv, sp_from_buffer; discriminate.
    + reflexivity.
    + intros E. rewrite (Hw eq_refl) in E. discriminate E.
Qed.
Theorem open_round_trip {A} cf (c : codec A) ok fmt (after : list byte -> Prop) v : implements cf c ok fmt after -> after [] -> ok v ->
  zlen (fmt v) <= isize_max ->
  c_to_bytes c v = ROk (fmt v) /\ c_enc_len c v = ROk (zlen (fmt v)) /\
  forall w, (w = WSlice -> cf_complete cf = false) -> exists f0, forall f, (f0 <= f)%nat -> c_decode_with w cf c f (fmt v) = ROk v.
Proof.
  intros H Ha Hv L. split; [eapply open_to_bytes; eassumption|]. split; [apply (im_len _ _ _ _ _ H v Hv L)|].
  intros w Hw. destruct (im_parse _ _ _ _ _ H v [] [] Hv Ha) as [f0 Hf]; [rewrite app_nil_r; exact L|]. exists f0. intros f Hle.
  specialize (Hf f Hle). rewrite app_nil_r in Hf. eapply open_decode; eauto. apply (im_try _ _ _ _ _ H).
Qed.
(** Bytes behind the encoding stay for the next reader. *)
Theorem open_prefix {A} cf (c : codec A) ok fmt (after : list byte -> Prop) v x : implements cf c ok fmt after -> after x -> ok v ->
  zlen (fmt v ++ x) <= isize_max -> cf_complete cf = false ->
  forall w, exists f0, forall f, (f0 <= f)%nat -> c_decode_with w cf c f (fmt v ++ x) = ROk v.
Proof.
  intros H Ha Hv L Hc w. destruct (im_parse _ _ _ _ _ H v x [] Hv Ha L) as [f0 Hf]. exists f0. intros f Hle.
  eapply open_decode; eauto; [apply (im_try _ _ _ _ _ H)|congruence].
Qed.

(** ** The types of the library *)
Lemma after_adm k x : after_kind k x -> adm k x. Proof. destruct k; auto. Qed.
Section Closed.
Variables (cf : config) (D : list def) (I : list tinfo) (kf : nat).
Theorem schema_implements t k : wf_defs D = true -> disciplined D I = true -> wf_ty D t = true -> kind_of I t = Some k ->
  (cf_est_override cf = true -> known cf D kf t <> None) ->
  implements cf (c_schema cf D kf t)
    (fun v => valid D v t = true /\
       (cf_est_override cf = true -> zeros D v t = 0 /\ to_bytes cf D kf v t <> RDiv /\ unknown cf D kf v t <> RDiv))
    (fun v => format D v t)
    (after_kind k).
Proof.
  intros HD HI W K HK.
  assert (HE : cf_est_override cf = true -> estimates (c_schema cf D kf t)
    (fun v => valid D v t = true /\
       (cf_est_override cf = true -> zeros D v t = 0 /\ to_bytes cf D kf v t <> RDiv /\ unknown cf D kf v t <> RDiv))
    (fun v => format D v t)).
  { intros E. repeat apply conj; cbn [c_known c_unknown c_schema]; [exact (HK E)| |].
    - intros n Hn v [V _]. apply (known_format cf D HD kf t n v W Hn (valid_typed D v t V)).
    - intros v [V HV] L. destruct (HV E) as (Z0 & _ & N).
      rewrite (unknown_format cf D kf HD v t W (valid_typed D v t V) L N), Z0. f_equal. lia. }
  assert (HW : forall v, valid D v t = true /\
       (cf_est_override cf = true -> zeros D v t = 0 /\ to_bytes cf D kf v t <> RDiv /\ unknown cf D kf v t <> RDiv) ->
       zlen (format D v t) <= isize_max -> wr cf D kf v t = r_put (format D v t)).
  { intros v [V HV] L. destruct (puts_wr cf D kf HD v t W V L) as [E|[EO E]]; [intros EO; apply (HV EO)|exact E|].
    destruct (HV EO) as (_ & N & _). rewrite to_bytes_wr, E in N. exfalso. apply N. reflexivity. }
  split.
  - intros v Hv L U T holds HC u pre Hu. pose proof (sim_all_vals cf D kf v U T holds (collects_lawful _ _ HC) t) as S.
    rewrite (HW v Hv L) in S. exact (S u pre Hu).
  - intros v Hv L. cbn [c_enc_len c_schema]. unfold enc_len. destruct (cf_est_override cf) eqn:E.
    + destruct (HE eq_refl) as (E0 & E1 & E2). cbn [c_known c_unknown c_schema] in *. unfold estimate.
      destruct (known cf D kf t) as [[n|]|] eqn:EK; [|apply E2; assumption|congruence]. cbn [estimate_with]. rewrite (E1 n eq_refl v Hv). reflexivity.
    + rewrite (count_wr cf D kf v t (sim_all_vals cf D kf v)), (HW v Hv L). reflexivity.
  - exact HE.
  - intros v x outer [V HV] Hx L. destruct (rt_all cf D I HI HD v t k K W V) as [f0 Hf]. exists f0. intros f Hle.
    apply (run_of _ (dec cf D f t)); [apply runs_dec|exact L|]. apply Hf; [exact Hle|apply after_adm, Hx|exact L].
  - intros f. apply try_parse.
Qed.
End Closed.

(** ** The two models of the wrappers agree *)
Lemma run_bind_ret {P A B} (h : handler P) (pg : prog A) (g : A -> B) p :
  run h (v <- pg ;; PRet (g v)) p = (rmap g (fst (run h pg p)), snd (run h pg p)).
Proof. rewrite run_pbind. destruct (run h pg p) as [[a|e| | |] p']; reflexivity. Qed.
Theorem wrappers_agree cf D kf t t' A (c : codec A) inj : wraps cf D kf t t' A c inj ->
  (forall v U (T : target U) u, write_to cf D kf (inj v) U T t' u = c_write c v U T u) /\
  (forall v, unknown cf D kf (inj v) t' = c_unknown c v) /\
  known cf D (S kf) t' = c_known c /\
  (forall f P (h : handler P) p,
     run h (parse cf D (S f) t') p = (rmap inj (fst (run h (c_parse c f) p)), snd (run h (c_parse c f) p))).
Proof.
  intros H. destruct H; (split; [|split; [|split]]); try (intros []; reflexivity); try reflexivity.
  all: intros f P h p; rewrite <- run_bind_ret;
    cbn [parse c_parse c_option c_nullable c_seq c_lim c_fix c_dyn c_vpad c_pad c_box with_blanket c_schema].
  all: repeat (rewrite !run_pbind;
    match goal with |- context [run ?h ?pg ?q] => lazymatch pg with pbind _ _ => fail | PRet _ => fail | PErr _ => fail | PPanic => fail | if _ then _ else _ => fail | _ => idtac end;
      destruct (run h pg q) as [[] ?]; try reflexivity end;
    repeat match goal with |- context [if ?b then _ else _] => destruct b end; try reflexivity).
Qed.

(** ** A type written elsewhere *)
Lemma run_byte b x outer : run contract_h p_consume_byte (mkW (b :: x) outer) = (ROk b, mkW x outer).
Proof. reflexivity. Qed.
Lemma string_implements cf : implements cf (c_string cf) string_ok string_format anything.
Proof.
  pose proof isize_usize as HI. unfold c_string. apply make.
  - intros bs Hb L U T holds HC. apply wok_add; [apply wok_all, HC|apply wok_one, HC|exact L].
  - intros _. repeat apply conj; cbn [c_known c_unknown with_blanket]; try discriminate.
    intros bs _ L. unfold string_format in *. rewrite zlen_app in *. change (zlen [0]) with 1 in *. pose proof (zlen_nonneg bs).
    rewrite uadd_ok by (unfold byte in *; lia). reflexivity.
  - intros bs x outer Hb _ _. exists (S (List.length bs)). unfold string_format.
    enough (HX : forall f seen, (S (List.length bs) <= f)%nat ->
      run contract_h (until_zero f seen) (mkW ((bs ++ [0]) ++ x) outer) = (ROk (seen ++ bs), mkW x outer)) by (intros f Hf; apply (HX f [] Hf)).
    induction Hb as [|b bs Hb _ IH]; intros [|f] seen Hf; cbn [List.length] in Hf; try lia; cbn [until_zero app].
    + rewrite run_pbind, run_byte. rewrite app_nil_r. reflexivity.
    + rewrite run_pbind, run_byte. rewrite (proj2 (Z.eqb_neq b 0) Hb). rewrite IH by lia. rewrite <- app_assoc. reflexivity.
  - intros f. enough (HX : forall seen, try_bytes_only (until_zero f seen)) by apply HX.
    induction f as [|f IH]; intros seen; cbn [until_zero]; [exact Logic.I|]. unfold p_consume_byte. tries.
Qed.
