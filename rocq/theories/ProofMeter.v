(** C76: what encoding costs. *)
From Verif Require Import Base BaseLemmas ModelErrors ModelInt ModelFloat ModelZarith ModelUtf8 ModelParser ModelTarget ModelSchema
  ModelMeter SpecCodec SpecSize SpecWork SpecMeter ProofInt ProofZarith ProofCodec ProofRoundTrip ProofEnc ProofEstimate ProofEncBytes ProofCodecProps ProofWork.
From Coq Require Import ZifyBool.

(** ** The meter does not change what is written *)
Lemma fst_tick {A} n (x : metered A) : fst (m_tick n x) = fst x. Proof. reflexivity. Qed.
Lemma fst_bind {A B} (x : metered A) (k : A -> metered B) : fst (m_bind x k) = rbind (fst x) (fun a => fst (k a)).
Proof. unfold m_bind, m_tick. destruct (fst x); reflexivity. Qed.
Lemma rbind_ext {E A B} (x : res E A) (f g : A -> res E B) : (forall a, f a = g a) -> rbind x f = rbind x g.
Proof. intros H. destruct x; cbn [rbind]; auto. Qed.

Lemma rbind_ext2 {E A B} (x y : res E A) (f g : A -> res E B) : x = y -> (forall a, f a = g a) -> rbind x f = rbind y g.
Proof. intros <-. apply rbind_ext. Qed.

Section Erase.
Variables (cf : config) (D : list def) (kf : nat).
Lemma fst_usum l : forall acc, fst (m_usum cf acc l) = usum (cf_mode cf) acc (map fst l).
Proof.
  induction l as [|x l IH]; intros acc; cbn [m_usum map usum]; [reflexivity|].
  rewrite fst_bind. apply rbind_ext. intros n. rewrite fst_bind. apply rbind_ext. intros s. apply IH.
Qed.
Lemma fst_estimate_with k x : fst (m_estimate_with k x) = estimate_with k (fst x).
Proof. destruct k as [[n|]|]; reflexivity. Qed.
Lemma map2_fst {A B} (f : A -> B -> metered Z) g vs : Forall (fun v => forall t, fst (f v t) = g v t) vs -> forall ts,
  map fst (map2 f (m_free (RErr tt)) vs ts) = map2 g (RErr tt) vs ts.
Proof.
  induction 1 as [|v vs H _ IH]; intros [|t ts]; try reflexivity. cbn [map2 map]. rewrite H, IH. reflexivity.
Qed.
Lemma fst_unknown v : forall t, fst (m_unknown cf D kf v t) = unknown cf D kf v t.
Proof.
  induction v as [| | | | |v IHv|vs IHvs|vs IHvs|ix vs IHvs|v IHv] using val_ind'; intros t;
    destruct t; cbn [m_unknown unknown]; rewrite fst_tick; try reflexivity;
    try (destruct (nth_error D i) as [[?|?|?]|]; reflexivity).
  - rewrite fst_bind, fst_estimate_with, IHv. reflexivity.
  - rewrite fst_estimate_with, IHv. reflexivity.
  - rewrite fst_usum. f_equal. rewrite map_map. apply map_ext_Forall.
    eapply Forall_impl; [|exact IHvs]. intros v H. rewrite fst_estimate_with, H. reflexivity.
  - rewrite fst_usum. f_equal. rewrite map_map. apply map_ext_Forall.
    eapply Forall_impl; [|exact IHvs]. intros v H. rewrite fst_estimate_with, H. reflexivity.
  - rewrite fst_usum. f_equal. rewrite map_map. apply map_ext_Forall.
    eapply Forall_impl; [|exact IHvs]. intros v H. apply H.
  - destruct (nth_error D i) as [[ts|?|?]|]; try reflexivity.
    rewrite fst_usum. f_equal. apply map2_fst, IHvs.
  - destruct (nth_error D i) as [[ts|k tags|k alts]|]; try reflexivity; [destruct vs; reflexivity|].
    destruct (nth_error alts ix) as [[tag ts]|]; [|reflexivity].
    rewrite fst_bind, fst_estimate_with, fst_usum, (map2_fst _ _ _ IHvs). reflexivity.
  - rewrite fst_bind, IHv. reflexivity.
  - apply IHv.
  - rewrite fst_bind, IHv. reflexivity.
  - apply IHv.
Qed.
Lemma fst_estimate v t : fst (m_estimate cf D kf v t) = estimate cf D kf v t.
Proof. unfold m_estimate, estimate. rewrite fst_estimate_with, fst_unknown. reflexivity. Qed.

Definition erases {U} (w : m_writer U) (w' : writer U) : Prop := forall u, fst (w u) = w' u.
Lemma er_add {U} (a b : m_writer U) a' b' : erases a a' -> erases b b' -> erases (mw_add cf a b) (w_add cf a' b').
Proof.
  intros Ha Hb u. unfold mw_add, w_add. rewrite fst_bind, Ha. apply rbind_ext. intros r.
  rewrite fst_bind, Hb. apply rbind_ext. intros r'. rewrite fst_bind. reflexivity.
Qed.
Lemma er_call {U} n (f : U -> Z * U) : erases (mw_call n f) (w_call f). Proof. intros u; reflexivity. Qed.
Lemma er_bad {U} : @erases U mw_bad w_bad. Proof. intros u; reflexivity. Qed.
Lemma er_end {U} (T : target U) w w' : erases w w' -> erases (mw_add cf w (mw_resolve T)) (w_add cf w' (w_call (tg_resolve_zero T))).
Proof. intros H. apply er_add; [exact H|apply er_call]. Qed.
Lemma er_mend {U} (T : target U) w w' : erases w w' -> erases (mw_add cf w (mw_end T)) (w_add cf w' (w_call (tg_resolve_macro T))).
Proof. intros H. apply er_add; [exact H|apply er_call]. Qed.
Lemma er_tick {U} n (w : m_writer U) w' : erases w w' -> erases (fun u => m_tick n (w u)) w'.
Proof. intros H u. apply H. Qed.
Lemma er_sum {U} ws (ws' : list (writer U)) : Forall2 erases ws ws' -> forall acc, erases (mw_sum cf acc ws) (w_sum cf acc ws').
Proof.
  induction 1 as [|w w' ws ws' Hw _ IH]; intros acc u; cbn [mw_sum w_sum]; [reflexivity|].
  rewrite fst_bind, Hw. apply rbind_ext. intros r. rewrite fst_bind. apply rbind_ext. intros n. apply IH.
Qed.
Lemma er_int {U} (T : target U) k z : erases (mw_int cf T k z) (w_int cf T k z).
Proof. apply er_tick, er_end, er_call. Qed.
Lemma er_ranged {U} (T : target U) k lo hi z : erases (mw_ranged cf T k lo hi z) (w_ranged cf T k lo hi z).
Proof.
  intros u. unfold mw_ranged. rewrite fst_bind. apply rbind_ext. intros x. apply er_end, er_int.
Qed.
Lemma er_pref {U} (T : target U) s lp : erases (mw_pref cf T s lp) (w_pref cf T s lp).
Proof. destruct s; [apply er_int|apply er_int|apply er_tick, er_ranged]. Qed.

Lemma er_write v : forall U (T : target U) t, erases (m_write cf D kf v U T t) (write_to cf D kf v U T t).
Proof.
  induction v as [| | | | |v IHv|vs IHvs|vs IHvs|ix vs IHvs|v IHv] using val_ind'; intros U T t;
    destruct t; cbn [m_write write_to]; apply er_tick; try apply er_bad;
    try (destruct (nth_error D i) as [[?|?|?]|]; apply er_bad).
  - intros u; reflexivity.
  - apply er_mend, er_call.
  - apply er_end, er_call.
  - apply er_ranged.
  - apply er_int.
  - apply er_tick, er_int.
  - intros u. rewrite fst_bind. apply rbind_ext. intros bs. apply er_end, er_call.
  - intros u. rewrite fst_bind. apply rbind_ext. intros bs. apply er_end, er_call.
  - apply er_mend, er_call.
  - apply er_mend, er_call.
  - apply er_end, er_call.
  - apply er_end, er_call.
  - apply er_mend, er_call.
  - apply er_call.
  - apply er_mend, er_add; [apply er_call|apply IHv].
  - apply er_end, IHv.
  - apply er_end, er_sum. induction IHvs as [|v vs Hv _ IH]; cbn [map]; constructor; auto.
  - apply er_end, er_sum. induction IHvs as [|v vs Hv _ IH]; cbn [map]; constructor; auto.
  - apply er_end, er_sum. induction IHvs as [|v vs Hv _ IH]; cbn [map]; constructor; auto.
  - destruct (nth_error D i) as [[ts|?|?]|]; try apply er_bad.
    apply er_end, er_sum. apply map2_forall2; [apply er_bad|].
    eapply Forall_impl; [|exact IHvs]. intros v Hv t'. apply Hv.
  - destruct (nth_error D i) as [[ts|k tags|k alts]|]; try apply er_bad.
    + destruct vs; [|apply er_bad]. destruct (nth_error tags ix); [apply er_int|apply er_bad].
    + destruct (nth_error alts ix) as [[tag ts]|]; [|apply er_bad].
      apply er_end, er_add; [apply er_int|]. apply er_end, er_sum. apply map2_forall2; [apply er_bad|].
      eapply Forall_impl; [|exact IHvs]. intros v Hv t'. apply Hv.
  - intros u. rewrite fst_bind.
    apply rbind_ext2.
    { destruct (cf_est_override cf); [apply fst_estimate|]. unfold m_map. cbn [fst]. rewrite IHv. reflexivity. }
    intros l. rewrite fst_bind. apply rbind_ext. intros _.
    destruct (pref_try_from cf s l) as [lp|]; [|reflexivity]. rewrite fst_bind.
    apply rbind_ext2.
    { destruct (cf_est_override cf); [reflexivity|]. unfold m_map. cbn [fst]. rewrite er_pref. reflexivity. }
    intros ll. rewrite fst_bind. apply rbind_ext. intros total. rewrite fst_tick.
    apply er_end, er_add; [apply er_pref|apply IHv].
  - apply IHv.
  - apply er_end, er_add; [apply IHv|apply er_call].
  - apply IHv.
Qed.
Lemma metered_same {U} (T : target U) v t : fst (encode_metered cf D kf T v t) = encode cf D kf T v t.
Proof. unfold encode_metered, encode, m_map. cbn [fst]. rewrite er_write. reflexivity. Qed.
End Erase.

(** ** Upper bounds *)
Section Upper.
Variables (cf : config) (D : list def) (kf : nat).

Definition spent_le {A} (x : metered A) (c : Z) : Prop := 0 <= snd x <= c.
Lemma le_free {A} (r : wres A) : spent_le (m_free r) 0. Proof. unfold spent_le, m_free; cbn [snd]; lia. Qed.
Lemma le_tick {A} n (x : metered A) c : 0 <= n -> spent_le x c -> spent_le (m_tick n x) (n + c).
Proof. unfold spent_le, m_tick; cbn [snd]; lia. Qed.
Lemma le_bind {A B} (x : metered A) (k : A -> metered B) c c' : spent_le x c -> 0 <= c' -> (forall a, spent_le (k a) c') ->
  spent_le (m_bind x k) (c + c').
Proof.
  unfold spent_le, m_bind, m_tick. intros H H0 H'. destruct (fst x) as [a| | | |]; cbn [snd]; try lia. specialize (H' a). lia.
Qed.
Lemma le_weaken {A} (x : metered A) c c' : spent_le x c -> c <= c' -> spent_le x c'.
Proof. unfold spent_le; lia. Qed.

(** Counting. *)
Lemma le_usum l cs : Forall2 spent_le l cs -> Forall (fun c => 0 <= c) cs -> forall acc,
  spent_le (m_usum cf acc l) (fold_right Z.add 0 cs) /\ 0 <= fold_right Z.add 0 cs.
Proof.
  induction 1 as [|x c l cs Hx _ IH]; intros HF acc; cbn [m_usum fold_right].
  - split; [apply le_free|lia].
  - inversion HF as [|? ? Hc HF']; subst. pose proof (proj2 (IH HF' 0)) as Hs. split; [|lia].
    apply le_bind; [exact Hx|exact Hs|]. intros n. change (fold_right Z.add 0 cs) with (0 + fold_right Z.add 0 cs).
    apply le_bind; [apply le_free|exact Hs|]. intros s. apply IH; exact HF'.
Qed.
Lemma weight_pos v : 1 <= weight v.
Proof.
  induction v as [| | | | |v IHv|vs IHvs|vs IHvs|ix vs IHvs|v IHv] using val_ind'; cbn [weight]; try lia.
  - unfold number_bytes. pose proof (Z.log2_nonneg (Z.abs z)). pose proof (Z.div_pos (Z.log2 (Z.abs z)) 8). lia.
  - pose proof (zlen_nonneg bs). lia.
  - enough (0 <= fold_right Z.add 0 (map weight vs)) by lia.
    induction IHvs; cbn [map fold_right]; lia.
  - enough (0 <= fold_right Z.add 0 (map weight vs)) by lia.
    induction IHvs; cbn [map fold_right]; lia.
  - enough (0 <= fold_right Z.add 0 (map weight vs)) by lia.
    induction IHvs; cbn [map fold_right]; lia.
Qed.
Lemma weights_nonneg vs : 0 <= fold_right Z.add 0 (map weight vs).
Proof. induction vs as [|v vs IH]; cbn [map fold_right]; [lia|]. pose proof (weight_pos v). lia. Qed.

Lemma le_estimate_with k x c : 0 <= c -> spent_le x c -> spent_le (m_estimate_with k x) (1 + c).
Proof.
  intros H0 H. unfold m_estimate_with. apply le_tick; [lia|]. destruct k as [[n|]|]; [|exact H|].
  all: eapply le_weaken; [apply le_free|lia].
Qed.
Lemma le_unknown_elems vs (f : val -> metered Z) : Forall (fun v => spent_le (f v) (3 * weight v)) vs -> forall acc,
  spent_le (m_usum cf acc (map f vs)) (3 * fold_right Z.add 0 (map weight vs)).
Proof.
  intros H acc.
  assert (HS : 3 * fold_right Z.add 0 (map weight vs) = fold_right Z.add 0 (map (fun v => 3 * weight v) vs)).
  { clear. induction vs as [|v vs IH]; cbn [map fold_right]; lia. }
  rewrite HS. apply le_usum.
  - induction H as [|v vs Hv _ IH]; cbn [map]; constructor; [exact Hv|].
    apply IH. cbn [map fold_right] in HS. lia.
  - apply Forall_forall. intros c Hc. apply in_map_iff in Hc. destruct Hc as (v & <- & _). pose proof (weight_pos v). lia.
Qed.
Lemma le_unknown_fields vs : Forall (fun v => forall t, spent_le (m_unknown cf D kf v t) (3 * weight v - 1)) vs ->
  forall ts acc, spent_le (m_usum cf acc (map2 (m_unknown cf D kf) (m_free (RErr tt)) vs ts))
    (3 * fold_right Z.add 0 (map weight vs)).
Proof.
  induction 1 as [|v vs Hv _ IH]; intros [|t ts] acc; cbn [map2 m_usum map fold_right].
  - apply le_free.
  - eapply le_weaken; [apply le_bind; [apply le_free|reflexivity|]|lia].
    intros n. change 0 with (0 + 0). apply le_bind; [apply le_free|lia|]. intros s; apply le_free.
  - pose proof (weight_pos v). pose proof (weights_nonneg vs).
    eapply le_weaken; [apply (le_bind _ _ 0 0); [apply le_free|lia|]|lia].
    intros n. apply (le_bind _ _ 0 0); [apply le_free|lia|]. intros s; apply le_free.
  - pose proof (weight_pos v). pose proof (weights_nonneg vs).
    eapply le_weaken; [apply (le_bind _ _ (3 * weight v - 1) (3 * fold_right Z.add 0 (map weight vs)))|lia]; [apply Hv|lia|].
    intros n. eapply le_weaken; [apply (le_bind _ _ 0 (3 * fold_right Z.add 0 (map weight vs)))|lia]; [apply le_free|lia|].
    intros s. apply IH.
Qed.
Lemma le_unknown v : forall t, spent_le (m_unknown cf D kf v t) (3 * weight v - 1).
Proof.
  induction v as [| | | | |v IHv|vs IHvs|vs IHvs|ix vs IHvs|v IHv] using val_ind'; intros t.
  all: match goal with |- spent_le (_ ?v _) _ => pose proof (weight_pos v) end.
  all: assert (Hfree : forall r : wres Z, forall c, 1 <= c -> spent_le (m_tick 1 (m_free r)) c)
         by (intros r c Hc; eapply le_weaken; [apply le_tick; [lia|apply le_free]|lia]).
  all: destruct t; cbn [m_unknown]; try (apply Hfree; lia);
    try (destruct (nth_error D i) as [[?|?|?]|]; apply Hfree; lia).
  all: cbn [weight].
  - pose proof (weight_pos v). eapply le_weaken; [apply le_tick; [lia|]|].
    + apply le_bind with (c' := 0); [apply le_estimate_with; [|apply IHv]; lia|lia|intros; apply le_free].
    + lia.
  - pose proof (weight_pos v). eapply le_weaken; [apply le_tick; [lia|]|].
    + apply le_estimate_with; [|apply IHv]; lia.
    + lia.
  - pose proof (weights_nonneg vs). eapply le_weaken; [apply le_tick; [lia|]|].
    + apply le_unknown_elems. eapply Forall_impl; [|exact IHvs]. intros v Hv.
      pose proof (weight_pos v). eapply le_weaken; [apply le_estimate_with; [|apply Hv]|]; lia.
    + lia.
  - pose proof (weights_nonneg vs). eapply le_weaken; [apply le_tick; [lia|]|].
    + apply le_unknown_elems. eapply Forall_impl; [|exact IHvs]. intros v Hv.
      pose proof (weight_pos v). eapply le_weaken; [apply le_estimate_with; [|apply Hv]|]; lia.
    + lia.
  - pose proof (weights_nonneg vs). eapply le_weaken; [apply le_tick; [lia|]|].
    + apply le_unknown_elems. eapply Forall_impl; [|exact IHvs]. intros v Hv.
      eapply le_weaken; [apply Hv|]; lia.
    + lia.
  - pose proof (weights_nonneg vs). destruct (nth_error D i) as [[ts|?|?]|]; try (apply Hfree; lia).
    eapply le_weaken; [apply le_tick; [lia|apply le_unknown_fields; exact IHvs]|lia].
  - pose proof (weights_nonneg vs). destruct (nth_error D i) as [[ts|k tags|k alts]|]; try (apply Hfree; lia).
    + destruct vs; apply Hfree; cbn [map fold_right] in *; lia.
    + destruct (nth_error alts ix) as [[tag ts]|]; [|apply Hfree; lia].
      eapply le_weaken; [apply le_tick; [lia|]|].
      * apply le_bind with (c' := 0); [apply le_estimate_with; [|apply le_unknown_fields; exact IHvs]; lia|lia|intros; apply le_free].
      * lia.
  - pose proof (weight_pos v). eapply le_weaken; [apply le_tick; [lia|]|].
    + apply le_bind with (c' := 0); [apply IHv|lia|intros; apply le_free].
    + lia.
  - pose proof (weight_pos v). eapply le_weaken; [apply le_tick; [lia|apply IHv]|lia].
  - pose proof (weight_pos v). eapply le_weaken; [apply le_tick; [lia|]|].
    + apply le_bind with (c' := 0); [apply IHv|lia|intros; apply le_free].
    + lia.
  - pose proof (weight_pos v). eapply le_weaken; [apply le_tick; [lia|apply IHv]|lia].
Qed.
Lemma le_estimate v t : spent_le (m_estimate cf D kf v t) (3 * weight v).
Proof.
  pose proof (weight_pos v). eapply le_weaken; [apply le_estimate_with; [|apply le_unknown]|]; lia.
Qed.

(** Writing. *)
Definition within {U} (w : m_writer U) (c : Z) : Prop := forall u, spent_le (w u) c.
Lemma wi_weaken {U} (w : m_writer U) c c' : within w c -> c <= c' -> within w c'.
Proof. intros H L u. eapply le_weaken; [apply H|exact L]. Qed.
Lemma wi_add {U} (a b : m_writer U) c c' : within a c -> within b c' -> 0 <= c' -> within (mw_add cf a b) (c + c').
Proof.
  intros Ha Hb H0 u. apply le_bind; [apply Ha|exact H0|]. intros r.
  eapply le_weaken; [apply (le_bind _ _ c' 0); [apply Hb|lia|]|lia]. intros r'.
  apply (le_bind _ _ 0 0); [apply le_free|lia|]. intros n. apply le_free.
Qed.
Lemma wi_call {U} n (f : U -> Z * U) : 0 <= n -> within (mw_call n f) (1 + n).
Proof. intros H u. eapply le_weaken; [apply le_tick; [lia|apply le_free]|lia]. Qed.
Lemma wi_tick {U} (w : m_writer U) c : within w c -> within (fun u => m_tick 1 (w u)) (1 + c).
Proof. intros H u. apply le_tick; [lia|apply H]. Qed.
Lemma wi_bad {U} : within (@mw_bad U) 0. Proof. intros u. apply le_free. Qed.
Lemma wi_end {U} (T : target U) w c : within w c -> within (mw_add cf w (mw_resolve T)) (c + 1).
Proof. intros H. apply wi_add; [exact H| |lia]. intros u. apply (wi_call 0 _ ltac:(lia) u). Qed.
Lemma wi_mend {U} (T : target U) w c : within w c -> within (mw_add cf w (mw_end T)) (c + 1).
Proof. intros H. apply wi_add; [exact H| |lia]. intros u. apply (wi_call 0 _ ltac:(lia) u). Qed.
Lemma wi_sum {U} (ws : list (m_writer U)) cs : Forall2 within ws cs -> Forall (fun c => 0 <= c) cs -> forall acc,
  within (mw_sum cf acc ws) (fold_right Z.add 0 cs) /\ 0 <= fold_right Z.add 0 cs.
Proof.
  induction 1 as [|w c ws cs Hw _ IH]; intros HF acc; cbn [mw_sum fold_right].
  - split; [intros u; apply le_free|lia].
  - inversion HF as [|? ? Hc HF']; subst. pose proof (proj2 (IH HF' 0)) as Hs. split; [|lia].
    intros u. apply le_bind; [apply Hw|exact Hs|]. intros r.
    change (fold_right Z.add 0 cs) with (0 + fold_right Z.add 0 cs).
    apply le_bind; [apply le_free|exact Hs|]. intros n. apply IH; exact HF'.
Qed.
Lemma wi_all {U} (T : target U) bs : within (mw_push_all cf T bs) (2 + zlen bs).
Proof.
  pose proof (zlen_nonneg bs). eapply wi_weaken; [apply wi_end, wi_call; lia|lia].
Qed.
Lemma wi_wall {U} (T : target U) bs : within (mw_write_all cf T bs) (2 + zlen bs).
Proof.
  pose proof (zlen_nonneg bs). eapply wi_weaken; [apply wi_mend, wi_call; lia|lia].
Qed.
Lemma wi_many {U} (T : target U) bs : within (mw_push_many cf T bs) (2 + zlen bs).
Proof.
  pose proof (zlen_nonneg bs). eapply wi_weaken; [apply wi_end, wi_call; lia|lia].
Qed.
Lemma wi_one {U} (T : target U) b : within (mw_push_one cf T b) 3.
Proof. eapply wi_weaken; [apply wi_mend, wi_call; lia|lia]. Qed.
Lemma be_bytes_len k z : zlen (to_be_bytes k z) = ik_len k.
Proof. rewrite to_be_bytes_format. apply int_format_length. Qed.
Lemma wi_int {U} (T : target U) k z : within (mw_int cf T k z) (3 + ik_len k).
Proof. eapply wi_weaken; [apply wi_tick, wi_all|]. rewrite be_bytes_len. lia. Qed.
Lemma ik_len_nonneg k : 0 <= ik_len k. Proof. destruct k; cbn; lia. Qed.
Lemma wi_ranged {U} (T : target U) k lo hi z : within (mw_ranged cf T k lo hi z) (4 + ik_len k).
Proof.
  pose proof (ik_len_nonneg k). intros u.
  eapply le_weaken; [apply (le_bind _ _ 0 (4 + ik_len k)); [apply le_free|lia|]|lia].
  intros x. eapply wi_weaken; [apply wi_end, wi_int|lia].
Qed.
Lemma wi_pref {U} (T : target U) s lp : within (mw_pref cf T s lp) (5 + pref_len s).
Proof.
  destruct s; cbn [mw_pref pref_len].
  - eapply wi_weaken; [apply wi_int|cbn; lia].
  - eapply wi_weaken; [apply wi_int|cbn; lia].
  - eapply wi_weaken; [apply wi_tick, wi_ranged|cbn; lia].
Qed.

Definition factor (d : Z) : Z := if cf_est_override cf then 1 + d else 2 ^ d.
Lemma factor_pos d : 0 <= d -> 1 <= factor d.
Proof. intros H. unfold factor. destruct (cf_est_override cf); [lia|]. pose proof (Z.pow_pos_nonneg 2 d). lia. Qed.
Lemma factor_mono d d' x : 0 <= d <= d' -> 0 <= x -> factor d * x <= factor d' * x.
Proof.
  intros H Hx. apply Z.mul_le_mono_nonneg_r; [exact Hx|]. unfold factor. destruct (cf_est_override cf); [lia|].
  apply Z.pow_le_mono_r; lia.
Qed.
Lemma most_nonneg l : 0 <= most l. Proof. unfold most. induction l; cbn [fold_right]; lia. Qed.
Lemma most_in l x : In x l -> x <= most l.
Proof.
  unfold most. induction l as [|y l IH]; [intros []|]. intros [->|H]; cbn [fold_right]; [lia|]. specialize (IH H). lia.
Qed.
Lemma nested_nonneg v : forall t, 0 <= nested D v t.
Proof.
  induction v as [| | | | |v IHv|vs IHvs|vs IHvs|ix vs IHvs|v IHv] using val_ind'; intros t;
    destruct t; cbn [nested]; try lia; try apply IHv; try apply most_nonneg.
  - destruct (nth_error D i) as [[?|?|?]|]; try lia. apply most_nonneg.
  - destruct (nth_error D i) as [[?|?|?]|]; try lia. apply most_nonneg.
  - specialize (IHv t). lia.
Qed.

Definition bound (v : val) (t : ty) : Z := factor (nested D v t) * (8 * weight v + zlen (format D v t)).
Definition wi_val (v : val) : Prop := forall t, well_typed D v t = true -> forall U (T : target U),
  within (m_write cf D kf v U T t) (bound v t).

(** Parts of a value that is nested [d] deep. *)
Lemma bound_nonneg v t : 0 <= bound v t.
Proof.
  unfold bound. pose proof (weight_pos v). pose proof (zlen_nonneg (format D v t)).
  pose proof (factor_pos _ (nested_nonneg v t)). apply Z.mul_nonneg_nonneg; lia.
Qed.
Lemma bound_part v t d : nested D v t <= d -> bound v t <= factor d * (8 * weight v + zlen (format D v t)).
Proof.
  intros H. pose proof (weight_pos v). pose proof (zlen_nonneg (format D v t)).
  apply factor_mono; [pose proof (nested_nonneg v t); lia|lia].
Qed.
Lemma wi_elems U (T : target U) vs t d : 0 <= d -> Forall wi_val vs -> forallb (fun v => well_typed D v t) vs = true ->
  Forall (fun v => nested D v t <= d) vs -> forall acc,
  within (mw_sum cf acc (map (fun v => m_write cf D kf v U T t) vs))
    (factor d * (8 * fold_right Z.add 0 (map weight vs) + zlen (concat (map (fun v => format D v t) vs)))).
Proof.
  intros Hd HF V HN acc.
  assert (HS : fold_right Z.add 0 (map (fun v => bound v t) vs) <=
    factor d * (8 * fold_right Z.add 0 (map weight vs) + zlen (concat (map (fun v => format D v t) vs)))).
  { clear - HN Hd. induction HN as [|v vs Hv _ IH]; cbn [map fold_right concat]; [pose proof (factor_pos d Hd); unfold zlen; cbn; lia|].
    rewrite zlen_app. pose proof (bound_part v t d Hv). lia. }
  eapply wi_weaken; [|exact HS]. apply wi_sum.
  - clear HS HN. induction HF as [|v vs Hv _ IH]; cbn [map]; constructor; cbn [forallb] in V; apply andb_prop in V; destruct V as [V1 V2];
      [apply Hv; exact V1|apply IH; exact V2].
  - apply Forall_forall. intros c Hc. apply in_map_iff in Hc. destruct Hc as (v & <- & _). apply bound_nonneg.
Qed.
Lemma wi_fields U (T : target U) vs ts d : 0 <= d -> Forall wi_val vs -> all2 (well_typed D) vs ts = true ->
  most (map2 (nested D) 0 vs ts) <= d -> forall acc,
  within (mw_sum cf acc (map2 (fun v t => m_write cf D kf v U T t) mw_bad vs ts))
    (factor d * (8 * fold_right Z.add 0 (map weight vs) + zlen (concat2 (format D) vs ts))).
Proof.
  intros Hd HF. revert ts. induction HF as [|v vs Hv HF IH]; intros [|t ts] V HN acc; try discriminate V.
  - cbn [map2 mw_sum map fold_right concat2]. intros u. eapply le_weaken; [apply le_free|]. unfold zlen; cbn; lia.
  - cbn [all2] in V. apply andb_prop in V; destruct V as [V1 V2].
    unfold most in *. cbn [map2 fold_right] in HN.
    cbn [map2 mw_sum map fold_right]. rewrite concat2_cons, zlen_app.
    set (rest := factor d * (8 * fold_right Z.add 0 (map weight vs) + zlen (concat2 (format D) vs ts))) in *.
    pose proof (bound_part v t d ltac:(lia)) as HB.
    assert (Hrest : 0 <= rest).
    { pose proof (factor_pos d Hd). pose proof (weights_nonneg vs). pose proof (zlen_nonneg (concat2 (format D) vs ts)).
      apply Z.mul_nonneg_nonneg; lia. }
    intros u. eapply le_weaken; [apply (le_bind _ _ (bound v t) rest); [apply Hv; exact V1|exact Hrest|]|unfold rest; lia].
    intros r. eapply le_weaken; [apply (le_bind _ _ 0 rest); [apply le_free|exact Hrest|]|lia].
    intros n. apply IH; [exact V2|lia].
Qed.
Lemma factor_add d k x : 0 <= d -> 0 <= k -> k + factor d * x <= factor d * (k + x).
Proof. intros Hd Hk. pose proof (factor_pos d Hd). nia. Qed.
Lemma factor_le d x y : 0 <= d -> x <= y -> factor d * x <= factor d * y.
Proof. intros Hd H. pose proof (factor_pos d Hd). nia. Qed.
(** At most [k] besides the parts, which take [x]. *)
Lemma fits_in d k x y c : 0 <= d -> 0 <= k -> c <= k + factor d * x -> k + x <= y -> c <= factor d * y.
Proof.
  intros Hd Hk Hc H. pose proof (factor_add d k x Hd Hk). pose proof (factor_le d (k + x) y Hd H). lia.
Qed.
Lemma number_bytes_pos z : 1 <= number_bytes z.
Proof. unfold number_bytes. pose proof (Z.log2_nonneg (Z.abs z)). pose proof (Z.div_pos (Z.log2 (Z.abs z)) 8). lia. Qed.

Lemma wi_fit {U} (w : m_writer U) d k x y c : within w c -> 0 <= d -> 0 <= k -> 1 + c <= k + factor d * x -> k + x <= y ->
  within (fun u => m_tick 1 (w u)) (factor d * y).
Proof. intros H Hd Hk Hc Hy. eapply wi_weaken; [apply wi_tick, H|]. eapply fits_in; eauto. Qed.
Lemma le_free_ok {A B} (a : A) (k : A -> metered B) c : spent_le (k a) c -> spent_le (m_bind (m_free (ROk a)) k) c.
Proof. unfold spent_le, m_bind, m_tick, m_free. cbn [fst snd]. lia. Qed.

Lemma wi_write v : wi_val v.
Proof.
  induction v as [| |z|bs| |v IHv|vs IHvs|vs IHvs|ix vs IHvs|v IHv] using val_ind'; intros t V U T.
  all: match goal with |- within (m_write _ _ _ ?v _ _ ?t) _ =>
         pose proof (nested_nonneg v t) as HN; pose proof (zlen_nonneg (format D v t)) as HF end.
  all: destruct t; try discriminate V;
    unfold well_typed in V; cbn [valid_gen] in V;
    try (destruct (nth_error D i) as [[?|?|?]|] eqn:Ei; discriminate V);
    unfold bound; cbn [m_write weight nested format] in *.
  - apply (wi_fit _ _ 8 0 _ 0); try lia. intros u; apply le_free.
  - apply (wi_fit _ _ 8 0 _ 3); try lia. apply wi_one.
  - pose proof (number_bytes_pos z). pose proof (ik_len_nonneg k). rewrite int_format_length in *.
    apply (wi_fit _ _ (8 + ik_len k) 0 _ (2 + ik_len k)); try lia.
    eapply wi_weaken; [apply wi_all|rewrite be_bytes_len; lia].
  - pose proof (number_bytes_pos z). pose proof (ik_len_nonneg k). rewrite int_format_length in *.
    apply (wi_fit _ _ (8 + ik_len k) 0 _ (4 + ik_len k)); try lia. apply wi_ranged.
  - pose proof (number_bytes_pos z). apply (wi_fit _ _ 16 0 _ 11); try lia. apply wi_int.
  - pose proof (number_bytes_pos z). apply (wi_fit _ _ 16 0 _ 12); try lia. eapply wi_weaken; [apply wi_tick, wi_int|cbn; lia].
  - pose proof (number_bytes_pos z). apply (wi_fit _ _ (8 + zlen (natural_format z)) 0 _ (2 + zlen (natural_format z))); try lia.
    rewrite n_serialize_format by lia. intros u. apply le_free_ok, wi_all.
  - pose proof (number_bytes_pos z). apply (wi_fit _ _ (8 + zlen (integer_format z)) 0 _ (2 + zlen (integer_format z))); try lia.
    rewrite z_serialize_format. intros u. apply le_free_ok, wi_all.
  - apply (wi_fit _ _ (8 + zlen bs) 0 _ (2 + zlen bs)); try lia. apply wi_wall.
  - apply (wi_fit _ _ (8 + zlen bs) 0 _ (2 + zlen bs)); try lia. apply wi_wall.
  - apply (wi_fit _ _ (8 + zlen bs) 0 _ (2 + zlen bs)); try lia. apply wi_many.
  - apply (wi_fit _ _ (8 + zlen bs) 0 _ (2 + zlen bs)); try lia. apply wi_all.
  - apply (wi_fit _ _ 8 0 _ 3); try lia. apply wi_one.
  - apply (wi_fit _ _ 8 0 _ 1); try lia. apply (wi_call 0); lia.
  - rewrite zlen_cons in *. eapply (wi_fit _ _ 8 (8 * weight v + zlen (format D v t))).
    + apply wi_mend, wi_add; [apply wi_call; lia|apply IHv; exact V|apply bound_nonneg].
    + exact HN.
    + lia.
    + unfold bound. lia.
    + lia.
  - eapply (wi_fit _ _ 8 (8 * weight v + zlen (format D v t))).
    + apply wi_end, IHv; exact V.
    + exact HN.
    + lia.
    + unfold bound. lia.
    + lia.
  - eapply (wi_fit _ _ 8).
    + apply wi_end, wi_elems; [exact HN|exact IHvs|exact V|].
      apply Forall_forall. intros v Hv. apply most_in. apply (in_map (fun v => nested D v t) vs v Hv).
    + exact HN.
    + lia.
    + instantiate (1 := 8 * fold_right Z.add 0 (map weight vs) + zlen (concat (map (fun v => format D v t) vs))). lia.
    + lia.
  - apply andb_prop in V; destruct V as [V _]. eapply (wi_fit _ _ 8).
    + apply wi_end, wi_elems; [exact HN|exact IHvs|exact V|].
      apply Forall_forall. intros v Hv. apply most_in. apply (in_map (fun v => nested D v t) vs v Hv).
    + exact HN.
    + lia.
    + instantiate (1 := 8 * fold_right Z.add 0 (map weight vs) + zlen (concat (map (fun v => format D v t) vs))). lia.
    + lia.
  - apply andb_prop in V; destruct V as [V _]. eapply (wi_fit _ _ 8).
    + apply wi_end, wi_elems; [exact HN|exact IHvs|exact V|].
      apply Forall_forall. intros v Hv. apply most_in. apply (in_map (fun v => nested D v t) vs v Hv).
    + exact HN.
    + lia.
    + instantiate (1 := 8 * fold_right Z.add 0 (map weight vs) + zlen (concat (map (fun v => format D v t) vs))). lia.
    + lia.
  - destruct (nth_error D i) as [[ts|?|?]|] eqn:Ei; try discriminate V.
    eapply (wi_fit _ _ 8).
    + apply wi_end, wi_fields; [exact HN|exact IHvs|exact V|lia].
    + exact HN.
    + lia.
    + instantiate (1 := 8 * fold_right Z.add 0 (map weight vs) + zlen (concat2 (format D) vs ts)). lia.
    + lia.
  - destruct (nth_error D i) as [[ts|k tags|k alts]|] eqn:Ei; try discriminate V.
    + destruct vs; [|discriminate V]. rewrite int_format_length in *. cbn [map fold_right].
      destruct (nth_error tags ix) as [tag|].
      * apply (wi_fit _ _ (8 + ik_len k) 0 _ (3 + ik_len k)); try lia. apply wi_int.
      * apply (wi_fit _ _ 8 0 _ 0); try lia. apply wi_bad.
    + destruct (nth_error alts ix) as [[tag ts]|] eqn:Ea; [|discriminate V].
      rewrite (nth_error_nth _ _ _ Ea) in *. cbn [fst snd] in *. pose proof (ik_len_nonneg k).
      rewrite zlen_app, int_format_length in *. pose proof (weights_nonneg vs). pose proof (zlen_nonneg (concat2 (format D) vs ts)).
      set (d := most (map2 (nested D) 0 vs ts)) in *.
      set (x := 8 * fold_right Z.add 0 (map weight vs) + zlen (concat2 (format D) vs ts)) in *.
      assert (0 <= factor d * x) by (pose proof (factor_pos d HN); apply Z.mul_nonneg_nonneg; unfold x; lia).
      apply (wi_fit _ _ (8 + ik_len k) x _ (3 + ik_len k + (factor d * x + 1) + 1)); try (unfold x; lia).
      apply wi_end, wi_add; [apply wi_int| |lia]. apply wi_end, wi_fields; [exact HN|exact IHvs|exact V|unfold d; lia].
  - apply andb_prop in V; destruct V as [V _]. rewrite zlen_app, pref_format_len in *.
    pose proof (bound_nonneg v t) as HB. pose proof (weight_pos v) as HWt. pose proof (nested_nonneg v t) as HNv.
    assert (Hpl : 0 <= pref_len s) by (destruct s; cbn; lia).
    set (e := if cf_est_override cf then 3 * weight v else bound v t).
    assert (He : 0 <= e) by (unfold e; destruct (cf_est_override cf); lia).
    apply (wi_weaken _ (1 + (e + (0 + ((5 + pref_len s) + (0 + (1 + (5 + pref_len s + bound v t + 1)))))))).
    + apply wi_tick. intros u. apply le_bind.
      * unfold e. destruct (cf_est_override cf); [apply le_estimate|]. apply (IHv t V unit tg_counter tt).
      * lia.
      * intros l. apply le_bind; [apply le_free|lia|]. intros _.
        destruct (pref_try_from cf s l) as [lp|]; [|eapply le_weaken; [apply le_free|lia]].
        apply le_bind.
        -- destruct (cf_est_override cf); [eapply le_weaken; [apply le_tick; [lia|apply le_free]|lia]|].
           apply (wi_pref tg_counter s lp tt).
        -- lia.
        -- intros ll. apply le_bind; [apply le_free|lia|]. intros total. apply le_tick; [lia|].
           apply wi_end, wi_add; [apply wi_pref|apply IHv; exact V|exact HB].
    + unfold e, bound in *. pose proof (zlen_nonneg (format D v t)) as HL.
      set (X := 8 * weight v + zlen (format D v t)) in *.
      replace (8 * (1 + weight v) + (pref_len s + zlen (format D v t))) with (8 + pref_len s + X) by (unfold X; lia).
      unfold factor in *. destruct (cf_est_override cf).
      * nia.
      * rewrite Z.pow_add_r by lia. pose proof (Z.pow_pos_nonneg 2 (nested D v t)). nia.
  - eapply (wi_fit _ _ 8 (8 * weight v + zlen (format D v t))); [apply IHv; exact V|exact HN|lia|unfold bound; lia|lia].
  - rewrite zlen_app in *. pose proof (zlen_nonneg (repeat 0 (Z.to_nat n))).
    apply (wi_fit _ _ (8 + zlen (repeat 0 (Z.to_nat n))) (8 * weight v + zlen (format D v t)) _
             (bound v t + (1 + zlen (repeat 0 (Z.to_nat n))) + 1)); try (unfold bound, byte in *; lia).
    apply wi_end, wi_add; [apply IHv; exact V|apply wi_call; lia|lia].
  - eapply (wi_fit _ _ 8 (8 * weight v + zlen (format D v t))); [apply IHv; exact V|exact HN|lia|unfold bound; lia|lia].
Qed.

Lemma encode_bound {U} (T : target U) v t : well_typed D v t = true ->
  0 <= encode_effort cf D kf T v t <= factor (nested D v t) * (8 * weight v + zlen (format D v t)).
Proof. intros V. apply (wi_write v t V U T). Qed.
End Upper.

(** ** A lower bound, for what is written in the end *)
Section Lower.
Variables (cf : config) (D : list def) (kf : nat).

Definition spent_ge {A} (x : metered A) (c : Z) : Prop := 0 <= snd x /\ forall a, fst x = ROk a -> c <= snd x.
Lemma ge_free {A} (r : wres A) : spent_ge (m_free r) 0. Proof. split; cbn [m_free snd]; intros; lia. Qed.
Lemma ge_tick {A} n (x : metered A) c : 0 <= n -> spent_ge x c -> spent_ge (m_tick n x) (n + c).
Proof. intros Hn [H H']. split; cbn [m_tick fst snd]; [lia|]. intros a E. specialize (H' a E). lia. Qed.
Lemma ge_bind {A B} (x : metered A) (k : A -> metered B) c c' : spent_ge x c -> (forall a, spent_ge (k a) c') ->
  spent_ge (m_bind x k) (c + c').
Proof.
  intros [H H'] K. unfold m_bind, m_tick. destruct (fst x) as [a| | | |] eqn:E; (split; cbn [fst snd]; [|intros b Eb]; try discriminate Eb); try lia.
  - destruct (K a). lia.
  - destruct (K a) as [_ K']. specialize (K' b Eb). specialize (H' a eq_refl). lia.
Qed.
Lemma ge_map {A B} (f : A -> B) (x : metered A) c : spent_ge x c -> spent_ge (m_map f x) c.
Proof.
  intros [H H']. split; cbn [m_map fst snd]; [exact H|]. intros b E. destruct (fst x) as [a| | | |] eqn:Ex; try discriminate E.
  exact (H' a eq_refl).
Qed.
Lemma ge_weaken {A} (x : metered A) c c' : spent_ge x c -> c' <= c -> spent_ge x c'.
Proof. intros [H H'] L. split; [exact H|]. intros a E. specialize (H' a E). lia. Qed.

Definition beyond {U} (w : m_writer U) (c : Z) : Prop := forall u, spent_ge (w u) c.
Lemma be_weaken {U} (w : m_writer U) c c' : beyond w c -> c' <= c -> beyond w c'.
Proof. intros H L u. eapply ge_weaken; [apply H|exact L]. Qed.
Lemma be_add {U} (a b : m_writer U) c c' : beyond a c -> beyond b c' -> beyond (mw_add cf a b) (c + c').
Proof.
  intros Ha Hb u. apply ge_bind; [apply Ha|]. intros r.
  eapply ge_weaken; [apply (ge_bind _ _ c' 0); [apply Hb|]|lia]. intros r'.
  apply (ge_bind _ _ 0 0); [apply ge_free|]. intros n. apply ge_free.
Qed.
Lemma be_call {U} n (f : U -> Z * U) : 0 <= n -> beyond (mw_call n f) 0.
Proof. intros H u. eapply ge_weaken; [apply ge_tick; [lia|apply ge_free]|lia]. Qed.
Lemma be_tick {U} (w : m_writer U) c : beyond w c -> beyond (fun u => m_tick 1 (w u)) (1 + c).
Proof. intros H u. apply ge_tick; [lia|apply H]. Qed.
Lemma be_bad {U} c : beyond (@mw_bad U) c. Proof. intros u. split; [reflexivity|]. intros a E. discriminate E. Qed.
Lemma be_end {U} (T : target U) w c : beyond w c -> beyond (mw_add cf w (mw_resolve T)) c.
Proof.
  intros H. eapply be_weaken; [apply be_add; [exact H|]|]. { intros u. apply (be_call 0 _ ltac:(lia) u). } lia.
Qed.
Lemma be_mend {U} (T : target U) w c : beyond w c -> beyond (mw_add cf w (mw_end T)) c.
Proof.
  intros H. eapply be_weaken; [apply be_add; [exact H|]|]. { intros u. apply (be_call 0 _ ltac:(lia) u). } lia.
Qed.
Lemma be_put {U} (T : target U) n f : 0 <= n -> beyond (mw_add cf (mw_call n f) (mw_resolve T)) 0.
Proof. intros H. apply be_end, be_call, H. Qed.
Lemma be_mput {U} (T : target U) n f : 0 <= n -> beyond (mw_add cf (mw_call n f) (mw_end T)) 0.
Proof. intros H. apply be_mend, be_call, H. Qed.
Lemma be_int {U} (T : target U) k z : beyond (mw_int cf T k z) 0.
Proof. eapply be_weaken; [apply be_tick, be_put, zlen_nonneg|lia]. Qed.
Lemma be_ranged {U} (T : target U) k lo hi z : beyond (mw_ranged cf T k lo hi z) 0.
Proof. intros u. apply (ge_bind _ _ 0 0); [apply ge_free|]. intros x. apply be_end, be_int. Qed.
Lemma be_pref {U} (T : target U) s lp : beyond (mw_pref cf T s lp) 0.
Proof.
  destruct s; [apply be_int|apply be_int|]. eapply be_weaken; [apply be_tick, be_ranged|lia].
Qed.
Lemma be_sum {U} (ws : list (m_writer U)) cs : Forall2 beyond ws cs -> forall acc,
  beyond (mw_sum cf acc ws) (fold_right Z.add 0 cs).
Proof.
  induction 1 as [|w c ws cs Hw _ IH]; intros acc u; cbn [mw_sum fold_right]; [apply ge_free|].
  apply ge_bind; [apply Hw|]. intros r.
  eapply ge_weaken; [apply (ge_bind _ _ 0 (fold_right Z.add 0 cs)); [apply ge_free|]|lia]. intros n. apply IH.
Qed.
Lemma pow_most l : Forall (fun x => 0 <= x) l -> 2 ^ most l <= 1 + fold_right Z.add 0 (map (fun x => 2 ^ x) l).
Proof.
  unfold most. induction 1 as [|x l Hx _ IH]; cbn [fold_right map]; [cbn; lia|].
  pose proof (Z.pow_pos_nonneg 2 x ltac:(lia) Hx).
  destruct (Z.max_spec x (fold_right Z.max 0 l)) as [[_ ->]|[L ->]]; [lia|].
  enough (0 <= fold_right Z.add 0 (map (fun x => 2 ^ x) l)) by lia.
  clear. induction l as [|y l IH]; cbn [map fold_right]; [lia|]. pose proof (Z.pow_nonneg 2 y). lia.
Qed.

Definition be_val (v : val) : Prop := forall t U (T : target U), beyond (m_write cf D kf v U T t) (2 ^ nested D v t).
Lemma be_leaf {U} (w : m_writer U) : beyond w 0 -> beyond (fun u => m_tick 1 (w u)) (2 ^ 0).
Proof. intros H. eapply be_weaken; [apply be_tick, H|cbn; lia]. Qed.
Lemma be_elems U (T : target U) vs t acc : Forall be_val vs ->
  beyond (fun u => m_tick 1 (mw_add cf (mw_sum cf acc (map (fun v => m_write cf D kf v U T t) vs)) (mw_resolve T) u))
    (2 ^ most (map (fun v => nested D v t) vs)).
Proof.
  intros HF. eapply be_weaken.
  - apply be_tick, be_end. apply be_sum with (cs := map (fun x => 2 ^ x) (map (fun v => nested D v t) vs)).
    induction HF as [|v vs Hv _ IH]; cbn [map]; constructor; auto.
  - apply pow_most. apply Forall_forall. intros x Hx. apply in_map_iff in Hx. destruct Hx as (v & <- & _). apply nested_nonneg.
Qed.
Lemma be_fields U (T : target U) vs ts : Forall be_val vs -> forall acc,
  beyond (mw_sum cf acc (map2 (fun v t => m_write cf D kf v U T t) mw_bad vs ts))
    (2 ^ most (map2 (nested D) 0 vs ts) - 1).
Proof.
  intros HF acc. eapply be_weaken.
  - apply be_sum with (cs := map (fun x => 2 ^ x) (map2 (nested D) 0 vs ts)). revert ts.
    induction HF as [|v vs Hv _ IH]; intros [|t ts]; cbn [map2 map]; repeat constructor; try apply be_bad; auto; apply Hv.
  - enough (Forall (fun x => 0 <= x) (map2 (nested D) 0 vs ts)) as HP by (apply pow_most in HP; lia).
    clear. revert ts. induction vs as [|v vs IH]; intros [|t ts]; cbn [map2]; repeat constructor; try lia; auto. apply nested_nonneg.
Qed.

Lemma be_write v : cf_est_override cf = false -> be_val v.
Proof.
  intros HO.
  induction v as [| |z|bs| |v IHv|vs IHvs|vs IHvs|ix vs IHvs|v IHv] using val_ind'; intros t U T.
  all: destruct t; cbn [m_write nested]; try (apply be_leaf, be_bad);
    try (destruct (nth_error D i) as [[?|?|?]|] eqn:Ei; apply be_leaf, be_bad).
  - apply be_leaf. intros u; apply ge_free.
  - apply be_leaf, be_mput; lia.
  - apply be_leaf, be_put, zlen_nonneg.
  - apply be_leaf, be_ranged.
  - apply be_leaf, be_int.
  - apply be_leaf. eapply be_weaken; [apply be_tick, be_int|lia].
  - apply be_leaf. intros u. apply (ge_bind _ _ 0 0); [apply ge_free|]. intros bs. apply be_put, zlen_nonneg.
  - apply be_leaf. intros u. apply (ge_bind _ _ 0 0); [apply ge_free|]. intros bs. apply be_put, zlen_nonneg.
  - apply be_leaf, be_mput, zlen_nonneg.
  - apply be_leaf, be_mput, zlen_nonneg.
  - apply be_leaf, be_put, zlen_nonneg.
  - apply be_leaf, be_put, zlen_nonneg.
  - apply be_leaf, be_mput; lia.
  - apply be_leaf. intros u. apply (be_call 0 _ ltac:(lia) u).
  - eapply be_weaken; [apply be_tick, be_mend, be_add; [apply be_call; lia|apply IHv]|lia].
  - eapply be_weaken; [apply be_tick, be_end, IHv|lia].
  - apply be_elems, IHvs.
  - apply be_elems, IHvs.
  - apply be_elems, IHvs.
  - destruct (nth_error D i) as [[ts|?|?]|] eqn:Ei; try (apply be_leaf, be_bad).
    eapply be_weaken; [apply be_tick, be_end, be_fields, IHvs|lia].
  - destruct (nth_error D i) as [[ts|k tags|k alts]|] eqn:Ei; try (apply be_leaf, be_bad).
    + destruct vs; [|apply be_leaf, be_bad]. destruct (nth_error tags ix) as [tag|]; [apply be_leaf, be_int|apply be_leaf, be_bad].
    + destruct (nth_error alts ix) as [[tag ts]|] eqn:Ea.
      * rewrite (nth_error_nth _ _ _ Ea). cbn [snd].
        eapply be_weaken; [apply be_tick, be_end, be_add; [apply be_int|apply be_end, be_fields, IHvs]|lia].
      * eapply be_weaken; [apply be_tick, (be_bad (2 ^ most (map2 (nested D) 0 vs (snd (nth ix alts (0, []))))))|lia].
  - rewrite HO. eapply be_weaken.
    + apply be_tick. intros u. apply (ge_bind _ _ (2 ^ nested D v t) (2 ^ nested D v t)).
      * apply ge_map, IHv.
      * intros l. eapply ge_weaken; [apply (ge_bind _ _ 0 (2 ^ nested D v t)); [apply ge_free|]|lia]. intros _.
        destruct (pref_try_from cf s l) as [lp|]; [|split; [reflexivity|discriminate]].
        eapply ge_weaken; [apply (ge_bind _ _ 0 (2 ^ nested D v t)); [apply ge_map, be_pref|]|lia]. intros ll.
        eapply ge_weaken; [apply (ge_bind _ _ 0 (2 ^ nested D v t)); [apply ge_free|]|lia]. intros total.
        eapply ge_weaken; [apply ge_tick; [lia|]|].
        -- apply be_end, be_add; [apply be_pref|apply IHv].
        -- lia.
    + rewrite Z.pow_add_r by (pose proof (nested_nonneg D v t); lia). lia.
  - eapply be_weaken; [apply be_tick, IHv|lia].
  - eapply be_weaken; [apply be_tick, be_end, be_add; [apply IHv|apply be_call, zlen_nonneg]|lia].
  - eapply be_weaken; [apply be_tick, IHv|lia].
Qed.
Lemma encode_at_least {U} (T : target U) v t u : cf_est_override cf = false -> encode cf D kf T v t = ROk u -> 2 ^ nested D v t <= encode_effort cf D kf T v t.
Proof.
  intros HO. rewrite <- metered_same. unfold encode_effort, encode_metered, m_map. cbn [fst snd]. intros E.
  destruct (be_write v HO t U T (tg_create T)) as [_ H].
  destruct (fst (m_write cf D kf v U T t (tg_create T))) as [r| | | |]; try discriminate E. exact (H r eq_refl).
Qed.
End Lower.

(** ** How deep a type nests its Dynamics *)
Section Layers.
Variables (L : list Z) (D : list def).
Hypothesis HL : layered L D = true.
Lemma layers_nonneg t : 0 <= layers L t. Proof. induction t; cbn [layers]; lia. Qed.
Lemma most_le l d : 0 <= d -> Forall (fun x => x <= d) l -> most l <= d.
Proof. intros Hd. unfold most. induction 1; cbn [fold_right]; lia. Qed.
Lemma fields_le vs ts d : 0 <= d -> Forall (fun v => forall t, nested D v t <= layers L t) vs ->
  forallb (fun t => layers L t <=? d) ts = true -> most (map2 (nested D) 0 vs ts) <= d.
Proof.
  intros Hd HF HT. apply most_le; [exact Hd|]. revert ts HT.
  induction HF as [|v vs Hv _ IH]; intros [|t ts] HT; cbn [map2]; repeat constructor; try exact Hd;
    cbn [forallb] in HT; apply andb_prop in HT; destruct HT as [H1 H2]; [specialize (Hv t); lia|apply IH; exact H2].
Qed.
Lemma claim_at i d : nth_error D i = Some d -> layered_def L d (nth i L 0) = true.
Proof.
  unfold layered in HL. apply andb_prop in HL. destruct HL as [H1 H2]. intros Ei. rewrite forallb_forall in H2.
  assert (Hi : (i < length L)%nat).
  { pose proof (proj1 (nth_error_Some D i) ltac:(congruence)). unfold zlen in H1. lia. }
  apply (H2 (d, nth i L 0)). 
  assert (nth_error (combine D L) i = Some (d, nth i L 0)) as E; [|eapply nth_error_In; exact E].
  clear -Ei Hi. revert i L Hi Ei. induction D as [|x D' IH]; intros [|i] [|y L'] Hi Ei; try discriminate Ei; cbn in *; try lia.
  - injection Ei as ->. reflexivity.
  - apply IH; [lia|exact Ei].
Qed.
Lemma nested_layers v : forall t, nested D v t <= layers L t.
Proof.
  induction v as [| |z|bs| |v IHv|vs IHvs|vs IHvs|ix vs IHvs|v IHv] using val_ind'; intros t; pose proof (layers_nonneg t) as HP;
    destruct t; cbn [nested layers] in *; try lia; try apply IHv.
  - apply most_le; [exact HP|]. apply Forall_forall. intros x Hx. apply in_map_iff in Hx. destruct Hx as (v & <- & Hv).
    rewrite Forall_forall in IHvs. apply (IHvs v Hv).
  - apply most_le; [exact HP|]. apply Forall_forall. intros x Hx. apply in_map_iff in Hx. destruct Hx as (v & <- & Hv).
    rewrite Forall_forall in IHvs. apply (IHvs v Hv).
  - apply most_le; [exact HP|]. apply Forall_forall. intros x Hx. apply in_map_iff in Hx. destruct Hx as (v & <- & Hv).
    rewrite Forall_forall in IHvs. apply (IHvs v Hv).
  - destruct (nth_error D i) as [[ts|?|?]|] eqn:Ei; try exact HP.
    apply claim_at in Ei. cbn [layered_def] in Ei. apply fields_le; [exact HP|exact IHvs|].
    rewrite forallb_forall in *. intros t Ht. specialize (Ei t Ht). lia.
  - destruct (nth_error D i) as [[?|?|k alts]|] eqn:Ei; try exact HP.
    apply claim_at in Ei. cbn [layered_def] in Ei. apply fields_le; [exact HP|exact IHvs|].
    destruct (nth_in_or_default ix alts (0, [])) as [Hin|E]; [|rewrite E; reflexivity].
    rewrite forallb_forall in Ei. specialize (Ei _ Hin). rewrite forallb_forall in *. intros t Ht. specialize (Ei t Ht). lia.
  - specialize (IHv t). lia.
Qed.
End Layers.

(** ** A chain of [n] nested Dynamics: five bytes each *)
Definition chain_info : list tinfo := [mkInfo Delim true None].
Lemma chain_len n : zlen (format chain_defs (chain n) (TNamed 0)) = 1 + 5 * Z.of_nat n.
Proof.
  induction n as [|n IH]; [reflexivity|].
  change (format chain_defs (chain (S n)) (TNamed 0))
    with (int_format U8 1 ++ (pref_format PrefU30 (zlen (format chain_defs (chain n) (TNamed 0))) ++ format chain_defs (chain n) (TNamed 0)) ++ []).
  rewrite app_nil_r, !zlen_app, int_format_length, pref_format_len, IH. cbn [pref_len ik_len]. lia.
Qed.
Lemma chain_nested n : nested chain_defs (chain n) (TNamed 0) = Z.of_nat n.
Proof.
  induction n as [|n IH]; [reflexivity|].
  change (nested chain_defs (chain (S n)) (TNamed 0)) with (most [1 + nested chain_defs (chain n) (TNamed 0)]).
  rewrite IH. unfold most. cbn [fold_right]. lia.
Qed.
Lemma chain_valid n : 5 * Z.of_nat n <= 2 ^ 29 -> valid chain_defs (chain n) (TNamed 0) = true.
Proof.
  induction n as [|n IH]; intros H; [reflexivity|].
  change (valid chain_defs (chain (S n)) (TNamed 0))
    with (valid chain_defs (chain n) (TNamed 0) && (zlen (format chain_defs (chain n) (TNamed 0)) <=? pref_max PrefU30) && true).
  rewrite IH by lia. rewrite chain_len. cbn [pref_max andb]. unfold u30_max. lia.
Qed.
Lemma chain_typed n : well_typed chain_defs (chain n) (TNamed 0) = true.
Proof.
  induction n as [|n IH]; [reflexivity|].
  change (well_typed chain_defs (chain (S n)) (TNamed 0)) with (well_typed chain_defs (chain n) (TNamed 0) && true && true).
  rewrite IH. reflexivity.
Qed.
Lemma bomb n : 5 * Z.of_nat n <= 2 ^ 29 -> exists v input,
  zlen input = 1 + 5 * Z.of_nat n /\
  forall cf kf, cf_est_override cf = false ->
    decodes WByte cf chain_defs (TNamed 0) input (ROk v) /\
    (forall f w, decode_effort w cf chain_defs f (TNamed 0) input <= 2 + 10 * zlen input) /\
    to_bytes cf chain_defs kf v (TNamed 0) = ROk input /\
    2 ^ Z.of_nat n <= encode_effort cf chain_defs kf tg_vec v (TNamed 0).
Proof.
  intros H. exists (chain n), (format chain_defs (chain n) (TNamed 0)). split; [apply chain_len|].
  intros cf kf HO.
  assert (HL : zlen (format chain_defs (chain n) (TNamed 0)) <= isize_max) by (rewrite chain_len; unfold isize_max; lia).
  assert (E : to_bytes cf chain_defs kf (chain n) (TNamed 0) = ROk (format chain_defs (chain n) (TNamed 0))).
  { apply to_bytes_valid; [reflexivity|reflexivity|apply chain_valid, H|exact HL|exact HO]. }
  split; [|split; [|split; [exact E|]]].
  2: { intros f w. pose proof (effort_linear 3 [-2] [1] cf chain_defs (TNamed 0) eq_refl eq_refl eq_refl eq_refl eq_refl f w _ HL) as HE.
       change (3 * tries 3 [-2] [1] (TNamed 0) - 1) with 2 in HE. change (3 * 3 + 1) with 10 in HE. exact HE. }
  - eapply (round_trip cf chain_defs chain_info kf); try reflexivity; [apply chain_typed|exact E|congruence|exact HL|discriminate].
  - rewrite <- (chain_nested n). eapply encode_at_least; [exact HO|]. exact E.
Qed.

(** With the override every Dynamic has its contents measured once more. *)
Section Quadratic.
Variables (cf : config) (kf : nat).
Hypothesis HO : cf_est_override cf = true.
Hypothesis HK : (4 <= kf)%nat.
Lemma chain_known : known_sum (known cf chain_defs kf) [TDyn PrefU30 (TBox (TNamed 0))] = Some None.
Proof. destruct kf as [|[|[|[|k]]]]; try lia. reflexivity. Qed.
Lemma chain_unknown n : spent_ge (m_unknown cf chain_defs kf (chain n) (TNamed 0)) (1 + 2 * Z.of_nat n).
Proof.
  induction n as [|n IH].
  - eapply ge_weaken; [apply (ge_tick 1 _ 0); [lia|]|lia].
    apply (ge_bind _ _ 0 0); [|intros; apply ge_free]. eapply ge_weaken; [apply (ge_tick 1 _ 0); [lia|]|lia].
    destruct (known_sum (known cf chain_defs kf) []) as [[k|]|]; apply ge_free.
  - change (m_unknown cf chain_defs kf (chain (S n)) (TNamed 0)) with
      (m_tick 1 (m_bind (m_estimate_with (known_sum (known cf chain_defs kf) [TDyn PrefU30 (TBox (TNamed 0))])
        (m_usum cf 0 [m_tick 1 (m_bind (m_tick 1 (m_unknown cf chain_defs kf (chain n) (TNamed 0)))
           (fun n => m_free (uadd (cf_mode cf) (pref_len PrefU30) n)))]))
        (fun n => m_free (uadd (cf_mode cf) (ik_len U8) n)))).
    rewrite chain_known. cbn [m_estimate_with m_usum].
    eapply ge_weaken; [apply ge_tick; [lia|]; apply (ge_bind _ _ (1 + (1 + (1 + 2 * Z.of_nat n)) + 0) 0); [|intros; apply ge_free]|lia].
    apply (ge_weaken _ (1 + (1 + (1 + (1 + 2 * Z.of_nat n))))); [|lia]. apply ge_tick; [lia|].
    apply (ge_weaken _ ((1 + (1 + (1 + 2 * Z.of_nat n)) + 0) + 0)); [|lia].
    apply ge_bind; [|intros x; apply (ge_bind _ _ 0 0); [apply ge_free|intros; apply ge_free]].
    apply (ge_weaken _ (1 + ((1 + (1 + 2 * Z.of_nat n)) + 0))); [|lia]. apply ge_tick; [lia|].
    apply ge_bind; [apply ge_tick; [lia|exact IH]|intros; apply ge_free].
Qed.
Lemma chain_estimate n : spent_ge (m_estimate cf chain_defs kf (VWrap (chain n)) (TBox (TNamed 0))) (1 + 2 * Z.of_nat n).
Proof.
  unfold m_estimate.
  assert (E : known cf chain_defs kf (TBox (TNamed 0)) = Some None) by (destruct kf as [|[|[|[|k]]]]; try lia; reflexivity).
  rewrite E. eapply ge_weaken; [apply ge_tick; [lia|]|].
  - change (m_unknown cf chain_defs kf (VWrap (chain n)) (TBox (TNamed 0))) with (m_tick 1 (m_unknown cf chain_defs kf (chain n) (TNamed 0))).
    apply ge_tick; [lia|apply chain_unknown].
  - lia.
Qed.
Lemma be_box {U} (T : target U) v t c : beyond (m_write cf chain_defs kf v U T t) c ->
  beyond (m_write cf chain_defs kf (VWrap v) U T (TBox t)) c.
Proof. intros H u. cbn [m_write]. eapply ge_weaken; [apply ge_tick; [lia|apply H]|lia]. Qed.
Lemma be_dyn {U} (T : target U) s v t e c : spent_ge (m_estimate cf chain_defs kf v t) e ->
  beyond (m_write cf chain_defs kf v U T t) c -> beyond (m_write cf chain_defs kf (VWrap v) U T (TDyn s t)) (e + c).
Proof.
  intros HE H u. cbn [m_write]. rewrite HO.
  eapply ge_weaken; [apply ge_tick; [lia|]; apply (ge_bind _ _ e c); [exact HE|]|lia].
  intros l. eapply ge_weaken; [apply (ge_bind _ _ 0 c); [apply ge_free|]|lia]. intros _.
  destruct (pref_try_from cf s l) as [lp|]; [|split; [reflexivity|discriminate]].
  eapply ge_weaken; [apply (ge_bind _ _ 0 c)|lia].
  { eapply ge_weaken; [apply ge_tick; [lia|apply ge_free]|lia]. }
  intros ll. eapply ge_weaken; [apply (ge_bind _ _ 0 c); [apply ge_free|]|lia]. intros total.
  eapply ge_weaken; [apply ge_tick; [lia|]|].
  - apply be_end, be_add; [apply be_pref|apply H].
  - lia.
Qed.
Lemma chain_write n : forall U (T : target U), beyond (m_write cf chain_defs kf (chain n) U T (TNamed 0)) (Z.of_nat n * Z.of_nat n).
Proof.
  induction n as [|n IH]; intros U T.
  - eapply be_weaken; [apply be_tick, (be_end cf T), (be_add cf _ _ 0 0)|lia].
    + apply be_int.
    + apply be_end. intros u. apply ge_free.
  - pose proof (be_dyn T PrefU30 _ (TBox (TNamed 0)) _ _ (chain_estimate n) (be_box T _ _ _ (IH U T))) as H.
    eapply be_weaken; [apply be_tick, (be_end cf T), (be_add cf _ _ 0)|].
    + apply be_int.
    + apply be_end. apply (be_sum cf _ [1 + 2 * Z.of_nat n + Z.of_nat n * Z.of_nat n]). constructor; [exact H|constructor].
    + cbn [fold_right]. lia.
Qed.
Lemma quadratic n {U} (T : target U) u : encode cf chain_defs kf T (chain n) (TNamed 0) = ROk u ->
  Z.of_nat n * Z.of_nat n <= encode_effort cf chain_defs kf T (chain n) (TNamed 0).
Proof.
  rewrite <- metered_same. unfold encode_effort, encode_metered, m_map. cbn [fst snd]. intros E.
  destruct (chain_write n U T (tg_create T)) as [_ H].
  destruct (fst (m_write cf chain_defs kf (chain n) U T (TNamed 0) (tg_create T))) as [r| | | |]; try discriminate E. exact (H r eq_refl).
Qed.
End Quadratic.

(** ** The statements *)
Lemma bound_default cf D kf {U} (T : target U) v t : cf_est_override cf = false -> well_typed D v t = true ->
  encode_effort cf D kf T v t <= 2 ^ nested D v t * (8 * weight v + zlen (format D v t)).
Proof. intros HO V. pose proof (encode_bound cf D kf T v t V) as H. unfold factor in H. rewrite HO in H. lia. Qed.
Lemma bound_override cf D kf {U} (T : target U) v t : cf_est_override cf = true -> well_typed D v t = true ->
  encode_effort cf D kf T v t <= (1 + nested D v t) * (8 * weight v + zlen (format D v t)).
Proof. intros HO V. pose proof (encode_bound cf D kf T v t V) as H. unfold factor in H. rewrite HO in H. lia. Qed.
Lemma effort_layers L cf D kf {U} (T : target U) v t : layered L D = true -> well_typed D v t = true ->
  encode_effort cf D kf T v t <= 2 ^ layers L t * (8 * weight v + zlen (format D v t)).
Proof.
  intros HL V. pose proof (encode_bound cf D kf T v t V) as [_ H]. pose proof (nested_layers L D HL v t) as HN.
  pose proof (nested_nonneg D v t) as H0. etransitivity; [exact H|]. apply Z.mul_le_mono_nonneg_r.
  - pose proof (weight_pos v). pose proof (zlen_nonneg (format D v t)). lia.
  - transitivity (2 ^ nested D v t); [|apply Z.pow_le_mono_r; lia]. unfold factor. destruct (cf_est_override cf); [|lia].
    pose proof (Z.pow_gt_lin_r 2 (nested D v t)). lia.
Qed.
