(** A ByteParser inside a window and one that has the contents of the window as its whole
    input. *)
From Coq Require Import Lia.
From Verif Require Import Base BaseLemmas ModelErrors ModelParser ModelInt ModelFloat ModelUtf8 ModelTarget ModelSchema
  SpecParser SpecCodec SpecAlone ProofParser ProofParserSim ProofParserClean ProofInt ProofDec ProofCodec ProofError.
From Coq Require Import ZifyBool.

Lemma slice_in {A} k L c s (buf : list A) : 0 <= k -> 0 <= c <= s -> s <= L -> zslice c s (zslice k (k + L) buf) = zslice (k + c) (k + s) buf.
Proof.
  intros Hk Hc Hs. unfold zslice at 1. rewrite zdrop_zslice by lia. rewrite ztake_zslice by lia. f_equal. lia.
Qed.
Lemma byte_in k L c (buf : list byte) : 0 <= k -> 0 <= c < L -> k + L <= zlen buf ->
  exists x, nth_error (zslice k (k + L) buf) (Z.to_nat c) = Some x /\ nth_error buf (Z.to_nat (k + c)) = Some x.
Proof.
  intros Hk Hc HL. assert (Hb : zlen (zslice k (k + L) buf) = L) by (rewrite zlen_zslice; lia).
  destruct (nth_error_zslice (zslice k (k + L) buf) c (c + 1)) as (x & E1 & F1); [lia|lia|].
  destruct (nth_error_zslice buf (k + c) (k + c + 1)) as (y & E2 & F2); [lia|lia|].
  exists x. split; [exact E1|]. rewrite E2. rewrite slice_in in F1 by lia.
  replace (k + (c + 1)) with (k + c + 1) in F1 by lia. rewrite F1 in F2. congruence.
Qed.

Section Alone.
Variables (m : mode) (buf : list byte) (k L : Z) (outer : list Z).
Hypothesis Hk : 0 <= k.
Hypothesis HL : 0 <= L.
Hypothesis Hin : k + L <= zlen buf.
Hypothesis Hbuf : zlen buf <= isize_max.

Definition body : list byte := zslice k (k + L) buf.
Definition alone (fs : list Z) (c : Z) : byte_parser := mkBP body (mkCO L fs c).
Definition inside (fs : list Z) (c : Z) : byte_parser := mkBP buf (mkCO (zlen buf) (map (Z.add k) fs ++ (k + L) :: outer) (k + c)).

Definition R (fs : list Z) (st st' : byte_parser) : Prop :=
  exists c, st = alone fs c /\ st' = inside fs c /\ 0 <= c /\ asc c (fs ++ [L]).

Definition tracks {A} (Q : A -> Prop) (fs : list Z) (a b : pres A * byte_parser) : Prop :=
  as_alone m k L (fst a) (fst b) /\ (forall x, fst a = ROk x -> R fs (snd a) (snd b) /\ Q x).
Definition sim {A} (Q : A -> Prop) (pg : prog A) : Prop :=
  forall fs st st', R fs st st' -> tracks Q fs (run (byte_h m) pg st) (run (byte_h m) pg st').
Definition any {A} (_ : A) : Prop := True.

Lemma body_len : zlen body = L.
Proof. unfold body. rewrite zlen_zslice; lia. Qed.
Lemma limit_of fs c : co_limit (mkCO (zlen buf) (map (Z.add k) fs ++ (k + L) :: outer) (k + c)) = k + co_limit (mkCO L fs c).
Proof. destruct fs; reflexivity. Qed.
Lemma limit_le fs c : asc c (fs ++ [L]) -> c <= co_limit (mkCO L fs c) <= L.
Proof.
  destruct fs as [|x fs]; cbn; [lia|]. intros [H1 H2]. split; [exact H1|].
  exact (asc_last _ _ _ H2).
Qed.
Lemma sum_small {E} a b : 0 <= a <= isize_max -> 0 <= b <= isize_max -> @uadd E m a b = ROk (a + b).
Proof. intros. unfold uadd. pose proof isize_max_lt. replace (a + b <? usize_mod) with true by lia. reflexivity. Qed.

(** A result that is no value says the same of every type. *)
Lemma as_alone_cast {A B} (r r' : pres A) (f f' : pres B) :
  as_alone m k L r r' -> (forall a, r <> ROk a) ->
  f = match r with ROk _ => f | RErr e => RErr e | RPanic => RPanic | RUB => RUB | RDiv => RDiv end ->
  f' = match r' with ROk _ => f' | RErr e => RErr e | RPanic => RPanic | RUB => RUB | RDiv => RDiv end ->
  as_alone m k L f f'.
Proof.
  intros H N -> ->. destruct r as [a|e| | |]; [destruct (N a eq_refl)| | | |]; cbn [as_alone] in *.
  - destruct e as [[] | | |]; try (rewrite H; reflexivity).
    destruct H as [[l ->]|(l & t & -> & H)]; [left; eauto|right; eauto].
  - destruct H as [->|(Hm & e & -> & H)]; [left; reflexivity|right; eauto].
  - rewrite H. reflexivity.
  - rewrite H. reflexivity.
Qed.

Lemma no_value {A} (r r' : pres A) : as_alone m k L r r' -> (forall a, r <> ROk a) -> forall x, r' <> ROk x.
Proof.
  intros H N x ->. destruct r as [a|e| | |]; [destruct (N a eq_refl)| | | |]; cbn [as_alone] in H; try discriminate H.
  - destruct e as [[] | | |]; try discriminate H. destruct H as [[? H]|(? & ? & H & _)]; discriminate H.
  - destruct H as [H|(_ & ? & H & _)]; discriminate H.
Qed.
Ltac no_result H1 := split; [|cbn [fst]; discriminate];
  let N := fresh "N" in pose proof (no_value _ _ H1 ltac:(discriminate)) as N;
  eapply (as_alone_cast _ _ _ _ H1); [discriminate|reflexivity|];
  match goal with |- context [match ?r' with ROk _ => _ | RErr _ => _ | RPanic => _ | RUB => _ | RDiv => _ end] =>
    let a := fresh in destruct r' as [a|?| | |]; [destruct (N a eq_refl)|reflexivity|reflexivity|reflexivity|reflexivity] end.

Lemma sim_bind {A B} (Q : A -> Prop) (Q' : B -> Prop) pg kk :
  sim Q pg -> (forall a, Q a -> sim Q' (kk a)) -> sim Q' (pbind pg kk).
Proof.
  intros H Hk' fs st st' HR. specialize (H fs st st' HR). unfold tracks in *. rewrite !run_pbind.
  destruct (run (byte_h m) pg st) as [r s] eqn:E, (run (byte_h m) pg st') as [r' s'] eqn:E'. cbn [fst snd] in H. destruct H as [H1 H2].
  destruct r as [a|e| | |].
  1: { cbn [as_alone] in H1. subst r'. destruct (H2 a eq_refl) as [HR' HQ]. exact (Hk' a HQ fs s s' HR'). }
  all: no_result H1.
Qed.
Lemma sim_weak {A} (Q Q' : A -> Prop) pg : (forall a, Q a -> Q' a) -> sim Q pg -> sim Q' pg.
Proof. intros HQ H fs st st' HR. destruct (H fs st st' HR) as [H1 H2]. split; [exact H1|]. intros x Ex. destruct (H2 x Ex). auto. Qed.
Lemma sim_any {A} (Q : A -> Prop) pg : sim Q pg -> sim any pg.
Proof. apply sim_weak. intros; exact I. Qed.

Lemma sim_own {A} (r : pres A) : raises_own (plift r) -> sim (fun a => r = ROk a) (plift r).
Proof.
  intros H fs st st' HR. destruct r as [a|e| | |]; cbn [plift run] in *; split; cbn [fst snd as_alone]; try discriminate; auto.
  destruct e; try reflexivity. destruct H.
Qed.
Lemma sim_ret {A} (a : A) : sim any (PRet a).
Proof. eapply sim_any, (sim_own (ROk a)). exact I. Qed.
Lemma sim_err {A} e : raises_own (@PErr A e) -> @sim A any (PErr e).
Proof. intros H. eapply sim_any, (sim_own (RErr e)). exact H. Qed.
Lemma sim_panic {A} : @sim A any PPanic.
Proof. eapply sim_any, (sim_own RPanic). exact I. Qed.
Lemma sim_div {A} : @sim A any PDiv.
Proof. eapply sim_any, (sim_own RDiv). exact I. Qed.

Lemma asc_to fs c s : asc c (fs ++ [L]) -> s <= co_limit (mkCO L fs c) -> asc s (fs ++ [L]).
Proof. destruct fs as [|x fs]; cbn; [intros; split; [lia|exact I]|]. intros [_ H] Hs. auto. Qed.

Lemma sim_consume n : 0 <= n <= isize_max -> sim any (p_consume n).
Proof.
  intros Hn fs st st' (c & -> & -> & Hc & Ha). unfold p_consume. rewrite !run_do_op. cbn [byte_h].
  unfold bp_consume, co_advance, increment_checked, alone, inside. cbn [bp_buf bp_off co_cur co_abs co_frames]. rewrite limit_of.
  pose proof (limit_le fs c Ha) as Hl. pose proof body_len as Hb.
  rewrite !sum_small by lia. cbn [rbind]. set (l := co_limit (mkCO L fs c)) in *.
  destruct (Z.leb_spec (c + n) l) as [Hs|Hs].
  - replace (k + c + n <=? k + l) with true by lia. rewrite ?sum_small by lia. cbn [rbind rmap].
    unfold vb_get_slice_unchecked. rewrite !sum_small by lia. cbn [rbind].
    replace ((c <=? c + n) && (c + n <=? zlen body)) with true by lia.
    replace ((k + c <=? k + c + n) && (k + c + n <=? zlen buf)) with true by lia.
    split; cbn [fst snd].
    + cbn [as_alone]. f_equal. unfold body. rewrite slice_in by lia. f_equal. lia.
    + intros x _. split; [|exact I]. exists (c + n). unfold alone, inside. replace (k + c + n) with (k + (c + n)) by lia.
      repeat split; try lia. apply (asc_to fs c); [exact Ha|exact Hs].
  - replace (k + c + n <=? k + l) with false by lia. cbn [rbind rmap]. split; [|cbn [fst]; discriminate].
    cbn [fst as_alone moved]. unfold bp_view_len. cbn [bp_off]. rewrite limit_of. reflexivity.
Qed.

Lemma byte_cases fs st st' : R fs st st' ->
  (exists b s s', byte_h m _ OpConsumeByte st = (ROk b, s) /\ byte_h m _ OpConsumeByte st' = (ROk b, s') /\ R fs s s') \/
  (exists e s s', byte_h m _ OpConsumeByte st = (RErr e, s) /\ byte_h m _ OpConsumeByte st' = (RErr (moved k e), s') /\
     match e with EWindow (ConsumeWouldExceedLimit _ _ _) => True | _ => False end).
Proof.
  intros (c & -> & -> & Hc & Ha). cbn [byte_h].
  unfold bp_consume_byte, co_advance, increment_checked, alone, inside. cbn [bp_buf bp_off co_cur co_abs co_frames]. rewrite limit_of.
  pose proof (limit_le fs c Ha) as Hl. pose proof body_len as Hb. assert (H1 : 0 <= 1 <= isize_max) by (split; vm_compute; discriminate).
  rewrite !sum_small by lia. cbn [rbind]. set (l := co_limit (mkCO L fs c)) in *.
  destruct (Z.leb_spec (c + 1) l) as [Hs|Hs].
  - replace (k + c + 1 <=? k + l) with true by lia. rewrite ?sum_small by lia. cbn [rbind rmap].
    unfold vb_get_byte, vb_get_byte_unchecked, rassert.
    replace (c <=? zlen body) with true by lia. replace (k + c <=? zlen buf) with true by lia. cbn [rbind].
    destruct (byte_in k L c buf) as (x & E1 & E2); [lia|lia|lia|]. fold body in E1. rewrite E1, E2.
    left. do 3 eexists. split; [reflexivity|]. split; [reflexivity|]. exists (c + 1). unfold alone, inside. replace (k + c + 1) with (k + (c + 1)) by lia.
    repeat split; try lia. apply (asc_to fs c); [exact Ha|exact Hs].
  - replace (k + c + 1 <=? k + l) with false by lia. cbn [rbind rmap].
    right. do 3 eexists. split; [reflexivity|]. unfold bp_view_len. cbn [bp_off moved]. rewrite limit_of. split; [reflexivity|exact I].
Qed.
Lemma sim_byte : sim any p_consume_byte.
Proof.
  intros fs st st' HR. unfold p_consume_byte. rewrite !run_do_op.
  destruct (byte_cases fs st st' HR) as [(b & s & s' & -> & -> & HR')|(e & s & s' & -> & -> & He)].
  - split; cbn [fst snd]; [reflexivity|]. intros x _. split; [exact HR'|exact I].
  - split; [|cbn [fst]; discriminate]. cbn [fst as_alone]. destruct e as [[] | | |]; try contradiction. reflexivity.
Qed.

Lemma sim_remainder : sim (fun n => 0 <= n <= isize_max) p_remainder.
Proof.
  intros fs st st' HR. pose proof HR as (c & -> & -> & Hc & Ha). unfold p_remainder. rewrite !run_do_op. cbn [byte_h].
  unfold bp_remainder, bp_view_len, bp_offset, co_index, alone, inside. cbn [bp_off co_cur]. rewrite limit_of.
  pose proof (limit_le fs c Ha) as Hl. set (l := co_limit (mkCO L fs c)) in *. unfold usub.
  replace (c <=? l) with true by lia. replace (k + c <=? k + l) with true by lia.
  split; cbn [fst snd]; [cbn [as_alone]; f_equal; lia|]. intros x E. injection E as <-. split; [exact HR|lia].
Qed.

Lemma sim_window {A} n (pg : prog A) (kk : A -> prog A) : 0 <= n <= isize_max ->
  sim any pg -> (forall a, sim any (kk a)) ->
  sim any (p_set_fit n ;;; v <- pg ;; p_enforce_target ;;; kk v).
Proof.
  intros Hn Hpg Hkk fs st st' (c & -> & -> & Hc & Ha). unfold p_set_fit, p_enforce_target, tracks. rewrite !run_pbind, !run_do_op. cbn [byte_h].
  unfold bp_set_fit, co_set_fit, co_index, alone, inside. cbn [bp_buf bp_off co_cur co_abs co_frames].
  pose proof (limit_le fs c Ha) as Hl. pose proof body_len as Hb. rewrite !sum_small by lia.
  assert (Hpush : forall s, fs_push_frame (k + s) (map (Z.add k) fs ++ (k + L) :: outer) =
    if co_limit (mkCO L fs c) <? s then RErr (EWindow (OpenWouldExceedWindow (k + co_limit (mkCO L fs c)) (k + s)))
    else ROk ((k + s) :: map (Z.add k) fs ++ (k + L) :: outer)).
  { intros s. unfold fs_push_frame, detect_error, fs_peek. destruct fs as [|x fs']; cbn [map app hd_error co_limit co_frames co_abs fs_peek];
      unfold co_limit, fs_peek; cbn [co_frames co_abs hd_error].
    - destruct (Z.ltb_spec L s); [replace (k + L <? k + s) with true by lia|replace (k + L <? k + s) with false by lia]; reflexivity.
    - destruct (Z.ltb_spec x s); [replace (k + x <? k + s) with true by lia|replace (k + x <? k + s) with false by lia]; reflexivity. }
  replace (k + c + n) with (k + (c + n)) by lia. rewrite Hpush.
  destruct (Z.ltb_spec L (c + n)) as [Ho|Ho].
  - (* leaves the message *)
    replace (co_limit (mkCO L fs c) <? c + n) with true by lia.
    destruct (Z.ltb_spec (zlen buf) (k + (c + n))) as [Ht|Ht].
    + unfold usub. destruct (Z.leb_spec n L) as [Hn1|Hn1].
      * replace (n <=? zlen buf) with true by lia. cbn [rbind]. split; [|cbn [fst]; discriminate].
        cbn [fst as_alone]. left. eauto.
      * destruct (n <=? zlen buf); cbn [rbind]; (destruct m eqn:Em; [|]); cbn [rbind]; (split; [|cbn [fst]; discriminate]);
          cbn [fst as_alone]; eauto 8.
    + unfold usub. destruct (Z.leb_spec n L) as [Hn1|Hn1]; [|destruct m eqn:Em]; cbn [rbind]; (split; [|cbn [fst]; discriminate]); cbn [fst as_alone].
      * right. do 2 eexists. split; [reflexivity|lia].
      * right. split; [reflexivity|]. eexists. split; [reflexivity|]. reflexivity.
      * right. do 2 eexists. split; [reflexivity|lia].
  - replace (zlen buf <? k + (c + n)) with false by lia.
    assert (Hpush' : fs_push_frame (c + n) fs =
      if co_limit (mkCO L fs c) <? c + n then RErr (EWindow (OpenWouldExceedWindow (co_limit (mkCO L fs c)) (c + n))) else ROk ((c + n) :: fs)).
    { unfold fs_push_frame, detect_error, fs_peek. destruct fs as [|x fs']; unfold co_limit, fs_peek; cbn [co_frames co_abs hd_error].
      - replace (L <? c + n) with false by lia. reflexivity.
      - destruct (x <? c + n); reflexivity. }
    rewrite Hpush'. destruct (Z.ltb_spec (co_limit (mkCO L fs c)) (c + n)) as [Hw|Hw].
    + split; [|cbn [fst]; discriminate]. reflexivity.
    + assert (HR : R ((c + n) :: fs) (alone ((c + n) :: fs) c) (inside ((c + n) :: fs) c)).
      { exists c. split; [reflexivity|split; [reflexivity|split; [exact Hc|]]]. cbn [app asc]. split; [lia|]. apply (asc_to fs c); assumption. }
      cbv beta iota zeta. change (mkBP body (mkCO L ((c + n) :: fs) c)) with (alone ((c + n) :: fs) c).
      change (mkBP buf (mkCO (zlen buf) ((k + (c + n)) :: map (Z.add k) fs ++ (k + L) :: outer) (k + c))) with (inside ((c + n) :: fs) c).
      specialize (Hpg _ _ _ HR). unfold tracks in Hpg. rewrite !run_pbind.
      destruct (run (byte_h m) pg (alone ((c + n) :: fs) c)) as [r s1] eqn:E1.
      destruct (run (byte_h m) pg (inside ((c + n) :: fs) c)) as [r' s1'] eqn:E2. cbn [fst snd] in Hpg. destruct Hpg as [H1 H2].
      destruct r as [a|e| | |].
      1: { cbn [as_alone] in H1. subst r'. destruct (H2 a eq_refl) as [(c1 & -> & -> & Hc1 & Ha1) _].
        rewrite !run_pbind, !run_do_op. cbn [byte_h]. unfold bp_enforce_target, co_enforce_target, co_index, alone, inside. cbn [bp_buf bp_off co_cur co_abs co_frames map app].
        destruct (Z.compare_spec (c + n) c1) as [Hx|Hx|Hx]; destruct (Z.compare_spec (k + (c + n)) (k + c1)) as [Hy|Hy|Hy]; try lia.
        - apply Hkk. exists c1. split; [reflexivity|split; [reflexivity|split; [exact Hc1|]]]. cbn [app asc] in Ha1. destruct Ha1 as [_ Ha1]. rewrite Hx in Ha1. exact Ha1.
        - split; [|cbn [fst]; discriminate]. cbn [fst as_alone moved]. do 3 f_equal. lia.
        - split; [|cbn [fst]; discriminate]. cbn [fst as_alone moved]. do 3 f_equal. lia. }
      all: no_result H1.
Qed.

Ltac owned := first [exact Logic.I|apply own_ext_int|apply own_ext_float|apply own_ext_len|apply own_coerce|apply own_n|apply own_z|apply own_assert|apply own_usub].

Lemma sim_fixed n : 0 <= n <= isize_max -> sim any (p_take_fixed n).
Proof. intros H. unfold p_take_fixed, p_consume_arr. eapply sim_bind; [apply sim_consume; exact H|]. intros. (eapply sim_any, sim_own; owned). Qed.
Lemma sim_int kd : sim (fun z => ik_in kd z = true) (p_int kd).
Proof.
  unfold p_int. eapply sim_bind; [apply sim_fixed; destruct kd; vm_compute; split; discriminate|].
  intros bs _. eapply sim_weak; [|exact (sim_own (ROk (from_be_bytes kd bs)) I)].
  intros a Ea. injection Ea as <-. apply from_be_bytes_in.
Qed.
Lemma sim_bool : sim any p_take_bool.
Proof. eapply sim_bind; [apply sim_byte|]. intros b _. destruct (_ =? _); [apply sim_ret|]. destruct (_ =? _); [apply sim_ret|(apply sim_err; exact Logic.I)]. Qed.
Lemma sim_tagword kd tags : sim any (p_take_tagword kd tags).
Proof. eapply sim_bind; [apply sim_int|]. intros b _. destruct (existsb _ _); [apply sim_ret|]. destruct tags; apply sim_err; exact I. Qed.
Lemma sim_ranged cf kd lo hi : sim any (p_ranged cf kd lo hi).
Proof. eapply sim_bind; [apply sim_int|]. intros. (eapply sim_any, sim_own; owned). Qed.

Lemma sim_pref cf s : sim (fun n => 0 <= n <= isize_max) (p_pref cf s).
Proof.
  destruct s; cbn [p_pref].
  - eapply sim_weak; [|apply sim_int]. intros a Ha. apply ik_in_spec in Ha. cbn in Ha. assert (255 <= isize_max) by (vm_compute; discriminate). lia.
  - eapply sim_weak; [|apply sim_int]. intros a Ha. apply ik_in_spec in Ha. cbn in Ha. assert (65535 <= isize_max) by (vm_compute; discriminate). lia.
  - unfold p_ranged. eapply sim_bind with (Q := fun z => 0 <= z <= u30_max).
    + eapply sim_bind; [apply sim_int|]. intros x _. eapply sim_weak; [|(apply sim_own; owned)]. intros a Ha.
      unfold ri_try_from_underlying in Ha. destruct (ri_check _ _ _) as [?|?| | |]; cbn [rbind ext_int] in Ha; try discriminate Ha.
      unfold restrict in Ha. cbn [Z.ltb Z.compare] in Ha.
      destruct (0 <=? x) eqn:L1; [destruct (x <=? u30_max) eqn:L2|]; cbn [ext_int] in Ha; try discriminate Ha.
      injection Ha as <-. lia.
    + intros x Hx. eapply sim_weak; [|exact (sim_own (ROk (ri_into U64 x)) I)]. intros a Ea. injection Ea as <-.
      assert (u30_max <= isize_max) by (vm_compute; discriminate). unfold ri_into. rewrite ik_wrap_id; [lia|].
      apply ik_in_spec. change (ik_min U64) with 0. change (ik_max U64) with (2 ^ 64 - 1). assert (u30_max <= 2 ^ 64 - 1) by (vm_compute; discriminate). lia.
Qed.

Lemma sim_self_loop term : forall n ret, sim any (p_self_terminating_loop n term ret).
Proof.
  induction n as [|n IH]; intros ret; cbn [p_self_terminating_loop]; [apply sim_div|].
  intros fs st st' HR. unfold tracks. cbn [run].
  destruct (byte_cases fs st st' HR) as [(b & s & s' & -> & -> & HR')|(e & s & s' & -> & -> & _)].
  - destruct (term b); [apply (sim_ret (ret ++ [b])); exact HR'|apply IH; exact HR'].
  - split; [reflexivity|cbn [fst]; discriminate].
Qed.
Lemma sim_self term : sim any (p_take_self_terminating term).
Proof.
  unfold p_take_self_terminating. eapply sim_bind; [apply sim_remainder|]. intros rem _. destruct (rem <=? isize_max); [|apply sim_panic].
  apply sim_self_loop.
Qed.

Lemma sim_seq_loop {A} (e : prog A) : sim any e -> forall kd seq, sim any (p_seq_loop kd e seq).
Proof.
  intros He. induction kd as [|kd IH]; intros seq; cbn [p_seq_loop]; [apply sim_div|].
  eapply sim_bind; [apply sim_remainder|]. intros rem _. destruct (rem =? 0); [apply sim_ret|]. eapply sim_bind; eauto.
Qed.
Lemma sim_lim_loop {A} (e : prog A) n : sim any e -> forall kd seq, sim any (p_lim_loop kd n e seq).
Proof.
  intros He. induction kd as [|kd IH]; intros seq; cbn [p_lim_loop]; [apply sim_div|].
  eapply sim_bind; [apply sim_remainder|]. intros rem _. destruct (rem =? 0); [apply sim_ret|]. eapply sim_bind; [eauto|].
  intros. eapply sim_bind; [(apply sim_own; owned)|]. auto.
Qed.
Lemma sim_fix_loop {A} (e : prog A) n : sim any e -> forall kd seq, sim any (p_fix_loop kd n e seq).
Proof.
  intros He. induction kd as [|kd IH]; intros seq; cbn [p_fix_loop]; [apply sim_div|].
  eapply sim_bind; [apply sim_remainder|]. intros rem _. destruct (negb _ && _); [eapply sim_bind; eauto|].
  destruct (_ =? _); [apply sim_ret|(apply sim_err; exact Logic.I)].
Qed.
Lemma sim_fields (f : ty -> prog val) ts : Forall (fun t => sim any (f t)) ts -> sim any (p_fields f ts).
Proof.
  induction 1; cbn [p_fields]; [apply sim_ret|]. eapply sim_bind; [eassumption|]. intros. eapply sim_bind; [eassumption|]. intros; apply sim_ret.
Qed.

Variables (cf : config) (D : list def).
Hypothesis Hm : cf_mode cf = m.
Hypothesis HD : wf_defs D = true.
Definition pads (t : ty) : Prop := m = Release -> vpad_free t = true.
Hypothesis HP : m = Release -> vpad_free_defs D = true.

Ltac prims := first [apply sim_ret|(apply sim_err; exact Logic.I)|apply sim_panic|apply sim_div|(eapply sim_any, sim_own; owned)|apply sim_byte
  |eapply sim_any, sim_int|apply sim_bool|apply sim_tagword|apply sim_ranged|apply sim_self].
Ltac walk := intros; repeat first [prims|eapply sim_bind; [|intros]|match goal with |- sim _ (if ?b then _ else _) => destruct b end].

Lemma parse_alone : forall f t, wf_ty D t = true -> pads t -> sim any (parse cf D f t).
Proof.
  induction f as [|f IH]; intros t HW Hp; cbn [parse]; [apply sim_div|].
  assert (IHs : forall ts, forallb (wf_ty D) ts = true -> (m = Release -> forallb vpad_free ts = true) -> sim any (p_fields (parse cf D f) ts)).
  { intros ts H1 H2. apply sim_fields. apply Forall_forall. intros t' Ht'. apply IH.
    - rewrite forallb_forall in H1. auto.
    - intros Em. specialize (H2 Em). rewrite forallb_forall in H2. auto. }
  destruct t; cbn [wf_ty] in HW; try (walk; fail).
  - eapply sim_bind; [apply sim_remainder|]. intros. eapply sim_bind; [apply sim_consume; assumption|]. walk.
  - eapply sim_bind; [apply sim_remainder|]. intros. eapply sim_bind; [apply sim_consume; assumption|]. walk.
  - eapply sim_bind; [apply sim_fixed|walk]. unfold sizeb in HW. lia.
  - eapply sim_bind; [apply sim_fixed|walk]. unfold sizeb in HW. lia.
  - eapply sim_bind; [apply sim_tagword|]. intros. destruct (_ =? _); [|walk]. eapply sim_bind; [apply IH; assumption|]. walk.
  - eapply sim_bind; [apply sim_remainder|]. intros. destruct (negb _); [|walk]. eapply sim_bind; [apply IH; assumption|]. walk.
  - eapply sim_bind; [apply sim_seq_loop, IH; assumption|]. walk.
  - eapply sim_bind; [apply sim_lim_loop, IH; [lia|assumption]|]. walk.
  - eapply sim_bind; [apply sim_fix_loop, IH; [lia|assumption]|]. walk.
  - eapply sim_bind; [apply sim_pref|]. intros. apply (sim_window _ (parse cf D f t) (fun v => PRet (VWrap v))); [assumption|apply IH; assumption|walk].
  - eapply sim_bind; [apply sim_remainder|]. intros rem Hr. cbn beta in Hr. eapply sim_bind; [(apply sim_own; owned)|]. intros u Hu. cbn beta in Hu.
    eapply sim_bind; [(apply sim_own; owned)|]. intros win Hwin. cbn beta in Hwin.
    assert (Hwn : 0 <= win <= isize_max).
    { unfold sizeb in HW. destruct (Z.leb_spec n rem) as [Hn|Hn].
      - unfold usub in Hwin. replace (n <=? rem) with true in Hwin by lia. injection Hwin as <-. lia.
      - unfold usub in Hwin. replace (n <=? rem) with false in Hwin by lia. rewrite Hm in Hwin. destruct m eqn:Em; [discriminate Hwin|].
        specialize (Hp Em). cbn in Hp. lia. }
    apply (sim_window _ (parse cf D f t) (fun v => PRet (VWrap v))); [assumption|apply IH; [lia|]|walk].
    intros Em. specialize (Hp Em). cbn in Hp. lia.
  - eapply sim_bind; [apply IH; [lia|assumption]|]. intros. eapply sim_bind; [apply sim_consume; unfold sizeb in HW; lia|]. intros.
    destruct (_ && _); walk.
  - eapply sim_bind; [apply IH; assumption|]. walk.
  - destruct (nth_error D i) as [d|] eqn:En; [|walk]. pose proof (wf_nth D i d HD En) as Hd.
    assert (Hv : m = Release -> forallb (forallb vpad_free) (field_types d) = true).
    { intros Em. specialize (HP Em). unfold vpad_free_defs in HP. rewrite forallb_forall in HP. apply HP. eapply nth_error_In; eauto. }
    destruct d as [ts|kd tags|kd alts]; cbn [wf_def field_types] in Hd, Hv.
    + eapply sim_bind; [apply IHs|walk]; [exact Hd|]. intros Em. specialize (Hv Em). cbn in Hv. lia.
    + eapply sim_bind; [apply sim_tagword|]. intros. destruct (find_tag _ _); walk.
    + eapply sim_bind; [apply sim_tagword|]. intros. destruct (find_tag _ _) as [ix|]; [|walk].
      destruct (nth_error alts ix) as [[tg ts]|] eqn:Ea; [|walk]. apply nth_error_In in Ea.
      eapply sim_bind; [apply IHs|walk].
      * assert (Hd' : forallb (fun a => forallb (wf_ty D) (snd a)) alts = true) by lia.
        rewrite forallb_forall in Hd'. exact (Hd' _ Ea).
      * intros Em. specialize (Hv Em). rewrite forallb_forall in Hv. apply Hv. apply in_map_iff. exists (tg, ts). auto.
Qed.
End Alone.
