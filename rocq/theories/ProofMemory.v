(** Decoding reserves at most a fixed amount of memory per byte (C83). *)
From Verif Require Import Base BaseLemmas ModelErrors ModelSplitVec ModelParser ModelInt ModelFloat ModelZarith
  ModelUtf8 ModelTarget ModelSchema ModelMemory SpecParser SpecCodec SpecSize SpecWork SpecMemory ProofInt ProofDec ProofMeta ProofHalt
  ProofCodec ProofCodecProps ProofRoundTrip ProofView ProofSize ProofWork.
From Coq Require Import ZifyBool.

(** ** The reservations apart, it is the decoder of ModelSchema *)
Section Same.
Context {P : Type} (h : handler P).
Lemma mrun_mbind {A B} (m : mprog A) (k : A -> mprog B) p u :
  mrun h (mbind m k) p u =
  match mrun h m p u with
  | (ROk a, p', u') => mrun h (k a) p' u'
  | (RErr e, p', u') => (RErr e, p', u')
  | (RPanic, p', u') => (RPanic, p', u')
  | (RUB, p', u') => (RUB, p', u')
  | (RDiv, p', u') => (RDiv, p', u')
  end.
Proof.
  revert p u. induction m as [a|X pg c IH|c IH|n c IH|n c IH]; intros p u; cbn [mbind mrun]; try apply IH; [reflexivity|].
  destruct (run h pg p) as [[x|e| | |] p']; try reflexivity. apply IH.
Qed.
Definition same {A} (m : mprog A) (pg : prog A) : Prop := forall p u, fst (mrun h m p u) = run h pg p.
Lemma same_ret {A} (a : A) : same (MRet a) (PRet a). Proof. intros p u. reflexivity. Qed.
Lemma same_fail {A} (pg : prog A) : same (mfail pg) pg.
Proof. intros p u. cbn [mfail mrun]. destruct (run h pg p) as [[x|e| | |] p']; reflexivity. Qed.
Lemma same_run {X A} (pg : prog X) (k : X -> mprog A) (k' : X -> prog A) : (forall x, same (k x) (k' x)) -> same (MRun pg k) (pbind pg k').
Proof. intros H p u. cbn [mrun]. rewrite run_pbind. destruct (run h pg p) as [[x|e| | |] p']; try reflexivity. apply H. Qed.
Lemma same_bind {X A} (m : mprog X) (pg : prog X) (k : X -> mprog A) (k' : X -> prog A) :
  same m pg -> (forall x, same (k x) (k' x)) -> same (mbind m k) (pbind pg k').
Proof.
  intros Hm H p u. rewrite mrun_mbind, run_pbind. specialize (Hm p u). destruct (mrun h m p u) as [[r p'] u']. cbn [fst] in Hm. rewrite <- Hm.
  destruct r as [x|e| | |]; try reflexivity. apply H.
Qed.
Lemma same_tick {A} (m : mprog A) pg : same m pg -> same (MTick m) pg. Proof. intros H p u. apply H. Qed.
Lemma same_ask {A} n (m : mprog A) pg : same m pg -> same (MAsk n m) pg. Proof. intros H p u. apply H. Qed.
Lemma same_give {A} n (m : mprog A) pg : same m pg -> same (MGive n m) pg. Proof. intros H p u. apply H. Qed.
Lemma same_seq size m (pg : prog val) : same m pg -> forall fl cap acc, same (m_seq_loop fl size cap m acc) (p_seq_loop fl pg acc).
Proof.
  intros H. induction fl as [|fl IH]; intros cap acc; cbn [m_seq_loop p_seq_loop]; [apply same_fail|].
  apply same_run. intros rem. destruct (rem =? 0); [apply same_ret|]. apply same_bind; [exact H|]. intros v. destruct (zlen acc =? cap); [apply same_ask, same_give|]; apply IH.
Qed.
Lemma same_lim n m (pg : prog val) : same m pg -> forall fl acc, same (m_lim_loop fl n m acc) (p_lim_loop fl n pg acc).
Proof.
  intros H. induction fl as [|fl IH]; intros acc; cbn [m_lim_loop p_lim_loop]; [apply same_fail|].
  apply same_run. intros rem. destruct (rem =? 0); [apply same_ret|]. apply same_bind; [exact H|]. intros v. apply same_run. intros seq'. apply IH.
Qed.
Lemma same_fix n m (pg : prog val) : same m pg -> forall fl acc, same (m_fix_loop fl n m acc) (p_fix_loop fl n pg acc).
Proof.
  intros H. induction fl as [|fl IH]; intros acc; cbn [m_fix_loop p_fix_loop]; [apply same_fail|].
  apply same_run. intros rem. destruct (_ && _); [apply same_bind; [exact H|]; intros v; apply IH|].
  destruct (_ =? _); [apply same_ret|apply same_fail].
Qed.
Lemma same_fields m pg : (forall t, same (m t) (pg t)) -> forall ts, same (m_fields m ts) (p_fields pg ts).
Proof.
  intros H. induction ts as [|t ts IH]; cbn [m_fields p_fields]; [apply same_ret|].
  apply same_bind; [apply H|]. intros v. apply same_bind; [exact IH|]. intros vs. apply same_ret.
Qed.
Lemma same_number d : same (m_number d) (pbind (p_take_self_terminating zarith_terminal) (fun bs => pbind (plift (d bs)) (fun z => PRet (VInt z)))).
Proof.
  unfold m_number, p_take_self_terminating. intros p u. cbn [mrun]. rewrite !run_pbind. destruct (run h p_remainder p) as [[rem|e| | |] p1]; try reflexivity.
  destruct (rem <=? isize_max); [|reflexivity]. cbn [mrun]. destruct (run h (p_self_terminating_loop _ _ _) p1) as [[bs|e| | |] p2]; try reflexivity.
  cbn [mrun]. rewrite run_pbind. destruct (run h (plift (d bs)) p2) as [[z|e| | |] p3]; reflexivity.
Qed.
Theorem same_parse size_of cf D f : forall t, same (mparse size_of cf D f t) (parse cf D f t).
Proof.
  induction f as [|f IH]; intros t; [apply same_fail|]. cbn [mparse]. apply same_tick. destruct t; cbn [parse]; try apply same_fail.
  - apply same_number.
  - apply same_number.
  - apply same_run. intros rem. apply same_run. intros bs. apply same_ask, same_ret.
  - apply same_run. intros rem. apply same_run. intros bs. apply same_ask, same_ask, same_give, same_ret.
  - apply same_run. intros tag. destruct (tag =? 255); [apply same_bind; [apply IH|]; intros v; apply same_ret|]. destruct (tag =? 0); [apply same_ret|apply same_fail].
  - apply same_run. intros rem. destruct (negb _); [apply same_bind; [apply IH|]; intros v; apply same_ret|apply same_ret].
  - apply same_bind; [apply same_seq, IH|]. intros vs. apply same_ret.
  - apply same_ask, same_bind; [apply same_lim, IH|]. intros vs. apply same_ret.
  - apply same_ask, same_bind; [apply same_fix, IH|]. intros vs. apply same_ret.
  - apply same_run. intros n. apply same_run. intros _. apply same_bind; [apply IH|]. intros v. apply same_run. intros _. apply same_ret.
  - apply same_run. intros rem. apply same_run. intros _. apply same_run. intros win. apply same_run. intros _. apply same_bind; [apply IH|]. intros v.
    apply same_run. intros _. apply same_ret.
  - apply same_bind; [apply IH|]. intros v. apply same_run. intros pad. destruct (_ && _); [apply same_fail|apply same_ret].
  - apply same_bind; [apply IH|]. intros v. apply same_ask, same_ret.
  - destruct (nth_error D i) as [[ts|k tags|k alts]|] eqn:Ei; try (cbn [parse]; rewrite Ei); try apply same_fail.
    + apply same_bind; [apply same_fields, IH|]. intros vs. apply same_ret.
    + apply same_run. intros tag. destruct (find_tag _ _); [|apply same_fail]. destruct (nth_error alts _) as [[tg ts]|]; [|apply same_fail].
      apply same_bind; [apply same_fields, IH|]. intros vs. apply same_ret.
Qed.
End Same.

(** ** Rules *)
Lemma lossy_len l : zlen (utf8_lossy l) <= 3 * zlen l.
Proof.
  unfold utf8_lossy. generalize (length l) at 1. intros fl. revert l. induction fl as [|fl IH]; intros [|b l]; cbn [utf8_lossy_loop]; try (change (zlen (@nil byte)) with 0; pose proof (zlen_nonneg (b :: l)); lia); try (cbn; lia).
  destruct (utf8_next b l) as [n ok] eqn:E. rewrite zlen_app. specialize (IH (skipn n (b :: l))).
  assert (Hn : (1 <= n)%nat).
  { unfold utf8_next in E. repeat match type of E with context [if ?c then _ else _] => destruct c | context [match ?c with _ => _ end] => destruct c end; injection E as <- _; lia. }
  assert (H : zlen (firstn n (b :: l)) + zlen (skipn n (b :: l)) = zlen (b :: l)) by (rewrite <- zlen_app, firstn_skipn; reflexivity).
  assert (H1 : 1 <= zlen (firstn n (b :: l))) by (unfold zlen; rewrite firstn_length; cbn [length]; lia).
  destruct ok; [|change (zlen replacement) with 3]; lia.
Qed.
Section Rules.
Context {P : Type} (h : handler P) (inv : P -> Prop) (left : P -> Z) (C M : Z).
Hypothesis HC : 2 <= C.
Hypothesis HM : 10 <= M.
Hypothesis Hleft : forall p, inv p -> 0 <= left p.
Hypothesis Hrem : forall p x p', inv p -> h Z OpRemainder p = (ROk x, p') -> 0 <= x /\ inv p' /\ left p' = left p.
Hypothesis Hroom : forall p x p', inv p -> h Z OpRemainder p = (ROk x, p') -> x <= isize_max -> x <= left p.
Hypothesis Hbyte : forall p x p', inv p -> h byte OpConsumeByte p = (ROk x, p') -> inv p' /\ left p' <= left p - 1.
Hypothesis Hcons : forall p n x p', inv p -> 0 <= n -> h (list byte) (OpConsume n) p = (ROk x, p') ->
  inv p' /\ zlen x <= left p - left p' /\ (n <= isize_max -> left p' <= left p - n).
Hypothesis Hfit : forall p n x p', inv p -> 0 <= n -> h unit (OpSetFit n) p = (ROk x, p') -> inv p' /\ left p' = left p.
Hypothesis Hclose : forall p x p', inv p -> h unit OpEnforceTarget p = (ROk x, p') -> inv p' /\ left p' = left p.

(** The work done, a unit for each entry into a decoder included. *)
Fixpoint labour {A} (m : mprog A) (p : P) : Z :=
  match m with
  | MRet _ => 0
  | MRun pg k => effort h pg p + match run h pg p with (ROk x, p') => labour (k x) p' | _ => 0 end
  | MTick k => 1 + labour k p
  | MAsk _ k | MGive _ k => labour k p
  end.
Lemma handed_nonneg X (o : pop X) x : 0 <= handed o x.
Proof. destruct o; cbn [handed]; try lia. apply zlen_nonneg. Qed.
Lemma labour_nonneg {A} (m : mprog A) p : 0 <= labour m p.
Proof.
  revert p. induction m as [a|X pg c IH|c IH|n c IH|n c IH]; intros p; cbn [labour]; try (specialize (IH p)); try lia.
  pose proof (effort_nonneg h pg p handed_nonneg). destruct (run h pg p) as [[x|e| | |] p']; try lia. specialize (IH x p'). lia.
Qed.
Lemma labour_mbind {A B} (m : mprog A) (k : A -> mprog B) p u :
  labour (mbind m k) p = labour m p + match mrun h m p u with (ROk a, p', _) => labour (k a) p' | _ => 0 end.
Proof.
  revert p u. induction m as [a|X pg c IH|c IH|n c IH|n c IH]; intros p u; cbn [mbind labour mrun]; try lia.
  - destruct (run h pg p) as [[x|e| | |] p']; try lia. rewrite (IH x p' u). lia.
  - rewrite (IH p u). lia.
  - rewrite (IH p (mkMem (in_use u + n) (Z.max (at_most u) (in_use u + n)))). lia.
  - rewrite (IH p (mkMem (in_use u - n) (at_most u))). lia.
Qed.

(** [e] more bytes, and [M] for each unit of work, are enough; the buffer of a
    number takes no more than what is left of the input. *)
Definition bounds (e : Z) {A} (Q : A -> Prop) (s u : Z) (m : mprog A) : Prop := forall p us, inv p ->
  labour m p <= u + C * left p /\
  let '(r, p', us') := mrun h m p us in
  at_most us' <= Z.max (at_most us) (in_use us + e + M * labour m p + left p) /\
  (forall a, r = ROk a -> Q a /\ inv p' /\ left p' <= left p /\
     labour m p <= s + C * (left p - left p') /\ in_use us' <= in_use us + e + M * labour m p).

Lemma bounds_weaken {A} e e' (Q Q' : A -> Prop) s s' u u' m :
  bounds e Q s u m -> e <= e' -> (forall a, Q a -> Q' a) -> s <= s' -> u <= u' -> bounds e' Q' s' u' m.
Proof.
  intros H He HQ Hs Hu p us Hi. destruct (H p us Hi) as [H1 H2]. split; [lia|]. destruct (mrun h m p us) as [[r p'] us']. destruct H2 as [H2 H3].
  split; [lia|]. intros a E. destruct (H3 a E) as (HQa & Hi' & Hl & Hw & Hm). split; [auto|]. split; [exact Hi'|]. lia.
Qed.
Lemma bounds_ret {A} e (Q : A -> Prop) a : 0 <= e -> Q a -> bounds e Q 0 0 (MRet a).
Proof.
  intros He HQ p us Hi. pose proof (Hleft p Hi) as Hlp. cbn [labour mrun]. split; [nia|]. split; [lia|]. intros a' E. injection E as <-.
  split; [exact HQ|]. split; [exact Hi|]. lia.
Qed.
Definition gets {X} (g : X -> Z) (pg : prog X) : Prop := forall p x p', inv p -> run h pg p = (ROk x, p') -> g x <= effort h pg p.
Lemma spends_keeps {X} (Q : X -> Prop) s u pg p x p' : spends h inv left C Q s u pg -> s < C -> inv p -> run h pg p = (ROk x, p') -> left p' <= left p.
Proof.
  intros H Hs Hi E. destruct (H p Hi) as [_ H2]. destruct (H2 x p' E) as (_ & _ & He). pose proof (effort_nonneg h pg p handed_nonneg). nia.
Qed.
Lemma bounds_run {X A} e (Q : X -> Prop) (g : X -> Z) (Q' : A -> Prop) s1 u1 s2 u2 s u (pg : prog X) (k : X -> mprog A) :
  spends h inv left C Q s1 u1 pg -> gets g pg -> s1 < C -> (forall x, Q x -> 0 <= g x -> bounds (e + M * g x) Q' s2 u2 (k x)) -> (forall x, 0 <= g x) -> 0 <= e ->
  s1 + s2 <= s -> u1 <= u -> s1 + u2 <= u \/ (forall x p, labour (k x) p <= 0) -> bounds e Q' s u (MRun pg k).
Proof.
  intros H Hg Hs1 Hk Hg0 He Hs Hu1 Hu2 p us Hi. pose proof (Hleft p Hi) as Hlp. destruct (H p Hi) as [H1 H2]. cbn [labour mrun]. pose proof (effort_nonneg h pg p handed_nonneg) as Hef.
  destruct (run h pg p) as [[x|er| | |] p1] eqn:E; try (split; [lia|]; split; [lia|discriminate]).
  pose proof (spends_keeps Q s1 u1 pg p x p1 H Hs1 Hi E) as Hkeep. specialize (Hg p x p1 Hi E).
  destruct (H2 x p1 eq_refl) as (HQ & Hi1 & Hw). specialize (Hg0 x). destruct (Hk x HQ Hg0 p1 us Hi1) as [K1 K2].
  split; [destruct Hu2 as [Hu2|Hu2]; [nia|specialize (Hu2 x p1); lia]|].
  pose proof (labour_nonneg (k x) p1) as Hlk. destruct (mrun h (k x) p1 us) as [[r p2] us2]. destruct K2 as [K2 K3]. split; [nia|].
  intros a Ea. destruct (K3 a Ea) as (HQa & Hi2 & Hl & Hw2 & Hm). split; [exact HQa|]. split; [exact Hi2|]. split; [lia|]. split; [lia|nia].
Qed.
Lemma gets_0 {X} (pg : prog X) : gets (fun _ => 0) pg.
Proof. intros p x p' _ _. apply effort_nonneg, handed_nonneg. Qed.
Lemma gets_rem : gets (fun _ => 1) p_remainder.
Proof. intros p x p' _ E. unfold p_remainder, do_op in *. cbn [effort run] in *. destruct (h Z OpRemainder p) as [[y|e| | |] p1]; try discriminate E. cbn [handed effort]. lia. Qed.
Lemma gets_consume n : gets (fun bs => zlen bs) (p_take_dynamic n).
Proof.
  intros p x p' _ E. unfold p_take_dynamic, p_consume, do_op in *. cbn [effort run] in *. destruct (h (list byte) (OpConsume n) p) as [[y|e| | |] p1]; try discriminate E.
  injection E as <- <-. cbn [handed effort]. lia.
Qed.
Lemma bounds_fail {A} e (Q : A -> Prop) s u (pg : prog A) : spends h inv left C Q s u pg -> s < C -> 0 <= e -> bounds e Q s u (mfail pg).
Proof.
  intros H Hs He. unfold mfail. eapply (bounds_run e Q (fun _ => 0) Q s u 0 0); [exact H|apply gets_0|exact Hs| |lia|exact He|lia|lia|].
  - intros x HQ _. replace (e + M * 0) with e by lia. apply bounds_ret; [exact He|exact HQ].
  - right. intros x p. cbn [labour]. lia.
Qed.
Lemma bounds_stop {A} e (Q : A -> Prop) s (pg : prog A) : match pg with PErr _ | PPanic | PUB | PDiv => True | _ => False end -> 0 <= e -> bounds e Q s 0 (mfail pg).
Proof.
  intros Hp He p us Hi. pose proof (Hleft p Hi) as Hlp. destruct pg; try destruct Hp; cbn [mfail labour mrun effort run]; (split; [nia|]; split; [lia|discriminate]).
Qed.
Lemma bounds_bind {X A} e1 e2 e (Q : X -> Prop) (Q' : A -> Prop) s1 u1 s2 u2 s u (m : mprog X) (k : X -> mprog A) :
  bounds e1 Q s1 u1 m -> (forall x, Q x -> bounds e2 Q' s2 u2 (k x)) -> 0 <= e1 -> 0 <= e2 -> e1 + e2 <= e ->
  s1 + s2 <= s -> u1 <= u -> s1 + u2 <= u \/ (forall x p, labour (k x) p <= 0) -> bounds e Q' s u (mbind m k).
Proof.
  intros H Hk He1 He2 He Hs Hu1 Hu2 p us Hi. pose proof (Hleft p Hi) as Hlp. destruct (H p us Hi) as [H1 H2]. rewrite (labour_mbind m k p us), mrun_mbind.
  pose proof (labour_nonneg m p) as Hlm. destruct (mrun h m p us) as [[r p1] us1]. destruct H2 as [H2 H3].
  destruct r as [x|er| | |]; try (split; [lia|]; split; [lia|discriminate]).
  destruct (H3 x eq_refl) as (HQ & Hi1 & Hl & Hw & Hm). destruct (Hk x HQ p1 us1 Hi1) as [K1 K2].
  split; [destruct Hu2 as [Hu2|Hu2]; [nia|specialize (Hu2 x p1); lia]|]. pose proof (labour_nonneg (k x) p1) as Hlk.
  destruct (mrun h (k x) p1 us1) as [[r p2] us2]. destruct K2 as [K2 K3]. split; [nia|].
  intros a Ea. destruct (K3 a Ea) as (HQa & Hi2 & Hl2 & Hw2 & Hm2). split; [exact HQa|]. split; [exact Hi2|]. split; [lia|]. split; [lia|nia].
Qed.
Lemma bounds_tick {A} e (Q : A -> Prop) s u m : bounds (e + M) Q s u m -> bounds e Q (1 + s) (1 + u) (MTick m).
Proof.
  intros H p us Hi. destruct (H p us Hi) as [H1 H2]. cbn [labour mrun]. split; [lia|]. destruct (mrun h m p us) as [[r p'] us']. destruct H2 as [H2 H3].
  split; [lia|]. intros a E. destruct (H3 a E) as (HQ & Hi' & Hl & Hw & Hm). split; [exact HQ|]. split; [exact Hi'|]. lia.
Qed.
Lemma bounds_ask {A} n e (Q : A -> Prop) s u m : bounds e Q s u m -> 0 <= n -> 0 <= e -> bounds (e + n) Q s u (MAsk n m).
Proof.
  intros H Hn He p us Hi. pose proof (Hleft p Hi) as Hlp. destruct (H p (mkMem (in_use us + n) (Z.max (at_most us) (in_use us + n))) Hi) as [H1 H2]. cbn [labour mrun]. split; [lia|].
  pose proof (labour_nonneg m p) as Hlm. destruct (mrun h m p _) as [[r p'] us']. cbn [in_use at_most] in H2. destruct H2 as [H2 H3].
  split; [nia|]. intros a E. destruct (H3 a E) as (HQ & Hi' & Hl & Hw & Hm). split; [exact HQ|]. split; [exact Hi'|]. lia.
Qed.
Lemma bounds_give {A} n e (Q : A -> Prop) s u m : bounds (e + n) Q s u m -> bounds e Q s u (MGive n m).
Proof.
  intros H p us Hi. pose proof (Hleft p Hi) as Hlp. destruct (H p (mkMem (in_use us - n) (at_most us)) Hi) as [H1 H2]. cbn [labour mrun]. split; [lia|].
  destruct (mrun h m p _) as [[r p'] us']. cbn [in_use at_most] in H2. destruct H2 as [H2 H3].
  split; [lia|]. intros a E. destruct (H3 a E) as (HQ & Hi' & Hl & Hw & Hm). split; [exact HQ|]. split; [exact Hi'|]. lia.
Qed.
Lemma ret_after_m {X Y} e s u (m : mprog X) (g : X -> Y) : bounds e (fun _ => True) s u m -> 0 <= e -> bounds e (fun _ => True) s u (mbind m (fun v => MRet (g v))).
Proof.
  intros H He. eapply (bounds_bind e 0 e _ _ s u 0 0); [exact H|intros x _; apply bounds_ret; [lia|exact Logic.I]|lia..|]. right. intros x p. cbn [labour]. lia.
Qed.

Lemma bounds_known {X A} e (Q : A -> Prop) s u (x : X) (k : X -> mprog A) : bounds e Q s u (k x) -> bounds e Q s u (MRun (PRet x) k).
Proof. intros H p us Hi. specialize (H p us Hi). cbn [labour mrun effort run]. rewrite Z.add_0_l. exact H. Qed.
Lemma st_length fl term : forall ret p bs p', run h (p_self_terminating_loop fl term ret) p = (ROk bs, p') ->
  zlen bs - zlen ret <= effort h (p_self_terminating_loop fl term ret) p.
Proof.
  induction fl as [|fl IH]; intros ret p bs p'; cbn [p_self_terminating_loop run effort]; [discriminate|].
  destruct (h byte OpConsumeByte p) as [[b|e| | |] p1]; try discriminate. cbn [handed]. destruct (term b).
  - cbn [run effort]. intros E. injection E as <- _. rewrite zlen_app. change (zlen [b]) with 1. lia.
  - intros E. specialize (IH _ _ _ _ E). rewrite zlen_app in IH. change (zlen [b]) with 1 in IH. lia.
Qed.

(** ** Loops *)
Notation T := (fun _ => True).
Local Hint Resolve gets_0 gets_rem gets_consume : core.
Lemma s_rem : spends h inv left C (fun r => 0 <= r) 1 1 p_remainder. Proof. apply spends_rem; assumption. Qed.
Lemma grown_range size cap : 0 <= cap -> cap < grown size cap <= 2 * cap + 8.
Proof. intros H. unfold grown. destruct (size =? 1); [lia|]. destruct (size <=? 1024); lia. Qed.
(** A Vec of [len] elements has room for at most eight times as many. *)
Lemma bounds_seq size s u m : 0 <= size -> 8 * size <= M -> bounds 0 T s u m -> 1 + s <= 0 ->
  forall fl cap acc, 0 <= cap <= 8 * zlen acc -> zlen acc <= cap ->
  bounds (8 * size * zlen acc - cap * size) T 1 (1 + Z.max 0 u) (m_seq_loop fl size cap m acc).
Proof.
  intros Hz HMz Hm Hs. induction fl as [|fl IH]; intros cap acc Hc Hc2; cbn [m_seq_loop]; pose proof (zlen_nonneg acc);
    assert (He : 0 <= 8 * size * zlen acc - cap * size) by nia.
  { eapply bounds_weaken; [apply (bounds_stop _ T 1); [exact Logic.I|exact He]|lia|auto|lia..]. }
  eapply (bounds_run _ _ (fun _ => 1) _ 1 1 0 (Z.max 0 u)); [apply s_rem|auto|lia| |lia|exact He|lia|lia|left; lia]. intros rem _ _.
  destruct (rem =? 0); [eapply bounds_weaken; [apply (bounds_ret _ T); [|exact Logic.I]|apply Z.le_refl|auto|lia..]; lia|].
  eapply (bounds_bind 0 (8 * size * zlen acc - cap * size + M * 1) _ _ _ s u 1 (1 + Z.max 0 u)); [exact Hm| |lia|lia|lia|lia|lia|left; lia]. intros v _.
  assert (El : zlen (acc ++ [v]) = zlen acc + 1) by (rewrite zlen_app; reflexivity).
  destruct (Z.eqb_spec (zlen acc) cap) as [Ec|Ec].
  - pose proof (grown_range size cap ltac:(lia)) as Hg. set (c' := grown size cap) in *. clearbody c'.
    eapply bounds_weaken; [apply (bounds_ask (c' * size) (8 * size * zlen (acc ++ [v]) - c' * size - cap * size) T 1 (1 + Z.max 0 u)); [apply bounds_give|..]|..]; [|apply Z.mul_nonneg_nonneg; lia| |rewrite El; clear - HMz; replace (8 * size * (zlen acc + 1)) with (8 * size * zlen acc + 8 * size) by ring; lia|auto|lia|lia].
    + eapply bounds_weaken; [apply (IH c' (acc ++ [v])); lia|lia|auto|lia..].
    + rewrite El. replace (8 * size * (zlen acc + 1) - c' * size - cap * size) with ((8 * (zlen acc + 1) - c' - cap) * size) by ring. apply Z.mul_nonneg_nonneg; lia.
  - eapply bounds_weaken; [apply (IH cap (acc ++ [v])); lia|rewrite El; clear - HMz; replace (8 * size * (zlen acc + 1)) with (8 * size * zlen acc + 8 * size) by ring; lia|auto|lia..].
Qed.
Lemma bounds_lim s u n m : bounds 0 T s u m -> forall fl k acc, 0 <= k -> n - zlen acc <= k ->
  bounds 0 T (1 + k * Z.max 0 (1 + s)) (1 + k * Z.max 0 (1 + s) + Z.max 0 u) (m_lim_loop fl n m acc).
Proof.
  intros Hm. set (K := Z.max 0 (1 + s)). assert (HK : 0 <= K /\ 1 + s <= K) by lia. clearbody K.
  induction fl as [|fl IH]; intros k acc Hk Ha; cbn [m_lim_loop].
  { eapply bounds_weaken; [apply (bounds_stop _ T 0); [exact Logic.I|apply Z.le_refl]|lia|auto|nia..]. }
  eapply (bounds_run _ _ (fun _ => 1) _ 1 1 (k * K) (k * K + Z.max 0 u)); [apply s_rem|auto|lia| |lia|lia|nia|nia|left; nia].
  intros rem _ _. destruct (rem =? 0); [eapply bounds_weaken; [apply (bounds_ret _ T); [apply Z.le_refl|exact Logic.I]|lia|auto|nia..]|].
  unfold try_push. destruct (Z.ltb_spec (zlen acc) n).
  - eapply (bounds_bind 0 0 _ _ _ s u (k * K - s) (k * K - s + Z.max 0 u)); [exact Hm| |lia|lia|lia|nia|nia|left; nia]. intros v _. cbn [ext_len plift].
    apply bounds_known. eapply bounds_weaken; [apply (IH (k - 1)); [lia|]|lia|auto|nia..]. rewrite zlen_app. change (zlen [v]) with 1. lia.
  - eapply (bounds_bind 0 0 _ _ _ s u (k * K - s) 0); [exact Hm| |lia|lia|lia|nia|nia|right].
    + intros v _. cbn [ext_len plift]. intros p us Hi. pose proof (Hleft p Hi). cbn [labour mrun effort run]. split; [nia|]. split; [lia|discriminate].
    + intros v p. cbn [ext_len plift labour effort run]. lia.
Qed.
Lemma bounds_fix s u n m : bounds 0 T s u m -> forall fl k acc, 0 <= k -> n - zlen acc <= k ->
  bounds 0 T (1 + k * Z.max 0 (1 + s)) (1 + k * Z.max 0 (1 + s) + Z.max 0 u) (m_fix_loop fl n m acc).
Proof.
  intros Hm. set (K := Z.max 0 (1 + s)). assert (HK : 0 <= K /\ 1 + s <= K) by lia. clearbody K.
  induction fl as [|fl IH]; intros k acc Hk Ha; cbn [m_fix_loop].
  { eapply bounds_weaken; [apply (bounds_stop _ T 0); [exact Logic.I|apply Z.le_refl]|lia|auto|nia..]. }
  eapply (bounds_run _ _ (fun _ => 1) _ 1 1 (k * K) (k * K + Z.max 0 u)); [apply s_rem|auto|lia| |lia|lia|nia|nia|left; nia].
  intros rem _ _.
  assert (Hend : bounds (0 + M * 1) T (k * K) (k * K + Z.max 0 u) (if zlen acc =? n then MRet acc else mfail (PErr (EExternal (LengthViolation (WrongLength n (zlen acc))))))).
  { destruct (_ =? _); [eapply bounds_weaken; [apply (bounds_ret 0 T); [apply Z.le_refl|exact Logic.I]|lia|auto|nia..]|].
    eapply bounds_weaken; [apply (bounds_stop 0 T 0); [exact Logic.I|apply Z.le_refl]|lia|auto|nia..]. }
  destruct (Z.ltb_spec (zlen acc) n); [|rewrite andb_false_r; exact Hend]. destruct (negb _); cbn [andb]; [|exact Hend].
  eapply (bounds_bind 0 0 _ _ _ s u (k * K - s) (k * K - s + Z.max 0 u)); [exact Hm| |lia|lia|lia|nia|nia|left; nia]. intros v _.
  eapply bounds_weaken; [apply (IH (k - 1)); [lia|]|lia|auto|nia..]. rewrite zlen_app. change (zlen [v]) with 1. lia.
Qed.
Lemma bounds_fix_all s u n m : bounds 0 T s u m -> 1 + s <= 0 -> forall fl k acc, 0 <= k -> n - zlen acc = k ->
  bounds 0 T (1 + k * (1 + s)) (1 + Z.max 0 u) (m_fix_loop fl n m acc).
Proof.
  intros Hm Hs. induction fl as [|fl IH]; intros k acc Hk Ha; cbn [m_fix_loop].
  { eapply bounds_weaken; [apply (bounds_stop _ T (1 + k * (1 + s))); [exact Logic.I|apply Z.le_refl]|lia|auto|lia..]. }
  eapply (bounds_run _ _ (fun _ => 1) _ 1 1 (k * (1 + s)) (Z.max 0 u)); [apply s_rem|auto|lia| |lia|lia|lia|lia|left; lia].
  intros rem _ _. destruct (Z.ltb_spec (zlen acc) n).
  - destruct (negb _); cbn [andb].
    + eapply (bounds_bind 0 0 _ _ _ s u (k * (1 + s) - s) (1 + Z.max 0 u)); [exact Hm| |lia|lia|lia|lia|lia|left; lia]. intros v _.
      eapply bounds_weaken; [apply (IH (k - 1)); [lia|]|lia|auto|lia..]. rewrite zlen_app. change (zlen [v]) with 1. lia.
    + replace (zlen acc =? n) with false by lia. eapply bounds_weaken; [apply (bounds_stop 0 T (k * (1 + s))); [exact Logic.I|lia]|lia|auto|lia..].
  - rewrite andb_false_r. replace k with 0 by lia. destruct (_ =? _).
    + eapply bounds_weaken; [apply (bounds_ret 0 T); [lia|exact Logic.I]|lia|auto|lia..].
    + eapply bounds_weaken; [apply (bounds_stop 0 T 0); [exact Logic.I|lia]|lia|auto|lia..].
Qed.
(** The buffer of a number is the one thing that the work does not pay for. *)
Lemma bounds_number d : bounds 0 T (3 - C) 2 (m_number d).
Proof.
  intros p us Hi. pose proof (Hleft p Hi) as Hlp. unfold m_number. cbn [labour mrun]. unfold p_remainder, do_op. cbn [effort run].
  destruct (h Z OpRemainder p) as [[rem|e| | |] p1] eqn:E1; try (cbn [run]; split; [nia|]; split; [lia|discriminate]).
  destruct (Hrem p rem p1 Hi E1) as (Hr0 & Hi1 & El1). pose proof (Hroom p rem p1 Hi E1) as Hr. cbn [run handed effort].
  destruct (Z.leb_spec rem isize_max) as [Hle|Hgt].
  2: { cbn [mfail labour mrun effort run]. split; [nia|]. split; [lia|discriminate]. }
  specialize (Hr Hle). cbn [labour mrun].
  pose proof (spends_st_loop h inv left C HC Hleft Hbyte zarith_terminal (S (Z.to_nat rem)) [] p1 Hi1) as [H1 H2].
  pose proof (effort_nonneg h (p_self_terminating_loop (S (Z.to_nat rem)) zarith_terminal []) p1 handed_nonneg) as Hef.
  destruct (run h (p_self_terminating_loop (S (Z.to_nat rem)) zarith_terminal []) p1) as [[bs|e| | |] p2] eqn:E2;
    try (cbn [in_use at_most]; split; [lia|]; split; [lia|discriminate]).
  destruct (H2 bs p2 eq_refl) as (_ & Hi2 & Hw). cbn [labour mrun in_use at_most]. pose proof (st_length (S (Z.to_nat rem)) zarith_terminal [] p1 bs p2 E2) as Hbs. change (zlen (@nil byte)) with 0 in Hbs.
  pose proof (zlen_nonneg bs) as Hb0. pose proof (Hleft p2 Hi2) as Hlp2.
  assert (Hrun : run h (plift (d bs)) p2 = (d bs, p2)) by (destruct (d bs); reflexivity). rewrite Hrun.
  assert (Heff : effort h (plift (d bs)) p2 = 0) by (destruct (d bs); reflexivity). rewrite Heff.
  set (ef := effort h (p_self_terminating_loop _ _ _) p1) in *. clearbody ef. assert (Hbm : zlen bs <= M * ef) by nia. assert (Hme : 0 <= M * ef) by lia.
  assert (Hd : C * (left p1 - left p2) = C * (left p - left p2)) by (rewrite El1; reflexivity). assert (Hl2 : left p2 <= left p) by nia. assert (Hc2 : 0 <= C * left p) by nia.
  destruct (d bs) as [z|e| | |]; cbn [labour mrun in_use at_most]; rewrite ?Z.add_0_r, ?Z.mul_add_distr_l, ?Z.mul_1_r, ?Z.mul_0_r; (split; [nia|]); (split; [lia|]); try discriminate.
  intros a _. split; [exact Logic.I|]. split; [exact Hi2|]. lia.
Qed.

(** ** Types *)
Section Types.
Variables (B : Z) (A F : list Z) (cf : config) (D : list def) (size_of : ty -> Z).
Hypothesis HC4 : C = 4 * B + 1.
Hypothesis HD : wf_defs D = true.
Hypothesis HL : linear B A D = true.
Hypothesis HF : bounded B A F D = true.
Hypothesis Hsize : forall t, 0 <= size_of t.
Hypothesis HMD : forall d, In d D -> largest_def size_of d <= M.
Notation base := (base B A).
Notation tries := (tries B A F).

Lemma largest_field ts t : In t ts -> largest size_of t <= largest_of size_of ts.
Proof. unfold largest_of. induction ts as [|t0 ts IH]; [intros []|]. cbn [map fold_right]. intros [->|H]; [|specialize (IH H)]; lia. Qed.
Lemma largest_alt (alts : list (Z * list ty)) alt : In alt alts -> largest_of size_of (snd alt) <= fold_right Z.max 10 (map (fun alt => largest_of size_of (snd alt)) alts).
Proof. induction alts as [|a alts IH]; [intros []|]. cbn [map fold_right]. intros [->|H]; [|specialize (IH H)]; lia. Qed.
Lemma bounds_fields f : (forall t, wf_ty D t = true -> pays B A t = true -> largest size_of t <= M -> bounds 0 T (4 * base t - 1) (4 * tries t - 1) (mparse size_of cf D f t)) ->
  forall ts, forallb (wf_ty D) ts = true -> forallb (pays B A) ts = true -> largest_of size_of ts <= M ->
  bounds 0 T (4 * bases B A ts) (4 * tries_fields B A F ts) (m_fields (mparse size_of cf D f) ts).
Proof.
  intros He. unfold bases, largest_of. induction ts as [|t ts IH]; intros HW HP Hl; cbn [m_fields tries_fields map fold_right] in *; [apply bounds_ret; [lia|exact Logic.I]|].
  cbn [forallb] in HW, HP. apply andb_prop in HW, HP. destruct HW as [HW1 HW2]. destruct HP as [HP1 HP2].
  eapply (bounds_bind 0 0 0 _ _ _ _ (4 * fold_right Z.add 0 (map base ts)) (4 * tries_fields B A F ts)); [apply He; try assumption; clear - Hl; lia| |clear; lia..|left; clear; lia].
  intros v _. apply ret_after_m; [|lia]. apply IH; try assumption. lia.
Qed.
Notation ra := (ret_after h inv left C HC Hleft B A F D HD HL HF).
Lemma leaf_case s u s' u' (pg : prog val) : spends h inv left C T s u pg -> s < C -> 1 + s <= s' -> 1 + u <= u' -> bounds 0 T s' u' (MTick (mfail pg)).
Proof.
  intros H Hs Hs' Hu'. apply (bounds_weaken 0 0 T T (1 + s) s' (1 + u) u'); auto; [|lia]. apply bounds_tick, bounds_fail; [exact H|exact Hs|lia].
Qed.
Lemma node_case s u s' u' (m : mprog val) : bounds M T s u m -> 1 + s <= s' -> 1 + u <= u' -> bounds 0 T s' u' (MTick m).
Proof. intros H Hs' Hu'. apply (bounds_weaken 0 0 T T (1 + s) s' (1 + u) u'); auto; [|lia]. apply bounds_tick. exact H. Qed.
Lemma spare {X} e s u (m : mprog X) : bounds 0 T s u m -> 0 <= e -> bounds e T s u m.
Proof. intros H He. apply (bounds_weaken 0 e T T s s u u); auto; lia. Qed.
Lemma bounds_parse f : forall t, wf_ty D t = true -> pays B A t = true -> largest size_of t <= M ->
  bounds 0 T (4 * base t - 1) (4 * tries t - 1) (mparse size_of cf D f t).
Proof.
  pose proof (linear_B B A D HL) as HB. assert (Htp := tries_pos B A F D HD HL HF). assert (Hbt := base_tries (3 * B + 1) ltac:(lia) B A F D eq_refl HD HL HF).
  assert (Hs := Hsize).
  induction f as [|f IH]; intros t HW HP HMt; cbn [mparse].
  { pose proof (Htp t HW). eapply bounds_weaken; [apply (bounds_stop 0 T (4 * base t - 1)); [exact Logic.I|lia]|lia|auto|lia..]. }
  destruct t; cbn [wf_ty pays SpecSize.base SpecWork.tries largest] in *.
  - (* unit *) eapply leaf_case; [apply (spends_ret h inv left C HC Hleft T); exact Logic.I|lia..].
  - (* bool *) eapply leaf_case; [cbn [parse]; apply ra; unfold p_take_bool; eapply (spends_bind h inv left C _ _ _ _ 0 0); [apply spends_byte; assumption| |apply Z.le_refl|apply Z.le_refl|lia]|lia..].
    intros b _. destruct (b =? 255); [apply spends_ret; auto|]. destruct (b =? 0); [apply spends_ret; auto|apply spends_stop; auto].
  - (* int *) pose proof (width_pos k). eapply leaf_case; [cbn [parse]; apply ra; eapply spends_weaken; [apply spends_int; assumption|auto|apply Z.le_refl..]|nia..].
  - pose proof (width_pos k). eapply leaf_case; [cbn [parse]; apply ra; eapply spends_weaken; [apply spends_ranged; assumption|auto|apply Z.le_refl..]|nia..].
  - eapply leaf_case; [cbn [parse]; apply ra; eapply spends_weaken; [apply spends_int; assumption|auto|apply Z.le_refl..]|cbn [ik_len]; lia..].
  - (* ranged float *) eapply leaf_case; [cbn [parse]; eapply (spends_bind h inv left C _ _ _ _ 0 0); [apply (spends_int h inv left C HC Hleft Hcons U64)| |apply Z.le_refl|apply Z.le_refl|cbn [ik_len]; lia]|cbn [ik_len]; lia..].
    intros z _. apply ra. apply spends_lift; auto.
  - (* n *) eapply node_case; [apply spare; [apply bounds_number|lia]|lia..].
  - eapply node_case; [apply spare; [apply bounds_number|lia]|lia..].
  - (* bytes *) apply (node_case 2 2); [|lia..].
    eapply (bounds_run _ _ (fun _ => 1) _ 1 1 1 1); [apply s_rem|apply gets_rem|lia| |lia..|left; lia]. intros rem Hr _.
    eapply (bounds_run _ T (fun bs => zlen bs) _ 1 1 0 0); [apply spends_consume; assumption|apply gets_consume|lia| |intros x; apply zlen_nonneg|lia..|left; lia]. intros bs _ Hb.
    eapply bounds_weaken; [apply (bounds_ask (zlen bs) 0); [apply (bounds_ret 0 T); [lia|exact Logic.I]|exact Hb|lia]|nia|auto|lia..].
  - (* string *) apply (node_case 2 2); [|lia..].
    eapply (bounds_run _ _ (fun _ => 1) _ 1 1 1 1); [apply s_rem|apply gets_rem|lia| |lia..|left; lia]. intros rem Hr _.
    eapply (bounds_run _ T (fun bs => zlen bs) _ 1 1 0 0); [apply spends_consume; assumption|apply gets_consume|lia| |intros x; apply zlen_nonneg|lia..|left; lia]. intros bs _ Hb.
    pose proof (lossy_len bs) as Hll. set (len := Z.max (zlen bs) (zlen (utf8_lossy bs))). assert (Hlen : 0 <= len <= 3 * zlen bs) by lia. clearbody len.
    eapply bounds_weaken; [apply (bounds_ask (zlen bs) (3 * len) T 0 0); [apply (bounds_ask (3 * len) 0 T 0 0); [apply bounds_give; apply (bounds_ret _ T); [|exact Logic.I]|..]|..]|..]; auto; try lia. nia.
  - eapply leaf_case; [cbn [parse]; apply ra; unfold sizeb in HW; apply spends_fixed; try assumption; lia|unfold sizeb in HW; nia..].
  - eapply leaf_case; [cbn [parse]; apply ra; unfold sizeb in HW; apply spends_fixed; try assumption; lia|unfold sizeb in HW; nia..].
  - (* option *) pose proof (Htp t HW). apply (node_case (4 * (1 - B + Z.max 0 (base t)) - 2) (4 * Z.max 1 (1 - B + tries t) - 2)); [|lia..].
    eapply (bounds_run _ T (fun _ => 0) _ _ _ (Z.max 0 (4 * base t - 1)) (4 * tries t - 1)); [apply (spends_tag h inv left C HC Hleft Hcons U8)|apply gets_0|cbn [ik_len]; lia| |lia|lia|cbn [ik_len]; lia|lia|left; cbn [ik_len]; lia]. intros tag _ _.
    rewrite Z.mul_0_r, Z.add_0_r. destruct (tag =? 255); [apply ret_after_m; [apply spare; [|lia]; eapply bounds_weaken; [apply IH; assumption|lia|auto|lia..]|lia]|].
    destruct (tag =? 0); [eapply bounds_weaken; [apply (bounds_ret 0 T); [lia|exact Logic.I]|lia|auto|lia..]|].
    eapply bounds_weaken; [apply (bounds_stop 0 T 0); [exact Logic.I|lia]|lia|auto|lia..].
  - (* nullable *) pose proof (Htp t HW). apply (node_case (4 * (1 + Z.max 0 (base t)) - 2) (4 * (1 + tries t) - 2)); [|lia..].
    eapply (bounds_run _ _ (fun _ => 1) _ _ _ (Z.max 0 (4 * base t - 1)) (4 * tries t - 1)); [apply s_rem|apply gets_rem|lia| |lia|lia|lia|lia|left; lia]. intros rem _ _.
    destruct (negb _); [apply ret_after_m; [apply spare; [|lia]; eapply bounds_weaken; [apply IH; assumption|lia|auto|lia..]|lia]|].
    eapply bounds_weaken; [apply (bounds_ret 0 T); [lia|exact Logic.I]|lia|auto|lia..].
  - (* seq *) apply andb_prop in HP. destruct HP as [Hb HP]. pose proof (Htp t HW). apply (node_case 1 (4 * tries t)); [|lia..]. apply ret_after_m; [apply spare; [|lia]|lia].
    specialize (Hs t). eapply bounds_weaken; [apply (bounds_seq (size_of t) (4 * base t - 1) (4 * tries t - 1)); [lia|lia|apply IH; try assumption; lia|lia| |]|..]; auto; change (zlen (@nil val)) with 0; lia.
  - (* lim *) apply andb_prop in HW. destruct HW as [Hn HW]. unfold sizeb in Hn. pose proof (Htp t HW). specialize (Hs t).
    apply (node_case (4 * (1 + n * Z.max 0 (base t)) - 2) (4 * (1 + n * Z.max 0 (base t) + tries t) - 2)); [|lia..].
    eapply bounds_weaken; [apply (bounds_ask (n * size_of t) 0); [apply ret_after_m; [|lia]|nia|lia]|lia|auto|..].
    + apply (bounds_lim (4 * base t - 1) (4 * tries t - 1) n) with (k := n); [apply IH; try assumption; lia|lia|change (zlen (@nil val)) with 0; lia].
    + nia.
    + nia.
  - (* fix *) apply andb_prop in HW. destruct HW as [Hn HW]. unfold sizeb in Hn. pose proof (Htp t HW). specialize (Hs t).
    apply (node_case (4 * (1 + n * base t) - 2) (4 * (1 + n * Z.max 0 (base t) + tries t) - 2)); [|lia..].
    destruct (Z.leb_spec (base t) 0).
    + eapply bounds_weaken; [apply (bounds_ask (n * size_of t) 0); [apply ret_after_m; [|lia]|nia|lia]|lia|auto|..].
      * apply (bounds_fix_all (4 * base t - 1) (4 * tries t - 1) n) with (k := n); [apply IH; try assumption; lia|lia|lia|change (zlen (@nil val)) with 0; lia].
      * nia.
      * nia.
    + eapply bounds_weaken; [apply (bounds_ask (n * size_of t) 0); [apply ret_after_m; [|lia]|nia|lia]|lia|auto|..].
      * apply (bounds_fix (4 * base t - 1) (4 * tries t - 1) n) with (k := n); [apply IH; try assumption; lia|lia|change (zlen (@nil val)) with 0; lia].
      * nia.
      * nia.
  - (* dynamic *) pose proof (Htp t HW). pose proof (Hbt t HW).
    apply (node_case (4 * (1 + base t - B * pref_len s) - 2) (4 * Z.max 1 (1 - B * pref_len s + tries t) - 2)); [|lia..].
    assert (Hpl : 1 <= pref_len s) by (destruct s; cbn [pref_len]; lia). assert (Hcp : C * pref_len s = 4 * (B * pref_len s) + pref_len s) by (rewrite HC4; ring).
    assert (3 * pref_len s <= B * pref_len s) by nia.
    eapply (bounds_run _ _ (fun _ => 0) _ _ _ (4 * base t + 1) (4 * tries t + 1)); [apply spends_pref; assumption|apply gets_0|lia| |lia|lia|lia|lia|left; lia]. intros n Hn _.
    rewrite Z.mul_0_r, Z.add_0_r. eapply (bounds_run _ T (fun _ => 0) _ 1 1 (4 * base t) (4 * tries t)); [apply spends_fit; assumption|apply gets_0|lia| |lia|lia|lia|lia|left; lia]. intros _ _ _.
    rewrite Z.mul_0_r, Z.add_0_r. eapply (bounds_bind 0 0 _ _ _ _ _ 1 1); [apply IH; assumption| |lia|lia|lia|lia|lia|left; lia]. intros v _.
    eapply (bounds_run _ T (fun _ => 0) _ 1 1 0 0); [apply spends_close; assumption|apply gets_0|lia| |lia|lia|lia|lia|left; lia]. intros _ _ _. apply (bounds_ret _ T); [lia|exact Logic.I].
  - (* vpadded *) apply andb_prop in HW. destruct HW as [Hn HW]. unfold sizeb in Hn. pose proof (Htp t HW). pose proof (Hbt t HW).
    apply (node_case (4 * (1 + base t) - 2) (4 * (1 + tries t) - 2)); [|lia..].
    eapply (bounds_run _ _ (fun _ => 0) _ 1 1 (4 * base t + 1) (4 * tries t + 1)); [apply s_rem|apply gets_0|lia| |lia|lia|lia|lia|left; lia]. intros rem Hr _. rewrite Z.mul_0_r, Z.add_0_r.
    eapply (bounds_run _ T (fun _ => 0) _ 0 0 (4 * base t + 1) (4 * tries t + 1)); [apply spends_lift; auto|apply gets_0|lia| |lia|lia|lia|lia|left; lia]. intros _ _ _. rewrite Z.mul_0_r, Z.add_0_r.
    eapply (bounds_run _ (fun z => 0 <= z) (fun _ => 0) _ 0 0 (4 * base t + 1) (4 * tries t + 1)); [apply spends_lift; try assumption|apply gets_0|lia| |lia|lia|lia|lia|left; lia].
    { intros z E. eapply usub_nonneg. exact E. }
    intros win Hw _. rewrite Z.mul_0_r, Z.add_0_r.
    eapply (bounds_run _ T (fun _ => 0) _ 1 1 (4 * base t) (4 * tries t)); [apply spends_fit; assumption|apply gets_0|lia| |lia|lia|lia|lia|left; lia]. intros _ _ _.
    rewrite Z.mul_0_r, Z.add_0_r. eapply (bounds_bind 0 0 _ _ _ _ _ 1 1); [apply IH; assumption| |lia|lia|lia|lia|lia|left; lia]. intros v _.
    eapply (bounds_run _ T (fun _ => 0) _ 1 1 0 0); [apply spends_close; assumption|apply gets_0|lia| |lia|lia|lia|lia|left; lia]. intros _ _ _. apply (bounds_ret _ T); [lia|exact Logic.I].
  - (* padded *) apply andb_prop in HW. destruct HW as [Hn HW]. unfold sizeb in Hn. pose proof (Htp t HW). pose proof (Hbt t HW).
    apply (node_case (4 * (1 + base t - B * n) - 2) (4 * (1 + tries t) - 2)); [|lia..].
    eapply (bounds_bind 0 0 _ _ _ _ _ (1 + n - C * n) 1); [apply IH; assumption| |lia|lia|lia|nia|lia|left; lia]. intros v _.
    eapply (bounds_run _ T (fun _ => 0) _ _ _ 0 0); [apply spends_consume_n; try assumption; lia|apply gets_0|nia| |lia|lia|lia|lia|].
    + intros pad _ _. cbv beta. destruct (cf_check_padding cf && negb (forallb (Z.eqb 0) pad)); [apply (bounds_stop _ T 0); [exact Logic.I|lia]|apply (bounds_ret _ T); [lia|exact Logic.I]].
    + right. intros pad p. destruct (cf_check_padding cf && negb (forallb (Z.eqb 0) pad)); cbn [labour mfail effort run]; lia.
  - (* box *) pose proof (Htp t HW). pose proof (Hbt t HW). specialize (Hs t). apply (node_case (4 * (1 + base t) - 2) (4 * (1 + tries t) - 2)); [|lia..].
    eapply (bounds_bind 0 (size_of t) _ _ _ _ _ 0 0); [apply IH; try assumption; lia| |lia|lia|lia|lia|lia|left; lia]. intros v _.
    eapply bounds_weaken; [apply (bounds_ask (size_of t) 0 T 0 0); [apply (bounds_ret _ T); [lia|exact Logic.I]|lia..]|lia|auto|lia..].
  - (* named *)
    destruct (nth_error D i) as [d|] eqn:Ei.
    2: { apply nth_error_None in Ei. apply Nat.ltb_lt in HW. lia. }
    destruct (bounded_def B A F D HD HL HF i d Ei) as [Ht _]. pose proof (linear_def B A D HL i d Ei) as Hd. unfold tries_def in Ht. apply andb_prop in Ht. destruct Ht as [Hf1 Ht].
    pose proof (HMD d (nth_error_In _ _ Ei)) as HMd. destruct d as [ts|k tags|k alts]; cbn [pays_def largest_def] in Hd, HMd.
    + apply andb_prop in Hd. destruct Hd as [Hp Hd]. eapply node_case; [apply ret_after_m; [apply spare; [|lia]|lia]|..].
      * apply bounds_fields; [exact IH|eapply wf_struct; eassumption|exact Hp|exact HMd].
      * lia.
      * lia.
    + pose proof (width_pos k). eapply leaf_case; [cbn [parse]; rewrite Ei; eapply (spends_bind h inv left C _ _ _ _ 0 0); [apply spends_tag; assumption| |apply Z.le_refl|apply Z.le_refl|nia]|nia..].
      intros tag _. destruct (find_tag tag tags); [apply spends_ret; auto|apply spends_stop; auto].
    + pose proof (width_pos k). rewrite forallb_forall in Ht, Hd.
      apply (node_case (4 * nth i A 0 - 2) (4 * nth i F 0 - 2)); [|lia..].
      assert (Hck : C * ik_len k = 4 * (B * ik_len k) + ik_len k) by (rewrite HC4; ring). assert (3 * ik_len k <= B * ik_len k) by nia.
      eapply (bounds_run _ T (fun _ => 0) _ _ _ (4 * nth i A 0 - 3 + 4 * (B * ik_len k)) (Z.max 0 (4 * nth i F 0 - 3 + 4 * (B * ik_len k)))); [apply spends_tag; assumption|apply gets_0|lia| |lia|lia|lia|lia|left; lia]. intros tag _ _.
      rewrite Z.mul_0_r, Z.add_0_r. destruct (find_tag tag (map fst alts)) as [ix|].
      2: { eapply bounds_weaken; [apply (bounds_stop 0 T (4 * nth i A 0 - 3 + 4 * (B * ik_len k))); [exact Logic.I|lia]|lia|auto|lia..]. }
      destruct (nth_error alts ix) as [[tg ts]|] eqn:Ea.
      2: { eapply bounds_weaken; [apply (bounds_stop 0 T (4 * nth i A 0 - 3 + 4 * (B * ik_len k))); [exact Logic.I|lia]|lia|auto|lia..]. }
      pose proof (largest_alt alts _ (nth_error_In _ _ Ea)) as Hla. specialize (Hd _ (nth_error_In _ _ Ea)). specialize (Ht _ (nth_error_In _ _ Ea)). cbn [snd] in Hd, Ht, Hla.
      apply andb_prop in Hd. destruct Hd as [Hp Hd]. apply ret_after_m; [apply spare; [|lia]|lia].
      eapply bounds_weaken; [apply bounds_fields; [exact IH|exact (wf_data D i k alts ix tg ts HD Ei Ea)|exact Hp|lia]|lia|auto|..].
      * assert (1 - B * ik_len k + bases B A ts <= nth i A 0) by (clear - Hd; lia). lia.
      * assert (1 - B * ik_len k + tries_fields B A F ts <= nth i F 0) by (clear - Ht; lia). lia.
Qed.
End Types.
End Rules.

(** ** The parsers *)
(** Every window ends inside the buffer. *)
Definition wins (len : Z) (o : context_offset) : Prop :=
  off_inv len o /\ 0 <= co_abs o <= len /\ Forall (fun tgt => 0 <= tgt <= len) (co_frames o).
Lemma wins_limit len o : wins len o -> 0 <= co_limit o <= len.
Proof. intros (_ & Ha & Hf). unfold co_limit, fs_peek. destruct (co_frames o) as [|tgt fs]; cbn [hd_error]; [exact Ha|]. inversion Hf; assumption. Qed.
Lemma wins_rem {E} m len o x : wins len o -> @usub E m (co_limit o) (co_index o) = ROk x -> x <= isize_max -> x <= len - co_cur o.
Proof.
  intros Hw. pose proof (wins_limit len o Hw) as Hl. destruct Hw as ([H1 H2] & _). unfold usub, co_index.
  destruct (Z.leb_spec (co_cur o) (co_limit o)); [intros E1; injection E1 as <-; lia|]. destruct m; [discriminate|]. intros E1. injection E1 as <-. intros Hx. exfalso. revert Hx.
  replace ((co_limit o - co_cur o) mod usize_mod) with (co_limit o - co_cur o + usize_mod).
  - unfold isize_max, usize_mod in *. lia.
  - symmetry. rewrite <- (Z.mod_small (co_limit o - co_cur o + usize_mod) usize_mod) by (unfold isize_max, usize_mod in *; lia).
    rewrite <- Zplus_mod_idemp_r, Z.mod_same by (unfold usize_mod; lia). rewrite Z.add_0_r. reflexivity.
Qed.
Lemma wins_advance {E} m n len o ret adv o' : wins len o -> 0 <= co_cur o' <= len -> @co_advance E m n o = ROk (ret, adv, o') -> wins len o'.
Proof.
  intros (H1 & H2 & H3) Hc. unfold co_advance. destruct (increment_checked m (co_cur o) n (co_limit o)) as [[[r a] c]| | | |]; cbn [rmap]; try discriminate.
  intros E1. injection E1 as <- <- <-. destruct H1 as [_ H1]. split; [split; [exact Hc|exact H1]|]. split; assumption.
Qed.
Lemma wins_fit m n len o r o' : wins len o -> 0 <= n -> co_set_fit m n o = (ROk r, o') -> wins len o'.
Proof.
  intros (H1 & H2 & H3) Hn. unfold co_set_fit. destruct (uadd m (co_index o) n) as [s| | | |] eqn:Es; try discriminate.
  destruct (Z.ltb_spec (co_abs o) s) as [Hlt|Hge]; [destruct (usub m (co_abs o) n); cbn [rbind]; discriminate|].
  destruct (fs_push_frame s (co_frames o)) as [fs| | | |] eqn:Ef; try discriminate. intros E1. injection E1 as _ <-. split; [exact H1|]. split; [exact H2|]. cbn [co_frames].
  assert (Hs : 0 <= s). { destruct H1 as [H1 _]. unfold co_index in Es. destruct (uadd_cases _ _ _ _ Es) as [->| ->]; [lia|]. apply Z.mod_pos_bound. reflexivity. }
  unfold fs_push_frame in Ef. destruct (detect_error _ s); [discriminate Ef|]. injection Ef as <-. constructor; [lia|exact H3].
Qed.
Lemma wins_close len o r o' : wins len o -> co_enforce_target o = (ROk r, o') -> wins len o'.
Proof.
  intros (H1 & H2 & H3). unfold co_enforce_target. destruct (co_frames o) as [|tgt fs]; [discriminate|]. destruct (tgt ?= co_index o); try discriminate.
  intros E1. injection E1 as _ <-. split; [exact H1|]. split; [exact H2|]. cbn [co_frames]. inversion H3; assumption.
Qed.

Lemma fold_max b l : b <= fold_right Z.max b l /\ forall x, In x l -> x <= fold_right Z.max b l.
Proof.
  induction l as [|y l [IH1 IH2]]; cbn [fold_right]; [split; [lia|intros x []]|]. split; [lia|]. intros x [->|H]; [lia|]. specialize (IH2 x H). lia.
Qed.
Lemma largest_10 size_of t : 10 <= largest size_of t.
Proof. induction t; cbn [largest]; lia. Qed.
Lemma largest_in_ge D t size_of : let M := largest_in size_of D t in 10 <= M /\ largest size_of t <= M /\ forall d, In d D -> largest_def size_of d <= M.
Proof.
  unfold largest_in. destruct (fold_max (largest size_of t) (map (largest_def size_of) D)) as [H1 H2]. pose proof (largest_10 size_of t). cbv zeta. split; [lia|]. split; [exact H1|].
  intros d Hd. apply H2. apply in_map. exact Hd.
Qed.
Section Certified.
Variables (B : Z) (A F : list Z) (cf : config) (D : list def) (t : ty) (size_of : ty -> Z).
Hypothesis HD : wf_defs D = true.
Hypothesis HW : wf_ty D t = true.
Hypothesis HL : linear B A D = true.
Hypothesis HP : pays B A t = true.
Hypothesis HF : bounded B A F D = true.
Hypothesis Hsize : forall t, 0 <= size_of t.
Notation M := (largest_in size_of D t).
Notation bound input := (M * (4 * tries B A F t - 1 + (4 * B + 1) * zlen input) + zlen input).
Lemma finish {P} (h : handler P) inv left f p (input : list byte) : bounds h inv left (4 * B + 1) M 0 (fun _ => True) (4 * base B A t - 1) (4 * tries B A F t - 1) (mparse size_of cf D f t) ->
  inv p -> left p = zlen input -> at_most (snd (mrun h (mparse size_of cf D f t) p (mkMem 0 0))) <= bound input.
Proof.
  intros H Hi Hl. destruct (H p (mkMem 0 0) Hi) as [H1 H2]. destruct (mrun h (mparse size_of cf D f t) p (mkMem 0 0)) as [[r p'] us]. cbn [snd]. destruct H2 as [H2 _]. cbn [at_most in_use] in H2.
  rewrite Hl in H1, H2. pose proof (largest_in_ge D t size_of) as (HM & _). pose proof (zlen_nonneg input). pose proof (labour_nonneg h (mparse size_of cf D f t) p).
  assert (M * labour h (mparse size_of cf D f t) p <= M * (4 * tries B A F t - 1 + (4 * B + 1) * zlen input)) by (apply Z.mul_le_mono_nonneg_l; lia).
  assert (0 <= M * labour h (mparse size_of cf D f t) p) by (apply Z.mul_nonneg_nonneg; lia). lia.
Qed.
Lemma byte_memory f input : zlen input <= isize_max -> at_most (decode_memory size_of WByte cf D f t input) <= bound input.
Proof.
  intros Hl. pose proof (linear_B B A D HL) as HB. pose proof (largest_in_ge D t size_of) as (HM1 & HM2 & HM3). cbn [decode_memory]. set (m := cf_mode cf).
  pose (inv := fun p : byte_parser => wins (zlen (bp_buf p)) (bp_off p)). pose (left := fun p : byte_parser => zlen (bp_buf p) - co_cur (bp_off p)).
  pose proof (zlen_nonneg input) as H0. apply (finish (byte_h m) inv left).
  2: { unfold inv, wins, off_inv. cbn [bp_from_buffer bp_buf bp_off co_with_limit co_cur co_abs co_frames]. repeat split; try lia. constructor. }
  2: { unfold left. cbn [bp_from_buffer bp_buf bp_off co_with_limit co_cur]. lia. }
  refine (bounds_parse (byte_h m) inv left (4 * B + 1) M ltac:(lia) HM1 _ _ _ _ _ _ _ B A F cf D size_of eq_refl HD HL HF Hsize HM3 f t HW HP HM2).
  - intros p [H _]. unfold off_inv in H. unfold left. lia.
  - intros p x p' H E. cbn [byte_h] in E. injection E as Ex <-. split; [eapply usub_nonneg; exact Ex|auto].
  - intros p x p' H E Hx. cbn [byte_h] in E. injection E as Ex <-. exact (wins_rem m _ _ _ H Ex Hx).
  - intros p x p' H E. destruct H as [[H1 H2] H3]. cbn [byte_h] in E. unfold bp_consume_byte in E. destruct (co_advance m 1 (bp_off p)) as [[[ix adv] o]| | | |] eqn:Ea0; try discriminate E.
    pose proof Ea0 as Ea. apply advance_cases in Ea. destruct Ea as [-> Ea]. destruct adv; [|discriminate E]. injection E as Ex <-. apply byte_cases in Ex; [|lia].
    apply step_one in Ea; [|lia]. split; [|unfold left; cbn [bp_buf bp_off]; lia]. refine (wins_advance m 1 _ _ _ _ _ (conj (conj H1 H2) H3) _ Ea0). lia.
  - intros p n x p' H Hn E. destruct H as [[H1 H2] H3]. cbn [byte_h] in E. unfold bp_consume in E. destruct (co_advance m n (bp_off p)) as [[[ix adv] o]| | | |] eqn:Ea0; try discriminate E.
    pose proof Ea0 as Ea. apply advance_cases in Ea. destruct Ea as [-> Ea]. destruct adv; [|discriminate E]. injection E as Ex <-. apply slice_cases in Ex; [|lia..].
    destruct Ex as (e & Ee & He & Hz & Hsm). rewrite Ea in Ee. injection Ee as Ee. split; [|unfold left; cbn [bp_buf bp_off]; rewrite Ee; lia].
    refine (wins_advance m n _ _ _ _ _ (conj (conj H1 H2) H3) _ Ea0). lia.
  - intros p n x p' H Hn E. cbn [byte_h] in E. unfold bp_set_fit in E. destruct (co_set_fit m n (bp_off p)) as [r o] eqn:Es. injection E as -> <-.
    pose proof (set_fit_cur _ _ _ _ _ Es) as Ec. split; [exact (wins_fit m n _ _ _ _ H Hn Es)|]. unfold left. cbn [bp_buf bp_off]. rewrite Ec. reflexivity.
  - intros p x p' H E. cbn [byte_h] in E. unfold bp_enforce_target in E. destruct (co_enforce_target (bp_off p)) as [r o] eqn:Es. injection E as -> <-.
    pose proof (close_cur _ _ _ Es) as Ec. split; [exact (wins_close _ _ _ _ H Es)|]. unfold left. cbn [bp_buf bp_off]. rewrite Ec. reflexivity.
Qed.
Lemma memo_memory f input : zlen input <= isize_max -> at_most (decode_memory size_of WMemo cf D f t input) <= bound input.
Proof.
  intros Hl. pose proof (linear_B B A D HL) as HB. pose proof (largest_in_ge D t size_of) as (HM1 & HM2 & HM3). cbn [decode_memory]. set (m := cf_mode cf).
  pose (inv := fun p : memo_parser => wins (zlen (mp_buf p)) (mp_off p)). pose (left := fun p : memo_parser => zlen (mp_buf p) - co_cur (mp_off p)).
  pose proof (zlen_nonneg input) as H0. apply (finish (memo_h m) inv left).
  2: { unfold inv, wins, off_inv. cbn [mp_from_buffer mp_buf mp_off co_with_limit co_cur co_abs co_frames]. repeat split; try lia. constructor. }
  2: { unfold left. cbn [mp_from_buffer mp_buf mp_off co_with_limit co_cur]. lia. }
  refine (bounds_parse (memo_h m) inv left (4 * B + 1) M ltac:(lia) HM1 _ _ _ _ _ _ _ B A F cf D size_of eq_refl HD HL HF Hsize HM3 f t HW HP HM2).
  - intros p [H _]. unfold off_inv in H. unfold left. lia.
  - intros p x p' H E. cbn [memo_h] in E. injection E as Ex <-. split; [eapply usub_nonneg; exact Ex|auto].
  - intros p x p' H E Hx. cbn [memo_h] in E. injection E as Ex <-. exact (wins_rem m _ _ _ H Ex Hx).
  - intros p x p' H E. destruct H as [[H1 H2] H3]. cbn [memo_h] in E. unfold mp_consume_byte in E. destruct (co_advance m 1 (mp_off p)) as [[[ix adv] o]| | | |] eqn:Ea0; try discriminate E.
    pose proof Ea0 as Ea. apply advance_cases in Ea. destruct Ea as [-> Ea]. destruct adv; [|destruct (mp_dump m _); discriminate E]. injection E as Ex <-. apply byte_cases in Ex; [|lia].
    apply step_one in Ea; [|lia]. split; [|unfold left; cbn [mp_buf mp_off]; lia]. refine (wins_advance m 1 _ _ _ _ _ (conj (conj H1 H2) H3) _ Ea0). lia.
  - intros p n x p' H Hn E. destruct H as [[H1 H2] H3]. cbn [memo_h] in E. unfold mp_consume in E. destruct (co_advance m n (mp_off p)) as [[[ix adv] o]| | | |] eqn:Ea0; try discriminate E.
    pose proof Ea0 as Ea. apply advance_cases in Ea. destruct Ea as [-> Ea]. destruct adv; [|destruct (mp_dump m _); discriminate E]. injection E as Ex <-. apply slice_cases in Ex; [|lia..].
    destruct Ex as (e & Ee & He & Hz & Hsm). rewrite Ea in Ee. injection Ee as Ee. split; [|unfold left; cbn [mp_buf mp_off]; rewrite Ee; lia].
    refine (wins_advance m n _ _ _ _ _ (conj (conj H1 H2) H3) _ Ea0). lia.
  - intros p n x p' H Hn E. cbn [memo_h] in E. unfold mp_set_fit in E. destruct (co_set_fit m n (mp_off p)) as [r o] eqn:Es. injection E as -> <-.
    pose proof (set_fit_cur _ _ _ _ _ Es) as Ec. split; [exact (wins_fit m n _ _ _ _ H Hn Es)|]. unfold left. cbn [mp_buf mp_off]. rewrite Ec. reflexivity.
  - intros p x p' H E. cbn [memo_h] in E. unfold mp_enforce_target in E. destruct (co_enforce_target (mp_off p)) as [r o] eqn:Es. injection E as -> <-.
    pose proof (close_cur _ _ _ Es) as Ec. split; [exact (wins_close _ _ _ _ H Es)|]. unfold left. cbn [mp_buf mp_off]. rewrite Ec. reflexivity.
Qed.
Lemma frames_nonneg p : 0 <= in_frames p.
Proof. unfold in_frames. induction p as [|fr p IH]; cbn [map fold_right]; [lia|]. pose proof (zlen_nonneg fr). lia. Qed.
Lemma slice_memory f input : at_most (decode_memory size_of WSlice cf D f t input) <= bound input.
Proof.
  pose proof (linear_B B A D HL) as HB. pose proof (largest_in_ge D t size_of) as (HM1 & HM2 & HM3). cbn [decode_memory].
  apply (finish slice_h (fun _ => True) in_frames); [|exact Logic.I|unfold in_frames, sp_from_buffer; cbn [map fold_right]; lia].
  refine (bounds_parse slice_h (fun _ => True) in_frames (4 * B + 1) M ltac:(lia) HM1 _ _ _ _ _ _ _ B A F cf D size_of eq_refl HD HL HF Hsize HM3 f t HW HP HM2).
  - intros p _. apply frames_nonneg.
  - intros p x p' _ E. cbn [slice_h] in E. injection E as <- <-. split; [|auto]. unfold sp_remainder, sp_view_len. destruct p; [lia|apply zlen_nonneg].
  - intros p x p' _ E _. cbn [slice_h] in E. injection E as <- <-. unfold sp_remainder, sp_view_len. destruct p as [|fr p]; [unfold in_frames; cbn [map fold_right]; lia|].
    pose proof (frames_nonneg p) as Hp. unfold in_frames in *. cbn [map fold_right]. lia.
  - intros p x p' _ E. cbn [slice_h] in E. unfold sp_consume_byte in E. destruct p as [|[|b fr] p]; try discriminate E. cbn [slb_cut_first] in E.
    injection E as <- <-. unfold in_frames. cbn [map fold_right]. rewrite zlen_cons. split; [exact Logic.I|lia].
  - intros p n x p' _ Hn E. cbn [slice_h] in E. unfold sp_consume, slb_take_unchecked in E. destruct p as [|fr p]; [discriminate E|].
    destruct (Z.leb_spec n (zlen fr)); [|discriminate E]. injection E as <- <-. unfold in_frames. cbn [map fold_right].
    rewrite zlen_ztake, zlen_zdrop by lia. split; [exact Logic.I|lia].
  - intros p n x p' _ Hn E. cbn [slice_h] in E. unfold sp_set_fit, slb_split_unchecked in E. destruct p as [|fr p].
    { destruct (n =? 0); [injection E as <- <-; auto|discriminate E]. }
    destruct (Z.leb_spec n (zlen fr)); [|discriminate E]. injection E as <- <-. unfold in_frames. cbn [map fold_right].
    rewrite zlen_ztake, zlen_zdrop by lia. split; [exact Logic.I|lia].
  - intros p x p' _ E. cbn [slice_h] in E. unfold sp_enforce_target in E. destruct p as [|fr p]; [discriminate E|].
    destruct (Z.eqb_spec (zlen fr) 0); [|discriminate E]. injection E as <- <-. unfold in_frames. cbn [map fold_right]. split; [exact Logic.I|lia].
Qed.
Lemma memory_linear f w input : zlen input <= isize_max -> at_most (decode_memory size_of w cf D f t input) <= bound input.
Proof. intros Hl. destruct w; [apply byte_memory|apply memo_memory|apply slice_memory]; assumption. Qed.
End Certified.

Theorem memory_proportional D I R t size_of : wf_defs D = true -> wf_ty D t = true -> terminating D I R = true -> loops_ok I t = true -> (forall t, 0 <= size_of t) ->
  exists K, forall cf input w f, zlen input <= isize_max -> at_most (decode_memory size_of w cf D f t input) <= K * (1 + zlen input).
Proof.
  intros HD HW HT HL Hs. destruct (claims_exist D I R t HD HW HT HL) as (B & A & F & H1 & H2 & H3). pose proof (linear_B B A D H1) as HB.
  set (M := largest_in size_of D t). exists (1 + M * Z.max (4 * B + 1) (4 * tries B A F t)). intros cf input w f Hl.
  pose proof (memory_linear B A F cf D t size_of HD HW H1 H2 H3 Hs f w input Hl) as H. pose proof (largest_in_ge D t size_of) as (HM & _). fold M in H, HM.
  pose proof (zlen_nonneg input). set (X := Z.max (4 * B + 1) (4 * tries B A F t)).
  assert (4 * tries B A F t - 1 + (4 * B + 1) * zlen input <= X * (1 + zlen input)) by (unfold X; nia).
  assert (M * (4 * tries B A F t - 1 + (4 * B + 1) * zlen input) <= M * (X * (1 + zlen input))) by (apply Z.mul_le_mono_nonneg_l; lia).
  replace ((1 + M * X) * (1 + zlen input)) with (1 + zlen input + M * (X * (1 + zlen input))) by ring. lia.
Qed.

(** ** What the decoded value occupies *)
Lemma lossy_ge l : zlen l <= zlen (utf8_lossy l).
Proof.
  unfold utf8_lossy. assert (H : forall fl l, (length l <= fl)%nat -> zlen l <= zlen (utf8_lossy_loop fl l)).
  2: { apply H. lia. }
  clear l. induction fl as [|fl IH]; intros [|b l] Hl; cbn [utf8_lossy_loop]; try (cbn [length] in Hl; lia); try (cbn; lia).
  destruct (utf8_next b l) as [n ok] eqn:E. rewrite zlen_app.
  assert (Hn : (1 <= n)%nat /\ (ok = false -> (n <= 3)%nat)).
  { unfold utf8_next in E. repeat match type of E with context [if ?c then _ else _] => destruct c | context [match ?c with _ => _ end] => destruct c end; injection E as <- <-; split; intros; try discriminate; lia. }
  specialize (IH (skipn n (b :: l))). assert (H : zlen (firstn n (b :: l)) + zlen (skipn n (b :: l)) = zlen (b :: l)) by (rewrite <- zlen_app, firstn_skipn; reflexivity).
  assert (Hk : (length (skipn n (b :: l)) <= fl)%nat) by (rewrite skipn_length; cbn [length] in *; lia). specialize (IH Hk).
  destruct ok; [lia|]. change (zlen replacement) with 3.
  assert (zlen (firstn n (b :: l)) <= 3) by (unfold zlen; rewrite firstn_length; destruct Hn as [_ Hn]; specialize (Hn eq_refl); lia). lia.
Qed.
Section Held.
Context {P : Type} (h : handler P) (size_of : ty -> Z) (cf : config) (D : list def).
Definition keeps (e : Z) {A} (Q : A -> Z -> Prop) (m : mprog A) : Prop :=
  forall p u a p' u', mrun h m p u = (ROk a, p', u') -> Q a (in_use u' - in_use u + e).
Lemma keeps_ret e {A} (Q : A -> Z -> Prop) a : Q a e -> keeps e Q (MRet a).
Proof. intros H p u a' p' u' E. cbn [mrun] in E. injection E as <- <- <-. replace (in_use u - in_use u + e) with e by lia. exact H. Qed.
Lemma keeps_run e {X A} (Q : A -> Z -> Prop) (pg : prog X) k : (forall x, keeps e Q (k x)) -> keeps e Q (MRun pg k).
Proof. intros H p u a p' u' E. cbn [mrun] in E. destruct (run h pg p) as [[x|er| | |] p1]; try discriminate E. exact (H x p1 u a p' u' E). Qed.
Lemma keeps_tick e {A} (Q : A -> Z -> Prop) m : keeps e Q m -> keeps e Q (MTick m).
Proof. intros H. exact H. Qed.
Lemma keeps_ask e n {A} (Q : A -> Z -> Prop) m : keeps (e + n) Q m -> keeps e Q (MAsk n m).
Proof. intros H p u a p' u' E. cbn [mrun] in E. apply H in E. cbn [in_use] in E. replace (in_use u' - in_use u + e) with (in_use u' - (in_use u + n) + (e + n)) by lia. exact E. Qed.
Lemma keeps_give e n {A} (Q : A -> Z -> Prop) m : keeps (e - n) Q m -> keeps e Q (MGive n m).
Proof. intros H p u a p' u' E. cbn [mrun] in E. apply H in E. cbn [in_use] in E. replace (in_use u' - in_use u + e) with (in_use u' - (in_use u - n) + (e - n)) by lia. exact E. Qed.
Lemma keeps_bind e {X A} (Q0 : X -> Z -> Prop) (Q : A -> Z -> Prop) m k : keeps 0 Q0 m -> (forall x n, Q0 x n -> keeps (e + n) Q (k x)) -> keeps e Q (mbind m k).
Proof.
  intros Hm H p u a p' u' E. rewrite mrun_mbind in E. destruct (mrun h m p u) as [[[x|er| | |] p1] u1] eqn:E1; try discriminate E.
  apply Hm in E1. apply (H x _ E1) in E. replace (in_use u' - in_use u + e) with (in_use u' - in_use u1 + (e + (in_use u1 - in_use u + 0))) by lia. exact E.
Qed.
Lemma keeps_weaken e {A} (Q Q' : A -> Z -> Prop) m : keeps e Q m -> (forall a n, Q a n -> Q' a n) -> keeps e Q' m.
Proof. intros H HQ p u a p' u' E. apply HQ. eapply H. exact E. Qed.
(** Programs that reserve nothing. *)
Lemma keeps_fail {A} (Q : A -> Z -> Prop) (pg : prog A) : (forall p a p', run h pg p = (ROk a, p') -> Q a 0) -> keeps 0 Q (mfail pg).
Proof. intros H p u a p' u' E. cbn [mfail mrun] in E. destruct (run h pg p) as [[x|er| | |] p1] eqn:E1; try discriminate E. injection E as <- <- <-. replace (in_use u - in_use u + 0) with 0 by lia. exact (H _ _ _ E1). Qed.

Definition fits (v : val) (t : ty) (n : Z) : Prop := held size_of 1 D v t <= n <= held size_of 2 D v t.
Definition total (k : Z) (t : ty) (vs : list val) : Z := fold_right Z.add 0 (map (fun v => held size_of k D v t) vs).
Lemma total_app k t vs v : total k t (vs ++ [v]) = total k t vs + held size_of k D v t.
Proof. unfold total. rewrite map_app, fold_right_app. cbn [map fold_right]. generalize (map (fun v => held size_of k D v t) vs). intros l. induction l as [|x l IH]; cbn [fold_right]; lia. Qed.
Definition fits_all (t : ty) (vs : list val) (n : Z) : Prop := total 1 t vs <= n <= total 2 t vs.
Lemma fits_app t vs v a b : fits_all t vs a -> fits v t b -> fits_all t (vs ++ [v]) (a + b).
Proof. unfold fits_all, fits. rewrite !total_app. lia. Qed.

Lemma pushed_full size len : 0 <= len -> pushed size len = len -> pushed size (len + 1) = grown size len.
Proof.
  unfold pushed, grown. intros H0. destruct (Z.eqb_spec len 0) as [->|Hn].
  { intros _. change (2 ^ Z.log2_up (0 + 1)) with 1. destruct (size =? 1); [reflexivity|]. destruct (size <=? 1024); reflexivity. }
  replace (len + 1 =? 0) with false by lia. set (mn := if size =? 1 then 8 else if size <=? 1024 then 4 else 1).
  assert (Hm : mn = 8 \/ mn = 4 \/ mn = 1) by (unfold mn; destruct (size =? 1), (size <=? 1024); auto). clearbody mn.
  intros E. assert (Hp : exists k, 0 <= k /\ len = 2 ^ k).
  { destruct (Z.max_spec mn (2 ^ Z.log2_up len)) as [[_ Ex]|[_ Ex]]; rewrite Ex in E.
    - exists (Z.log2_up len). split; [apply Z.log2_up_nonneg|lia].
    - destruct Hm as [->|[->| ->]]; [exists 3|exists 2|exists 0]; cbn; lia. }
  destruct Hp as (k & Hk & ->). assert (Hs : Z.log2_up (2 ^ k + 1) = k + 1).
  { apply Z.log2_up_unique; [lia|]. replace (Z.pred (k + 1)) with k by lia. rewrite Z.pow_add_r by lia. pose proof (Z.pow_pos_nonneg 2 k). lia. }
  rewrite Hs, Z.pow_add_r by lia. pose proof (Z.pow_pos_nonneg 2 k). lia.
Qed.
Lemma pushed_room size len : 0 <= len -> len <= pushed size len /\ (len <> pushed size len -> pushed size (len + 1) = pushed size len).
Proof.
  unfold pushed. intros H0. destruct (Z.eqb_spec len 0) as [->|Hn]; [split; [lia|intros []; reflexivity]|].
  replace (len + 1 =? 0) with false by lia. set (mn := if size =? 1 then 8 else if size <=? 1024 then 4 else 1).
  assert (Hm : mn = 2 ^ 3 \/ mn = 2 ^ 2 \/ mn = 2 ^ 0) by (unfold mn; destruct (size =? 1), (size <=? 1024); auto). clearbody mn.
  pose proof (Z.log2_up_nonneg len) as Hg. pose proof (Z.log2_up_le_mono len (len + 1) ltac:(lia)) as Hmono.
  assert (Hu : len <= 2 ^ Z.log2_up len). { destruct (Z.eq_dec len 1) as [->|]; [cbn; lia|]. apply Z.log2_up_spec. lia. }
  split; [lia|]. intros Hne. assert (Hle : forall k, 0 <= k -> len < 2 ^ k -> Z.log2_up (len + 1) <= k).
  { intros k Hk Hlt. destruct (Z.eq_dec k 0) as [->|]; [cbn in Hlt; lia|]. apply Z.log2_up_le_pow2; lia. }
  destruct (Z.le_gt_cases mn (2 ^ Z.log2_up len)) as [Hc|Hc].
  - rewrite (Z.max_r mn) in * by exact Hc. assert (Z.log2_up (len + 1) <= Z.log2_up len) by (apply Hle; lia). replace (Z.log2_up (len + 1)) with (Z.log2_up len) by lia. lia.
  - rewrite (Z.max_l mn) in * by lia. assert (Hx : forall k, 0 <= k -> mn = 2 ^ k -> Z.max mn (2 ^ Z.log2_up (len + 1)) = mn).
    { intros k Hk ->. assert (Z.log2_up (len + 1) <= k) by (apply Hle; lia). pose proof (Z.pow_le_mono_r 2 (Z.log2_up (len + 1)) k). lia. }
    rewrite ?(Z.max_l mn (2 ^ Z.log2_up len)) by lia. destruct Hm as [E|[E|E]]; [apply (Hx 3)|apply (Hx 2)|apply (Hx 0)]; first [exact E|lia].
Qed.
Lemma keeps_at e e' {A} (Q : A -> Z -> Prop) m : e = e' -> keeps e Q m -> keeps e' Q m.
Proof. intros ->. auto. Qed.
Lemma keeps_never e {A} (Q : A -> Z -> Prop) (pg : prog A) : (forall p a p', run h pg p <> (ROk a, p')) -> keeps e Q (mfail pg).
Proof. intros H p u a p' u' E. cbn [mfail mrun] in E. destruct (run h pg p) as [[x|er| | |] p1] eqn:E1; try discriminate E. exfalso. eapply H. exact E1. Qed.
Lemma keeps_seq t m : keeps 0 (fun v => fits v t) m -> forall fl e acc, fits_all t acc e ->
  keeps (pushed (size_of t) (zlen acc) * size_of t + e) (fun vs n => fits_all t vs (n - pushed (size_of t) (zlen vs) * size_of t))
    (m_seq_loop fl (size_of t) (pushed (size_of t) (zlen acc)) m acc).
Proof.
  intros Hm. induction fl as [|fl IH]; intros e acc Ha; cbn [m_seq_loop]; [apply keeps_never; intros; discriminate|].
  apply keeps_run. intros rem. destruct (rem =? 0). { apply keeps_ret. replace (_ + e - _) with e by lia. exact Ha. }
  eapply keeps_bind; [exact Hm|]. intros v n Hv. cbn beta in Hv. pose proof (fits_app _ _ _ _ _ Ha Hv) as Ha'. specialize (IH _ _ Ha').
  pose proof (zlen_nonneg acc) as H0. assert (Hz : zlen (acc ++ [v]) = zlen acc + 1) by (rewrite zlen_app; reflexivity). rewrite Hz in IH.
  destruct (Z.eqb_spec (zlen acc) (pushed (size_of t) (zlen acc))) as [Hf|Hf].
  - rewrite (pushed_full (size_of t) (zlen acc) H0 (eq_sym Hf)) in IH. rewrite <- Hf. apply keeps_ask, keeps_give.
    eapply keeps_at; [|exact IH]. lia.
  - destruct (pushed_room (size_of t) (zlen acc) H0) as [_ Hr]. rewrite (Hr Hf) in IH. eapply keeps_at; [|exact IH]. lia.
Qed.
Lemma keeps_lim t k m : keeps 0 (fun v => fits v t) m -> forall fl e acc, fits_all t acc e -> keeps e (fits_all t) (m_lim_loop fl k m acc).
Proof.
  intros Hm. induction fl as [|fl IH]; intros e acc Ha; cbn [m_lim_loop]; [apply keeps_never; intros; discriminate|].
  apply keeps_run. intros rem. destruct (rem =? 0); [apply keeps_ret; exact Ha|].
  eapply keeps_bind; [exact Hm|]. intros v n Hv. cbn beta in Hv. pose proof (fits_app _ _ _ _ _ Ha Hv) as Ha'.
  intros p u a p' u' E. cbn [mrun] in E. unfold try_push in E. destruct (_ <? _); cbn [ext_len plift run] in E; [|discriminate E].
  exact (IH _ _ Ha' p u a p' u' E).
Qed.
Lemma keeps_fix t k m : keeps 0 (fun v => fits v t) m -> forall fl e acc, fits_all t acc e -> keeps e (fits_all t) (m_fix_loop fl k m acc).
Proof.
  intros Hm. induction fl as [|fl IH]; intros e acc Ha; cbn [m_fix_loop]; [apply keeps_never; intros; discriminate|].
  apply keeps_run. intros rem. destruct (_ && _).
  - eapply keeps_bind; [exact Hm|]. intros v n Hv. cbn beta in Hv. pose proof (fits_app _ _ _ _ _ Ha Hv) as Ha'. exact (IH _ _ Ha').
  - destruct (_ =? _); [apply keeps_ret; exact Ha|apply keeps_never; intros; discriminate].
Qed.
Definition fits_fields (ts : list ty) (vs : list val) (n : Z) : Prop := sum2 (held size_of 1 D) vs ts <= n <= sum2 (held size_of 2 D) vs ts.
Lemma keeps_fields m : (forall t, keeps 0 (fun v => fits v t) (m t)) -> forall ts, keeps 0 (fits_fields ts) (m_fields m ts).
Proof.
  intros Hm. induction ts as [|t ts IH]; cbn [m_fields]; [apply keeps_ret; unfold fits_fields; cbn; lia|].
  eapply keeps_bind; [apply Hm|]. intros v n Hv. cbn beta in Hv. eapply keeps_bind; [exact IH|]. intros vs n' Hvs. apply keeps_ret. unfold fits_fields, fits in *. cbn [sum2].
  lia.
Qed.
Lemma keeps_number d t : t = TN \/ t = TZ -> keeps 0 (fun v => fits v t) (m_number d).
Proof.
  intros Ht. unfold m_number. apply keeps_run. intros rem. destruct (rem <=? isize_max); [|apply keeps_never; intros; discriminate].
  apply keeps_ask, keeps_run. intros bs. apply keeps_ask, keeps_run. intros z. apply keeps_give, keeps_ret. unfold fits. destruct Ht as [->| ->]; cbn [held]; lia.
Qed.
Theorem keeps_parse f : forall t, keeps 0 (fun v => fits v t) (mparse size_of cf D f t).
Proof.
  induction f as [|f IH]; intros t; [apply keeps_never; intros; discriminate|]. cbn [mparse]. apply keeps_tick.
  destruct t; try (apply keeps_fail; intros p a p' E; unfold fits; destruct a; cbn [held]; lia).
  - apply keeps_number. auto.
  - apply keeps_number. auto.
  - apply keeps_run. intros rem. apply keeps_run. intros bs. apply keeps_ask, keeps_ret. unfold fits. cbn [held]. lia.
  - apply keeps_run. intros rem. apply keeps_run. intros bs. apply keeps_ask. cbv zeta. apply keeps_ask, keeps_give, keeps_ret. unfold fits. cbn [held].
    pose proof (lossy_ge bs). pose proof (zlen_nonneg bs). unfold byte in *. lia.
  - apply keeps_run. intros tag. destruct (tag =? 255); [eapply keeps_bind; [apply IH|]; intros v n Hv; apply keeps_ret; exact Hv|].
    destruct (tag =? 0); [apply keeps_ret; unfold fits; cbn [held]; lia|apply keeps_never; intros; discriminate].
  - apply keeps_run. intros rem. destruct (negb _); [eapply keeps_bind; [apply IH|]; intros v n Hv; apply keeps_ret; exact Hv|apply keeps_ret; unfold fits; cbn [held]; lia].
  - eapply keeps_bind; [refine (keeps_at _ _ _ _ _ (keeps_seq t _ (IH t) f 0 [] _)); [reflexivity|unfold fits_all, total; cbn; lia]|].
    intros vs n Hv. cbn beta in Hv. apply keeps_ret. unfold fits_all, total, fits in *. cbn [held]. lia.
  - apply keeps_ask. eapply keeps_bind; [apply (keeps_lim t n _ (IH t) f 0 []); unfold fits_all, total; cbn; lia|].
    intros vs k Hv. apply keeps_ret. unfold fits_all, total, fits in *. cbn [held]. lia.
  - apply keeps_ask. eapply keeps_bind; [apply (keeps_fix t n _ (IH t) f 0 []); unfold fits_all, total; cbn; lia|].
    intros vs k Hv. apply keeps_ret. unfold fits_all, total, fits in *. cbn [held]. lia.
  - apply keeps_run. intros n. apply keeps_run. intros _. eapply keeps_bind; [apply IH|]. intros v k Hv. apply keeps_run. intros _. apply keeps_ret. exact Hv.
  - do 4 (apply keeps_run; intros ?). eapply keeps_bind; [apply IH|]. intros v k Hv. apply keeps_run. intros _. apply keeps_ret. exact Hv.
  - eapply keeps_bind; [apply IH|]. intros v k Hv. apply keeps_run. intros pad. destruct (_ && _); [apply keeps_never; intros; discriminate|apply keeps_ret; exact Hv].
  - eapply keeps_bind; [apply IH|]. intros v k Hv. apply keeps_ask, keeps_ret. unfold fits in *. cbn [held]. lia.
  - destruct (nth_error D i) as [[ts|k tags|k alts]|] eqn:Ei.
    + eapply keeps_bind; [apply keeps_fields, IH|]. intros vs n Hv. apply keeps_ret. unfold fits_fields, fits in *. cbn [held]. rewrite Ei. lia.
    + apply keeps_fail. intros p a p' E. unfold fits. destruct a; cbn [held]; rewrite Ei; lia.
    + apply keeps_run. intros tag. destruct (find_tag _ _) as [ix|]; [|apply keeps_never; intros; discriminate].
      destruct (nth_error alts ix) as [[tg ts]|] eqn:Ea; [|apply keeps_never; intros; discriminate].
      eapply keeps_bind; [apply keeps_fields, IH|]. intros vs n Hv. apply keeps_ret. unfold fits_fields, fits in *. cbn [held]. rewrite Ei.
      rewrite (nth_error_nth _ _ (0, []) Ea). cbn [snd]. lia.
    + apply keeps_fail. intros p a p' E. unfold fits. destruct a; cbn [held]; rewrite Ei; lia.
Qed.
End Held.

Theorem value_memory size_of w cf D f t input v : decode_with w cf D f t input = ROk v ->
  held size_of 1 D v t <= in_use (decode_memory size_of w cf D f t input) <= held size_of 2 D v t.
Proof.
  assert (K : forall P (h : handler P) p q r, run h (parse cf D f t) p = (ROk r, q) ->
    held size_of 1 D r t <= in_use (snd (mrun h (mparse size_of cf D f t) p (mkMem 0 0))) <= held size_of 2 D r t).
  { intros P h p q r E. pose proof (same_parse h size_of cf D f t p (mkMem 0 0)) as S. pose proof (keeps_parse h size_of cf D f t p (mkMem 0 0)) as HK.
    destruct (mrun h (mparse size_of cf D f t) p (mkMem 0 0)) as [[r0 p0] u0]. cbn [fst snd] in *. rewrite E in S. injection S as -> ->.
    specialize (HK _ _ _ eq_refl). unfold fits in HK. cbn [in_use] in HK. lia. }
  destruct w; cbn [decode_with decode_memory]; unfold byte_decode, memo_decode, slice_decode, try_decode; intros H.
  all: match type of H with context [run ?h ?pg ?p] => destruct (run h pg p) as [[r|e| | |] q] eqn:E; try discriminate H end.
  all: assert (r = v) by (destruct (cf_complete cf); [|congruence]; match type of H with context [match ?c with _ => _ end] => destruct c; try discriminate H end; destruct (lo_is_empty _); congruence).
  all: subst r; eapply K; exact E.
Qed.

(** ** Slots reserved ahead of the input *)
Lemma mrun_most {P A} (h : handler P) (m : mprog A) p u : at_most u <= at_most (snd (mrun h m p u)).
Proof.
  revert p u. induction m as [a|X pg c IH|c IH|n c IH|n c IH]; intros p u; cbn [mrun]; try (cbn; lia); try apply IH.
  - destruct (run h pg p) as [[x|e| | |] p']; try (cbn; lia). apply IH.
  - etransitivity; [|apply IH]. cbn [at_most]. lia.
  - etransitivity; [|apply IH]. cbn [at_most]. lia.
Qed.
Theorem slots_reserved size_of w cf D f t n input : n * size_of t <= at_most (decode_memory size_of w cf D (S f) (TLim n t) input) /\
  n * size_of t <= at_most (decode_memory size_of w cf D (S f) (TFix n t) input).
Proof. destruct w; cbn [decode_memory mparse mrun]; split; (etransitivity; [|apply mrun_most]); cbn [at_most in_use]; lia. Qed.

Definition slots (N : Z) : ty := TSeq (TDyn PrefU8 (TLim N (TInt U8))).
Lemma zeros_format N n : format [] (VSeq (repeat (VWrap (VSeq [])) n)) (slots N) = repeat 0 n.
Proof. unfold slots. cbn [format]. induction n as [|n IH]; [reflexivity|]. cbn [repeat map concat]. rewrite IH. reflexivity. Qed.
Theorem slots_kept size_of w cf N n : 0 <= N <= isize_max -> Z.of_nat n <= isize_max -> (forall t, 0 <= size_of t) -> size_of (TInt U8) = 1 ->
  (w = WSlice -> cf_complete cf = false) ->
  exists v, decodes w cf [] (slots N) (repeat 0 n) (ROk v) /\
  exists f0, forall f, (f0 <= f)%nat -> Z.of_nat n * N <= in_use (decode_memory size_of w cf [] f (slots N) (repeat 0 n)).
Proof.
  intros HN Hn Hs H1 Hw. set (v := VSeq (repeat (VWrap (VSeq [])) n)).
  assert (Hz : zlen (repeat 0 n) = Z.of_nat n) by (unfold zlen; rewrite repeat_length; reflexivity).
  assert (HV : valid [] v (slots N) = true).
  { unfold v, slots, valid. cbn [valid_gen]. apply forallb_forall. intros x Hx. apply repeat_spec in Hx. subst x. cbn. lia. }
  assert (HW : wf_ty [] (slots N) = true). { unfold slots. cbn [wf_ty]. unfold sizeb. lia. }
  destruct (rt_all cf [] [] eq_refl eq_refl v (slots N) (Leave 0) eq_refl HW HV) as [f Hf].
  assert (HD : decodes w cf [] (slots N) (repeat 0 n) (ROk v)).
  { specialize (Hf f [] ltac:(lia)). rewrite app_nil_r in Hf. unfold v in Hf. rewrite zeros_format in Hf. fold v in Hf.
    destruct (decodes_finished w cf [] (slots N) (repeat 0 n) ltac:(unfold byte in *; lia) f v []) as (out & Hd & Hfin).
    - apply Hf; [cbn; lia|unfold byte in *; lia].
    - rewrite (finished_ok w cf v Hw out Hfin) in Hd. exact Hd. }
  exists v. split; [exact HD|]. destruct HD as [_ [f0 Hf0]]. exists f0. intros k Hk. specialize (Hf0 k Hk). apply (value_memory size_of) in Hf0.
  destruct Hf0 as [Hlow _]. refine (Z.le_trans _ _ _ _ Hlow). unfold v, slots. cbn [held].
  assert (Hsum : fold_right Z.add 0 (map (fun v => held size_of 1 [] v (TDyn PrefU8 (TLim N (TInt U8)))) (repeat (VWrap (VSeq [])) n)) = Z.of_nat n * N).
  { clear - H1. induction n as [|n IH]; [reflexivity|]. cbn [repeat map fold_right]. rewrite IH. cbn [held map fold_right]. rewrite H1. lia. }
  cbn [held] in Hsum. rewrite Hsum. pose proof (Hs (TDyn PrefU8 (TLim N (TInt U8)))) as H2.
  pose proof (pushed_room (size_of (TDyn PrefU8 (TLim N (TInt U8)))) (zlen (repeat (VWrap (VSeq [])) n)) (zlen_nonneg _)) as [H3 _].
  pose proof (zlen_nonneg (repeat (VWrap (VSeq [])) n)). nia.
Qed.
