(** Decoding does at most a fixed amount of work per byte (C75). *)
From Verif Require Import Base BaseLemmas ModelErrors ModelSplitVec ModelParser ModelInt ModelFloat ModelZarith
  ModelUtf8 ModelTarget ModelSchema SpecParser SpecCodec SpecSize SpecWork ProofInt ProofDec ProofMeta ProofHalt ProofSize.
From Coq Require Import ZifyBool.

Lemma width_pos k : 1 <= ik_len k. Proof. destruct k; cbn [ik_len]; lia. Qed.

(** ** Rules *)
Section Rules.
Context {P : Type} (h : handler P) (inv : P -> Prop) (left : P -> Z) (C : Z).
Hypothesis HC : 2 <= C.
Hypothesis Hleft : forall p, inv p -> 0 <= left p.

Lemma effort_pbind {A E} (m : prog A) (k : A -> prog E) p :
  effort h (pbind m k) p = effort h m p + match run h m p with (ROk a, p') => effort h (k a) p' | _ => 0 end.
Proof.
  revert p. induction m as [a|e| | | |X o c IH|X o c IHc f IHf]; intros p; cbn [pbind effort run]; try lia.
  - destruct (h X o p) as [[x|e| | |] p']; try lia. rewrite IH. lia.
  - destruct (h X o p) as [[x|e| | |] p']; try lia; [rewrite IHc|rewrite IHf]; lia.
Qed.
Lemma effort_nonneg {A} (m : prog A) p : (forall X (o : pop X) x, 0 <= handed o x) -> 0 <= effort h m p.
Proof.
  intros Hh. revert p. induction m as [a|e| | | |X o c IH|X o c IHc f IHf]; intros p; cbn [effort]; try lia.
  - destruct (h X o p) as [[x|e| | |] p']; try lia. specialize (IH x p'). specialize (Hh X o x). lia.
  - destruct (h X o p) as [[x|e| | |] p']; try lia; [specialize (IHc x p'); specialize (Hh X o x)|specialize (IHf p')]; lia.
Qed.

(** [s] and [C] per byte used are enough for a success, [u] and [C] per byte there is for any outcome. *)
Definition spends {A} (Q : A -> Prop) (s u : Z) (pg : prog A) : Prop := forall p, inv p ->
  effort h pg p <= u + C * left p /\
  (forall a p', run h pg p = (ROk a, p') -> Q a /\ inv p' /\ effort h pg p <= s + C * (left p - left p')).

Lemma spends_weaken {A} (Q Q' : A -> Prop) s s' u u' pg : spends Q s u pg -> (forall a, Q a -> Q' a) -> s <= s' -> u <= u' -> spends Q' s' u' pg.
Proof.
  intros H HQ Hs Hu p Hi. destruct (H p Hi) as [H1 H2]. split; [lia|]. intros a p' E. destruct (H2 a p' E) as (HQ1 & Hi' & He). auto with zarith.
Qed.
Lemma spends_ret {A} (Q : A -> Prop) a : Q a -> spends Q 0 0 (PRet a).
Proof. intros HQ p Hi. pose proof (Hleft p Hi). cbn [effort run]. split; [nia|]. intros a' p' E. injection E as <- <-. split; [exact HQ|split; [exact Hi|lia]]. Qed.
Lemma spends_stop {A} (Q : A -> Prop) s (pg : prog A) : match pg with PErr _ | PPanic | PUB | PDiv => True | _ => False end -> spends Q s 0 pg.
Proof. intros HP p Hi. pose proof (Hleft p Hi). destruct pg; try destruct HP; cbn [effort run]; (split; [nia|discriminate]). Qed.
Lemma spends_lift {A} (Q : A -> Prop) (r : pres A) : (forall a, r = ROk a -> Q a) -> spends Q 0 0 (plift r).
Proof. intros HQ. destruct r; cbn [plift]; try (apply spends_stop; exact Logic.I). apply spends_ret. auto. Qed.
Lemma spends_bind {A E} (Q : A -> Prop) (Q' : E -> Prop) s1 u1 s2 u2 s u (pg : prog A) (k : A -> prog E) :
  spends Q s1 u1 pg -> (forall a, Q a -> spends Q' s2 u2 (k a)) -> s1 + s2 <= s -> u1 <= u -> s1 + u2 <= u -> spends Q' s u (pbind pg k).
Proof.
  intros H Hk Hs Hu1 Hu2 p Hi. destruct (H p Hi) as [H1 H2]. rewrite effort_pbind, run_pbind.
  destruct (run h pg p) as [[a|e| | |] p1]; [|split; [lia|discriminate]..].
  destruct (H2 a p1 eq_refl) as (HQ & Hi1 & He). destruct (Hk a HQ p1 Hi1) as [K1 K2]. split; [lia|].
  intros b p2 E2. destruct (K2 b p2 E2) as (HQ' & Hi2 & He2). split; [exact HQ'|split; [exact Hi2|lia]].
Qed.
(** What follows may be cheap in itself. *)
Definition costs {A} (c : Z) (pg : prog A) : Prop := forall p, effort h pg p <= c.
Lemma spends_bind_any {A E} (Q : A -> Prop) (Q' : E -> Prop) s1 u1 s2 u2 c s u (pg : prog A) (k : A -> prog E) :
  spends Q s1 u1 pg -> (forall a, Q a -> spends Q' s2 u2 (k a)) -> (forall a, costs c (k a)) -> 0 <= c ->
  s1 + s2 <= s -> u1 + c <= u -> spends Q' s u (pbind pg k).
Proof.
  intros H Hk Hc Hc0 Hs Hu p Hi. destruct (H p Hi) as [H1 H2]. rewrite effort_pbind, run_pbind.
  destruct (run h pg p) as [[a|e| | |] p1]; [|split; [lia|discriminate]..].
  destruct (H2 a p1 eq_refl) as (HQ & Hi1 & He). destruct (Hk a HQ p1 Hi1) as [K1 K2]. split; [specialize (Hc a p1); lia|].
  intros b p2 E2. destruct (K2 b p2 E2) as (HQ' & Hi2 & He2). split; [exact HQ'|split; [exact Hi2|lia]].
Qed.
Lemma costs_0 {A} (pg : prog A) : match pg with POp _ _ | PTry _ _ _ => False | _ => True end -> costs 0 pg.
Proof. intros H p. destruct pg; try destruct H; cbn [effort]; lia. Qed.
Lemma spends_op {X : Set} (Q : X -> Prop) s (o : pop X) :
  (forall p x p', inv p -> h X o p = (ROk x, p') -> Q x /\ inv p' /\ 1 + handed o x <= s + C * (left p - left p') /\ handed o x <= left p - left p') ->
  spends Q s 1 (do_op o).
Proof.
  intros H p Hi. unfold do_op. cbn [effort run]. pose proof (Hleft p Hi) as H0. destruct (h X o p) as [[x|e| | |] p1] eqn:E; [|split; [nia|discriminate]..].
  destruct (H p x p1 Hi E) as (HQ & Hi1 & He & Hl). cbn [effort]. pose proof (Hleft p1 Hi1). split; [nia|].
  intros a p2 E2. injection E2 as <- <-. split; [exact HQ|split; [exact Hi1|lia]].
Qed.

Hypothesis Hrem : forall p x p', inv p -> h Z OpRemainder p = (ROk x, p') -> 0 <= x /\ inv p' /\ left p' = left p.
Hypothesis Hbyte : forall p x p', inv p -> h byte OpConsumeByte p = (ROk x, p') -> inv p' /\ left p' <= left p - 1.
Hypothesis Hcons : forall p n x p', inv p -> 0 <= n -> h (list byte) (OpConsume n) p = (ROk x, p') ->
  inv p' /\ zlen x <= left p - left p' /\ (n <= isize_max -> left p' <= left p - n).
Hypothesis Hfit : forall p n x p', inv p -> 0 <= n -> h unit (OpSetFit n) p = (ROk x, p') -> inv p' /\ left p' = left p.
Hypothesis Hclose : forall p x p', inv p -> h unit OpEnforceTarget p = (ROk x, p') -> inv p' /\ left p' = left p.

Lemma spends_rem : spends (fun r => 0 <= r) 1 1 p_remainder.
Proof. apply spends_op. intros p x p' Hi E. destruct (Hrem p x p' Hi E) as (H0 & Hi' & El). cbn [handed]. repeat split; try assumption; rewrite El; lia. Qed.
Lemma spends_byte : spends (fun _ => True) (2 - C) 1 p_consume_byte.
Proof. apply spends_op. intros p x p' Hi E. destruct (Hbyte p x p' Hi E) as (Hi' & El). cbn [handed]. repeat split; try assumption; nia. Qed.
Lemma spends_consume n : 0 <= n -> spends (fun _ => True) 1 1 (p_consume n).
Proof. intros Hn. apply spends_op. intros p x p' Hi E. destruct (Hcons p n x p' Hi Hn E) as (Hi' & El & _). cbn [handed]. pose proof (zlen_nonneg x). repeat split; try assumption; nia. Qed.
Lemma spends_consume_n n : 0 <= n <= isize_max -> spends (fun _ => True) (1 + n - C * n) 1 (p_consume n).
Proof.
  intros Hn. apply spends_op. intros p x p' Hi E. destruct (Hcons p n x p' Hi ltac:(lia) E) as (Hi' & El & El2). specialize (El2 ltac:(lia)).
  cbn [handed]. repeat split; try assumption; nia.
Qed.
Lemma spends_fit n : 0 <= n -> spends (fun _ => True) 1 1 (p_set_fit n).
Proof. intros Hn. apply spends_op. intros p x p' Hi E. destruct (Hfit p n x p' Hi Hn E) as (Hi' & El). cbn [handed]. repeat split; try assumption; rewrite El; lia. Qed.
Lemma spends_close : spends (fun _ => True) 1 1 p_enforce_target.
Proof. apply spends_op. intros p x p' Hi E. destruct (Hclose p x p' Hi E) as (Hi' & El). cbn [handed]. repeat split; try assumption; rewrite El; lia. Qed.

Lemma spends_fixed n : 0 <= n <= isize_max -> spends (fun _ => True) (1 + n - C * n) 1 (p_take_fixed n).
Proof.
  intros Hn. unfold p_take_fixed, p_consume_arr. eapply (spends_bind _ _ _ _ 0 0); [apply spends_consume_n; exact Hn| |nia..].
  intros a _. apply spends_lift; auto.
Qed.
Lemma spends_int k : spends (fun z => ik_in k z = true) (1 + ik_len k - C * ik_len k) 1 (p_int k).
Proof.
  assert (Hk : 1 <= ik_len k <= isize_max) by (destruct k; vm_compute; split; discriminate).
  unfold p_int. eapply (spends_bind _ _ _ _ 0 0); [apply spends_fixed; lia| |nia..]. intros a _. apply spends_ret, from_be_bytes_in.
Qed.
Lemma int_gain k : 1 + ik_len k - C * ik_len k <= 2 - C.
Proof. destruct k; cbn [ik_len]; lia. Qed.
Lemma spends_tag k tags : spends (fun _ => True) (1 + ik_len k - C * ik_len k) 1 (p_take_tagword k tags).
Proof.
  pose proof (int_gain k). unfold p_take_tagword. eapply (spends_bind _ _ _ _ 0 0); [apply spends_int| |lia..]. intros a _.
  destruct (existsb _ _); [apply spends_ret; exact Logic.I|]. destruct tags; apply spends_stop; exact Logic.I.
Qed.
Lemma spends_ranged cf k lo hi : spends (fun _ => True) (1 + ik_len k - C * ik_len k) 1 (p_ranged cf k lo hi).
Proof. pose proof (int_gain k). unfold p_ranged. eapply (spends_bind _ _ _ _ 0 0); [apply spends_int| |lia..]. intros a _. apply spends_lift; auto. Qed.
Lemma spends_pref cf s : spends (fun n => 0 <= n) (1 + pref_len s - C * pref_len s) 1 (p_pref cf s).
Proof.
  destruct s; cbn [p_pref pref_len].
  - eapply spends_weaken; [apply (spends_int U8)| |cbn [ik_len]; lia..]. intros a Ha. apply andb_prop in Ha. destruct Ha as [Ha _]. change (ik_min U8) with 0 in Ha. lia.
  - eapply spends_weaken; [apply (spends_int U16)| |cbn [ik_len]; lia..]. intros a Ha. apply andb_prop in Ha. destruct Ha as [Ha _]. change (ik_min U16) with 0 in Ha. lia.
  - eapply (spends_bind _ _ _ _ 0 0); [apply spends_ranged| |cbn [ik_len]; lia..]. intros a _. apply spends_ret. unfold ri_into.
    pose proof (ik_wrap_in U64 a) as Ha. apply andb_prop in Ha. destruct Ha as [Ha _]. change (ik_min U64) with 0 in Ha. lia.
Qed.
Lemma spends_st_loop term fl : forall ret, spends (fun _ => True) (2 - C) 1 (p_self_terminating_loop fl term ret).
Proof.
  induction fl as [|fl IH]; intros ret; cbn [p_self_terminating_loop].
  { apply (spends_weaken (fun _ => True) _ (2 - C) _ 0); [apply spends_stop; exact Logic.I|auto|lia..]. }
  intros p Hi. pose proof (Hleft p Hi) as H0. cbn [effort run]. destruct (h byte OpConsumeByte p) as [[b|e| | |] p1] eqn:E; try (split; [nia|discriminate]).
  destruct (Hbyte p b p1 Hi E) as [Hi1 Hl]. pose proof (Hleft p1 Hi1). cbn [handed]. destruct (term b).
  - cbn [effort run]. split; [nia|]. intros a p2 E2. injection E2 as <- <-. split; [exact Logic.I|split; [exact Hi1|nia]].
  - destruct (IH (ret ++ [b]) p1 Hi1) as [K1 K2]. split; [nia|]. intros a p2 E2. destruct (K2 a p2 E2) as (_ & Hi2 & He). split; [exact Logic.I|split; [exact Hi2|nia]].
Qed.
Lemma spends_st term : spends (fun _ => True) (3 - C) 2 (p_take_self_terminating term).
Proof. unfold p_take_self_terminating. eapply spends_bind; [apply spends_rem| |..]; [intros a _; destruct (a <=? isize_max); [apply spends_st_loop|apply (spends_weaken (fun _ => True) _ (2 - C) _ 0); [apply spends_stop; exact Logic.I|auto|lia..]]|lia..]. Qed.

(** ** Loops *)
Notation T := (fun _ => True).
Lemma spends_seq s u (pe : prog val) : spends T s u pe -> 1 + s <= 0 -> forall fl acc, spends T 1 (1 + Z.max 0 u) (p_seq_loop fl pe acc).
Proof.
  intros He Hs. induction fl as [|fl IH]; intros acc; cbn [p_seq_loop].
  { apply (spends_weaken T _ 1 _ 0); [apply spends_stop; exact Logic.I|auto|lia..]. }
  eapply (spends_bind _ _ 1 1 0 (Z.max 0 u)); [apply spends_rem| |lia..]. intros rem _. destruct (rem =? 0).
  - eapply spends_weaken; [apply (spends_ret T); exact Logic.I|auto|lia..].
  - eapply (spends_bind _ _ s u); [exact He| |..]; [intros v _; apply IH|lia..].
Qed.
Lemma spends_lim s u n (pe : prog val) : spends T s u pe -> forall fl k acc, 0 <= k -> n - zlen acc <= k ->
  spends T (1 + k * Z.max 0 (1 + s)) (1 + k * Z.max 0 (1 + s) + Z.max 0 u) (p_lim_loop fl n pe acc).
Proof.
  intros He. set (M := Z.max 0 (1 + s)). assert (HM : 0 <= M /\ 1 + s <= M) by lia. clearbody M.
  induction fl as [|fl IH]; intros k acc Hk Ha; cbn [p_lim_loop].
  { apply (spends_weaken T _ (1 + k * M) _ 0); [apply spends_stop; exact Logic.I|auto|nia..]. }
  eapply (spends_bind _ _ 1 1 (k * M) (k * M + Z.max 0 u)); [apply spends_rem| |nia..].
  intros rem _. destruct (rem =? 0); [eapply spends_weaken; [apply (spends_ret T); exact Logic.I|auto|nia..]|].
  unfold try_push. destruct (Z.ltb_spec (zlen acc) n).
  - cbn [ext_len plift pbind]. eapply (spends_bind _ _ s u); [exact He| |..]; [intros v _; apply (IH (k - 1)); [lia|]|nia..].
    rewrite zlen_app. change (zlen [v]) with 1. lia.
  - cbn [ext_len plift pbind]. eapply (spends_bind_any _ _ s u (k * M - s) 0 0); [exact He|intros v _; apply spends_stop; exact Logic.I|intros v; apply costs_0; exact Logic.I|nia..].
Qed.
Lemma spends_fix s u n (pe : prog val) : spends T s u pe -> forall fl k acc, 0 <= k -> n - zlen acc <= k ->
  spends T (1 + k * Z.max 0 (1 + s)) (1 + k * Z.max 0 (1 + s) + Z.max 0 u) (p_fix_loop fl n pe acc).
Proof.
  intros He. set (M := Z.max 0 (1 + s)). assert (HM : 0 <= M /\ 1 + s <= M) by lia. clearbody M.
  induction fl as [|fl IH]; intros k acc Hk Ha; cbn [p_fix_loop].
  { apply (spends_weaken T _ (1 + k * M) _ 0); [apply spends_stop; exact Logic.I|auto|nia..]. }
  eapply (spends_bind _ _ 1 1 (k * M) (k * M + Z.max 0 u)); [apply spends_rem| |nia..].
  intros rem _. destruct (Z.ltb_spec (zlen acc) n).
  - destruct (negb _); cbn [andb].
    + eapply (spends_bind _ _ s u); [exact He| |..]; [intros v _; apply (IH (k - 1)); [lia|]|nia..].
      rewrite zlen_app. change (zlen [v]) with 1. lia.
    + destruct (_ =? _); [eapply spends_weaken; [apply (spends_ret T); exact Logic.I|auto|nia..]|].
      apply (spends_weaken T _ (k * M) _ 0); [apply spends_stop; exact Logic.I|auto|nia..].
  - rewrite andb_false_r. destruct (_ =? _); [eapply spends_weaken; [apply (spends_ret T); exact Logic.I|auto|nia..]|].
    apply (spends_weaken T _ (k * M) _ 0); [apply spends_stop; exact Logic.I|auto|nia..].
Qed.
(** Every element of a FixSeq is read when it succeeds, so a negative cost counts [n] times. *)
Lemma spends_fix_all s u n (pe : prog val) : spends T s u pe -> 1 + s <= 0 -> forall fl k acc, 0 <= k -> n - zlen acc = k ->
  spends T (1 + k * (1 + s)) (1 + Z.max 0 u) (p_fix_loop fl n pe acc).
Proof.
  intros He Hs. induction fl as [|fl IH]; intros k acc Hk Ha; cbn [p_fix_loop].
  { apply (spends_weaken T _ (1 + k * (1 + s)) _ 0); [apply spends_stop; exact Logic.I|auto|lia..]. }
  eapply (spends_bind _ _ 1 1 (k * (1 + s)) (Z.max 0 u)); [apply spends_rem| |lia..].
  intros rem _. destruct (Z.ltb_spec (zlen acc) n).
  - destruct (negb _); cbn [andb].
    + eapply (spends_bind _ _ s u); [exact He| |..]; [intros v _; apply (IH (k - 1)); [lia|]|nia..].
      rewrite zlen_app. change (zlen [v]) with 1. lia.
    + replace (zlen acc =? n) with false by lia. apply (spends_weaken T _ (k * (1 + s)) _ 0); [apply spends_stop; exact Logic.I|auto|lia..].
  - rewrite andb_false_r. replace k with 0 by lia. destruct (_ =? _); [eapply spends_weaken; [apply (spends_ret T); exact Logic.I|auto|lia..]|].
    apply (spends_weaken T _ 0 _ 0); [apply spends_stop; exact Logic.I|auto|lia..].
Qed.

(** ** Types *)
Section Types.
Variables (B : Z) (A F : list Z) (cf : config) (D : list def).
Hypothesis HC3 : C = 3 * B + 1.
Hypothesis HD : wf_defs D = true.
Hypothesis HL : linear B A D = true.
Hypothesis HF : bounded B A F D = true.

Lemma combine_in {X Y} (l : list X) (l' : list Y) i x y : nth_error l i = Some x -> nth_error l' i = Some y -> In (x, y) (combine l l').
Proof.
  revert l l'. induction i as [|i IH]; intros [|x0 l] [|y0 l'] Hx Hy; cbn [nth_error combine In] in *; try discriminate.
  - injection Hx as ->. injection Hy as ->. left; reflexivity.
  - right. eapply IH; eassumption.
Qed.
Lemma nth_some {X} (l : list X) i : (i < length l)%nat -> exists x, nth_error l i = Some x.
Proof. intros H. destruct (nth_error l i) as [x|] eqn:E; [eauto|]. apply nth_error_None in E. lia. Qed.
Lemma lengths : length A = length D /\ length F = length D.
Proof. unfold linear in HL. unfold bounded in HF. unfold zlen in *. split; lia. Qed.
Lemma bounded_def i d : nth_error D i = Some d -> tries_def B A F d (nth i F 0) = true /\ nth i A 0 <= nth i F 0.
Proof.
  intros Hi. destruct lengths as [L1 L2]. assert (Hlt : (i < length D)%nat) by (apply nth_error_Some; congruence).
  destruct (nth_some F i ltac:(lia)) as [f Hf]. destruct (nth_some A i ltac:(lia)) as [a Ha].
  rewrite (nth_error_nth _ _ 0 Hf), (nth_error_nth _ _ 0 Ha). unfold bounded in HF. apply andb_prop in HF. destruct HF as [HF1 HF2].
  apply andb_prop in HF1. destruct HF1 as [_ HF1]. rewrite forallb_forall in HF1, HF2. split.
  - exact (HF2 _ (combine_in _ _ _ _ _ Hi Hf)).
  - specialize (HF1 _ (combine_in _ _ _ _ _ Ha Hf)). cbn [fst snd] in HF1. lia.
Qed.
Notation base := (base B A).
Notation tries := (tries B A F).
Lemma tries_pos t : wf_ty D t = true -> 1 <= tries t.
Proof.
  induction t; cbn [wf_ty SpecWork.tries]; intros HW; unfold sizeb in HW; try lia.
  all: try (apply andb_prop in HW; destruct HW as [Hn HW]; specialize (IHt HW); nia).
  destruct (nth_some D i ltac:(lia)) as [d Hd]. destruct (bounded_def i d Hd) as [Ht _]. unfold tries_def in Ht. lia.
Qed.
Lemma base_tries t : wf_ty D t = true -> base t <= tries t.
Proof.
  pose proof (linear_B B A D HL) as HB.
  induction t; cbn [wf_ty SpecWork.tries SpecSize.base]; intros HW; unfold sizeb in HW; try lia.
  all: try (destruct k; cbn [ik_len]; lia).
  all: try nia.
  all: try (pose proof (tries_pos t HW); specialize (IHt HW); lia).
  all: try (apply andb_prop in HW; destruct HW as [Hn HW]; pose proof (tries_pos t HW); specialize (IHt HW); nia).
  destruct (nth_some D i ltac:(lia)) as [d Hd]. exact (proj2 (bounded_def i d Hd)).
Qed.

Lemma spends_fields f : (forall t, wf_ty D t = true -> pays B A t = true -> spends T (3 * base t - 1) (3 * tries t - 1) (parse cf D f t)) ->
  forall ts, forallb (wf_ty D) ts = true -> forallb (pays B A) ts = true ->
  spends T (3 * bases B A ts) (3 * tries_fields B A F ts) (p_fields (parse cf D f) ts).
Proof.
  intros He. unfold bases. induction ts as [|t ts IH]; intros HW HP; cbn [p_fields tries_fields map fold_right]; [apply spends_ret; exact Logic.I|].
  cbn [forallb] in HW, HP. apply andb_prop in HW, HP. destruct HW as [HW1 HW2]. destruct HP as [HP1 HP2].
  eapply spends_bind; [apply He; assumption| |..].
  - intros v _. eapply (spends_bind_any _ _ _ _ 0 0 0); [apply IH; assumption|intros vs _; apply spends_ret; exact Logic.I|intros vs; apply costs_0; exact Logic.I|lia|apply Z.le_refl|apply Z.le_refl].
  - lia.
  - lia.
  - lia.
Qed.

Lemma ret_after {X Y} s u (pg : prog X) (g : X -> Y) : spends T s u pg -> spends T s u (pbind pg (fun v => PRet (g v))).
Proof.
  intros H. eapply (spends_bind_any _ _ _ _ 0 0 0); [exact H|intros v _; apply spends_ret; exact Logic.I|intros v; apply costs_0; exact Logic.I|lia..].
Qed.

Lemma spends_parse f : forall t, wf_ty D t = true -> pays B A t = true -> spends T (3 * base t - 1) (3 * tries t - 1) (parse cf D f t).
Proof.
  pose proof (linear_B B A D HL) as HB.
  induction f as [|f IH]; intros t HW HP; cbn [parse].
  { pose proof (tries_pos t HW). apply (spends_weaken T _ (3 * base t - 1) _ 0); [apply spends_stop; exact Logic.I|auto|lia..]. }
  destruct t; cbn [wf_ty pays SpecSize.base SpecWork.tries] in *.
  - (* unit *) eapply spends_weaken; [apply (spends_ret T); exact Logic.I|auto|lia..].
  - (* bool *) apply ret_after. unfold p_take_bool. eapply (spends_bind _ _ _ _ 0 0); [apply spends_byte| |lia..]. intros b _.
    destruct (b =? 255); [apply spends_ret; exact Logic.I|]. destruct (b =? 0); [apply spends_ret; exact Logic.I|apply spends_stop; exact Logic.I].
  - (* int *) apply ret_after. pose proof (width_pos k). eapply spends_weaken; [apply spends_int|auto|lia..].
  - apply ret_after. pose proof (width_pos k). eapply spends_weaken; [apply spends_ranged|auto|lia..].
  - apply ret_after. eapply spends_weaken; [apply spends_int|auto|cbn [ik_len]; lia..].
  - (* ranged float *) eapply (spends_bind _ _ _ _ 0 0); [apply (spends_int U64)| |cbn [ik_len]; lia..]. intros z _. apply ret_after. apply spends_lift; auto.
  - (* n *) eapply (spends_bind _ _ _ _ 0 0); [apply spends_st| |lia..]. intros bs _. apply ret_after. apply spends_lift; auto.
  - eapply (spends_bind _ _ _ _ 0 0); [apply spends_st| |lia..]. intros bs _. apply ret_after. apply spends_lift; auto.
  - (* bytes *) eapply (spends_bind _ _ _ _ 1 1); [apply spends_rem| |lia..]. intros rem Hr. apply ret_after. apply spends_consume; exact Hr.
  - eapply (spends_bind _ _ _ _ 1 1); [apply spends_rem| |lia..]. intros rem Hr. apply ret_after. apply spends_consume; exact Hr.
  - unfold sizeb in HW. apply ret_after. eapply spends_weaken; [apply spends_fixed; lia|auto|nia..].
  - unfold sizeb in HW. apply ret_after. eapply spends_weaken; [apply spends_fixed; lia|auto|nia..].
  - (* option *)
    eapply (spends_bind _ _ _ _ (Z.max 0 (3 * base t - 1)) (3 * tries t - 1)); [apply (spends_tag U8)| |cbn [ik_len]; lia..]. intros tag _.
    pose proof (tries_pos t HW). destruct (tag =? 255); [apply ret_after; eapply spends_weaken; [apply IH; assumption|auto|lia..]|].
    destruct (tag =? 0); [eapply spends_weaken; [apply (spends_ret T); exact Logic.I|auto|lia..]|].
    apply (spends_weaken T _ 0 _ 0); [apply spends_stop; exact Logic.I|auto|lia..].
  - (* nullable *)
    pose proof (tries_pos t HW). eapply (spends_bind _ _ _ _ (Z.max 0 (3 * base t - 1)) (3 * tries t - 1)); [apply spends_rem| |lia..]. intros rem _.
    destruct (negb _); [apply ret_after; eapply spends_weaken; [apply IH; assumption|auto|lia..]|].
    eapply spends_weaken; [apply (spends_ret T); exact Logic.I|auto|lia..].
  - (* seq *)
    apply andb_prop in HP. destruct HP as [Hb HP]. pose proof (tries_pos t HW). apply ret_after.
    eapply spends_weaken; [apply (spends_seq (3 * base t - 1) (3 * tries t - 1)); [apply IH; assumption|lia]|auto|lia..].
  - (* lim *)
    apply andb_prop in HW. destruct HW as [Hn HW]. unfold sizeb in Hn. pose proof (tries_pos t HW). apply ret_after.
    eapply spends_weaken; [apply (spends_lim (3 * base t - 1) (3 * tries t - 1) n) with (k := n); [apply IH; assumption|lia|change (zlen (@nil val)) with 0; lia]|auto|..]; nia.
  - (* fix *)
    apply andb_prop in HW. destruct HW as [Hn HW]. unfold sizeb in Hn. pose proof (tries_pos t HW). apply ret_after.
    destruct (Z.leb_spec (base t) 0).
    + eapply spends_weaken; [apply (spends_fix_all (3 * base t - 1) (3 * tries t - 1) n) with (k := n); [apply IH; assumption|lia|lia|change (zlen (@nil val)) with 0; lia]|auto|..]; nia.
    + eapply spends_weaken; [apply (spends_fix (3 * base t - 1) (3 * tries t - 1) n) with (k := n); [apply IH; assumption|lia|change (zlen (@nil val)) with 0; lia]|auto|..]; nia.
  - (* dynamic *)
    pose proof (tries_pos t HW). pose proof (base_tries t HW).
    eapply (spends_bind _ _ _ _ (3 * base t + 1) (3 * tries t + 1)); [apply spends_pref| |lia..]. intros n Hn.
    eapply (spends_bind _ _ _ _ (3 * base t) (3 * tries t)); [apply spends_fit; exact Hn| |lia..]. intros _ _.
    eapply (spends_bind _ _ _ _ 1 1); [apply IH; assumption| |lia..]. intros v _. apply ret_after. apply spends_close.
  - (* vpadded *)
    apply andb_prop in HW. destruct HW as [Hn HW]. unfold sizeb in Hn. pose proof (tries_pos t HW). pose proof (base_tries t HW).
    eapply (spends_bind _ _ _ _ (3 * base t + 1) (3 * tries t + 1)); [apply spends_rem| |lia..]. intros rem Hr.
    eapply (spends_bind _ _ 0 0 (3 * base t + 1) (3 * tries t + 1)); [apply (spends_lift T); auto| |lia..]. intros _ _.
    eapply (spends_bind (fun z => 0 <= z) _ 0 0 (3 * base t + 1) (3 * tries t + 1)); [apply spends_lift| |lia..].
    { intros z. unfold usub. destruct (Z.leb_spec n rem); [intros E; injection E as <-; lia|]. destruct (cf_mode cf); [discriminate|].
      intros E. injection E as <-. apply Z.mod_pos_bound. reflexivity. }
    intros win Hw.
    eapply (spends_bind _ _ _ _ (3 * base t) (3 * tries t)); [apply spends_fit; exact Hw| |lia..]. intros _ _.
    eapply (spends_bind _ _ _ _ 1 1); [apply IH; assumption| |lia..]. intros v _. apply ret_after. apply spends_close.
  - (* padded *)
    apply andb_prop in HW. destruct HW as [Hn HW]. unfold sizeb in Hn. pose proof (tries_pos t HW). pose proof (base_tries t HW).
    eapply (spends_bind _ _ _ _ (1 + n - C * n) 1); [apply IH; assumption| |nia..]. intros v _.
    eapply (spends_bind_any _ _ _ _ 0 0 0); [apply spends_consume_n; lia| | |lia..].
    + intros pad _. destruct (cf_check_padding cf && _); [apply spends_stop; exact Logic.I|apply spends_ret; exact Logic.I].
    + intros pad. destruct (cf_check_padding cf && _); apply costs_0; exact Logic.I.
  - (* box *) apply ret_after. eapply spends_weaken; [apply IH; assumption|auto|lia..].
  - (* named *)
    destruct (nth_error D i) as [d|] eqn:Ei.
    2: { apply nth_error_None in Ei. apply Nat.ltb_lt in HW. lia. }
    destruct (bounded_def i d Ei) as [Ht _]. pose proof (linear_def B A D HL i d Ei) as Hd. unfold tries_def in Ht. apply andb_prop in Ht. destruct Ht as [Hf1 Ht].
    destruct d as [ts|k tags|k alts]; cbn [pays_def] in Hd.
    + apply andb_prop in Hd. destruct Hd as [Hp Hd]. apply ret_after.
      eapply spends_weaken; [apply spends_fields; [exact IH|eapply wf_struct; eassumption|exact Hp]|auto|lia..].
    + pose proof (width_pos k). eapply (spends_bind _ _ _ _ 0 0); [apply spends_tag| |nia..]. intros tag _.
      destruct (find_tag tag tags); [apply spends_ret; exact Logic.I|apply spends_stop; exact Logic.I].
    + pose proof (width_pos k). rewrite forallb_forall in Ht, Hd.
      eapply (spends_bind _ _ _ _ (3 * nth i A 0 - 2 + 3 * B * ik_len k) (Z.max 0 (3 * nth i F 0 - 2 + 3 * B * ik_len k))); [apply spends_tag| |nia..]. intros tag _.
      destruct (find_tag tag (map fst alts)) as [ix|].
      2: { apply (spends_weaken T _ (3 * nth i A 0 - 2 + 3 * B * ik_len k) _ 0); [apply spends_stop; exact Logic.I|auto|lia..]. }
      destruct (nth_error alts ix) as [[tg ts]|] eqn:Ea.
      2: { apply (spends_weaken T _ (3 * nth i A 0 - 2 + 3 * B * ik_len k) _ 0); [apply spends_stop; exact Logic.I|auto|lia..]. }
      specialize (Hd _ (nth_error_In _ _ Ea)). specialize (Ht _ (nth_error_In _ _ Ea)). cbn [snd] in Hd, Ht.
      apply andb_prop in Hd. destruct Hd as [Hp Hd]. apply ret_after.
      eapply spends_weaken; [apply spends_fields; [exact IH|exact (wf_data D i k alts ix tg ts HD Ei Ea)|exact Hp]|auto|nia..].
Qed.
End Types.
End Rules.

(** ** The parsers *)
Definition off_inv (len : Z) (o : context_offset) : Prop := 0 <= co_cur o <= len /\ len <= isize_max.
Lemma uadd_cases {E} m a b s : @uadd E m a b = ROk s -> s = a + b \/ s = (a + b) mod usize_mod.
Proof. unfold uadd. destruct (a + b <? usize_mod); [intros E1; injection E1 as <-; left; reflexivity|]. destruct m; [discriminate|]. intros E1; injection E1 as <-. right; reflexivity. Qed.
Lemma advance_cases {E} m n o ret adv o' : @co_advance E m n o = ROk (ret, adv, o') ->
  ret = co_cur o /\ if adv : bool then @uadd E m (co_cur o) n = ROk (co_cur o') else o' = o.
Proof.
  unfold co_advance, increment_checked. destruct (uadd m (co_cur o) n) as [s| | | |] eqn:Es; try discriminate. cbn [rbind].
  destruct (s <=? co_limit o); cbn [rbind rmap]; intros H; injection H as <- <- <-; cbn [co_cur]; split; try reflexivity. destruct o; reflexivity.
Qed.
Lemma sub_mod_range a n : 0 <= a <= isize_max -> 0 <= n -> a <= (a + n) mod usize_mod -> n <= isize_max -> (a + n) mod usize_mod = a + n.
Proof. intros Ha Hn _ Hn2. apply Z.mod_small. split; [lia|]. unfold isize_max, usize_mod in *. lia. Qed.
Lemma slice_cases {E} m ix n buf bs : @vb_get_slice_unchecked E m ix n buf = ROk bs -> 0 <= ix <= isize_max -> 0 <= n ->
  exists e, @uadd E m ix n = ROk e /\ ix <= e <= zlen buf /\ zlen bs = e - ix /\ (n <= isize_max -> e = ix + n).
Proof.
  intros H Hix Hn. unfold vb_get_slice_unchecked in H. destruct (uadd m ix n) as [e| | | |] eqn:Ee; try discriminate H. cbn [rbind] in H.
  destruct (Z.leb_spec ix e); [|discriminate H]. destruct (Z.leb_spec e (zlen buf)); [|discriminate H]. cbn [andb] in H. injection H as <-.
  exists e. split; [reflexivity|]. split; [lia|]. split; [rewrite zlen_zslice; lia|]. intros Hn2.
  destruct (uadd_cases _ _ _ _ Ee) as [->| ->]; [reflexivity|]. apply sub_mod_range; lia.
Qed.
Lemma usub_nonneg {E} m a b s : @usub E m a b = ROk s -> 0 <= s.
Proof.
  unfold usub. destruct (Z.leb_spec b a); [intros E1; injection E1 as <-; lia|]. destruct m; [discriminate|]. intros E1. injection E1 as <-.
  apply Z.mod_pos_bound. reflexivity.
Qed.
Lemma set_fit_cur m n o r o' : co_set_fit m n o = (ROk r, o') -> co_cur o' = co_cur o.
Proof.
  unfold co_set_fit. destruct (uadd m (co_index o) n) as [s| | | |]; try discriminate. destruct (co_abs o <? s).
  - destruct (usub m (co_abs o) n); cbn [rbind]; discriminate.
  - destruct (fs_push_frame s (co_frames o)); try discriminate. intros H; injection H as _ <-. reflexivity.
Qed.
Lemma close_cur o r o' : co_enforce_target o = (ROk r, o') -> co_cur o' = co_cur o.
Proof.
  unfold co_enforce_target. destruct (co_frames o) as [|tgt fs]; [discriminate|]. destruct (tgt ?= co_index o); try discriminate.
  intros H; injection H as _ <-. reflexivity.
Qed.
Lemma byte_cases {E} ix buf b : @vb_get_byte E ix buf = ROk b -> 0 <= ix -> ix + 1 <= zlen buf.
Proof.
  unfold vb_get_byte, vb_get_byte_unchecked. unfold rassert. destruct (ix <=? zlen buf); [|discriminate]. cbn [rbind].
  destruct (nth_error buf (Z.to_nat ix)) eqn:En; [|discriminate]. intros _ H. assert (Hn : (Z.to_nat ix < length buf)%nat) by (apply nth_error_Some; congruence).
  unfold zlen. lia.
Qed.
Lemma step_one {E} m a s : 0 <= a <= isize_max -> @uadd E m a 1 = ROk s -> s = a + 1.
Proof. intros Ha H. destruct (uadd_cases _ _ _ _ H) as [->| ->]; [reflexivity|]. apply Z.mod_small. unfold isize_max, usize_mod in *. lia. Qed.

Section Certified.
Variables (B : Z) (A F : list Z) (cf : config) (D : list def) (t : ty).
Hypothesis HD : wf_defs D = true.
Hypothesis HW : wf_ty D t = true.
Hypothesis HL : linear B A D = true.
Hypothesis HP : pays B A t = true.
Hypothesis HF : bounded B A F D = true.

Lemma byte_effort f input : zlen input <= isize_max ->
  effort (byte_h (cf_mode cf)) (parse cf D f t) (bp_from_buffer input) <= 3 * tries B A F t - 1 + (3 * B + 1) * zlen input.
Proof.
  intros Hl. pose proof (linear_B B A D HL) as HB. set (m := cf_mode cf).
  pose (inv := fun p : byte_parser => off_inv (zlen (bp_buf p)) (bp_off p)). pose (left := fun p : byte_parser => zlen (bp_buf p) - co_cur (bp_off p)).
  assert (Hi : inv (bp_from_buffer input)) by (unfold inv, off_inv; cbn [bp_from_buffer bp_buf bp_off co_with_limit co_cur]; pose proof (zlen_nonneg input); lia).
  replace (zlen input) with (left (bp_from_buffer input)) by (unfold left; cbn [bp_from_buffer bp_buf bp_off co_with_limit co_cur]; lia).
  refine (proj1 (spends_parse (byte_h m) inv left (3 * B + 1) ltac:(lia) _ _ _ _ _ _ B A F cf D eq_refl HD HL HF f t HW HP (bp_from_buffer input) Hi)).
  - intros p H. unfold inv, off_inv in H. unfold left. lia.
  - intros p x p' H E. cbn [byte_h] in E. injection E as Ex <-. split; [eapply usub_nonneg; exact Ex|auto].
  - intros p x p' [H1 H2] E. cbn [byte_h] in E. unfold bp_consume_byte in E. destruct (co_advance m 1 (bp_off p)) as [[[ix adv] o]| | | |] eqn:Ea; try discriminate E.
    apply advance_cases in Ea. destruct Ea as [-> Ea]. destruct adv; [|discriminate E]. injection E as Ex <-. apply byte_cases in Ex; [|lia].
    apply step_one in Ea; [|lia]. unfold inv, left, off_inv. cbn [bp_buf bp_off]. lia.
  - intros p n x p' [H1 H2] Hn E. cbn [byte_h] in E. unfold bp_consume in E. destruct (co_advance m n (bp_off p)) as [[[ix adv] o]| | | |] eqn:Ea; try discriminate E.
    apply advance_cases in Ea. destruct Ea as [-> Ea]. destruct adv; [|discriminate E]. injection E as Ex <-. apply slice_cases in Ex; [|lia..].
    destruct Ex as (e & Ee & He & Hz & Hsm). rewrite Ea in Ee. injection Ee as Ee. unfold inv, left, off_inv. cbn [bp_buf bp_off]. rewrite Ee. lia.
  - intros p n x p' H Hn E. cbn [byte_h] in E. unfold bp_set_fit in E. destruct (co_set_fit m n (bp_off p)) as [r o] eqn:Es. injection E as -> <-.
    apply set_fit_cur in Es. unfold inv, left, off_inv in *. cbn [bp_buf bp_off]. rewrite Es. auto.
  - intros p x p' H E. cbn [byte_h] in E. unfold bp_enforce_target in E. destruct (co_enforce_target (bp_off p)) as [r o] eqn:Es. injection E as -> <-.
    apply close_cur in Es. unfold inv, left, off_inv in *. cbn [bp_buf bp_off]. rewrite Es. auto.
Qed.
Lemma memo_effort f input : zlen input <= isize_max ->
  effort (memo_h (cf_mode cf)) (parse cf D f t) (mp_from_buffer input) <= 3 * tries B A F t - 1 + (3 * B + 1) * zlen input.
Proof.
  intros Hl. pose proof (linear_B B A D HL) as HB. set (m := cf_mode cf).
  pose (inv := fun p : memo_parser => off_inv (zlen (mp_buf p)) (mp_off p)). pose (left := fun p : memo_parser => zlen (mp_buf p) - co_cur (mp_off p)).
  assert (Hi : inv (mp_from_buffer input)) by (unfold inv, off_inv; cbn [mp_from_buffer mp_buf mp_off co_with_limit co_cur]; pose proof (zlen_nonneg input); lia).
  replace (zlen input) with (left (mp_from_buffer input)) by (unfold left; cbn [mp_from_buffer mp_buf mp_off co_with_limit co_cur]; lia).
  refine (proj1 (spends_parse (memo_h m) inv left (3 * B + 1) ltac:(lia) _ _ _ _ _ _ B A F cf D eq_refl HD HL HF f t HW HP (mp_from_buffer input) Hi)).
  - intros p H. unfold inv, off_inv in H. unfold left. lia.
  - intros p x p' H E. cbn [memo_h] in E. injection E as Ex <-. split; [eapply usub_nonneg; exact Ex|auto].
  - intros p x p' [H1 H2] E. cbn [memo_h] in E. unfold mp_consume_byte in E. destruct (co_advance m 1 (mp_off p)) as [[[ix adv] o]| | | |] eqn:Ea; try discriminate E.
    apply advance_cases in Ea. destruct Ea as [-> Ea]. destruct adv; [|destruct (mp_dump m _); discriminate E]. injection E as Ex <-. apply byte_cases in Ex; [|lia].
    apply step_one in Ea; [|lia]. unfold inv, left, off_inv. cbn [mp_buf mp_off]. lia.
  - intros p n x p' [H1 H2] Hn E. cbn [memo_h] in E. unfold mp_consume in E. destruct (co_advance m n (mp_off p)) as [[[ix adv] o]| | | |] eqn:Ea; try discriminate E.
    apply advance_cases in Ea. destruct Ea as [-> Ea]. destruct adv; [|destruct (mp_dump m _); discriminate E]. injection E as Ex <-. apply slice_cases in Ex; [|lia..].
    destruct Ex as (e & Ee & He & Hz & Hsm). rewrite Ea in Ee. injection Ee as Ee. unfold inv, left, off_inv. cbn [mp_buf mp_off]. rewrite Ee. lia.
  - intros p n x p' H Hn E. cbn [memo_h] in E. unfold mp_set_fit in E. destruct (co_set_fit m n (mp_off p)) as [r o] eqn:Es. injection E as -> <-.
    apply set_fit_cur in Es. unfold inv, left, off_inv in *. cbn [mp_buf mp_off]. rewrite Es. auto.
  - intros p x p' H E. cbn [memo_h] in E. unfold mp_enforce_target in E. destruct (co_enforce_target (mp_off p)) as [r o] eqn:Es. injection E as -> <-.
    apply close_cur in Es. unfold inv, left, off_inv in *. cbn [mp_buf mp_off]. rewrite Es. auto.
Qed.
Definition in_frames (p : slice_parser) : Z := fold_right Z.add 0 (map zlen p).
Lemma slice_effort f input :
  effort slice_h (parse cf D f t) (sp_from_buffer input) <= 3 * tries B A F t - 1 + (3 * B + 1) * zlen input.
Proof.
  pose proof (linear_B B A D HL) as HB.
  replace (zlen input) with (in_frames (sp_from_buffer input)) by (unfold in_frames, sp_from_buffer; cbn [map fold_right]; lia).
  refine (proj1 (spends_parse slice_h (fun _ => True) in_frames (3 * B + 1) ltac:(lia) _ _ _ _ _ _ B A F cf D eq_refl HD HL HF f t HW HP (sp_from_buffer input) Logic.I)).
  - intros p _. unfold in_frames. induction p as [|fr p IH]; cbn [map fold_right]; [lia|]. pose proof (zlen_nonneg fr). lia.
  - intros p x p' _ E. cbn [slice_h] in E. injection E as <- <-. split; [|auto]. unfold sp_remainder, sp_view_len. destruct p; [lia|apply zlen_nonneg].
  - intros p x p' _ E. cbn [slice_h] in E. unfold sp_consume_byte in E. destruct p as [|[|b fr] p]; try discriminate E. cbn [slb_cut_first] in E.
    injection E as <- <-. unfold in_frames. cbn [map fold_right]. rewrite zlen_cons. split; [exact Logic.I|lia].
  - intros p n x p' _ Hn E. cbn [slice_h] in E. unfold sp_consume, slb_take_unchecked in E. destruct p as [|fr p]; [discriminate E|].
    destruct (Z.leb_spec n (zlen fr)); [|discriminate E]. injection E as <- <-. unfold in_frames. cbn [map fold_right].
    rewrite zlen_ztake, zlen_zdrop by lia. split; [exact Logic.I|lia].
  - intros p n x p' _ Hn E. cbn [slice_h] in E. unfold sp_set_fit, slb_split_unchecked in E. destruct p as [|fr p].
    { destruct (n =? 0); [injection E as <- <-; auto|discriminate E]. }
    destruct (Z.leb_spec n (zlen fr)); [|discriminate E]. injection E as <- <-. unfold in_frames. cbn [map fold_right].
    rewrite zlen_ztake, zlen_zdrop by lia. split; [exact Logic.I|lia].
  - intros p x p' _ E. cbn [slice_h] in E. unfold sp_enforce_target in E. destruct p as [|fr p]; [discriminate E|].
    destruct (Z.eqb_spec (zlen fr) 0); [|discriminate E]. injection E as <- <-. unfold in_frames. cbn [map fold_right]. split; [exact Logic.I|lia].
Qed.
Lemma effort_linear f w input : zlen input <= isize_max ->
  decode_effort w cf D f t input <= 3 * tries B A F t - 1 + (3 * B + 1) * zlen input.
Proof. intros Hl. destruct w; cbn [decode_effort]; [apply byte_effort|apply memo_effort|apply slice_effort]; assumption. Qed.
End Certified.

(** ** Such claims exist whenever decoding terminates *)
Lemma fits n u : 0 <= n -> 0 <= u -> u <= (1 + Z.max 0 n) * u. Proof. nia. Qed.
Section Exists.
Variables (D : list def) (I : list tinfo) (R : list nat).
Hypothesis HD : wf_defs D = true.
Hypothesis HT : terminating D I R = true.
Notation total := (total D).
Notation emax := (emax D R).
Notation fmax := (fmax D R).
Fixpoint mount (r : nat) : Z := match r with O => 2 * total fmax | S r => 2 * total (mount r) end.
Definition below (r : nat) : Z := match r with O => fmax | S r => mount r end.
Lemma mount_below r : mount r = 2 * total (below r). Proof. destruct r; reflexivity. Qed.
Lemma order : 1 <= emax /\ emax <= fmax /\ fmax <= total fmax.
Proof.
  pose proof (emax_pos D I R HD HT) as H1. pose proof (fmax_ge D I R HD HT O ltac:(lia)) as H2. cbn [before] in H2. split; [exact H1|]. split; [lia|].
  unfold ProofSize.fmax. apply (climb_step D I R HD HT emax (top R)); [lia|exact (emax_total D I R HD HT)].
Qed.
Lemma mount_ge r : fmax <= mount r.
Proof.
  pose proof order as (H1 & H2 & H3). induction r as [|r IH]; cbn [mount]; [lia|].
  pose proof (total_mono D I R HD HT fmax (mount r) ltac:(lia)). lia.
Qed.
Lemma mount_step r : mount r <= mount (S r).
Proof.
  pose proof order as (H1 & H2 & H3). induction r as [|r IH]; cbn [mount] in *.
  - pose proof (total_mono D I R HD HT fmax (2 * total fmax) ltac:(lia)). lia.
  - pose proof (mount_ge r). pose proof (total_mono D I R HD HT (mount r) (2 * total (mount r)) ltac:(lia)). lia.
Qed.
Lemma mount_mono r r' : (r <= r')%nat -> mount r <= mount r'.
Proof. induction 1 as [|r' H IH]; [lia|]. pose proof (mount_step r'). lia. Qed.
Definition gmax : Z := mount (top R).
Lemma below_range r : (r <= top R)%nat -> fmax <= below r <= gmax.
Proof.
  intros Hr. pose proof (mount_ge (top R)). unfold gmax. destruct r as [|r]; cbn [below]; [lia|].
  pose proof (mount_ge r). pose proof (mount_mono r (top R) ltac:(lia)). lia.
Qed.
Definition f_of (i : nat) : Z := mount (rank R i).
Lemma f_of_max i : f_of i <= gmax. Proof. apply mount_mono. exact (rank_top D R HD i). Qed.

Variable B : Z.
Hypothesis HB3 : 3 <= B.
Hypothesis HB : 2 * total gmax <= B.
Lemma HBf : total fmax <= B.
Proof.
  pose proof order. pose proof (mount_ge (top R)) as Hg. fold gmax in Hg. pose proof (total_mono D I R HD HT fmax gmax ltac:(lia)).
  pose proof (total_nonneg D I R HD HT fmax ltac:(lia)). lia.
Qed.
Definition F : list Z := map f_of (seq 0 (length D)).
Lemma nth_F i : (i < length D)%nat -> nth i F 0 = f_of i.
Proof.
  intros Hi. unfold F. rewrite nth_indep with (d' := f_of O) by (rewrite map_length, seq_length; exact Hi). rewrite map_nth, seq_nth by exact Hi. reflexivity.
Qed.
Notation A := (A D I R B).
Lemma base_any t : wf_ty D t = true -> 1 + up gmax t <= B -> base B A t <= up emax t.
Proof.
  intros HW Hu. pose proof order as (O1 & O2 & O3). pose proof (mount_ge (top R)) as Hg. fold gmax in Hg. pose proof (up_mono fmax gmax t ltac:(lia)).
  apply (base_up D I R HD HT B HB3 HBf t emax HW); [lia|lia|]. intros j _. exact (a_of_max D I R HD HT B HBf j).
Qed.
Lemma tries_up t : forall e, wf_ty D t = true -> 1 + up gmax t <= B -> fmax <= e <= gmax -> (forall j, In j (heads t) -> f_of j <= e) ->
  tries B A F t <= up e t.
Proof.
  pose proof order as (O1 & O2 & O3). pose proof (mount_ge (top R)) as Hg. fold gmax in Hg.
  induction t; intros e HW Hu He Hh; cbn [wf_ty up heads tries] in *; unfold sizeb in *; try lia.
  - specialize (IHt gmax HW ltac:(lia) ltac:(lia) (fun j _ => f_of_max j)). pose proof (up_nonneg e t ltac:(lia)). lia.
  - specialize (IHt e HW ltac:(lia) He Hh). lia.
  - specialize (IHt e HW ltac:(lia) He Hh). lia.
  - apply andb_prop in HW. destruct HW as [Hn HW]. pose proof (fits n (up gmax t) ltac:(lia) (up_nonneg gmax t ltac:(lia))).
    specialize (IHt e HW ltac:(lia) He Hh). pose proof (base_any t HW ltac:(lia)). pose proof (up_mono emax e t ltac:(lia)). pose proof (up_nonneg emax t ltac:(lia)).
    assert (n * Z.max 0 (base B A t) <= n * up e t) by (apply Z.mul_le_mono_nonneg_l; lia). lia.
  - apply andb_prop in HW. destruct HW as [Hn HW]. pose proof (fits n (up gmax t) ltac:(lia) (up_nonneg gmax t ltac:(lia))).
    specialize (IHt e HW ltac:(lia) He Hh). pose proof (base_any t HW ltac:(lia)). pose proof (up_mono emax e t ltac:(lia)). pose proof (up_nonneg emax t ltac:(lia)).
    assert (n * Z.max 0 (base B A t) <= n * up e t) by (apply Z.mul_le_mono_nonneg_l; lia). lia.
  - specialize (IHt gmax HW ltac:(lia) ltac:(lia) (fun j _ => f_of_max j)). pose proof (up_nonneg e t ltac:(lia)). destruct s; cbn [pref_len]; lia.
  - apply andb_prop in HW. destruct HW as [Hn HW]. specialize (IHt e HW ltac:(lia) He Hh). lia.
  - apply andb_prop in HW. destruct HW as [Hn HW]. specialize (IHt e HW ltac:(lia) He Hh). lia.
  - specialize (IHt e HW ltac:(lia) He Hh). lia.
  - rewrite nth_F by lia. apply Hh. left; reflexivity.
Qed.
Definition space (ts : list ty) : Prop := Forall (fun t => wf_ty D t = true /\ 1 + up gmax t <= B) ts.
Lemma fields_any ts : space ts -> tries_fields B A F ts <= 2 * ups gmax ts.
Proof.
  pose proof order as (O1 & O2 & O3). pose proof (mount_ge (top R)) as Hg. fold gmax in Hg. unfold ups.
  induction 1 as [|t ts [HW Hu] H IH]; cbn [tries_fields map fold_right]; [lia|].
  pose proof (tries_up t gmax HW Hu ltac:(lia) (fun j _ => f_of_max j)). pose proof (base_any t HW Hu). pose proof (up_mono emax gmax t ltac:(lia)).
  pose proof (up_nonneg gmax t ltac:(lia)). pose proof (ups_nonneg gmax ts ltac:(lia)) as Hn. unfold ups in Hn. lia.
Qed.
Lemma fields_up ts e : space ts -> 2 * ups gmax ts <= B -> fmax <= e <= gmax -> (forall j, In j (field_heads I ts) -> f_of j <= e) ->
  tries_fields B A F ts <= 2 * ups e ts.
Proof.
  intros Hs HB2 He. pose proof order as (O1 & O2 & O3). pose proof (mount_ge (top R)) as Hg. fold gmax in Hg. unfold ups in *.
  induction Hs as [|t ts [HW Hu] H IH]; cbn [tries_fields map fold_right field_heads] in *; intros Hh; [lia|].
  pose proof (ups_nonneg gmax ts ltac:(lia)) as Hn. pose proof (ups_nonneg e ts ltac:(lia)) as Hn2. pose proof (up_nonneg gmax t ltac:(lia)). pose proof (up_nonneg e t ltac:(lia)).
  pose proof (tries_up t e HW Hu ltac:(lia) (fun j Hj => Hh j (in_or_app _ _ _ (or_introl Hj)))) as Ht. destruct (nonempty I t) eqn:N.
  - pose proof (up_mono fmax gmax t ltac:(lia)).
    pose proof (base_nonempty D I R HD HT B HB3 HBf t fmax HW ltac:(lia) ltac:(lia) N (fun j _ E => a_of_nonempty D I R HD HT B j E)).
    pose proof (fields_any ts H) as Ha. unfold ups in *. lia.
  - specialize (IH ltac:(lia) (fun j Hj => Hh j (in_or_app _ _ _ (or_intror Hj)))). pose proof (base_any t HW Hu). pose proof (up_mono emax e t ltac:(lia)).
    unfold ups in *. lia.
Qed.
Lemma fields_space ts : In ts (fields_of D) -> space ts /\ 2 + 2 * ups gmax ts <= B.
Proof.
  pose proof order as (O1 & O2 & O3). pose proof (mount_ge (top R)) as Hg. fold gmax in Hg. intros Hin.
  pose proof (total_in D I R HD HT gmax ts ltac:(lia) Hin). split; [|lia].
  pose proof (fields_room D I R HD HT B HBf ts Hin) as Hr. unfold room in Hr. rewrite Forall_forall in Hr. apply Forall_forall. intros t Ht.
  destruct (Hr t Ht) as [HW _]. split; [exact HW|]. pose proof (ups_in gmax ts t ltac:(lia) Ht). pose proof (ups_nonneg gmax ts ltac:(lia)). lia.
Qed.
Lemma def_tries i d : nth_error D i = Some d -> tries_def B A F d (f_of i) = true.
Proof.
  intros Hd. pose proof order as (O1 & O2 & O3). pose proof (mount_ge (rank R i)) as Hm. fold (f_of i) in Hm. unfold tries_def. replace (1 <=? f_of i) with true by lia. cbn [andb].
  pose proof (forallb_from_nth _ _ O i d HT Hd) as Ht. cbn [Nat.add] in Ht. unfold term_def in Ht. apply andb_prop in Ht. destruct Ht as [_ Ht].
  destruct d as [ts|k tags|k alts]; [|reflexivity|].
  - apply andb_prop in Ht. destruct Ht as [_ Hrank]. rewrite forallb_forall in Hrank.
    pose proof (fields_in D i _ ts Hd (or_introl eq_refl)) as Hin. destruct (fields_space ts Hin) as [Hs Hu].
    pose proof (below_range (rank R i) (rank_top D R HD i)) as Hb.
    assert (Hh : forall j, In j (field_heads I ts) -> f_of j <= below (rank R i)).
    { intros j Hj. specialize (Hrank j Hj). apply Nat.ltb_lt in Hrank. unfold f_of. destruct (rank R i) as [|r]; [lia|]. cbn [below]. apply mount_mono. lia. }
    pose proof (fields_up ts (below (rank R i)) Hs ltac:(lia) Hb Hh). pose proof (total_in D I R HD HT (below (rank R i)) ts ltac:(lia) Hin).
    unfold f_of. rewrite mount_below. lia.
  - apply forallb_forall. intros alt Halt. pose proof (fields_in D i _ (snd alt) Hd (in_map snd _ _ Halt)) as Hin. destruct (fields_space _ Hin) as [Hs Hu].
    pose proof (fields_any _ Hs). pose proof (width_pos k). nia.
Qed.
Lemma combine_nth {X Y} (l : list X) (l' : list Y) x y k : nth_error (combine l l') k = Some (x, y) -> nth_error l k = Some x /\ nth_error l' k = Some y.
Proof.
  revert l l'. induction k as [|k IH]; intros [|x0 l] [|y0 l'] H; cbn [combine nth_error] in *; try discriminate.
  - injection H as -> ->. split; reflexivity.
  - apply IH; exact H.
Qed.
Lemma bounded_exists : bounded B A F D = true.
Proof.
  pose proof order as (O1 & O2 & O3). unfold bounded. replace (zlen F =? zlen D) with true by (unfold F, zlen; rewrite map_length, seq_length; lia). cbn [andb].
  assert (Hlen : forall i f, nth_error F i = Some f -> (i < length D)%nat /\ f = f_of i).
  { intros i f Hf. assert (Hlt : (i < length F)%nat) by (apply nth_error_Some; congruence). unfold F in Hlt. rewrite map_length, seq_length in Hlt.
    split; [exact Hlt|]. rewrite <- (nth_F i Hlt). symmetry. apply nth_error_nth. exact Hf. }
  apply andb_true_intro. split; apply forallb_forall; intros [x f] Hin; cbn [fst snd]; apply In_nth_error in Hin; destruct Hin as [i Hi];
    apply combine_nth in Hi; destruct Hi as [Hx Hf]; destruct (Hlen i f Hf) as [Hlt ->].
  - apply (nth_error_nth _ _ 0) in Hx. rewrite (nth_A D I R B i Hlt) in Hx. subst x. pose proof (a_of_max D I R HD HT B HBf i). pose proof (mount_ge (rank R i)) as Hm.
    fold (f_of i) in Hm. lia.
  - apply def_tries. exact Hx.
Qed.
End Exists.

Theorem claims_exist D I R t : wf_defs D = true -> wf_ty D t = true -> terminating D I R = true -> loops_ok I t = true ->
  exists B A F, linear B A D = true /\ pays B A t = true /\ bounded B A F D = true.
Proof.
  intros HD HW HT HL. set (B := 4 + 2 * total D (gmax D R) + up (gmax D R) t). pose proof (order D I R HD HT) as (O1 & O2 & O3).
  pose proof (mount_ge D I R HD HT (top R)) as Hg. fold (gmax D R) in Hg. pose proof (total_nonneg D I R HD HT (gmax D R) ltac:(lia)).
  pose proof (up_nonneg (gmax D R) t ltac:(lia)). pose proof (up_mono (fmax D R) (gmax D R) t ltac:(lia)). pose proof (total_mono D I R HD HT (fmax D R) (gmax D R) ltac:(lia)).
  exists B, (ProofSize.A D I R B), (F D R). split; [|split].
  - apply (linear_exists D I R HD HT); unfold B; lia.
  - apply (pays_loops D I R HD HT B); unfold B; try assumption; lia.
  - apply (bounded_exists D I R HD HT); unfold B; lia.
Qed.
Theorem effort_proportional D I R t : wf_defs D = true -> wf_ty D t = true -> terminating D I R = true -> loops_ok I t = true ->
  exists K, forall cf input w f, zlen input <= isize_max -> decode_effort w cf D f t input <= K * (1 + zlen input).
Proof.
  intros HD HW HT HL. destruct (claims_exist D I R t HD HW HT HL) as (B & A & F & H1 & H2 & H3). pose proof (linear_B B A D H1).
  exists (Z.max (3 * B + 1) (3 * tries B A F t)). intros cf input w f Hl. pose proof (effort_linear B A F cf D t HD HW H1 H2 H3 f w input Hl).
  pose proof (zlen_nonneg input). nia.
Qed.

(** ** The multiple depends on the type, and there is none for loops without progress *)
Definition at_start : byte_parser := bp_from_buffer [7].
Lemma start_rem : byte_h Release Z OpRemainder at_start = (ROk 1, at_start). Proof. reflexivity. Qed.
Lemma unit_parse f : (0 < f)%nat -> parse plain [] f TUnit = PRet VUnit. Proof. destruct f; [lia|reflexivity]. Qed.
Lemma fix_units_effort n fl : forall acc, (Z.to_nat (n - zlen acc) < fl)%nat -> zlen acc <= n ->
  effort (byte_h Release) (p_fix_loop fl n (PRet VUnit) acc) at_start = n - zlen acc + 1.
Proof.
  induction fl as [|fl IH]; intros acc Hf Hn; [lia|]. cbn [p_fix_loop]. rewrite effort_pbind. unfold p_remainder, do_op. cbn [effort run]. rewrite start_rem. cbn [effort run handed].
  replace (negb (1 =? 0)) with true by reflexivity. cbn [andb]. destruct (Z.ltb_spec (zlen acc) n).
  - cbn [pbind]. rewrite IH; rewrite zlen_app; change (zlen [VUnit]) with 1; lia.
  - replace (zlen acc =? n) with true by lia. cbn [effort]. lia.
Qed.
Theorem no_common_effort K : 0 <= K <= 2 ^ 60 -> exists t input f,
  wf_ty [] t = true /\ zlen input = 1 /\ K * (1 + zlen input) < decode_effort WByte plain [] f t input.
Proof.
  intros HK. exists (TFix (2 * K) TUnit), [7], (S (S (Z.to_nat (2 * K)))).
  split; [cbn [wf_ty]; unfold sizeb, isize_max; lia|]. split; [reflexivity|]. change (zlen [7]) with 1.
  cbn [decode_effort]. change (bp_from_buffer [7]) with at_start. change (cf_mode plain) with Release.
  change (parse plain [] (S (S (Z.to_nat (2 * K)))) (TFix (2 * K) TUnit)) with
    (pbind (p_fix_loop (S (Z.to_nat (2 * K))) (2 * K) (parse plain [] (S (Z.to_nat (2 * K))) TUnit) []) (fun vs => PRet (VSeq vs))).
  rewrite effort_pbind, unit_parse by lia. rewrite fix_units_effort by (change (zlen (@nil val)) with 0; lia). change (zlen (@nil val)) with 0.
  destruct (run _ _ _) as [[|e| | |] p]; cbn [effort]; lia.
Qed.
Lemma seq_units_effort fl : forall acc, Z.of_nat fl <= effort (byte_h Release) (p_seq_loop fl (PRet VUnit) acc) at_start.
Proof.
  induction fl as [|fl IH]; intros acc; [cbn; lia|]. cbn [p_seq_loop]. rewrite effort_pbind. unfold p_remainder, do_op. cbn [effort run]. rewrite start_rem. cbn [effort run handed].
  replace (1 =? 0) with false by reflexivity. cbn [pbind]. specialize (IH (acc ++ [VUnit])). lia.
Qed.
Theorem endless_effort f : Z.of_nat f <= decode_effort WByte plain [] (S f) (TSeq TUnit) [7].
Proof.
  cbn [decode_effort]. change (bp_from_buffer [7]) with at_start. change (cf_mode plain) with Release. cbn [parse]. rewrite effort_pbind. destruct f as [|f]; [cbn; lia|].
  rewrite unit_parse by lia. pose proof (seq_units_effort (S f) []). destruct (run _ _ _) as [[|e| | |] p]; cbn [effort]; lia.
Qed.
