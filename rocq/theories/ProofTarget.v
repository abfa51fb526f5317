(** Targets written outside the library (C84). *)
From Verif Require Import Base ModelTarget ModelInt ModelSchema SpecTarget SpecCodec BaseLemmas ProofCodec ProofEnc ProofEncBytes ProofEncValid ProofCodecProps.

Lemma collects_lawful {U} (T : target U) holds : collects T holds -> lawful T holds.
Proof.
  intros [H0 H]. split; [exact H0|..].
  - intros n u pre Hu. apply (H u pre Hu).
  - intros b u pre Hu. destruct (H u pre Hu) as (_ & H1 & _). destruct (H1 b) as (u' & -> & Hu'). auto.
  - intros bs u pre Hu. destruct (H u pre Hu) as (_ & _ & H1 & _). destruct (H1 bs) as (u' & -> & Hu'). auto.
  - intros bs u pre Hu. destruct (H u pre Hu) as (_ & _ & _ & H1 & _). destruct (H1 bs) as (u' & -> & Hu'). auto.
  - intros u pre Hu. apply (H u pre Hu).
  - intros u pre Hu. destruct (H u pre Hu) as (_ & _ & _ & _ & _ & u' & -> & Hu'). auto.
Qed.
Lemma lawful_collects {U} (T : target U) holds : lawful T holds -> collects T holds.
Proof.
  intros H. split; [apply H|]. intros u bs Hu. repeat apply conj.
  - intros n. apply (law_anticipate _ _ H); exact Hu.
  - intros b. destruct (law_push_one _ _ H b u bs Hu) as [E Hs]. exists (snd (tg_push_one T b u)). split; [|exact Hs].
    rewrite <- E. destruct (tg_push_one T b u); reflexivity.
  - intros b. destruct (law_push_many _ _ H b u bs Hu) as [E Hs]. exists (snd (tg_push_many T b u)). split; [|exact Hs].
    rewrite <- E. destruct (tg_push_many T b u); reflexivity.
  - intros b. destruct (law_push_all _ _ H b u bs Hu) as [E Hs]. exists (snd (tg_push_all T b u)). split; [|exact Hs].
    rewrite <- E. destruct (tg_push_all T b u); reflexivity.
  - apply (law_resolve _ _ H); exact Hu.
  - destruct (law_resolve_zero _ _ H u bs Hu) as [E Hs]. exists (snd (tg_resolve_zero T u)). split; [|exact Hs].
    rewrite <- E. destruct (tg_resolve_zero T u); reflexivity.
Qed.

Lemma custom_same {U} (T : target U) holds : collects T holds -> forall cf D kf v t u pre, holds u pre ->
  match to_bytes cf D kf v t with
  | ROk bs => exists n u', write_to cf D kf v U T t u = ROk (n, u') /\ holds u' (pre ++ bs) /\
                           (zlen bs < usize_mod -> n = zlen bs)
  | RErr e => write_to cf D kf v U T t u = RErr e
  | RPanic => write_to cf D kf v U T t u = RPanic
  | RUB => write_to cf D kf v U T t u = RUB
  | RDiv => write_to cf D kf v U T t u = RDiv
  end.
Proof.
  intros HC cf D kf v t u pre Hu. apply collects_lawful in HC.
  rewrite to_bytes_wr. pose proof (sim_all_vals cf D kf v _ _ _ HC t u _ Hu) as S.
  destruct (wr cf D kf v t) as [[n bs]| | | |] eqn:E; unfold rmap; cbn [rbind snd]; [|exact S..].
  destruct S as (u' & H & R). exists n, u'. repeat apply conj; auto. apply (cnt_wr cf D kf v t); exact E.
Qed.
Lemma custom_encode {U} (T : target U) holds : collects T holds -> forall cf D kf v t,
  match to_bytes cf D kf v t with
  | ROk bs => exists u, encode cf D kf T v t = ROk u /\ holds u bs
  | RErr e => encode cf D kf T v t = RErr e
  | RPanic => encode cf D kf T v t = RPanic
  | RUB => encode cf D kf T v t = RUB
  | RDiv => encode cf D kf T v t = RDiv
  end.
Proof.
  intros HC cf D kf v t. pose proof (custom_same T holds HC cf D kf v t (tg_create T) [] (proj1 HC)) as S. unfold encode.
  destruct (to_bytes cf D kf v t); [|rewrite S; reflexivity..].
  destruct S as (n & u & -> & Hu & _). exists u. auto.
Qed.

(** ** Two targets side by side *)
Section Rel.
Context {U V : Type} (T : target U) (T' : target V) (R : U -> V -> Prop).
Definition both {A} (x : A * U) (y : A * V) : Prop := fst x = fst y /\ R (snd x) (snd y).
Record related : Prop := {
  rel_anticipate : forall n u v, R u v -> R (tg_anticipate T n u) (tg_anticipate T' n v);
  rel_one : forall b u v, R u v -> both (tg_push_one T b u) (tg_push_one T' b v);
  rel_many : forall b u v, R u v -> both (tg_push_many T b u) (tg_push_many T' b v);
  rel_all : forall b u v, R u v -> both (tg_push_all T b u) (tg_push_all T' b v);
  rel_resolve : forall u v, R u v -> R (tg_resolve T u) (tg_resolve T' v);
  rel_resolve_zero : forall u v, R u v -> both (tg_resolve_zero T u) (tg_resolve_zero T' v)
}.
Hypothesis HR : related.
Variables (cf : config) (D : list def) (kf : nat).
Definition same_out (x : wres (Z * U)) (y : wres (Z * V)) : Prop :=
  match x, y with
  | ROk a, ROk b => both a b
  | RErr e, RErr e' => e = e'
  | RPanic, RPanic | RUB, RUB | RDiv, RDiv => True
  | _, _ => False
  end.
Definition wrel (w : writer U) (w' : writer V) : Prop := forall u v, R u v -> same_out (w u) (w' v).

Lemma wrel_add w1 r1 w2 r2 : wrel w1 r1 -> wrel w2 r2 -> wrel (w_add cf w1 w2) (w_add cf r1 r2).
Proof.
  intros H1 H2 u v Hu. specialize (H1 u v Hu). unfold w_add.
  destruct (w1 u) as [[n u1]| | | |], (r1 v) as [[n' v1]| | | |]; cbn [same_out] in H1; try contradiction; cbn [rbind same_out]; auto.
  destruct H1 as [E H1]. cbn [fst snd] in *. subst n'. specialize (H2 u1 v1 H1).
  destruct (w2 u1) as [[n2 u2]| | | |], (r2 v1) as [[n2' v2]| | | |]; cbn [same_out] in H2; try contradiction; cbn [rbind same_out]; auto.
  destruct H2 as [E H2]. cbn [fst snd] in *. subst n2'.
  destruct (uadd (cf_mode cf) n n2) as [s| | | |]; cbn [rbind same_out]; auto. split; [reflexivity|exact H2].
Qed.
Lemma wrel_resolve : wrel (w_call (tg_resolve_zero T)) (w_call (tg_resolve_zero T')).
Proof. intros u v Hu. apply HR; exact Hu. Qed.
Lemma wrel_macro : wrel (w_call (tg_resolve_macro T)) (w_call (tg_resolve_macro T')).
Proof. intros u v Hu. split; [reflexivity|]. apply HR; exact Hu. Qed.
Lemma wrel_mend w r : wrel w r -> wrel (w_add cf w (w_call (tg_resolve_macro T))) (w_add cf r (w_call (tg_resolve_macro T'))).
Proof. intros H. apply wrel_add; [exact H|apply wrel_macro]. Qed.
Lemma wrel_end w r : wrel w r -> wrel (w_add cf w (w_call (tg_resolve_zero T))) (w_add cf r (w_call (tg_resolve_zero T'))).
Proof. intros H. apply wrel_add; [exact H|apply wrel_resolve]. Qed.
Lemma wrel_all bs : wrel (w_call (tg_push_all T bs)) (w_call (tg_push_all T' bs)).
Proof. intros u v Hu. apply HR; exact Hu. Qed.
Lemma wrel_many bs : wrel (w_call (tg_push_many T bs)) (w_call (tg_push_many T' bs)).
Proof. intros u v Hu. apply HR; exact Hu. Qed.
Lemma wrel_one b : wrel (w_call (tg_push_one T b)) (w_call (tg_push_one T' b)).
Proof. intros u v Hu. apply HR; exact Hu. Qed.
Lemma wrel_bad : wrel w_bad w_bad. Proof. intros u v _; reflexivity. Qed.
Lemma wrel_rbind {A} (r : wres A) (w : A -> writer U) (p : A -> writer V) :
  (forall a, wrel (w a) (p a)) -> wrel (fun u => rbind r (fun a => w a u)) (fun u => rbind r (fun a => p a u)).
Proof. intros H u v Hu. destruct r; cbn [rbind same_out]; auto. apply (H a u v Hu). Qed.
Lemma wrel_sum ws rs : Forall2 wrel ws rs -> forall acc, wrel (w_sum cf acc ws) (w_sum cf acc rs).
Proof.
  induction 1 as [|w r ws rs Hw _ IH]; intros acc u v Hu; cbn [w_sum].
  - split; [reflexivity|exact Hu].
  - specialize (Hw u v Hu).
    destruct (w u) as [[n u1]| | | |], (r v) as [[n' v1]| | | |]; cbn [same_out] in Hw; try contradiction; cbn [rbind same_out]; auto.
    destruct Hw as [E Hw]. cbn [fst snd] in *. subst n'.
    destruct (uadd (cf_mode cf) acc n) as [s| | | |]; cbn [rbind same_out]; auto. apply IH; exact Hw.
Qed.
Lemma wrel_int k z : wrel (w_int cf T k z) (w_int cf T' k z).
Proof. apply wrel_end, wrel_all. Qed.
Lemma wrel_ranged k lo hi z : wrel (w_ranged cf T k lo hi z) (w_ranged cf T' k lo hi z).
Proof.
  unfold w_ranged. apply (wrel_rbind _ (fun x u => w_add cf (w_int cf T k x) (w_call (tg_resolve_zero T)) u)
    (fun x u => w_add cf (w_int cf T' k x) (w_call (tg_resolve_zero T')) u)).
  intros x. apply wrel_end, wrel_int.
Qed.
Lemma wrel_pref s lp : wrel (w_pref cf T s lp) (w_pref cf T' s lp).
Proof. destruct s; [apply wrel_int|apply wrel_int|apply wrel_ranged]. Qed.
Lemma wrel_anticipate n w r : wrel w r -> wrel (fun u => w (tg_anticipate T n u)) (fun u => r (tg_anticipate T' n u)).
Proof. intros H u v Hu. apply H. apply HR; exact Hu. Qed.

Lemma wrel_vals v : forall t, wrel (write_to cf D kf v U T t) (write_to cf D kf v V T' t).
Proof.
  induction v as [| | | | |v IHv|vs IHvs|vs IHvs|ix vs IHvs|v IHv] using val_ind'; intros t.
  - destruct t; cbn [write_to]; try apply wrel_bad.
    + intros u v Hu. split; [reflexivity|exact Hu].
    + destruct (nth_error D i) as [[| |]|]; apply wrel_bad.
  - destruct t; cbn [write_to]; try apply wrel_bad.
    + apply wrel_mend, wrel_one.
    + destruct (nth_error D i) as [[| |]|]; apply wrel_bad.
  - destruct t; cbn [write_to]; try apply wrel_bad; try apply wrel_int.
    + apply wrel_ranged.
    + apply (wrel_rbind _ (fun bs u => w_push_all cf T bs u) (fun bs u => w_push_all cf T' bs u)). intros bs. apply wrel_end, wrel_all.
    + apply (wrel_rbind _ (fun bs u => w_push_all cf T bs u) (fun bs u => w_push_all cf T' bs u)). intros bs. apply wrel_end, wrel_all.
    + destruct (nth_error D i) as [[| |]|]; apply wrel_bad.
  - destruct t; cbn [write_to]; try apply wrel_bad; try (apply wrel_end, wrel_all); try (apply wrel_mend, wrel_all); try (apply wrel_end, wrel_many).
    destruct (nth_error D i) as [[| |]|]; apply wrel_bad.
  - destruct t; cbn [write_to]; try apply wrel_bad.
    + apply wrel_mend, wrel_one.
    + apply wrel_resolve.
    + destruct (nth_error D i) as [[| |]|]; apply wrel_bad.
  - destruct t; cbn [write_to]; try apply wrel_bad.
    + apply wrel_mend, wrel_add; [apply wrel_one|apply IHv].
    + apply wrel_end, IHv.
    + destruct (nth_error D i) as [[| |]|]; apply wrel_bad.
  - assert (Hs : forall t, Forall2 wrel (map (fun v => write_to cf D kf v U T t) vs) (map (fun v => write_to cf D kf v V T' t) vs)).
    { intros t'. induction IHvs as [|v vs Hv _ IH]; cbn [map]; constructor; auto. }
    destruct t; cbn [write_to]; try apply wrel_bad; try (apply wrel_end, wrel_sum, Hs).
    destruct (nth_error D i) as [[| |]|]; apply wrel_bad.
  - destruct t; cbn [write_to]; try apply wrel_bad.
    destruct (nth_error D i) as [[ts| |]|]; try apply wrel_bad.
    apply wrel_end, wrel_sum. apply map2_forall2; [apply wrel_bad|exact IHvs].
  - destruct t; cbn [write_to]; try apply wrel_bad.
    destruct (nth_error D i) as [[ts|k tags|k alts]|]; try apply wrel_bad.
    + destruct vs; [|apply wrel_bad]. destruct (nth_error tags ix); [apply wrel_int|apply wrel_bad].
    + destruct (nth_error alts ix) as [[tag ts]|]; [|apply wrel_bad].
      apply wrel_end, wrel_add; [apply wrel_int|]. apply wrel_end, wrel_sum. apply map2_forall2; [apply wrel_bad|exact IHvs].
  - destruct t; cbn [write_to]; try apply wrel_bad; try apply IHv.
    + apply (wrel_rbind _ (fun l u => _) (fun l u => _)). intros l.
      apply (wrel_rbind _ (fun l u => _) (fun l u => _)). intros _.
      destruct (pref_try_from cf s l) as [lp|]; [|intros u v0 _; exact Logic.I].
      apply (wrel_rbind _ (fun l u => _) (fun l u => _)). intros ll.
      apply (wrel_rbind _ (fun l u => _) (fun l u => _)). intros total.
      apply (wrel_anticipate total _ _). apply wrel_end, wrel_add; [apply wrel_pref|apply IHv].
    + apply wrel_end, wrel_add; [apply IHv|apply wrel_many].
    + destruct (nth_error D i) as [[| |]|]; apply wrel_bad.
Qed.
End Rel.

(** ** The calls *)
Definition tg_log : target (list target_call) := {|
  tg_create := [];
  tg_anticipate := fun n u => u ++ [CAnticipate n];
  tg_push_one := fun b u => (1, u ++ [CPushOne b]);
  tg_push_many := fun bs u => (zlen bs, u ++ [CPushMany bs]);
  tg_push_all := fun bs u => (zlen bs, u ++ [CPushAll bs]);
  tg_resolve := fun u => u ++ [CResolve];
  tg_resolve_zero := fun u => (0, u ++ [CResolveZero])
|}.

Lemma receive_app {U} (T : target U) a b : forall u, receive_all T (a ++ b) u = receive_all T b (receive_all T a u).
Proof. induction a as [|c a IH]; intros u; cbn [receive_all app]; auto. Qed.
Lemma pushed_app a b : pushed_by (a ++ b) = pushed_by a ++ pushed_by b.
Proof. induction a as [|[]]; cbn [pushed_by app]; rewrite ?IHa, ?app_assoc; reflexivity. Qed.
Lemma log_related {U} (T : target U) u0 : counts T -> related T tg_log (fun u l => u = receive_all T l u0).
Proof.
  intros HC. split; unfold both; cbn; intros; subst; rewrite ?receive_app; cbn [receive_all receive]; auto;
    split; auto; apply HC.
Qed.
Lemma log_collects : lawful tg_log (fun l bs => pushed_by l = bs).
Proof. split; cbn; intros; subst; rewrite ?pushed_app; cbn [pushed_by]; rewrite ?app_nil_r; auto. Qed.

Lemma same_calls cf D kf v t :
  match to_bytes cf D kf v t with
  | ROk bs => exists n calls, pushed_by calls = bs /\ (zlen bs < usize_mod -> n = zlen bs) /\
      forall U (T : target U), counts T -> forall u, write_to cf D kf v U T t u = ROk (n, receive_all T calls u)
  | RErr e => forall U (T : target U), counts T -> forall u, write_to cf D kf v U T t u = RErr e
  | RPanic => forall U (T : target U), counts T -> forall u, write_to cf D kf v U T t u = RPanic
  | RUB => forall U (T : target U), counts T -> forall u, write_to cf D kf v U T t u = RUB
  | RDiv => forall U (T : target U), counts T -> forall u, write_to cf D kf v U T t u = RDiv
  end.
Proof.
  pose proof (custom_same tg_log _ (lawful_collects _ _ log_collects) cf D kf v t [] [] eq_refl) as S.
  assert (HR : forall U (T : target U), counts T -> forall u,
    same_out (fun u' l => u' = receive_all T l u) (write_to cf D kf v U T t u) (write_to cf D kf v _ tg_log t [])).
  { intros U T HC u. apply (wrel_vals T tg_log _ (log_related T u HC) cf D kf v t); reflexivity. }
  destruct (to_bytes cf D kf v t) as [bs|e| | |].
  - destruct S as (n & calls & E & Hp & Hn). exists n, calls. repeat apply conj; auto. intros U T HC u.
    specialize (HR U T HC u). rewrite E in HR. destruct (write_to cf D kf v U T t u) as [[n' u']| | | |]; cbn in HR; try contradiction.
    destruct HR as [H1 H2]. cbn [fst snd] in *. subst. reflexivity.
  - intros U T HC u. specialize (HR U T HC u). rewrite S in HR. destruct (write_to cf D kf v U T t u); cbn in HR; try contradiction. subst. reflexivity.
  - intros U T HC u. specialize (HR U T HC u). rewrite S in HR. destruct (write_to cf D kf v U T t u); cbn in HR; try contradiction. reflexivity.
  - intros U T HC u. specialize (HR U T HC u). rewrite S in HR. destruct (write_to cf D kf v U T t u); cbn in HR; try contradiction. reflexivity.
  - intros U T HC u. specialize (HR U T HC u). rewrite S in HR. destruct (write_to cf D kf v U T t u); cbn in HR; try contradiction. reflexivity.
Qed.

(** ** The contract can be kept *)
Lemma library_collects w : collects (tg_of w) (fun u bs => tg_bytes w u = bs).
Proof. apply lawful_collects, tg_lawful. Qed.
Lemma rev_holds bs : forall u pre, reversed_holds u pre -> reversed_holds (rev_append (map Some bs) u) (pre ++ bs).
Proof.
  induction bs as [|b bs IH]; intros u pre H; cbn [map rev_append]; [rewrite app_nil_r; exact H|].
  replace (pre ++ b :: bs) with ((pre ++ [b]) ++ bs) by (rewrite <- app_assoc; reflexivity). apply IH.
  unfold reversed_holds in *. rewrite rev_app_distr. cbn [rev app flat_map]. rewrite H. reflexivity.
Qed.
Lemma reversed_collects : collects tg_reversed reversed_holds.
Proof.
  split; [reflexivity|]. intros u bs H. repeat apply conj; cbn.
  - intros _. exact H.
  - intros b. exists (Some b :: u). split; [reflexivity|]. exact (rev_holds [b] u bs H).
  - intros more. eexists. split; [reflexivity|]. apply rev_holds; exact H.
  - intros more. eexists. split; [reflexivity|]. apply rev_holds; exact H.
  - exact H.
  - exists (None :: None :: u). split; [reflexivity|exact H].
Qed.
Lemma checksum_counts : counts tg_checksum.
Proof. intros u. repeat split. Qed.
