(** Encoding: what [write_to] does to any target is what a target-independent
    function [wr] says; on encodable values that is the wire format. *)
From Verif Require Import Base BaseLemmas ModelErrors ModelSplitVec ModelParser ModelInt ModelFloat ModelZarith
  ModelUtf8 ModelTarget ModelSchema SpecCodec ProofInt ProofZarith ProofCodec ProofRoundTrip ProofSplitVec SpecSplitVec.
From Coq Require Import ZifyBool.

(** ** Targets: [R u bs] says that [u] holds the bytes [bs]. *)
Record lawful {U} (T : target U) (R : U -> list byte -> Prop) : Prop := {
  law_create : R (tg_create T) [];
  law_anticipate : forall n u pre, R u pre -> R (tg_anticipate T n u) pre;
  law_push_one : forall b u pre, R u pre -> fst (tg_push_one T b u) = 1 /\ R (snd (tg_push_one T b u)) (pre ++ [b]);
  law_push_many : forall bs u pre, R u pre -> fst (tg_push_many T bs u) = zlen bs /\ R (snd (tg_push_many T bs u)) (pre ++ bs);
  law_push_all : forall bs u pre, R u pre -> fst (tg_push_all T bs u) = zlen bs /\ R (snd (tg_push_all T bs u)) (pre ++ bs);
  law_resolve : forall u pre, R u pre -> R (tg_resolve T u) pre;
  law_resolve_zero : forall u pre, R u pre -> fst (tg_resolve_zero T u) = 0 /\ R (snd (tg_resolve_zero T u)) pre
}.

Lemma lawful_counter : lawful tg_counter (fun _ _ => True).
Proof. split; cbn; auto. Qed.
Lemma lawful_vec : lawful tg_vec (fun u bs => u = bs).
Proof. split; cbn; intros; subst; auto. Qed.
Lemma lawful_hex : lawful tg_hex (fun u bs => hx_bytes u = bs).
Proof. split; cbn; intros; subst; auto. Qed.
Lemma lawful_strict : lawful tg_strict (fun u bs => sb_vec u = bs).
Proof. split; cbn; intros; subst; auto. Qed.

(** ** The target-independent writer *)
Definition pw := wres (Z * list byte).
Section Pure.
Variables (cf : config) (D : list def) (kf : nat).
Local Notation m := (cf_mode cf).

Definition r_put (bs : list byte) : pw := ROk (zlen bs, bs).
Definition r_add (a b : pw) : pw :=
  rbind a (fun r => rbind b (fun r' => rbind (uadd m (fst r) (fst r')) (fun n => ROk (n, snd r ++ snd r')))).
Definition r_end (a : pw) : pw := r_add a (ROk (0, [])).
Fixpoint r_sum (acc : Z) (l : list pw) : pw :=
  match l with
  | [] => ROk (acc, [])
  | w :: l => rbind w (fun r => rbind (uadd m acc (fst r)) (fun n =>
                rbind (r_sum n l) (fun r' => ROk (fst r', snd r ++ snd r'))))
  end.
Definition r_ranged (k : int_kind) (lo hi z : Z) : pw :=
  rbind (ri_to_underlying (cf_range_check cf) lo hi z) (fun x => r_end (r_end (r_put (to_be_bytes k x)))).
Definition r_pref (s : len_pref) (lp : Z) : pw :=
  match s with
  | PrefU8 => r_end (r_put (to_be_bytes U8 lp))
  | PrefU16 => r_end (r_put (to_be_bytes U16 lp))
  | PrefU30 => r_ranged U32 0 u30_max lp
  end.

Fixpoint wr (v : val) (t : ty) : pw :=
  match t, v with
  | TUnit, VUnit => ROk (0, [])
  | TBool, VBool b => r_end (r_put [if b then 255 else 0])
  | TInt k, VInt z => r_end (r_put (to_be_bytes k z))
  | TRanged k lo hi, VInt z => r_ranged k lo hi z
  | TF64, VInt z | TRangedF _ _, VInt z => r_end (r_put (to_be_bytes U64 z))
  | TN, VInt z => rbind (n_serialize z) (fun bs => r_end (r_put bs))
  | TZ, VInt z => rbind (z_serialize z) (fun bs => r_end (r_put bs))
  | TBytes, VBytes bs | TString, VBytes bs | TFixedBytes _, VBytes bs | TFixedString _, VBytes bs => r_end (r_put bs)
  | TOption t, VSome v => r_end (r_add (r_put [255]) (wr v t))
  | TOption _, VNone => r_end (r_put [0])
  | TNullable t, VSome v => r_end (wr v t)
  | TNullable _, VNone => ROk (0, [])
  | TSeq t, VSeq vs | TLim _ t, VSeq vs | TFix _ t, VSeq vs => r_end (r_sum 0 (map (fun v => wr v t) vs))
  | TDyn s t, VWrap v =>
      rbind (if cf_est_override cf then estimate cf D kf v t else rmap fst (wr v t)) (fun l =>
      rbind (rassert (l <=? pref_max s)) (fun _ =>
      match pref_try_from cf s l with
      | Some lp =>
          rbind (if cf_est_override cf then ROk (pref_len s) else rmap fst (r_pref s lp)) (fun ll =>
          rbind (uadd m l ll) (fun _ => r_end (r_add (r_pref s lp) (wr v t))))
      | None => RPanic
      end))
  | TVPad _ t, VWrap v => wr v t
  | TPad n t, VWrap v => r_end (r_add (wr v t) (r_put (repeat 0 (Z.to_nat n))))
  | TBox t, VWrap v => wr v t
  | TNamed i, _ =>
      match nth_error D i, v with
      | Some (DStruct ts), VStruct vs => r_end (r_sum 0 (map2 wr (RErr tt) vs ts))
      | Some (DCStyle k tags), VEnum ix [] =>
          match nth_error tags ix with Some tag => r_end (r_put (to_be_bytes k tag)) | None => RErr tt end
      | Some (DData k alts), VEnum ix vs =>
          match nth_error alts ix with
          | Some (tag, ts) =>
              r_end (r_add (r_end (r_put (to_be_bytes k tag))) (r_end (r_sum 0 (map2 wr (RErr tt) vs ts))))
          | None => RErr tt
          end
      | _, _ => RErr tt
      end
  | _, _ => RErr tt
  end.

(** ** Simulation *)
Section Sim.
Context {U : Type} (T : target U) (R : U -> list byte -> Prop) (HL : lawful T R).

Definition sim (w : writer U) (r : pw) : Prop := forall u pre, R u pre ->
  match r with
  | ROk (n, bs) => exists u', w u = ROk (n, u') /\ R u' (pre ++ bs)
  | RErr e => w u = RErr e
  | RPanic => w u = RPanic
  | RUB => w u = RUB
  | RDiv => w u = RDiv
  end.

Lemma sim_add w1 r1 w2 r2 : sim w1 r1 -> sim w2 r2 -> sim (w_add cf w1 w2) (r_add r1 r2).
Proof.
  intros H1 H2 u pre Hu. specialize (H1 u pre Hu). unfold w_add, r_add.
  destruct r1 as [[n bs]| | | |]; cbn [rbind]; try (rewrite H1; reflexivity).
  destruct H1 as (u' & E & Hu'). rewrite E; cbn [rbind fst snd]. specialize (H2 u' _ Hu').
  destruct r2 as [[n2 bs2]| | | |]; cbn [rbind]; try (rewrite H2; reflexivity).
  destruct H2 as (u2 & E2 & Hu2). rewrite E2; cbn [rbind fst snd].
  destruct (uadd (cf_mode cf) n n2) as [s| | | |]; cbn [rbind]; try reflexivity.
  exists u2. rewrite app_assoc. auto.
Qed.
Lemma sim_resolve : sim (w_call (tg_resolve_zero T)) (ROk (0, [])).
Proof.
  intros u pre Hu. destruct (law_resolve_zero _ _ HL u pre Hu) as [E Hr]. exists (snd (tg_resolve_zero T u)). rewrite app_nil_r. split; [|exact Hr].
  unfold w_call. rewrite <- E. destruct (tg_resolve_zero T u); reflexivity.
Qed.
Lemma sim_macro : sim (w_call (tg_resolve_macro T)) (ROk (0, [])).
Proof.
  intros u pre Hu. exists (tg_resolve T u). split; [reflexivity|]. rewrite app_nil_r. apply HL; exact Hu.
Qed.
Lemma sim_mend w r : sim w r -> sim (w_add cf w (w_call (tg_resolve_macro T))) (r_end r).
Proof. intros H. apply sim_add; [exact H|apply sim_macro]. Qed.
Lemma sim_end w r : sim w r -> sim (w_add cf w (w_call (tg_resolve_zero T))) (r_end r).
Proof. intros H. apply sim_add; [exact H|apply sim_resolve]. Qed.
Lemma sim_all bs : sim (w_call (tg_push_all T bs)) (r_put bs).
Proof.
  intros u pre Hu. destruct (law_push_all _ _ HL bs u pre Hu) as [E Hr]. unfold w_call, r_put.
  exists (snd (tg_push_all T bs u)). split; [|exact Hr]. rewrite <- E. destruct (tg_push_all T bs u); reflexivity.
Qed.
Lemma sim_many bs : sim (w_call (tg_push_many T bs)) (r_put bs).
Proof.
  intros u pre Hu. destruct (law_push_many _ _ HL bs u pre Hu) as [E Hr]. unfold w_call, r_put.
  exists (snd (tg_push_many T bs u)). split; [|exact Hr]. rewrite <- E. destruct (tg_push_many T bs u); reflexivity.
Qed.
Lemma sim_one b : sim (w_call (tg_push_one T b)) (r_put [b]).
Proof.
  intros u pre Hu. destruct (law_push_one _ _ HL b u pre Hu) as [E Hr]. unfold w_call, r_put.
  exists (snd (tg_push_one T b u)). split; [|exact Hr]. change (zlen [b]) with 1. rewrite <- E. destruct (tg_push_one T b u); reflexivity.
Qed.
Lemma sim_bad : sim w_bad (RErr tt). Proof. intros u pre _; reflexivity. Qed.
Lemma sim_rbind {A} (r : wres A) (w : A -> writer U) (p : A -> pw) :
  (forall a, sim (w a) (p a)) -> sim (fun u => rbind r (fun a => w a u)) (rbind r p).
Proof. intros H u pre Hu. destruct r; cbn [rbind]; try reflexivity. apply (H a u pre Hu). Qed.
Lemma sim_sum ws rs : Forall2 sim ws rs -> forall acc, sim (w_sum cf acc ws) (r_sum acc rs).
Proof.
  induction 1 as [|w r ws rs Hw _ IH]; intros acc u pre Hu; cbn [w_sum r_sum].
  - exists u. rewrite app_nil_r. auto.
  - specialize (Hw u pre Hu). destruct r as [[n bs]| | | |]; cbn [rbind]; try (rewrite Hw; reflexivity).
    destruct Hw as (u' & E & Hu'). rewrite E; cbn [rbind fst snd].
    destruct (uadd (cf_mode cf) acc n) as [s| | | |]; cbn [rbind]; try reflexivity.
    specialize (IH s u' _ Hu'). destruct (r_sum s rs) as [[n2 bs2]| | | |]; cbn [rbind]; try exact IH.
    destruct IH as (u2 & E2 & Hu2). exists u2. cbn [fst snd]. rewrite app_assoc. auto.
Qed.
Lemma sim_int k z : sim (w_int cf T k z) (r_end (r_put (to_be_bytes k z))).
Proof. apply sim_end, sim_all. Qed.
Lemma sim_ranged k lo hi z : sim (w_ranged cf T k lo hi z) (r_ranged k lo hi z).
Proof.
  unfold w_ranged, r_ranged. apply (sim_rbind _ (fun x u => w_add cf (w_int cf T k x) (w_call (tg_resolve_zero T)) u)).
  intros x. apply sim_end, sim_int.
Qed.
Lemma sim_pref s lp : sim (w_pref cf T s lp) (r_pref s lp).
Proof. destruct s; [apply sim_int|apply sim_int|apply sim_ranged]. Qed.
Lemma sim_anticipate n w r : sim w r -> sim (fun u => w (tg_anticipate T n u)) r.
Proof. intros H u pre Hu. apply H. apply HL; exact Hu. Qed.
End Sim.

Lemma map2_forall2 {A B C E} (P : C -> E -> Prop) (f : A -> B -> C) (g : A -> B -> E) bad bad' l :
  P bad bad' -> Forall (fun a => forall b, P (f a b) (g a b)) l -> forall l',
  Forall2 P (map2 f bad l l') (map2 g bad' l l').
Proof.
  intros Hb H. induction H as [|a l Ha _ IH]; intros [|b l']; cbn [map2]; repeat constructor; auto.
Qed.

Definition sim_val (v : val) : Prop := forall U (T : target U) R, lawful T R -> forall t,
  sim R (write_to cf D kf v U T t) (wr v t).

Lemma count_wr v t : sim_val v -> rmap fst (write_to cf D kf v unit tg_counter t tt) = rmap fst (wr v t).
Proof.
  intros H. specialize (H unit tg_counter (fun _ _ => True) lawful_counter t tt [] Logic.I).
  destruct (wr v t) as [[n bs]| | | |]; try (rewrite H; reflexivity). destruct H as (u' & -> & _). reflexivity.
Qed.
Lemma count_pref s lp : rmap fst (w_pref cf tg_counter s lp tt) = rmap fst (r_pref s lp).
Proof.
  pose proof (sim_pref tg_counter (fun _ _ => True) lawful_counter s lp tt [] Logic.I) as H.
  destruct (r_pref s lp) as [[n bs]| | | |]; try (rewrite H; reflexivity). destruct H as (u' & -> & _). reflexivity.
Qed.

Lemma sim_all_vals v : sim_val v.
Proof.
  induction v as [| | | | |v IHv|vs IHvs|vs IHvs|ix vs IHvs|v IHv] using val_ind'; intros U T R HL t.
  - destruct t; cbn [write_to wr]; try apply sim_bad.
    + intros u pre Hu. exists u. rewrite app_nil_r; auto.
    + destruct (nth_error D i) as [[| |]|]; apply sim_bad.
  - destruct t; cbn [write_to wr]; try apply sim_bad.
    + apply sim_mend; [exact HL|apply sim_one; exact HL].
    + destruct (nth_error D i) as [[| |]|]; apply sim_bad.
  - destruct t; cbn [write_to wr]; try apply sim_bad; try (apply sim_int; exact HL).
    + apply sim_ranged; exact HL.
    + apply (sim_rbind R _ (fun bs u => w_push_all cf T bs u)). intros bs. apply sim_end; [exact HL|apply sim_all; exact HL].
    + apply (sim_rbind R _ (fun bs u => w_push_all cf T bs u)). intros bs. apply sim_end; [exact HL|apply sim_all; exact HL].
    + destruct (nth_error D i) as [[| |]|]; apply sim_bad.
  - destruct t; cbn [write_to wr]; try apply sim_bad;
      try (apply sim_end; [exact HL|apply sim_all; exact HL]);
      try (apply sim_mend; [exact HL|apply sim_all; exact HL]);
      try (apply sim_end; [exact HL|apply sim_many; exact HL]).
    destruct (nth_error D i) as [[| |]|]; apply sim_bad.
  - destruct t; cbn [write_to wr]; try apply sim_bad.
    + apply sim_mend; [exact HL|apply sim_one; exact HL].
    + apply sim_resolve; exact HL.
    + destruct (nth_error D i) as [[| |]|]; apply sim_bad.
  - destruct t; cbn [write_to wr]; try apply sim_bad.
    + apply sim_mend; [exact HL|]. apply sim_add; [apply sim_one; exact HL|apply IHv; exact HL].
    + apply sim_end; [exact HL|apply IHv; exact HL].
    + destruct (nth_error D i) as [[| |]|]; apply sim_bad.
  - assert (Hs : forall t, Forall2 (sim R) (map (fun v => write_to cf D kf v U T t) vs) (map (fun v => wr v t) vs)).
    { intros t'. induction IHvs as [|v vs Hv _ IH]; cbn [map]; constructor; auto. }
    destruct t; cbn [write_to wr]; try apply sim_bad;
      try (apply sim_end; [exact HL|apply sim_sum, Hs]).
    destruct (nth_error D i) as [[| |]|]; apply sim_bad.
  - destruct t; cbn [write_to wr]; try apply sim_bad.
    destruct (nth_error D i) as [[ts| |]|]; try apply sim_bad.
    apply sim_end; [exact HL|]. apply sim_sum. apply map2_forall2; [apply sim_bad|].
    eapply Forall_impl; [|exact IHvs]. intros v Hv t'. apply Hv; exact HL.
  - destruct t; cbn [write_to wr]; try apply sim_bad.
    destruct (nth_error D i) as [[ts|k tags|k alts]|]; try apply sim_bad.
    + destruct vs; [|apply sim_bad]. destruct (nth_error tags ix); [apply sim_int; exact HL|apply sim_bad].
    + destruct (nth_error alts ix) as [[tag ts]|]; [|apply sim_bad].
      apply sim_end; [exact HL|]. apply sim_add; [apply sim_int; exact HL|].
      apply sim_end; [exact HL|]. apply sim_sum. apply map2_forall2; [apply sim_bad|].
      eapply Forall_impl; [|exact IHvs]. intros v Hv t'. apply Hv; exact HL.
  - destruct t; cbn [write_to wr]; try apply sim_bad; try (apply IHv; exact HL).
    + (* dynamic *)
      rewrite (count_wr v t IHv).
      apply (sim_rbind R _ (fun l u => _)). intros l.
      apply (sim_rbind R _ (fun l u => _)). intros _.
      destruct (pref_try_from cf s l) as [lp|]; [|intros u pre _; reflexivity].
      rewrite count_pref.
      apply (sim_rbind R _ (fun ll u => _)). intros ll.
      apply (sim_rbind R _ (fun ll u => _)). intros total.
      apply sim_anticipate; [exact HL|]. apply sim_end; [exact HL|].
      apply sim_add; [apply sim_pref; exact HL|apply IHv; exact HL].
    + apply sim_end; [exact HL|]. apply sim_add; [apply IHv; exact HL|apply sim_many; exact HL].
    + destruct (nth_error D i) as [[| |]|]; apply sim_bad.
Qed.
End Pure.
