(** Proofs about [==] and [partial_cmp]. *)
From Coq Require Import Floats.SpecFloat.
From Verif Require Import Base BaseLemmas ModelErrors ModelInt ModelFloat ModelSchema ModelHexString ModelCompare.
From Verif Require Import SpecCodec SpecNum SpecHexString SpecCompare ProofCodec ProofNum ProofHexString.

(** ** Comparing through a key *)
Definition lex3 (a b : Z * Z * Z) : comparison :=
  match a, b with
  | (x, y, z), (x', y', z') =>
      match x ?= x' with Eq => match y ?= y' with Eq => z ?= z' | c => c end | c => c end
  end.
Definition sf_key (f : spec_float) : option (Z * Z * Z) :=
  match f with
  | S754_zero _ => Some (0, 0, 0)
  | S754_infinity s => Some (if s then -2 else 2, 0, 0)
  | S754_nan => None
  | S754_finite s m e => Some (if s then (-1, - e, - Zpos m) else (1, e, Zpos m))
  end.
Lemma sf_compare_key f g :
  SFcompare f g = match sf_key f, sf_key g with Some a, Some b => Some (lex3 a b) | _, _ => None end.
Proof.
  destruct f as [[]|[]| |[] m e], g as [[]|[]| |[] m' e']; try reflexivity; cbn [SFcompare sf_key lex3]; rewrite Z.compare_refl.
  rewrite (Z.compare_opp e e'), (Z.compare_opp (Zpos m) (Zpos m')), (Z.compare_antisym e e'). change (Zpos m' ?= Zpos m) with (Pos.compare m' m).
    change (Pos.compare_cont Eq m m') with (Pos.compare m m'). rewrite (Pos.compare_antisym m m').
    destruct (e ?= e'); reflexivity.
Qed.

Lemma lex3_antisym a b : lex3 b a = CompOpp (lex3 a b).
Proof.
  destruct a as [[x y] z], b as [[x' y'] z']. cbn [lex3].
  rewrite (Z.compare_antisym x x'), (Z.compare_antisym y y'), (Z.compare_antisym z z').
  destruct (x ?= x'), (y ?= y'), (z ?= z'); reflexivity.
Qed.

(** What two comparisons in a row imply. *)
Definition join (a b : comparison) : option comparison :=
  match a, b with
  | Eq, c | c, Eq => Some c
  | Lt, Lt => Some Lt
  | Gt, Gt => Some Gt
  | _, _ => None
  end.
Lemma z_join x y z c d : join (x ?= y) (y ?= z) = Some c -> d = c -> (x ?= z) = d.
Proof.
  intros H ->. destruct (Z.compare_spec x y), (Z.compare_spec y z); cbn in H; try discriminate; injection H as <-;
    subst; first [apply Z.compare_refl|apply Z.compare_lt_iff; lia|apply Z.compare_gt_iff; lia].
Qed.
Lemma z_join' x y z c : join (x ?= y) (y ?= z) = Some c -> (x ?= z) = c.
Proof. intros H. exact (z_join _ _ _ _ _ H eq_refl). Qed.
(** Lexicographic combination keeps [join]. *)
Definition then_ (a b : comparison) : comparison := match a with Eq => b | Lt => Lt | Gt => Gt end.
Lemma join_then a b c a' b' c' d :
  (forall d, join a b = Some d -> c = d) -> (forall d, join a' b' = Some d -> c' = d) ->
  join (then_ a a') (then_ b b') = Some d -> then_ c c' = d.
Proof.
  intros H H' J. destruct a, b, a', b'; cbn in *; try discriminate; try (injection J as <-);
    rewrite (H _ eq_refl); cbn [then_]; auto.
Qed.
Lemma lex3_join a b c d : join (lex3 a b) (lex3 b c) = Some d -> lex3 a c = d.
Proof.
  destruct a as [[x y] z], b as [[x' y'] z'], c as [[x'' y''] z'']. cbn [lex3].
  intros H. refine (join_then (x ?= x') (x' ?= x'') (x ?= x'') (then_ (y ?= y') (z ?= z')) (then_ (y' ?= y'') (z' ?= z''))
    (then_ (y ?= y'') (z ?= z'')) d (fun d => z_join' x x' x'' d) _ H).
  intros d' J. exact (join_then _ _ _ _ _ _ _ (fun d => z_join' y y' y'' d) (fun d => z_join' z z' z'' d) J).
Qed.

Definition ojoin (a b : option comparison) : option comparison :=
  match a, b with Some a, Some b => join a b | _, _ => None end.

Lemma f64_cmp_dual a b : f64_cmp b a = option_map CompOpp (f64_cmp a b).
Proof.
  unfold f64_cmp. rewrite !sf_compare_key. destruct (sf_key (f64_of_bits a)), (sf_key (f64_of_bits b)); try reflexivity. cbn [option_map]. rewrite lex3_antisym. reflexivity.
Qed.
Lemma f64_cmp_join a b c d : ojoin (f64_cmp a b) (f64_cmp b c) = Some d -> f64_cmp a c = Some d.
Proof.
  unfold f64_cmp. rewrite !sf_compare_key. destruct (sf_key (f64_of_bits a)), (sf_key (f64_of_bits b)), (sf_key (f64_of_bits c)); cbn [ojoin]; try discriminate.
  intros H. rewrite (lex3_join _ _ _ _ H). reflexivity.
Qed.
Lemma f64_eq_cmp a b : f64_eq a b = true <-> f64_cmp a b = Some Eq.
Proof. unfold f64_eq, f64_cmp, SFeqb. destruct (SFcompare _ _) as [[]|]; split; congruence. Qed.

Lemma bool_cmp_dual a b : bool_cmp b a = CompOpp (bool_cmp a b).
Proof. destruct a, b; reflexivity. Qed.
Lemma bool_cmp_join a b c d : join (bool_cmp a b) (bool_cmp b c) = Some d -> bool_cmp a c = d.
Proof. destruct a, b, c; cbn; congruence. Qed.

Lemma slice_cmp_dual a : forall b, slice_cmp b a = CompOpp (slice_cmp a b).
Proof.
  induction a as [|x a IH]; intros [|y b]; rewrite ?slice_cmp_nil_l, ?slice_cmp_nil_r, ?slice_cmp_cons; try reflexivity.
  rewrite (Z.compare_antisym x y), IH. destruct (x ?= y); reflexivity.
Qed.
Lemma slice_cmp_join a : forall b c d, join (slice_cmp a b) (slice_cmp b c) = Some d -> slice_cmp a c = d.
Proof.
  induction a as [|x a IH]; intros [|y b] [|z c] d; rewrite ?slice_cmp_nil_l, ?slice_cmp_nil_r, ?slice_cmp_cons;
    try (cbn; congruence).
  - destruct (y ?= z); [destruct (slice_cmp b c)|..]; cbn; congruence.
  - destruct (x ?= y); [destruct (slice_cmp a b)|..]; cbn; congruence.
  - intros J. exact (join_then _ _ _ _ _ _ _ (fun d => z_join' x y z d) (fun d => IH b c d) J).
Qed.
Lemma eq_seq_slice a : forall b, eq_seq Z.eqb a b = true <-> slice_cmp a b = Eq.
Proof.
  induction a as [|x a IH]; intros [|y b]; rewrite ?slice_cmp_nil_l, ?slice_cmp_nil_r, ?slice_cmp_cons; cbn [eq_seq]; try (split; congruence).
  specialize (IH b). destruct (Z.eqb_spec x y) as [->|N]; cbn [andb]; [rewrite Z.compare_refl; exact IH|].
  destruct (Z.compare_spec x y); try contradiction; split; congruence.
Qed.

Definition othen (a b : option comparison) : option comparison := match a with Some Eq => b | Some Lt => Some Lt | Some Gt => Some Gt | None => None end.
Lemma ojoin_then a b c a' b' c' d :
  (forall d, ojoin a b = Some d -> c = Some d) -> (forall d, ojoin a' b' = Some d -> c' = Some d) ->
  ojoin (othen a a') (othen b b') = Some d -> othen c c' = Some d.
Proof.
  intros H H' J. destruct a as [[]|], b as [[]|], a' as [[]|], b' as [[]|]; cbn in *; try discriminate; try (injection J as <-);
    rewrite (H _ eq_refl); cbn [othen]; auto.
Qed.
Lemma othen_dual a b a' b' : a' = option_map CompOpp a -> b' = option_map CompOpp b -> othen a' b' = option_map CompOpp (othen a b).
Proof. intros -> ->. destruct a as [[]|]; reflexivity. Qed.

(** ** The contract of [PartialOrd] holds of every type *)
Section Contract.
Variable D : list def.

Lemma nat_compare_dual i j : Nat.compare j i = CompOpp (Nat.compare i j).
Proof. apply Nat.compare_antisym. Qed.

Lemma val_cmp_dual : forall v w t, val_cmp D w v t = option_map CompOpp (val_cmp D v w t).
Proof.
  assert (Q : forall vs, Forall (fun v => forall w t, val_cmp D w v t = option_map CompOpp (val_cmp D v w t)) vs ->
    (forall ws t, lex_seq (fun v w => val_cmp D v w t) ws vs = option_map CompOpp (lex_seq (fun v w => val_cmp D v w t) vs ws)) /\
    (forall ws ts, lex_fields (val_cmp D) ws vs ts = option_map CompOpp (lex_fields (val_cmp D) vs ws ts))).
  { induction 1 as [|v vs Hv Hvs [IH1 IH2]]; (split; [intros [|w ws] t|intros [|w ws] [|t ts]]); try reflexivity.
    - cbn [lex_seq]. apply othen_dual; auto.
    - cbn [lex_fields]. apply othen_dual; auto. }
  induction v as [|b|z|bs| |v IHv|vs IHvs|vs IHvs|ix vs IHvs|v IHv] using val_ind'; intros w t;
    try (destruct t; destruct w; try reflexivity; cbn [val_cmp option_map];
         first [reflexivity|apply f64_cmp_dual|apply IHv|apply (proj1 (Q vs IHvs))
               |rewrite bool_cmp_dual; reflexivity|rewrite slice_cmp_dual; reflexivity|rewrite Z.compare_antisym; reflexivity
               |destruct (nth_error D _) as [[]|]; reflexivity]);
    destruct t; destruct w; try reflexivity; cbn [val_cmp];
      destruct (nth_error D _) as [[ts|k tags|k alts]|]; try reflexivity.
  - apply (Q vs IHvs).
  - rewrite Z.compare_antisym. reflexivity.
  - rewrite nat_compare_dual. match goal with |- context [Nat.compare ix ?j] => destruct (Nat.compare_spec ix j) as [<-|L|L] end; cbn [CompOpp]; try reflexivity. apply (Q vs IHvs).
Qed.

Lemma val_cmp_join : forall v w u t d, ojoin (val_cmp D v w t) (val_cmp D w u t) = Some d -> val_cmp D v u t = Some d.
Proof.
  set (P := fun v => forall w u t d, ojoin (val_cmp D v w t) (val_cmp D w u t) = Some d -> val_cmp D v u t = Some d).
  assert (Q : forall vs, Forall P vs ->
    (forall ws us t d, ojoin (lex_seq (fun v w => val_cmp D v w t) vs ws) (lex_seq (fun v w => val_cmp D v w t) ws us) = Some d ->
       lex_seq (fun v w => val_cmp D v w t) vs us = Some d) /\
    (forall ws us ts d, ojoin (lex_fields (val_cmp D) vs ws ts) (lex_fields (val_cmp D) ws us ts) = Some d ->
       lex_fields (val_cmp D) vs us ts = Some d)).
  { induction 1 as [|v vs Hv Hvs [IH1 IH2]]; (split; [intros [|w ws] [|u us] t d|intros [|w ws] [|u us] [|t ts] d]); try (cbn; congruence).
    - cbn [lex_seq]. destruct (val_cmp D w u t) as [[]|]; [destruct (lex_seq _ ws us) as [[]|]|..]; cbn; congruence.
    - cbn [lex_seq]. destruct (val_cmp D v w t) as [[]|]; [destruct (lex_seq _ vs ws) as [[]|]|..]; cbn; congruence.
    - cbn [lex_seq]. intros J. exact (ojoin_then _ _ _ _ _ _ _ (fun d => Hv w u t d) (fun d => IH1 ws us t d) J).
    - cbn [lex_fields]. destruct (val_cmp D v w t) as [[]|]; [destruct (lex_fields _ vs ws ts) as [[]|]|..]; cbn; congruence.
    - cbn [lex_fields]. intros J. exact (ojoin_then _ _ _ _ _ _ _ (fun d => Hv w u t d) (fun d => IH2 ws us ts d) J). }
  assert (N : forall a, ojoin a None = None) by (intros [[]|]; reflexivity).
  induction v as [|b|z|bs| |v IHv|vs IHvs|vs IHvs|ix vs IHvs|v IHv] using val_ind'; intros w u t d H;
    (destruct t; destruct w; try discriminate H; cbn [val_cmp] in H |- *;
     try (destruct (nth_error D _) as [[?|? ?|? ?]|]; try discriminate H));
    (destruct u; try (rewrite N in H); try discriminate H; cbn [ojoin] in H;
     try first [exact H|exact (f64_cmp_join _ _ _ _ H)|exact (IHv _ _ _ _ H)|exact (proj1 (Q vs IHvs) _ _ _ _ H)
               |exact (proj2 (Q vs IHvs) _ _ _ _ H)
               |rewrite (bool_cmp_join _ _ _ _ H); reflexivity|rewrite (slice_cmp_join _ _ _ _ H); reflexivity
               |rewrite (z_join' _ _ _ _ H); reflexivity]).
  1,2: destruct (val_cmp D w u t) as [[]|]; cbn in H; congruence.
  1,2: destruct (val_cmp D v w t) as [[]|]; cbn in H; congruence.
  match type of H with context [Nat.compare ix ?j] => rename j into jx end.
  match type of H with context [Nat.compare jx ?j] => rename j into kx end.
  destruct (Nat.compare_spec ix jx) as [<-|L|L].
  - destruct (Nat.compare_spec ix kx) as [<-|L'|L'].
    + exact (proj2 (Q vs IHvs) _ _ _ _ H).
    + destruct (lex_fields _ vs _ _) as [[]|]; cbn in H; congruence.
    + destruct (lex_fields _ vs _ _) as [[]|]; cbn in H; congruence.
  - destruct (Nat.compare_spec jx kx) as [<-|L'|L'].
    + rewrite (proj2 (Nat.compare_lt_iff ix jx) L). match type of H with context [lex_fields ?f ?a ?b ?c] => destruct (lex_fields f a b c) as [[]|] end; cbn in H; congruence.
    + rewrite (proj2 (Nat.compare_lt_iff ix kx)) by lia. cbn in H. congruence.
    + discriminate H.
  - destruct (Nat.compare_spec jx kx) as [<-|L'|L'].
    + rewrite (proj2 (Nat.compare_gt_iff ix jx) L). match type of H with context [lex_fields ?f ?a ?b ?c] => destruct (lex_fields f a b c) as [[]|] end; cbn in H; congruence.
    + discriminate H.
    + rewrite (proj2 (Nat.compare_gt_iff ix kx)) by lia. cbn in H. congruence.
Qed.

Lemma val_eq_cmp : forall v w t, val_eq D v w t = true <-> val_cmp D v w t = Some Eq.
Proof.
  assert (Q : forall vs, Forall (fun v => forall w t, val_eq D v w t = true <-> val_cmp D v w t = Some Eq) vs ->
    (forall ws t, eq_seq (fun v w => val_eq D v w t) vs ws = true <-> lex_seq (fun v w => val_cmp D v w t) vs ws = Some Eq) /\
    (forall ws ts, eq_fields (val_eq D) vs ws ts = true <-> lex_fields (val_cmp D) vs ws ts = Some Eq)).
  { induction 1 as [|v vs Hv Hvs [IH1 IH2]]; (split; [intros [|w ws] t|intros [|w ws] [|t ts]]); try (cbn; split; congruence).
    - cbn [lex_seq eq_seq]. rewrite andb_true_iff, Hv, IH1. destruct (val_cmp D v w t) as [[]|]; intuition congruence.
    - cbn [lex_fields eq_fields]. rewrite andb_true_iff, Hv, IH2. destruct (val_cmp D v w t) as [[]|]; intuition congruence. }
  assert (S' : forall c, Some c = Some Eq <-> c = Eq) by (intros; split; congruence).
  induction v as [|b|z|bs| |v IHv|vs IHvs|vs IHvs|ix vs IHvs|v IHv] using val_ind'; intros w t;
    destruct t; destruct w; cbn [val_eq val_cmp]; try (destruct (nth_error D _) as [[?|? ?|? ?]|]);
    try (split; congruence);
    try first [apply f64_eq_cmp|apply IHv|apply (proj1 (Q vs IHvs))|apply (proj2 (Q vs IHvs))
              |rewrite S'; apply eq_seq_slice|rewrite S', Z.eqb_eq; symmetry; apply Z.compare_eq_iff].
  - destruct b; match goal with |- context [bool_cmp _ ?b] => destruct b end; cbn; split; congruence.
  - rewrite andb_true_iff. match goal with |- context [Nat.compare ix ?j] => rename j into jx end.
    destruct (Nat.compare_spec ix jx) as [<-|L|L].
    + rewrite Nat.eqb_refl. rewrite <- (proj2 (Q vs IHvs)). tauto.
    + replace (Nat.eqb ix jx) with false by (symmetry; apply Nat.eqb_neq; lia). split; [intros [? _]; congruence|congruence].
    + replace (Nat.eqb ix jx) with false by (symmetry; apply Nat.eqb_neq; lia). split; [intros [? _]; congruence|congruence].
Qed.
End Contract.

(** ** Floating-point numbers *)
Lemma f64_value_bound b : 0 <= b < 2 ^ 64 -> f64_finite b = true -> - 2 ^ 2098 < f64_value b < 2 ^ 2098.
Proof.
  intros Hb Hf. unfold f64_finite in Hf. apply negb_true_iff in Hf. apply Z.eqb_neq in Hf. unfold f64_value. cbv zeta.
  pose proof (Z.mod_pos_bound (b / 2 ^ 52) 2048 ltac:(lia)) as He. pose proof (Z.mod_pos_bound b (2 ^ 52) ltac:(lia)) as Hm.
  set (e := (b / 2 ^ 52) mod 2048) in *. set (f := b mod 2 ^ 52) in *.
  assert (K : 0 <= (if e =? 0 then f else (2 ^ 52 + f) * 2 ^ (e - 1)) < 2 ^ 2098).
  { destruct (Z.eqb_spec e 0).
    - assert (2 ^ 52 < 2 ^ 2098) by (apply Z.pow_lt_mono_r; lia). lia.
    - assert (P : 0 < 2 ^ (e - 1)) by (apply Z.pow_pos_nonneg; lia).
      assert (L : 2 ^ (e - 1) <= 2 ^ 2045) by (apply Z.pow_le_mono_r; lia).
      assert (E : 2 ^ 2098 = 2 ^ 53 * 2 ^ 2045) by reflexivity.
      rewrite E. clear E. set (X := 2 ^ 2045) in *. set (Y := 2 ^ (e - 1)) in *. split; [nia|].
      apply Z.lt_le_trans with (2 ^ 53 * Y); [|apply Z.mul_le_mono_nonneg_l; lia]. apply Z.mul_lt_mono_pos_r; [lia|]. lia. }
  destruct (b <? 2 ^ 63); lia.
Qed.
Lemma f64_number_cases b : 0 <= b < 2 ^ 64 ->
  (f64_number b = true /\ f64_finite b = true /\ f64_of_bits b <> S754_nan /\ forall s, f64_of_bits b <> S754_infinity s) \/
  (exists s : bool, f64_number b = true /\ f64_of_bits b = S754_infinity s /\ f64_value b = if s then - 2 ^ 2098 else 2 ^ 2098) \/
  (f64_number b = false /\ f64_of_bits b = S754_nan).
Proof.
  intros Hb. destruct (f64_finite b) eqn:F.
  - left. destruct (f64_decompose b Hb F) as (m & e & _ & _ & _ & _ & E). unfold f64_finite in F. split; [|split; [reflexivity|]].
    + unfold f64_number. apply negb_true_iff in F. rewrite F. reflexivity.
    + rewrite E. destruct m; split; try discriminate; intros s; discriminate.
  - right. unfold f64_finite in F. apply negb_false_iff in F. unfold f64_number, f64_of_bits, f64_exp, f64_frac, f64_value.
    change (2 ^ 11) with 2048. cbv zeta. rewrite F. apply Z.eqb_eq in F. rewrite F. destruct (Z.eqb_spec (b mod 2 ^ 52) 0) as [E|E].
    + left. exists (f64_sign b). split; [reflexivity|]. split; [reflexivity|]. rewrite E. unfold f64_sign.
      destruct (Z.ltb_spec b (2 ^ 63)); destruct (Z.leb_spec (2 ^ 63) b); try lia; reflexivity.
    + right. split; reflexivity.
Qed.
Lemma f64_cmp_value a b : 0 <= a < 2 ^ 64 -> 0 <= b < 2 ^ 64 ->
  f64_cmp a b = if f64_number a && f64_number b then Some (Z.compare (f64_value a) (f64_value b)) else None.
Proof.
  intros Ha Hb. destruct (f64_number_cases a Ha) as [(Na & Fa & Xa & Ia)|[(s & Na & Xa & Va)|[Na Xa]]];
    destruct (f64_number_cases b Hb) as [(Nb & Fb & Xb & Ib)|[(s' & Nb & Xb & Vb)|[Nb Xb]]];
    rewrite Na, Nb; cbn [andb].
  - pose proof (f64_le_value a b Ha Hb Fa Fb) as L1. pose proof (f64_le_value b a Hb Ha Fb Fa) as L2.
    unfold f64_le, SFleb in L1, L2. fold (f64_cmp a b) in L1. fold (f64_cmp b a) in L2. rewrite f64_cmp_dual in L2.
    destruct (f64_cmp a b) as [[]|] eqn:E; cbn in L1, L2; try (f_equal; symmetry; first [apply Z.compare_eq_iff; lia|apply Z.compare_lt_iff; lia|apply Z.compare_gt_iff; lia]).
    lia.
  - pose proof (f64_value_bound a Ha Fa) as B. unfold f64_cmp. rewrite Xb, Vb. destruct (f64_of_bits a) as [| | |sa m e] eqn:E; try (destruct (Ia _ eq_refl)); try congruence;
      destruct s'; cbn [SFcompare]; f_equal; symmetry; first [apply Z.compare_lt_iff; lia|apply Z.compare_gt_iff; lia].
  - unfold f64_cmp. rewrite Xb. destruct (f64_of_bits a) as [|[]| |]; reflexivity.
  - pose proof (f64_value_bound b Hb Fb) as B. unfold f64_cmp. rewrite Xa, Va. destruct (f64_of_bits b) as [| | |sb m e] eqn:E; try (destruct (Ib _ eq_refl)); try congruence;
      destruct s; cbn [SFcompare]; f_equal; symmetry; first [apply Z.compare_lt_iff; lia|apply Z.compare_gt_iff; lia].
  - unfold f64_cmp. rewrite Xa, Xb, Va, Vb. destruct s, s'; cbn [SFcompare]; f_equal; symmetry; reflexivity.
  - unfold f64_cmp. rewrite Xa, Xb. reflexivity.
  - unfold f64_cmp. rewrite Xa. destruct (f64_of_bits b) as [|[]| |]; reflexivity.
  - unfold f64_cmp. rewrite Xa, Xb. reflexivity.
  - unfold f64_cmp. rewrite Xa, Xb. reflexivity.
Qed.

(** ** The order of values *)
Section Order.
Variable D : list def.

Definition seq_less (E R : val -> val -> Prop) (vs ws : list val) : Prop :=
  (exists p w s, ws = p ++ w :: s /\ Forall2 E vs p) \/
  (exists p p' v s w s', vs = p ++ v :: s /\ ws = p' ++ w :: s' /\ Forall2 E p p' /\ R v w).
Lemma seq_less_cons E R v vs w ws : seq_less E R (v :: vs) (w :: ws) <-> R v w \/ (E v w /\ seq_less E R vs ws).
Proof.
  split.
  - intros [(p & x & s & Ew & F)|(p & p' & x & s & y & s' & Ev & Ew & F & H)].
    + inversion F as [|? y ? q Hy Hq]; subst. cbn [app] in Ew. injection Ew as -> ->. right. split; [exact Hy|]. left. eauto.
    + inversion F as [|a b q q' Hy Hq]; subst; cbn [app] in Ev, Ew.
      * injection Ev as -> ->. injection Ew as -> ->. left; exact H.
      * injection Ev as -> ->. injection Ew as -> ->. right. split; [exact Hy|]. right. exists q, q', x, s, y, s'. auto.
  - intros [H|[He [(p & x & s & -> & F)|(p & p' & x & s & y & s' & -> & -> & F & H)]]].
    + right. exists [], [], v, vs, w, ws. auto.
    + left. exists (w :: p), x, s. auto.
    + right. exists (v :: p), (w :: p'), x, s, y, s'. auto 6.
Qed.
Lemma seq_less_nil_l E R ws : seq_less E R [] ws <-> ws <> [].
Proof.
  split.
  - intros [(p & x & s & -> & _)|(p & p' & x & s & y & s' & Ev & _)]; [destruct p; discriminate|destruct p; discriminate].
  - destruct ws as [|w ws]; [congruence|]. intros _. left. exists [], w, ws. auto.
Qed.
Lemma seq_less_nil_r E R vs : ~ seq_less E R vs [].
Proof. intros [(p & x & s & Ew & _)|(p & p' & x & s & y & s' & _ & Ew & _)]; [destruct p|destruct p']; discriminate. Qed.

Lemma less_seq_iff t t' vs ws : element_of t = Some t' ->
  less D t (VSeq vs) (VSeq ws) <-> seq_less (same D t') (less D t') vs ws.
Proof.
  intros Ht. split.
  - intros H. inversion H; subst;
      match goal with E : element_of t = Some ?a |- _ => assert (a = t') by congruence; subst a end.
    + left. eauto.
    + right. do 6 eexists. eauto.
  - intros [(p & x & s & -> & F)|(p & p' & x & s & y & s' & -> & -> & F & H)].
    + econstructor; eauto.
    + eapply less_element; eauto.
Qed.
Lemma same_seq_iff t t' vs ws : element_of t = Some t' ->
  same D t (VSeq vs) (VSeq ws) <-> Forall2 (same D t') vs ws.
Proof.
  intros Ht. split; [|intros; econstructor; eauto]. intros H. inversion H; subst.
  match goal with E : element_of t = Some ?a |- _ => assert (a = t') by congruence; subst a end. assumption.
Qed.

Definition cmp2 (c : option comparison) (L E : Prop) : Prop := (c = Some Lt <-> L) /\ (c = Some Eq <-> E).

Lemma cmp2_z x y : cmp2 (Some (x ?= y)) (x < y) (x = y).
Proof. split; [rewrite <- Z.compare_lt_iff|rewrite <- Z.compare_eq_iff]; split; congruence. Qed.
Lemma cmp2_iff c L E L' E' : cmp2 c L E -> (L <-> L') -> (E <-> E') -> cmp2 c L' E'.
Proof. unfold cmp2. tauto. Qed.

Lemma lex_seq_cmp2 t vs : forall ws,
  (forall v w, In v vs -> In w ws -> cmp2 (val_cmp D v w t) (less D t v w) (same D t v w)) ->
  cmp2 (lex_seq (fun v w => val_cmp D v w t) vs ws) (seq_less (same D t) (less D t) vs ws) (Forall2 (same D t) vs ws).
Proof.
  induction vs as [|v vs IH]; intros [|w ws] H; cbn [lex_seq].
  - split; split; try congruence; auto. intros K. destruct (seq_less_nil_r _ _ _ K).
  - split; split; try congruence; [intros _; apply seq_less_nil_l; discriminate|intros K; inversion K].
  - split; split; try congruence; [intros K; destruct (seq_less_nil_r _ _ _ K)|intros K; inversion K].
  - destruct (H v w) as [H1 H2]; [left; reflexivity..|]. destruct (IH ws) as [I1 I2]; [intros; apply H; right; assumption|].
    unfold cmp2. rewrite seq_less_cons.
    assert (F : Forall2 (same D t) (v :: vs) (w :: ws) <-> same D t v w /\ Forall2 (same D t) vs ws).
    { split; [intros K; inversion K; auto|intros []; auto]. }
    rewrite F. rewrite <- H1, <- H2. destruct (val_cmp D v w t) as [[]|]; intuition congruence.
Qed.
Lemma lex_fields_cmp2 vs : forall ws ts, length vs = length ts -> length ws = length ts ->
  (forall i v w t, nth_error vs i = Some v -> nth_error ws i = Some w -> nth_error ts i = Some t ->
     cmp2 (val_cmp D v w t) (less D t v w) (same D t v w)) ->
  cmp2 (lex_fields (val_cmp D) vs ws ts) (less_members D ts vs ws) (same_members D ts vs ws).
Proof.
  induction vs as [|v vs IH]; intros [|w ws] [|t ts] L1 L2 H; try discriminate; cbn [lex_fields].
  - split; split; try congruence; [intros K; inversion K|intros _; constructor].
  - destruct (H O v w t) as [H1 H2]; try reflexivity. cbn [length] in L1, L2.
    destruct (IH ws ts) as [I1 I2]; [lia|lia|intros i; apply (H (S i))|].
    assert (F : less_members D (t :: ts) (v :: vs) (w :: ws) <-> less D t v w \/ same D t v w /\ less_members D ts vs ws).
    { split; [intros K; inversion K; auto|intros [K|[K K']]; [apply less_first|apply less_later]; assumption]. }
    assert (G : same_members D (t :: ts) (v :: vs) (w :: ws) <-> same D t v w /\ same_members D ts vs ws).
    { split; [intros K; inversion K; auto|intros [K K']; constructor; assumption]. }
    unfold cmp2. rewrite F, G, <- H1, <- H2. destruct (val_cmp D v w t) as [[]|]; intuition congruence.
Qed.

Lemma nodupb_nth l : nodupb l = true -> forall i j, (i < length l)%nat -> (j < length l)%nat -> nth i l 0 = nth j l 0 -> i = j.
Proof.
  induction l as [|x l IH]; intros H [|i] [|j] Hi Hj E; cbn [length] in *; try lia; cbn [nodupb nth] in *;
    apply andb_prop in H; destruct H as [H1 H2]; apply negb_true_iff in H1.
  - exfalso. assert (existsb (Z.eqb x) l = true); [|congruence]. apply existsb_exists. exists (nth j l 0). split; [apply nth_In; lia|lia].
  - exfalso. assert (existsb (Z.eqb x) l = true); [|congruence]. apply existsb_exists. exists (nth i l 0). split; [apply nth_In; lia|lia].
  - f_equal. apply IH; auto; lia.
Qed.
End Order.
