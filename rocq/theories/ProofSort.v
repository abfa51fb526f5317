(** Proofs for C99. *)
From Verif Require Import Base BaseLemmas ModelErrors ModelInt ModelFloat ModelSchema ModelHexString ModelTarget ModelHex ModelCompare.
From Verif Require Import SpecCodec SpecNum SpecHexString SpecCompare SpecSort ProofCodec ProofInt ProofNum ProofHexString ProofFloat
  ProofEstimate ProofCodecProps ProofEncValid ProofCodecThms ProofEncBytes ProofCompare ProofOrder ProofFloatEq.

(** ** Dictionary order, decided inside both *)
Definition decided (a b : list Z) : Prop := exists p x s y t, a = p ++ x :: s /\ b = p ++ y :: t /\ x < y.
Definition lower (strict : bool) (a b : list Z) : Prop := if strict then decided a b else before a b.
Definition agree (strict : bool) (c : comparison) (a b : list Z) : Prop :=
  match c with Eq => a = b | Lt => lower strict a b | Gt => lower strict b a end.

Lemma decided_before a b : decided a b -> before a b.
Proof. intros (p & x & s & y & t & H). right. exists p, x, s, y, t. exact H. Qed.
Lemma decided_app a b a' b' : decided a b -> decided (a ++ a') (b ++ b').
Proof. intros (p & x & s & y & t & -> & -> & L). exists p, x, (s ++ a'), y, (t ++ b'). rewrite <- !app_assoc. repeat split; assumption. Qed.
Lemma lower_pre st p a b : lower st a b -> lower st (p ++ a) (p ++ b).
Proof.
  destruct st; cbn [lower].
  - intros (q & x & s & y & t & -> & -> & L). exists (p ++ q), x, s, y, t. rewrite !app_assoc. repeat split; assumption.
  - intros [(y & t & ->)|(q & x & s & y & t & -> & -> & L)].
    + left. exists y, t. rewrite app_assoc. reflexivity.
    + right. exists (p ++ q), x, s, y, t. rewrite !app_assoc. repeat split; assumption.
Qed.
Lemma lower_weak a b st : lower true a b -> lower st a b.
Proof. destruct st; [exact (fun H => H)|apply decided_before]. Qed.
Lemma agree_weak c a b st : agree true c a b -> agree st c a b.
Proof. destruct c; cbn [agree]; [exact (fun H => H)|apply lower_weak|apply lower_weak]. Qed.
Lemma agree_pre st c p a b : agree st c a b -> agree st c (p ++ a) (p ++ b).
Proof. destruct c; cbn [agree]; [intros ->; reflexivity|apply lower_pre|apply lower_pre]. Qed.
Lemma agree_app st c c' a b a' b' : agree true c a b -> (c = Eq -> agree st c' a' b') ->
  agree st (match c with Eq => c' | Lt => Lt | Gt => Gt end) (a ++ a') (b ++ b').
Proof.
  destruct c; cbn [agree]; intros H H'.
  - subst b. apply agree_pre, H'. reflexivity.
  - apply lower_weak. cbn [lower] in H |- *. apply decided_app, H.
  - apply lower_weak. cbn [lower] in H |- *. apply decided_app, H.
Qed.
Lemma before_len a b : before a b -> zlen a = zlen b -> decided a b.
Proof.
  intros [(y & t & ->)|H] L; [|exact H]. rewrite zlen_app, zlen_cons in L. pose proof (zlen_nonneg t). unfold byte in *. lia.
Qed.
Lemma agree_len c a b st : agree false c a b -> zlen a = zlen b -> agree st c a b.
Proof.
  intros H L. apply agree_weak. destruct c; cbn [agree lower] in *; [exact H|apply before_len; assumption|apply before_len; [exact H|symmetry; exact L]].
Qed.
Lemma agree_slice a b : agree false (slice_cmp a b) a b.
Proof.
  destruct (slice_cmp_spec a b) as (H1 & H2 & H3). destruct (slice_cmp a b); cbn [agree lower]; [apply H2|apply H1|apply H3]; reflexivity.
Qed.

(** ** Numbers *)
Lemma compare_div x y : 0 <= x -> 0 <= y ->
  Z.compare x y = match Z.compare (x / 256) (y / 256) with Eq => Z.compare (x mod 256) (y mod 256) | Lt => Lt | Gt => Gt end.
Proof.
  intros Hx Hy. pose proof (Z.div_mod x 256 ltac:(lia)) as E. pose proof (Z.div_mod y 256 ltac:(lia)) as E'.
  pose proof (Z.mod_pos_bound x 256 ltac:(lia)). pose proof (Z.mod_pos_bound y 256 ltac:(lia)).
  destruct (Z.compare_spec (x / 256) (y / 256)) as [Q|Q|Q].
  - destruct (Z.compare_spec (x mod 256) (y mod 256)); [apply Z.compare_eq_iff|apply Z.compare_lt_iff|apply Z.compare_gt_iff]; lia.
  - apply Z.compare_lt_iff. lia.
  - apply Z.compare_gt_iff. lia.
Qed.
Lemma agree_byte x y : agree true (Z.compare x y) [x] [y].
Proof.
  destruct (Z.compare_spec x y) as [->|L|L]; cbn [agree lower]; [reflexivity| |].
  - exists [], x, [], y, []. repeat split. exact L.
  - exists [], y, [], x, []. repeat split. exact L.
Qed.
Lemma agree_big_endian n : forall x y, 0 <= x < 256 ^ Z.of_nat n -> 0 <= y < 256 ^ Z.of_nat n ->
  agree true (Z.compare x y) (big_endian n x) (big_endian n y).
Proof.
  induction n as [|n IH]; intros x y Hx Hy.
  - change (256 ^ Z.of_nat 0) with 1 in *. replace x with y by lia. rewrite Z.compare_refl. reflexivity.
  - cbn [big_endian]. rewrite compare_div by lia.
    rewrite Nat2Z.inj_succ, Z.pow_succ_r in Hx, Hy by lia.
    apply (agree_app true (Z.compare (x / 256) (y / 256))).
    + apply IH; (split; [apply Z.div_pos; lia|apply Z.div_lt_upper_bound; lia]).
    + intros _. apply agree_byte.
Qed.
Lemma agree_int k x y : 0 <= x <= ik_max k -> 0 <= y <= ik_max k -> agree true (Z.compare x y) (int_format k x) (int_format k y).
Proof.
  intros Hx Hy. unfold int_format.
  assert (B : ik_max k < 256 ^ ik_len k) by (destruct k; vm_compute; reflexivity).
  rewrite !Z.mod_small by lia. apply agree_big_endian; rewrite Z2Nat.id by (destruct k; discriminate); lia.
Qed.
Lemma unsigned_pos k z : unsigned k = true -> ik_in k z = true -> 0 <= z <= ik_max k.
Proof.
  intros U H. unfold ik_in in H. apply andb_prop in H. destruct H as [H H']. destruct k; try discriminate U; unfold ik_min in H; cbn [ik_signed] in H; lia.
Qed.

Lemma ranged_pos k lo hi z : ri_sanity lo hi = true -> unsigned k || (0 <=? lo) = true -> ranged_ok k lo hi z = true -> 0 <= z <= ik_max k.
Proof.
  intros _ U H. unfold ranged_ok in H. apply andb_prop in H. destruct H as [Hk H]. apply orb_prop in U. destruct U as [U|U].
  - apply unsigned_pos; assumption.
  - unfold ik_in in Hk. destruct (0 <? lo) eqn:E; lia.
Qed.

(** Positive floating-point numbers. *)
Lemma positive_float lo z : is_u64 z = true -> 0 < lo < 2 ^ 63 -> f64_le lo z = true -> 0 <= z < 2 ^ 63 /\ f64_number z = true.
Proof.
  intros Hz Hlo H. unfold is_u64 in Hz. assert (Bz : 0 <= z < 2 ^ 64) by lia. clear Hz.
  unfold f64_le, Floats.SpecFloat.SFleb in H. fold (f64_cmp lo z) in H. rewrite f64_cmp_value in H by lia.
  destruct (f64_number lo && f64_number z) eqn:N; [|discriminate H]. apply andb_prop in N. destruct N as [_ N]. split; [|exact N].
  rewrite !f64_value_magn in H by lia.
  destruct (Z.ltb_spec lo (2 ^ 63)); [|lia]. destruct (Z.ltb_spec z (2 ^ 63)); [lia|].
  pose proof (magn_lt 0 lo ltac:(lia)) as P. change (magn 0) with 0 in P.
  assert (Q : 0 <= magn (z - 2 ^ 63)).
  { destruct (Z.eq_dec (z - 2 ^ 63) 0) as [->|]; [reflexivity|]. pose proof (magn_lt 0 (z - 2 ^ 63) ltac:(lia)) as Q. change (magn 0) with 0 in Q. lia. }
  destruct (Z.compare_spec (magn lo) (- magn (z - 2 ^ 63))); try discriminate H; lia.
Qed.
Lemma agree_float a b : 0 <= a < 2 ^ 63 -> 0 <= b < 2 ^ 63 -> f64_number a = true -> f64_number b = true ->
  f64_cmp a b = Some (Z.compare a b).
Proof.
  intros Ha Hb Na Nb. rewrite f64_cmp_value, Na, Nb by lia. cbn [andb]. f_equal. rewrite !f64_value_magn by lia.
  destruct (Z.ltb_spec a (2 ^ 63)); [|lia]. destruct (Z.ltb_spec b (2 ^ 63)); [|lia].
  destruct (Z.compare_spec a b) as [->|L|L]; [apply Z.compare_refl| |].
  - apply Z.compare_lt_iff, magn_lt. lia.
  - apply Z.compare_gt_iff, magn_lt. lia.
Qed.

(** ** Padding *)
Lemma before_zeros n : forall l, l <> [] -> Forall (fun b => 0 <= b) l -> before (repeat 0 n) (l ++ repeat 0 n).
Proof.
  induction n as [|n IH]; intros l Hl Hb.
  - cbn [repeat]. apply before_nil. destruct l; [congruence|discriminate].
  - destruct l as [|y l]; [congruence|]. inversion Hb as [|? ? Hy Hb']; subst. cbn [repeat app]. apply before_cons.
    destruct (Z.eq_dec y 0) as [->|]; [right|left; lia]. split; [reflexivity|].
    replace (l ++ 0 :: repeat 0 n) with ((l ++ [0]) ++ repeat 0 n) by (rewrite <- app_assoc; reflexivity).
    apply IH; [destruct l; discriminate|]. apply Forall_app. split; [exact Hb'|]. constructor; [lia|constructor].
Qed.
Lemma lower_pad st n a b : Forall (fun b => 0 <= b) b -> lower st a b -> lower st (a ++ repeat 0 n) (b ++ repeat 0 n).
Proof.
  intros Hb H. destruct st; cbn [lower] in *; [apply decided_app, H|]. destruct H as [(y & t & ->)|H].
  - rewrite <- app_assoc. apply (lower_pre false). cbn [lower]. apply (before_zeros n (y :: t)); [discriminate|].
    apply Forall_app in Hb. exact (proj2 Hb).
  - apply decided_before, decided_app. exact H.
Qed.
Lemma agree_pad st n c a b : Forall (fun b => 0 <= b) a -> Forall (fun b => 0 <= b) b -> agree st c a b ->
  agree st c (a ++ repeat 0 n) (b ++ repeat 0 n).
Proof. destruct c; cbn [agree]; intros Ha Hb H; [subst; reflexivity|apply lower_pad; assumption|apply lower_pad; assumption]. Qed.

(** ** Discriminants *)
Lemma ascending_nth l : ascending l = true -> forall i j x y, (i < j)%nat -> nth_error l i = Some x -> nth_error l j = Some y -> x < y.
Proof.
  induction l as [|a l IH]; intros H i j x y L Hi Hj; [destruct i; discriminate|].
  assert (H' : ascending l = true) by (destruct l as [|b l]; [reflexivity|cbn [ascending] in H; apply andb_prop in H; tauto]).
  destruct j as [|j]; [lia|]. cbn [nth_error] in Hj. destruct i as [|i]; [|apply (IH H' i j); [lia|exact Hi|exact Hj]].
  injection Hi as <-. destruct l as [|b l]; [destruct j; discriminate|]. cbn [ascending] in H. apply andb_prop in H. destruct H as [H _].
  destruct j as [|j]; [injection Hj as <-; lia|]. pose proof (IH H' 0%nat (S j) b y ltac:(lia) eq_refl Hj). lia.
Qed.
Lemma tag_unsigned k : tag_kind k = true -> unsigned k = true.
Proof. destruct k; intros H; try discriminate H; reflexivity. Qed.

Section Main.
Variables (D : list def) (I : list tinfo) (K : list place).
Hypotheses (HD : wf_defs D = true) (HI : disciplined D I = true) (HK : sorted_defs D I K = true).

Lemma place_nth i d : nth_error D i = Some d -> place_check I K d (nth i K Nowhere) = true.
Proof.
  unfold sorted_defs in HK. apply andb_prop in HK. destruct HK as [_ H].
  assert (G : forall ds ps, all2 (place_check I K) ds ps = true -> forall i d, nth_error ds i = Some d -> place_check I K d (nth i ps Nowhere) = true).
  { induction ds as [|e ds IH]; intros [|p ps] A j b E; try discriminate A; [destruct j; discriminate|].
    cbn [all2] in A. apply andb_prop in A. destruct A as [A1 A2]. destruct j as [|j]; cbn [nth_error nth] in *; [injection E as <-; exact A1|eauto]. }
  exact (G D K H i d).
Qed.

Definition good (v : val) : Prop := forall last w t, wf_ty D t = true -> valid D v t = true -> valid D w t = true -> sorted I K last t = true ->
  exists c, val_cmp D v w t = Some c /\ agree (negb last) c (format D v t) (format D w t).

Lemma good_fields vs : Forall good vs -> forall last ws ts, forallb (wf_ty D) ts = true -> all2 (valid D) vs ts = true -> all2 (valid D) ws ts = true ->
  sorted_fields I K last ts = true ->
  exists c, lex_fields (val_cmp D) vs ws ts = Some c /\ agree (negb last) c (concat2 (format D) vs ts) (concat2 (format D) ws ts).
Proof.
  induction 1 as [|v vs Hv _ IH]; intros last [|w ws] [|t ts] W V1 V2 S; try discriminate V1; try discriminate V2.
  - exists Eq. split; reflexivity.
  - cbn [forallb all2] in W, V1, V2. apply andb_prop in W, V1, V2. destruct W as [W W'], V1 as [V1 V1'], V2 as [V2 V2'].
    rewrite !concat2_cons. cbn [lex_fields].
    destruct ts as [|t' ts].
    + destruct vs; [|discriminate V1']. destruct ws; [|discriminate V2']. cbn [sorted_fields] in S.
      destruct (Hv last w t W V1 V2 S) as (c & -> & A). exists c. split; [destruct c; reflexivity|].
      change (concat2 (format D) [] []) with (@nil Z). rewrite !app_nil_r. exact A.
    + change (sorted_fields I K last (t :: t' :: ts)) with (sorted I K false t && sorted_fields I K last (t' :: ts)) in S.
      apply andb_prop in S. destruct S as [S S'].
      destruct (Hv false w t W V1 V2 S) as (c & -> & A). destruct (IH last ws (t' :: ts) W' V1' V2' S') as (c' & E' & A').
      exists (match c with Eq => c' | Lt => Lt | Gt => Gt end). split; [destruct c; [exact E'|reflexivity|reflexivity]|].
      apply agree_app; [exact A|intros _; exact A'].
Qed.
Lemma good_seq vs t : Forall good vs -> wf_ty D t = true -> sorted I K false t = true ->
  forall ws, forallb (fun v => valid D v t) vs = true -> forallb (fun v => valid D v t) ws = true ->
  nonempty I t = true \/ zlen vs = zlen ws ->
  exists c, lex_seq (fun v w => val_cmp D v w t) vs ws = Some c /\
    agree (negb (nonempty I t)) c (concat (map (fun v => format D v t) vs)) (concat (map (fun v => format D v t) ws)) /\
    (zlen vs = zlen ws -> agree true c (concat (map (fun v => format D v t) vs)) (concat (map (fun v => format D v t) ws))).
Proof.
  intros HG W S. induction HG as [|v vs Hv _ IH]; intros [|w ws] V1 V2 N; cbn [lex_seq map concat].
  - exists Eq. repeat split; reflexivity.
  - exists Lt. split; [reflexivity|]. rewrite zlen_cons. cbn [forallb] in V2. apply andb_prop in V2. destruct V2 as [V2 _].
    pose proof (zlen_nonneg ws). change (zlen (@nil val)) with 0 in *. rewrite zlen_cons in N. split; [|intros; lia].
    destruct N as [N|N]; [|lia]. rewrite N. cbn [negb agree lower].
    pose proof (nonempty_format D I HI HD w t W N V2) as P. apply before_nil. intros E. apply (f_equal zlen) in E. rewrite zlen_app in E.
    pose proof (zlen_nonneg (concat (map (fun v => format D v t) ws))). change (zlen (@nil Z)) with 0 in E. unfold byte in *. lia.
  - exists Gt. split; [reflexivity|]. rewrite zlen_cons. cbn [forallb] in V1. apply andb_prop in V1. destruct V1 as [V1 _].
    pose proof (zlen_nonneg vs). change (zlen (@nil val)) with 0 in *. rewrite zlen_cons in N. split; [|intros; lia].
    destruct N as [N|N]; [|lia]. rewrite N. cbn [negb agree lower].
    pose proof (nonempty_format D I HI HD v t W N V1) as P. apply before_nil. intros E. apply (f_equal zlen) in E. rewrite zlen_app in E.
    pose proof (zlen_nonneg (concat (map (fun v => format D v t) vs))). change (zlen (@nil Z)) with 0 in E. unfold byte in *. lia.
  - cbn [forallb] in V1, V2. apply andb_prop in V1, V2. destruct V1 as [V1 V1'], V2 as [V2 V2']. rewrite !zlen_cons in *.
    destruct (Hv false w t W V1 V2 S) as (c & -> & A). destruct (IH ws V1' V2' ltac:(destruct N; [left; assumption|right; lia])) as (c' & E' & A' & B').
    exists (match c with Eq => c' | Lt => Lt | Gt => Gt end). split; [destruct c; [exact E'|reflexivity|reflexivity]|].
    split; [|intros L]; (apply agree_app; [exact A|intros _]); [exact A'|apply B'; lia].
Qed.

Lemma format_nonneg v t : valid D v t = true -> Forall (fun b => 0 <= b) (format D v t).
Proof.
  intros V. pose proof (ProofGrammar.format_bytes D v t (ProofEncValid.valid_typed D v t V)) as B.
  eapply Forall_impl; [|exact B]. intros b Hb. unfold is_byte in Hb. cbn beta in Hb. lia.
Qed.

Lemma all_good v : good v.
Proof.
  unfold good.
  induction v as [|b|z|bs| |v IHv|vs IHvs|vs IHvs|ix vs IHvs|v IHv] using val_ind'; intros last w t W V1 V2 S;
    destruct t; try discriminate V1; try discriminate S; destruct w; try discriminate V2;
    cbn [val_cmp format]; cbn [wf_ty] in W; cbn [sorted] in S; unfold valid in V1, V2; cbn [valid_gen] in V1, V2;
    repeat (match goal with H : _ && _ = true |- _ => apply andb_prop in H; destruct H end).
  all: try (destruct (nth_error D i) as [[?|?|?]|] eqn:Ei; first [discriminate V1|discriminate V2]).
  - exists Eq. split; reflexivity.
  - exists (bool_cmp b b0). split; [reflexivity|]. apply agree_weak. destruct b, b0; cbn [bool_cmp].
    + reflexivity.
    + exact (agree_byte 255 0).
    + exact (agree_byte 0 255).
    + reflexivity.
  - exists (Z.compare z z0). split; [reflexivity|]. apply agree_weak, agree_int; apply unsigned_pos; assumption.
  - exists (Z.compare z z0). split; [reflexivity|]. apply agree_weak, agree_int; apply (ranged_pos k lo hi); assumption.
  - destruct (positive_float lo z) as [B1 N1]; [assumption|lia|assumption|].
    destruct (positive_float lo z0) as [B2 N2]; [assumption|lia|assumption|].
    exists (Z.compare z z0). split; [apply agree_float; assumption|]. apply agree_weak, agree_big_endian; change (256 ^ Z.of_nat 8) with (2 ^ 64); lia.
  - exists (slice_cmp bs bs0). split; [reflexivity|]. rewrite S. apply agree_slice.
  - exists (slice_cmp bs bs0). split; [reflexivity|]. rewrite S. apply agree_slice.
  - exists (slice_cmp bs bs0). split; [reflexivity|]. apply agree_len; [apply agree_slice|unfold byte in *; lia].
  - exists (slice_cmp bs bs0). split; [reflexivity|]. apply agree_len; [apply agree_slice|unfold byte in *; lia].
  - exists Eq. split; reflexivity.
  - exists Lt. split; [reflexivity|]. cbn [agree]. apply lower_weak. exists [], 0, [], 255, (format D w t). repeat split.
  - exists Eq. split; reflexivity.
  - exists Lt. split; [reflexivity|]. subst last. cbn [agree negb lower]. apply before_nil. intros E.
    pose proof (nonempty_format D I HI HD w t W ltac:(assumption) V2) as P. rewrite E in P. discriminate P.
  - exists Gt. split; [reflexivity|]. cbn [agree]. apply lower_weak. exists [], 0, [], 255, (format D v t). repeat split.
  - destruct (IHv last w t W V1 V2 S) as (c & E & A). exists c. split; [exact E|]. exact (agree_pre _ c [255] _ _ A).
  - exists Gt. split; [reflexivity|]. subst last. cbn [agree negb lower]. apply before_nil. intros E.
    pose proof (nonempty_format D I HI HD v t W ltac:(assumption) V1) as P. rewrite E in P. discriminate P.
  - subst last. apply IHv; assumption.
  - subst last. destruct (good_seq vs t IHvs W ltac:(assumption) vs0 V1 V2 ltac:(left; assumption)) as (c & E & A & _).
    exists c. split; [exact E|]. replace (nonempty I t) with true in A by congruence. exact A.
  - subst last. destruct (good_seq vs t IHvs ltac:(assumption) ltac:(assumption) vs0 ltac:(assumption) ltac:(assumption) ltac:(left; assumption)) as (c & E & A & _).
    exists c. split; [exact E|]. replace (nonempty I t) with true in A by congruence. exact A.
  - assert (L : zlen vs = zlen vs0) by lia.
    destruct (good_seq vs t IHvs ltac:(assumption) ltac:(assumption) vs0 ltac:(assumption) ltac:(assumption) ltac:(right; exact L)) as (c & E & _ & A).
    exists c. split; [exact E|]. apply agree_weak, A, L.
  - pose proof (place_nth i) as P. destruct (nth_error D i) as [[ts|?|?]|] eqn:Ei; try discriminate V1. specialize (P _ eq_refl).
    destruct (struct_nth D I HI HD i ts Ei) as (_ & _ & _ & Wts).
    destruct (nth i K Nowhere); cbn [place_check sorted_def] in P; [| |discriminate S].
    + destruct (good_fields vs IHvs false vs0 ts Wts V1 V2 P) as (c & E & A). exists c. split; [exact E|]. apply agree_weak, A.
    + subst last. exact (good_fields vs IHvs true vs0 ts Wts V1 V2 P).
  - pose proof (place_nth i) as P. destruct (nth_error D i) as [[ts|k tags|k alts]|] eqn:Ei; try discriminate V1; specialize (P _ eq_refl);
      pose proof (wf_nth D _ _ HD Ei) as Wd; cbn [wf_def] in Wd.
    + apply andb_prop in Wd. destruct Wd as [Wd Wt]. apply andb_prop in Wd. destruct Wd as [Wk _]. apply tag_unsigned in Wk.
      destruct vs; [|discriminate V1]. destruct vs0; [|discriminate V2]. rewrite forallb_forall in Wt.
      eexists. split; [reflexivity|]. apply agree_weak, agree_int; apply unsigned_pos; try assumption; apply Wt, nth_In; apply Nat.ltb_lt; assumption.
    + apply andb_prop in Wd. destruct Wd as [Wd Wa]. apply andb_prop in Wd. destruct Wd as [Wd Wt]. apply andb_prop in Wd. destruct Wd as [Wk _]. apply tag_unsigned in Wk.
      destruct (nth_error alts ix) as [[n ts]|] eqn:E1; [|discriminate V1]. destruct (nth_error alts ix0) as [[n0 ts0]|] eqn:E2; [|discriminate V2].
      rewrite !(nth_error_nth _ _ _ E1), !(nth_error_nth _ _ _ E2). cbn [fst snd].
      assert (P2 : exists l, (last = true -> l = true \/ l = false) /\ (l = true -> last = true) /\ ascending (map fst alts) = true /\ sorted_fields I K l ts = true).
      { destruct (nth i K Nowhere); [exists false|exists true; subst last|discriminate S]; cbn [place_check sorted_def] in P;
          apply andb_prop in P; destruct P as [P1 P2]; rewrite forallb_forall in P2; specialize (P2 _ (nth_error_In _ _ E1)); cbn [snd] in P2;
          (split; [auto|]); (split; [congruence|]); split; assumption. }
      destruct P2 as (l & _ & Hl & As & Sf).
      assert (M1 : nth_error (map fst alts) ix = Some n) by (rewrite nth_error_map, E1; reflexivity).
      assert (M2 : nth_error (map fst alts) ix0 = Some n0) by (rewrite nth_error_map, E2; reflexivity).
      rewrite forallb_forall in Wt, Wa.
      pose proof (unsigned_pos k n Wk (Wt _ (nth_error_In _ _ M1))) as B1. pose proof (unsigned_pos k n0 Wk (Wt _ (nth_error_In _ _ M2))) as B2.
      pose proof (agree_int k n n0 B1 B2) as A.
      destruct (Nat.compare_spec ix ix0) as [Q|Q|Q].
      * subst ix0. rewrite E1 in E2. injection E2 as <- <-.
        destruct (good_fields vs IHvs l vs0 ts (Wa _ (nth_error_In _ _ E1)) V1 V2 Sf) as (c & E & A'). exists c. split; [exact E|].
        apply agree_pre. destruct l; [rewrite (Hl eq_refl); exact A'|apply agree_weak; exact A'].
      * pose proof (ascending_nth _ As ix ix0 n n0 Q M1 M2) as L. apply Z.compare_lt_iff in L. rewrite L in A.
        exists Lt. split; [reflexivity|]. cbn [agree] in *. apply lower_weak. apply decided_app. exact A.
      * pose proof (ascending_nth _ As ix0 ix n0 n Q M2 M1) as L. apply Z.compare_gt_iff in L. rewrite L in A.
        exists Gt. split; [reflexivity|]. cbn [agree] in *. apply lower_weak. apply decided_app. exact A.
  - destruct (len_of I t) as [n|] eqn:EL; [|discriminate S].
    destruct (IHv true w t W ltac:(assumption) ltac:(assumption) S) as (c & E & A). exists c. split; [exact E|].
    rewrite (len_of_format D I HI HD v t n W EL ltac:(assumption)), (len_of_format D I HI HD w t n W EL ltac:(assumption)).
    apply agree_pre. apply agree_len; [exact A|].
    transitivity n; [|symmetry]; apply (len_of_format D I HI HD _ t n W EL); assumption.
  - apply IHv; assumption.
  - destruct (IHv last w t ltac:(assumption) V1 V2 S) as (c & E & A). exists c. split; [exact E|].
    apply agree_pad; [apply format_nonneg; assumption|apply format_nonneg; assumption|exact A].
  - apply IHv; assumption.
Qed.

(** ** No natural numbers of the variable-length kind *)
Lemma zeros_sorted : forall v last t, sorted I K last t = true -> zeros D v t = 0.
Proof.
  assert (HF : forall vs, Forall (fun v => forall last t, sorted I K last t = true -> zeros D v t = 0) vs ->
    forall last ts, sorted_fields I K last ts = true -> sum2 (zeros D) vs ts = 0).
  { induction 1 as [|v vs Hv _ IH]; intros last [|t ts] S; try reflexivity. rewrite sum2_cons.
    destruct ts as [|t' ts].
    - cbn [sorted_fields] in S. rewrite (Hv last t S). destruct vs; reflexivity.
    - change (sorted_fields I K last (t :: t' :: ts)) with (sorted I K false t && sorted_fields I K last (t' :: ts)) in S.
      apply andb_prop in S. destruct S as [S S']. rewrite (Hv false t S), (IH last (t' :: ts) S'). reflexivity. }
  assert (HS : forall vs t last, Forall (fun v => forall last t, sorted I K last t = true -> zeros D v t = 0) vs ->
    sorted I K last t = true -> fold_right Z.add 0 (map (fun v => zeros D v t) vs) = 0).
  { intros vs t last H S. induction H as [|v vs Hv _ IH]; [reflexivity|]. cbn [map fold_right]. rewrite (Hv last t S), IH. reflexivity. }
  induction v as [| | | | |v IHv|vs IHvs|vs IHvs|ix vs IHvs|v IHv] using val_ind'; intros last t S;
    destruct t; cbn [sorted] in S; try discriminate S; cbn [zeros]; try reflexivity;
    try (destruct (nth_error D i) as [[?|?|?]|]; reflexivity);
    repeat (match goal with H : _ && _ = true |- _ => apply andb_prop in H; destruct H end); eauto.
  - pose proof (place_nth i) as P. destruct (nth_error D i) as [[ts|?|?]|] eqn:Ei; try reflexivity. specialize (P _ eq_refl).
    destruct (nth i K Nowhere); cbn [place_check sorted_def] in P; [eauto|eauto|discriminate S].
  - pose proof (place_nth i) as P. destruct (nth_error D i) as [[?|?|k alts]|] eqn:Ei; try reflexivity. specialize (P _ eq_refl).
    destruct (nth_error alts ix) as [[tag ts]|] eqn:Ea.
    + rewrite (nth_error_nth _ _ _ Ea). cbn [snd].
      destruct (nth i K Nowhere); cbn [place_check sorted_def] in P; [| |discriminate S]; apply andb_prop in P; destruct P as [_ P];
        rewrite forallb_forall in P; specialize (P _ (nth_error_In _ _ Ea)); cbn [snd] in P; eauto.
    + rewrite (nth_overflow _ _ (proj1 (nth_error_None _ _) Ea)). cbn [snd]. destruct vs; reflexivity.
  - destruct (len_of I t); [eauto|discriminate S].
Qed.

Lemma sorted_bytes cf kf last t v w bs bs' : wf_ty D t = true -> sorted I K last t = true ->
  well_typed D v t = true -> well_typed D w t = true -> to_bytes cf D kf v t = ROk bs -> to_bytes cf D kf w t = ROk bs' ->
  zlen bs <= isize_max -> zlen bs' <= isize_max ->
  exists c, val_cmp D v w t = Some c /\ agree (negb last) c bs bs'.
Proof.
  intros W S V1 V2 E1 E2 L1 L2.
  destruct (to_bytes_format cf D kf HD v t bs W V1 E1 L1 (fun _ => zeros_sorted v last t S)) as [-> X1].
  destruct (to_bytes_format cf D kf HD w t bs' W V2 E2 L2 (fun _ => zeros_sorted w last t S)) as [-> X2].
  exact (all_good v last w t W X1 X2 S).
Qed.
End Main.

(** ** The theorems *)
Lemma before_irrefl a : ~ before a a.
Proof. intros H. destruct (slice_cmp_spec a a) as (H1 & H2 & _). apply H1 in H. pose proof (proj2 H2 eq_refl). congruence. Qed.
Lemma before_asym a b : before a b -> ~ before b a.
Proof. intros H H'. destruct (slice_cmp_spec a b) as (H1 & _ & H3). apply H1 in H. apply H3 in H'. congruence. Qed.
Lemma agree_iff c a b : agree false c a b -> (c = Lt <-> before a b) /\ (c = Eq <-> a = b) /\ (c = Gt <-> before b a).
Proof.
  destruct c; cbn [agree lower]; intros H.
  - subst b. repeat split; try congruence; intros H; destruct (before_irrefl _ H).
  - repeat split; try congruence.
    + intros ->. destruct (before_irrefl _ H).
    + intros H'. destruct (before_asym _ _ H H').
  - repeat split; try congruence.
    + intros H'. destruct (before_asym _ _ H H').
    + intros ->. destruct (before_irrefl _ H).
Qed.

Lemma before_app_same p a b : before (p ++ a) (p ++ b) <-> before a b.
Proof.
  induction p as [|x p IH]; [reflexivity|]. cbn [app]. rewrite before_cons, IH. split; [intros [L|[_ H]]; [lia|exact H]|right; split; [reflexivity|assumption]].
Qed.
Lemma sorted_order cf D I K kf t v w bs bs' :
  wf_defs D = true -> disciplined D I = true -> sorted_defs D I K = true -> wf_ty D t = true -> sorted I K true t = true ->
  well_typed D v t = true -> well_typed D w t = true -> to_bytes cf D kf v t = ROk bs -> to_bytes cf D kf w t = ROk bs' ->
  zlen bs <= isize_max -> zlen bs' <= isize_max ->
  (less D t v w <-> before bs bs') /\ (same D t v w <-> bs = bs') /\ (less D t w v <-> before bs' bs).
Proof.
  intros HD HI HK W S V1 V2 E1 E2 L1 L2.
  destruct (sorted_bytes D I K HD HI HK cf kf true t v w bs bs' W S V1 V2 E1 E2 L1 L2) as (c & E & A). cbn [negb] in A.
  destruct (val_cmp_three D v w t HD V1 V2) as (H1 & H2 & H3). destruct (agree_iff c bs bs' A) as (G1 & G2 & G3).
  rewrite <- H1, <- H2, <- H3, E. rewrite <- G1, <- G2, <- G3. repeat split; congruence.
Qed.
Lemma sorted_anywhere cf D I K kf t v w bs bs' x y :
  wf_defs D = true -> disciplined D I = true -> sorted_defs D I K = true -> wf_ty D t = true -> sorted I K false t = true ->
  well_typed D v t = true -> well_typed D w t = true -> to_bytes cf D kf v t = ROk bs -> to_bytes cf D kf w t = ROk bs' ->
  zlen bs <= isize_max -> zlen bs' <= isize_max ->
  (before (bs ++ x) (bs' ++ y) <-> less D t v w \/ same D t v w /\ before x y) /\ (bs = bs' <-> same D t v w).
Proof.
  intros HD HI HK W S V1 V2 E1 E2 L1 L2.
  destruct (sorted_bytes D I K HD HI HK cf kf false t v w bs bs' W S V1 V2 E1 E2 L1 L2) as (c & E & A). cbn [negb] in A.
  destruct (val_cmp_three D v w t HD V1 V2) as (H1 & H2 & H3). pose proof (agree_iff c bs bs' (agree_weak _ _ _ false A)) as (G1 & G2 & G3).
  rewrite <- H1, <- H2, E. split.
  - destruct c; cbn [agree lower] in A.
    + subst bs'. rewrite !before_app_same. split; [right; split; [reflexivity|assumption]|]. intros [X|[_ X]]; [discriminate X|exact X].
    + split; [left; reflexivity|]. intros _. apply decided_before, decided_app, A.
    + split; [|intros [X|[X _]]; discriminate X]. intros X. exfalso. apply (before_asym _ _ X). apply decided_before, decided_app, A.
  - rewrite <- G2. split; congruence.
Qed.

(** ** Other types *)
Lemma swap_intro D t v w : wf_defs D = true -> wf_ty D t = true -> valid D v t = true -> valid D w t = true ->
  (zlen (format D v t) <=? isize_max) && (zlen (format D w t) <=? isize_max) = true ->
  val_cmp D v w t = Some Lt -> slice_cmp (format D w t) (format D v t) = Lt -> swapped D t.
Proof.
  intros HD W V1 V2 L C E. exists v, w. pose proof (valid_typed D v t V1) as T1. pose proof (valid_typed D w t V2) as T2.
  split; [exact T1|]. split; [exact T2|]. split; [apply (val_cmp_three D v w t HD T1 T2), C|].
  intros cf kf EO. exists (format D v t), (format D w t).
  split; [apply to_bytes_valid; try assumption; lia|]. split; [apply to_bytes_valid; try assumption; lia|]. apply (proj1 (slice_cmp_spec _ _)), E.
Qed.
Lemma merge_intro D t v w : wf_defs D = true -> wf_ty D t = true -> valid D v t = true -> valid D w t = true ->
  (zlen (format D v t) <=? isize_max) = true -> val_cmp D v w t = Some Lt -> format D v t = format D w t -> merged D t.
Proof.
  intros HD W V1 V2 L C E. exists v, w. pose proof (valid_typed D v t V1) as T1. pose proof (valid_typed D w t V2) as T2.
  split; [exact T1|]. split; [exact T2|]. split; [apply (val_cmp_three D v w t HD T1 T2), C|].
  intros cf kf EO. exists (format D v t). split; [apply to_bytes_valid; try assumption; lia|]. rewrite E in L |- *. apply to_bytes_valid; try assumption; lia.
Qed.
Ltac swapw v w := apply (swap_intro _ _ v w); vm_compute; reflexivity.
Lemma unsorted_swapped :
  (forall k, unsigned k = false -> swapped [] (TInt k)) /\
  swapped [] (TRanged I8 (-1) 1) /\ swapped [] TF64 /\ swapped [] (TRangedF 0 0x3ff0000000000000) /\ swapped [] TN /\ swapped [] TZ /\
  swapped [] (TDyn PrefU8 TBytes) /\
  swapped [DStruct [TVPad 1 TBytes; TInt U8]] (TNamed 0) /\
  swapped [DData U8 [(1, []); (0, [])]] (TNamed 0) /\
  merged [] (TNullable TUnit) /\ merged [] (TSeq TUnit) /\ merged [] (TLim 2 TUnit).
Proof.
  split. { intros k U. destruct k; try discriminate U; swapw (VInt (-1)) (VInt 0). }
  split; [swapw (VInt (-1)) (VInt 0)|]. split; [swapw (VInt 0xbff0000000000000) (VInt 0)|]. split; [swapw (VInt (2 ^ 63)) (VInt 1)|].
  split; [swapw (VInt 129) (VInt 256)|]. split; [swapw (VInt (-1)) (VInt 0)|]. split; [swapw (VWrap (VBytes [0; 0])) (VWrap (VBytes [1]))|].
  split; [swapw (VStruct [VWrap (VBytes []); VInt 5]) (VStruct [VWrap (VBytes [0]); VInt 0])|].
  split; [swapw (VEnum 0 []) (VEnum 1 [])|].
  split; [apply (merge_intro _ _ VNone (VSome VUnit)); vm_compute; reflexivity|].
  split; apply (merge_intro _ _ (VSeq []) (VSeq [VUnit])); vm_compute; reflexivity.
Qed.

(** ** Hex texts *)
Lemma hex_before a b : bytes_ok a -> bytes_ok b -> (before (hex_of_bytes a) (hex_of_bytes b) <-> before a b).
Proof.
  intros Ha Hb. rewrite <- (proj1 (slice_cmp_spec (hex_of_bytes a) (hex_of_bytes b))), <- (proj1 (slice_cmp_spec a b)), hex_compare by assumption. reflexivity.
Qed.
Lemma sorted_hex cf D I K kf t v w bs bs' :
  wf_defs D = true -> disciplined D I = true -> sorted_defs D I K = true -> wf_ty D t = true -> sorted I K true t = true ->
  well_typed D v t = true -> well_typed D w t = true -> to_bytes cf D kf v t = ROk bs -> to_bytes cf D kf w t = ROk bs' ->
  zlen bs <= isize_max -> zlen bs' <= isize_max ->
  (less D t v w <-> before (hex_of_bytes bs) (hex_of_bytes bs')).
Proof.
  intros HD HI HK W S V1 V2 E1 E2 L1 L2. rewrite (proj1 (sorted_order cf D I K kf t v w bs bs' HD HI HK W S V1 V2 E1 E2 L1 L2)).
  destruct (to_bytes_format cf D kf HD v t bs W V1 E1 L1 (fun _ => zeros_sorted D I K HK v true t S)) as [-> X1].
  destruct (to_bytes_format cf D kf HD w t bs' W V2 E2 L2 (fun _ => zeros_sorted D I K HK w true t S)) as [-> X2].
  symmetry. apply hex_before; apply ProofGrammar.format_bytes; assumption.
Qed.
