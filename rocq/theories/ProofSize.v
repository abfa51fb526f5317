(** Decoded values are at most proportional to their input (C64). *)
From Verif Require Import Base BaseLemmas ModelErrors ModelParser ModelInt ModelFloat ModelZarith
  ModelUtf8 ModelTarget ModelSchema SpecParser SpecCodec SpecNum SpecUtf8 SpecGrammar SpecSize
  ProofInt ProofZarith ProofUtf8 ProofFloat ProofDec ProofMeta ProofNum ProofHalt ProofGrammar ProofReencode.
From Coq Require Import ZifyBool.

Lemma log2_bound z n : 0 < n -> Z.abs z < 2 ^ (8 * n) -> Z.log2 (Z.abs z) / 8 + 1 <= n.
Proof.
  intros Hn Hz. destruct (Z.eq_dec z 0) as [->|H0]; [change (Z.log2 (Z.abs 0) / 8) with 0; lia|].
  assert (Z.log2 (Z.abs z) < 8 * n) by (apply Z.log2_lt_pow2; lia).
  assert (Z.log2 (Z.abs z) / 8 < n) by (apply Z.div_lt_upper_bound; lia). lia.
Qed.
Lemma number_bytes_pos z : 1 <= number_bytes z.
Proof. unfold number_bytes. pose proof (Z.div_pos (Z.log2 (Z.abs z)) 8 (Z.log2_nonneg _) ltac:(lia)). lia. Qed.
Lemma int_bytes k z : ik_min k <= z <= ik_max k -> number_bytes z <= ik_len k.
Proof. intros H. unfold number_bytes. apply log2_bound; destruct k; cbn in *; lia. Qed.
Lemma groups_bound l : 0 <= groups_value l < 2 ^ (8 * zlen l).
Proof.
  induction l as [|b l IH]; [cbn; lia|]. cbn [groups_value]. rewrite zlen_cons. pose proof (Z.mod_pos_bound b 128 ltac:(lia)).
  replace (8 * (1 + zlen l)) with (8 * zlen l + 8) by lia. rewrite Z.pow_add_r by (pose proof (zlen_nonneg l); lia).
  change (2 ^ 8) with 256. lia.
Qed.
Lemma signed_groups_bound l : l <> [] -> Z.abs (signed_groups_value l) < 2 ^ (8 * zlen l).
Proof.
  destruct l as [|b l]; [congruence|]. intros _. cbn [signed_groups_value]. rewrite zlen_cons. pose proof (groups_bound l).
  pose proof (Z.mod_pos_bound b 64 ltac:(lia)).
  replace (8 * (1 + zlen l)) with (8 * zlen l + 8) by lia. rewrite Z.pow_add_r by (pose proof (zlen_nonneg l); lia).
  change (2 ^ 8) with 256. destruct (b mod 128 <? 64); lia.
Qed.
Lemma marked_len l : marked l -> l <> [] /\ 1 <= zlen l.
Proof. destruct l as [|b l]; [contradiction|]. intros _. split; [discriminate|]. rewrite zlen_cons. pose proof (zlen_nonneg l). lia. Qed.
Lemma zlen_int_format k z : zlen (int_format k z) = ik_len k.
Proof. unfold int_format. rewrite zlen_be. destruct k; reflexivity. Qed.
Lemma zlen_pref_format s n : zlen (pref_format s n) = pref_len s.
Proof. unfold pref_format. rewrite zlen_be. destruct s; reflexivity. Qed.
Section Linear.
Variables (B : Z) (A : list Z) (checked : bool) (D : list def).
Hypothesis HL : linear B A D = true.

Lemma linear_B : 3 <= B. Proof. unfold linear in HL. lia. Qed.
Lemma linear_def i d : nth_error D i = Some d -> pays_def B A d (nth i A 0) = true.
Proof.
  intros Hi. unfold linear in HL. apply andb_prop in HL. destruct HL as [HL1 HF]. rewrite forallb_forall in HF.
  assert (Hlen : zlen A = zlen D) by lia. clear HL1.
  assert (Ha : exists a, nth_error A i = Some a).
  { destruct (nth_error A i) as [a|] eqn:E; [eauto|]. apply nth_error_None in E. assert (H : nth_error D i <> None) by congruence.
    apply nth_error_Some in H. unfold zlen in Hlen. lia. }
  destruct Ha as [a Ha]. rewrite (nth_error_nth _ _ 0 Ha). apply (HF (d, a)). clear HF HL Hlen.
  revert A D Hi Ha. induction i as [|i IH]; intros [|a' A'] [|d' D'] Hi Ha; cbn [nth_error combine In] in *; try discriminate.
  - injection Hi as ->. injection Ha as ->. left; reflexivity.
  - right. apply IH; assumption.
Qed.

Definition light (t : ty) (bs : list byte) (v : val) (r : list byte) : Prop :=
  pays B A t = true -> weight v <= base B A t + B * (zlen bs - zlen r).

Lemma denotes_light t bs v r : denotes checked D t bs v r -> light t bs v r.
Proof.
  pose proof linear_B as HB. unfold light.
  intros H. induction H using denotes_mut with
    (P0 := fun t bs vs r _ => pays B A t = true -> fold_right Z.add 0 (map weight vs) <= zlen vs * base B A t + B * (zlen bs - zlen r))
    (P1 := fun ts bs vs r _ => forallb (pays B A) ts = true -> fold_right Z.add 0 (map weight vs) <= bases B A ts + B * (zlen bs - zlen r));
    cbn [pays weight base]; intros HP;
    rewrite ?zlen_app, ?zlen_cons, ?zlen_int_format, ?zlen_pref_format, ?zlen_be; rewrite ?Z.sub_diag, ?Z.mul_0_r;
    change (zlen (@nil byte)) with 0 in *; change (Z.of_nat 8) with 8.
  all: try lia.
  - pose proof (int_bytes k z ltac:(assumption)). lia.
  - pose proof (int_bytes k z ltac:(assumption)). lia.
  - pose proof (log2_bound z 8 ltac:(lia) ltac:(change (2 ^ (8 * 8)) with (2 ^ 64); lia)) as Hn. fold (number_bytes z) in Hn. lia.
  - pose proof (log2_bound z 8 ltac:(lia) ltac:(change (2 ^ (8 * 8)) with (2 ^ 64); lia)) as Hn. fold (number_bytes z) in Hn. lia.
  - destruct (marked_len bs ltac:(assumption)) as [_ Hm]. pose proof (groups_bound bs) as Hg.
    pose proof (log2_bound (groups_value bs) (zlen bs) ltac:(lia) ltac:(lia)) as Hn. fold (number_bytes (groups_value bs)) in Hn. nia.
  - destruct (marked_len bs ltac:(assumption)) as [Hne Hm]. pose proof (signed_groups_bound bs Hne) as Hg.
    pose proof (log2_bound (signed_groups_value bs) (zlen bs) ltac:(lia) ltac:(lia)) as Hn. fold (number_bytes (signed_groups_value bs)) in Hn. nia.
  - pose proof (zlen_nonneg bs). nia.
  - match goal with H : substituted _ _ |- _ => pose proof (substituted_length _ _ H) end. pose proof (zlen_nonneg bs). nia.
  - apply andb_prop in HP. destruct HP as [Hb HP]. specialize (IHdenotes HP). pose proof (zlen_nonneg vs). nia.
  - specialize (IHdenotes HP). pose proof (zlen_nonneg vs). nia.
  - specialize (IHdenotes HP). rewrite zlen_app in IHdenotes. lia.
  - match goal with H : nth_error D i = _ |- _ => pose proof (linear_def _ _ H) as Hd end. cbn [pays_def] in Hd.
    apply andb_prop in Hd. destruct Hd as [Hp Hd]. specialize (IHdenotes Hp). lia.
  - match goal with H : nth_error D i = _ |- _ => pose proof (linear_def _ _ H) as Hd end. cbn [pays_def] in Hd. cbn [map fold_right]. lia.
  - match goal with H : nth_error D i = _ |- _ => pose proof (linear_def _ _ H) as Hd end. cbn [pays_def] in Hd.
    rewrite forallb_forall in Hd. match goal with H : nth_error alts ix = _ |- _ => specialize (Hd _ (nth_error_In _ _ H)) end. cbn [snd] in Hd.
    apply andb_prop in Hd. destruct Hd as [Hp Hd]. specialize (IHdenotes Hp). lia.
  - cbn. lia.
  - cbn [map fold_right]. specialize (IHdenotes HP). specialize (IHdenotes0 HP). lia.
  - cbn. lia.
  - cbn [forallb] in HP. apply andb_prop in HP. destruct HP as [H1 H2]. specialize (IHdenotes H1). specialize (IHdenotes0 H2).
    unfold bases in *. cbn [map fold_right]. lia.
Qed.
End Linear.

Lemma decoded_linear B A cf D t input w v : linear B A D = true -> pays B A t = true ->
  wf_defs D = true -> wf_ty D t = true -> bytes_ok input -> zlen input <= isize_max ->
  decodes w cf D t input (ROk v) -> weight v <= base B A t + B * zlen input.
Proof.
  intros HL HP HD HT Hb Hl H. apply (grammar_decodes cf D t input HD HT Hb Hl) in H. destruct H as (rest & H & _).
  pose proof (denotes_light B A _ D HL t input v rest H HP). pose proof (linear_B B A D HL). pose proof (zlen_nonneg rest). nia.
Qed.
Lemma read_linear B A cf D t input w v rest : linear B A D = true -> pays B A t = true ->
  wf_defs D = true -> wf_ty D t = true -> bytes_ok input -> zlen input <= isize_max ->
  reads w cf D t input (ROk (v, rest)) -> weight v <= base B A t + B * (zlen input - zlen rest).
Proof.
  intros HL HP HD HT Hb Hl H. apply (grammar_exact cf D HD) in H; try assumption.
  exact (denotes_light B A _ D HL t input v rest H HP).
Qed.

(** ------------------------------------------------------------------ *)
(** * Such constants exist whenever decoding terminates *)
Fixpoint up (e : Z) (t : ty) : Z :=
  match t with
  | TInt _ | TRanged _ _ _ | TF64 | TRangedF _ _ => 10
  | TFixedBytes n | TFixedString n => 1 + Z.max 0 n
  | TLim n t | TFix n t => 1 + (1 + Z.max 0 n) * up e t
  | TOption t | TNullable t | TSeq t | TDyn _ t | TVPad _ t | TPad _ t | TBox t => 1 + up e t
  | TNamed _ => e
  | _ => 2
  end.
Definition ups (e : Z) (ts : list ty) : Z := fold_right Z.add 0 (map (up e) ts).
Lemma up_nonneg e t : 0 <= e -> 0 <= up e t.
Proof. intros He. induction t; cbn [up]; try lia. all: nia. Qed.
Lemma up_mono e e' t : 0 <= e <= e' -> up e t <= up e' t.
Proof. intros He. induction t; cbn [up]; try lia. all: pose proof (up_nonneg e t ltac:(lia)); nia. Qed.
Lemma ups_nonneg e ts : 0 <= e -> 0 <= ups e ts.
Proof. intros He. unfold ups. induction ts as [|t ts IH]; cbn [map fold_right]; [lia|]. pose proof (up_nonneg e t He). lia. Qed.
Lemma ups_mono e e' ts : 0 <= e <= e' -> ups e ts <= ups e' ts.
Proof. intros He. unfold ups. induction ts as [|t ts IH]; cbn [map fold_right]; [lia|]. pose proof (up_mono e e' t He). lia. Qed.
Lemma ups_in e ts t : 0 <= e -> In t ts -> up e t <= ups e ts.
Proof.
  intros He. unfold ups. induction ts as [|t' ts IH]; cbn [In map fold_right]; [contradiction|]. pose proof (up_nonneg e t' He).
  pose proof (ups_nonneg e ts He) as Hn. unfold ups in Hn. intros [->|Hin]; [lia|]. specialize (IH Hin). lia.
Qed.

Section Exists.
Variables (D : list def) (I : list tinfo) (R : list nat).
Hypothesis HD : wf_defs D = true.
Hypothesis HT : terminating D I R = true.

Definition fields_of : list (list ty) := concat (map field_types D).
Definition total (e : Z) : Z := 1 + fold_right Z.add 0 (map (ups e) fields_of).
Lemma total_nonneg e : 0 <= e -> 1 <= total e.
Proof.
  intros He. unfold total. assert (0 <= fold_right Z.add 0 (map (ups e) fields_of)); [|lia].
  induction fields_of as [|ts l IH]; cbn [map fold_right]; [lia|]. pose proof (ups_nonneg e ts He). lia.
Qed.
Lemma total_mono e e' : 0 <= e <= e' -> total e <= total e'.
Proof.
  intros He. unfold total. assert (fold_right Z.add 0 (map (ups e) fields_of) <= fold_right Z.add 0 (map (ups e') fields_of)); [|lia].
  induction fields_of as [|ts l IH]; cbn [map fold_right]; [lia|]. pose proof (ups_mono e e' ts He). lia.
Qed.
Lemma total_in e ts : 0 <= e -> In ts fields_of -> 1 + ups e ts <= total e.
Proof.
  intros He Hin. unfold total. assert (ups e ts <= fold_right Z.add 0 (map (ups e) fields_of)); [|lia].
  induction fields_of as [|ts' l IH]; cbn [In map fold_right] in *; [contradiction|].
  assert (0 <= fold_right Z.add 0 (map (ups e) l)).
  { clear - He. induction l as [|a l IH]; cbn [map fold_right]; [lia|]. pose proof (ups_nonneg e a He). lia. }
  pose proof (ups_nonneg e ts' He). destruct Hin as [->|Hin]; [lia|]. specialize (IH Hin). lia.
Qed.
Fixpoint climb (e : Z) (r : nat) : Z := match r with O => total e | S r => total (climb e r) end.
Definition before (e : Z) (r : nat) : Z := match r with O => e | S r => climb e r end.
Lemma climb_before e r : climb e r = total (before e r). Proof. destruct r; reflexivity. Qed.
Lemma climb_pos e r : 0 <= e -> 1 <= climb e r.
Proof. intros He. induction r as [|r IH]; cbn [climb]; apply total_nonneg; lia. Qed.
Lemma before_nonneg e r : 0 <= e -> 0 <= before e r.
Proof. intros He. destruct r as [|r]; cbn [before]; [exact He|]. pose proof (climb_pos e r He). lia. Qed.
Lemma climb_step e r : 0 <= e -> e <= total e -> climb e r <= climb e (S r).
Proof.
  intros He H. induction r as [|r IH]; cbn [climb] in *.
  - apply total_mono. lia.
  - apply total_mono. pose proof (climb_pos e r He). destruct r; cbn [climb] in *; lia.
Qed.
Lemma climb_mono e r r' : 0 <= e -> e <= total e -> (r <= r')%nat -> climb e r <= climb e r'.
Proof. intros He H Hr. induction Hr as [|r' Hr IH]; [lia|]. pose proof (climb_step e r' He H). lia. Qed.

Definition top : nat := fold_right Nat.max O R.
Lemma rank_top i : (rank R i <= top)%nat.
Proof.
  unfold rank, top. clear HT. revert i. induction R as [|r l IH]; intros i; cbn [fold_right]; [destruct i; cbn; lia|].
  destruct i as [|i]; cbn [nth]; [lia|]. specialize (IH i). lia.
Qed.

Definition emax : Z := climb 0 top.
Definition fmax : Z := climb emax top.
Lemma zero_total : 0 <= total 0. Proof. pose proof (total_nonneg 0 ltac:(lia)). lia. Qed.
Lemma emax_pos : 1 <= emax. Proof. apply climb_pos. lia. Qed.
Lemma emax_total : emax <= total emax.
Proof. unfold emax. apply (climb_step 0 top); [lia|apply zero_total]. Qed.
Lemma fmax_ge r : (r <= top)%nat -> emax <= before emax r <= fmax.
Proof.
  intros Hr. pose proof emax_pos. pose proof emax_total as Ht. destruct r as [|r]; cbn [before].
  - pose proof (climb_mono emax O top ltac:(lia) Ht ltac:(lia)) as Hm. cbn [climb] in Hm. unfold fmax. lia.
  - pose proof (climb_mono emax O r ltac:(lia) Ht ltac:(lia)) as Hm. cbn [climb] in Hm.
    pose proof (climb_mono emax r top ltac:(lia) Ht ltac:(lia)). unfold fmax. lia.
Qed.
Lemma emax_ge r : (r <= top)%nat -> 0 <= before 0 r <= emax.
Proof.
  intros Hr. destruct r as [|r]; cbn [before]; [pose proof emax_pos; lia|].
  pose proof (climb_pos 0 r ltac:(lia)). pose proof (climb_mono 0 r top ltac:(lia) zero_total ltac:(lia)). unfold emax. lia.
Qed.

Variable B : Z.
Hypothesis HB3 : 3 <= B.
Hypothesis HB : total fmax <= B.
Definition a_of (i : nat) : Z := if ti_nonempty (info I i) then climb emax (rank R i) - B else climb 0 (rank R i).
Definition A : list Z := map a_of (seq 0 (length D)).
Lemma nth_A i : (i < length D)%nat -> nth i A 0 = a_of i.
Proof.
  intros Hi. unfold A. rewrite nth_indep with (d' := a_of O) by (rewrite map_length, seq_length; exact Hi).
  rewrite map_nth, seq_nth by exact Hi. reflexivity.
Qed.
Lemma a_of_max i : a_of i <= emax.
Proof.
  unfold a_of. pose proof (rank_top i) as Hr. pose proof emax_pos. destruct (ti_nonempty (info I i)).
  - pose proof (climb_mono emax _ _ ltac:(lia) emax_total Hr) as Hm. fold fmax in Hm.
    pose proof (fmax_ge O ltac:(lia)) as Hf. assert (fmax <= total fmax); [|lia].
    unfold fmax. apply (climb_step emax top); [lia|apply emax_total].
  - unfold emax. apply climb_mono; [lia|apply zero_total|exact Hr].
Qed.
Lemma ik_len_pos k : 1 <= ik_len k. Proof. destruct k; cbn; lia. Qed.
Lemma pref_len_pos s : 1 <= pref_len s. Proof. destruct s; cbn; lia. Qed.

Lemma mul_fit n u : 0 <= n -> 0 <= u -> u <= (1 + Z.max 0 n) * u. Proof. nia. Qed.
Lemma base_up t e : wf_ty D t = true -> 1 + up fmax t <= B -> 0 <= e <= emax ->
  (forall j, In j (heads t) -> a_of j <= e) -> base B A t <= up e t.
Proof.
  pose proof emax_pos as He0. pose proof (fmax_ge O ltac:(lia)) as Hf.
  revert e. induction t; intros e Hwf HBt He Hh; cbn [wf_ty up heads base] in *; unfold sizeb in *; try lia.
  all: try (match goal with |- context [ik_len ?k] => pose proof (ik_len_pos k); assert (ik_len k <= 8) by (destruct k; cbn; lia); nia end).
  - pose proof (up_nonneg e t ltac:(lia)). pose proof (up_mono emax fmax t ltac:(lia)).
    specialize (IHt emax Hwf ltac:(lia) ltac:(lia) (fun j _ => a_of_max j)). lia.
  - specialize (IHt e Hwf ltac:(lia) He Hh). pose proof (up_nonneg e t ltac:(lia)). lia.
  - pose proof (up_nonneg e t ltac:(lia)). lia.
  - apply andb_prop in Hwf. destruct Hwf as [Hs Hwf].
    pose proof (mul_fit n (up fmax t) ltac:(lia) (up_nonneg fmax t ltac:(lia))).
    specialize (IHt e Hwf ltac:(lia) He Hh). pose proof (up_nonneg e t ltac:(lia)). nia.
  - apply andb_prop in Hwf. destruct Hwf as [Hs Hwf].
    pose proof (mul_fit n (up fmax t) ltac:(lia) (up_nonneg fmax t ltac:(lia))).
    specialize (IHt e Hwf ltac:(lia) He Hh). pose proof (up_nonneg e t ltac:(lia)). nia.
  - pose proof (up_nonneg e t ltac:(lia)). pose proof (up_mono emax fmax t ltac:(lia)). pose proof (pref_len_pos s).
    specialize (IHt emax Hwf ltac:(lia) ltac:(lia) (fun j _ => a_of_max j)). nia.
  - apply andb_prop in Hwf. destruct Hwf as [Hs Hwf]. specialize (IHt e Hwf ltac:(lia) He Hh). lia.
  - apply andb_prop in Hwf. destruct Hwf as [Hs Hwf]. specialize (IHt e Hwf ltac:(lia) He Hh). nia.
  - specialize (IHt e Hwf ltac:(lia) He Hh). lia.
  - rewrite nth_A by lia. apply Hh. left; reflexivity.
Qed.
Lemma base_nonempty t f : wf_ty D t = true -> 1 + up fmax t <= B -> emax <= f <= fmax -> nonempty I t = true ->
  (forall j, In j (heads t) -> ti_nonempty (info I j) = true -> a_of j <= f - B) -> base B A t <= up f t - B.
Proof.
  pose proof emax_pos as He0. pose proof (fmax_ge O ltac:(lia)) as Hf.
  induction t; intros Hwf HBt He Hn Hh; cbn [nonempty wf_ty up heads base] in *; unfold sizeb in *; try lia; try discriminate.
  all: try (match goal with |- context [ik_len ?k] => pose proof (ik_len_pos k); assert (ik_len k <= 8) by (destruct k; cbn; lia); nia end).
  - nia.
  - nia.
  - pose proof (up_nonneg f t ltac:(lia)). pose proof (up_mono emax f t ltac:(lia)).
    pose proof (base_up t emax Hwf ltac:(lia) ltac:(lia) (fun j _ => a_of_max j)). lia.
  - apply andb_prop in Hwf. destruct Hwf as [Hs Hwf]. apply andb_prop in Hn. destruct Hn as [Hz Hn].
    pose proof (up_mono f fmax t ltac:(lia)). pose proof (up_nonneg f t ltac:(lia)).
    pose proof (mul_fit n (up fmax t) ltac:(lia) (up_nonneg fmax t ltac:(lia))).
    specialize (IHt Hwf ltac:(lia) He Hn Hh). nia.
  - pose proof (up_nonneg f t ltac:(lia)). pose proof (up_mono emax f t ltac:(lia)). pose proof (pref_len_pos s).
    pose proof (base_up t emax Hwf ltac:(lia) ltac:(lia) (fun j _ => a_of_max j)). nia.
  - apply andb_prop in Hwf. destruct Hwf as [Hs Hwf]. specialize (IHt Hwf ltac:(lia) He Hn Hh). lia.
  - apply andb_prop in Hwf. destruct Hwf as [Hs Hwf]. pose proof (up_mono emax f t ltac:(lia)).
    pose proof (base_up t emax Hwf ltac:(lia) ltac:(lia) (fun j _ => a_of_max j)).
    destruct (nonempty I t) eqn:E; cbn [orb] in Hn; [specialize (IHt Hwf ltac:(lia) He eq_refl Hh)|]; nia.
  - specialize (IHt Hwf ltac:(lia) He Hn Hh). lia.
  - rewrite nth_A by lia. apply Hh; [left; reflexivity|exact Hn].
Qed.
Lemma a_of_nonempty j : ti_nonempty (info I j) = true -> a_of j <= fmax - B.
Proof.
  intros E. unfold a_of. rewrite E. pose proof emax_pos. pose proof (climb_mono emax _ _ ltac:(lia) emax_total (rank_top j)) as Hm.
  fold fmax in Hm. lia.
Qed.
Lemma pays_loops t : wf_ty D t = true -> 1 + up fmax t <= B -> loops_ok I t = true -> pays B A t = true.
Proof.
  pose proof emax_pos as He0. pose proof (fmax_ge O ltac:(lia)) as Hf.
  induction t; intros Hwf HBt Hl; cbn [loops_ok wf_ty up pays] in *; unfold sizeb in *; try reflexivity.
  all: try (apply IHt; try assumption; lia).
  - apply andb_prop in Hl. destruct Hl as [Hn Hl]. apply andb_true_intro. split; [|apply IHt; try assumption; lia].
    pose proof (base_nonempty t fmax Hwf ltac:(lia) ltac:(lia) Hn (fun j _ => a_of_nonempty j)). lia.
  - apply andb_prop in Hwf. destruct Hwf as [Hs Hwf].
    pose proof (mul_fit n (up fmax t) ltac:(lia) (up_nonneg fmax t ltac:(lia))). apply IHt; try assumption; lia.
  - apply andb_prop in Hwf. destruct Hwf as [Hs Hwf].
    pose proof (mul_fit n (up fmax t) ltac:(lia) (up_nonneg fmax t ltac:(lia))). apply IHt; try assumption; lia.
Qed.

(** The fields of a struct or of a variant. *)
Definition room (ts : list ty) : Prop := Forall (fun t => wf_ty D t = true /\ 1 + up fmax t <= B) ts.
Lemma bases_max ts : room ts -> bases B A ts <= ups emax ts.
Proof.
  pose proof emax_pos as He0. intros H. unfold bases, ups. induction H as [|t ts [Hw Hu] H IH]; cbn [map fold_right]; [lia|].
  pose proof (base_up t emax Hw Hu ltac:(lia) (fun j _ => a_of_max j)). lia.
Qed.
Lemma bases_up ts e : room ts -> 0 <= e <= emax -> existsb (nonempty I) ts = false ->
  (forall j, In j (field_heads I ts) -> a_of j <= e) -> bases B A ts <= ups e ts.
Proof.
  intros H He Hn Hh. unfold bases, ups. induction H as [|t ts [Hw Hu] H IH]; cbn [map fold_right existsb field_heads] in *; [lia|].
  apply Bool.orb_false_elim in Hn. destruct Hn as [Hn1 Hn2]. rewrite Hn1 in Hh.
  pose proof (base_up t e Hw Hu He (fun j Hj => Hh j (in_or_app _ _ _ (or_introl Hj)))).
  specialize (IH Hn2 (fun j Hj => Hh j (in_or_app _ _ _ (or_intror Hj)))). lia.
Qed.
Lemma bases_nonempty ts f : room ts -> emax <= f <= fmax -> existsb (nonempty I) ts = true ->
  (forall j, In j (field_heads I ts) -> ti_nonempty (info I j) = true -> a_of j <= f - B) -> bases B A ts <= ups f ts - B.
Proof.
  pose proof emax_pos as He0. intros H He Hn Hh. unfold bases, ups.
  induction H as [|t ts [Hw Hu] H IH]; cbn [map fold_right existsb field_heads] in *; [discriminate|].
  destruct (nonempty I t) eqn:E; cbn [orb] in Hn.
  - pose proof (base_nonempty t f Hw Hu He E (fun j Hj => Hh j (in_or_app _ _ _ (or_introl Hj)))).
    pose proof (bases_max ts H) as Hm. pose proof (ups_mono emax f ts ltac:(lia)). unfold bases, ups in *. lia.
  - pose proof (base_up t emax Hw Hu ltac:(lia) (fun j _ => a_of_max j)). pose proof (up_mono emax f t ltac:(lia)).
    specialize (IH Hn (fun j Hj => Hh j (in_or_app _ _ _ (or_intror Hj)))). lia.
Qed.
Lemma fields_in i d ts : nth_error D i = Some d -> In ts (field_types d) -> In ts fields_of.
Proof. intros Hd Hts. unfold fields_of. apply in_concat. exists (field_types d). split; [apply in_map; eapply nth_error_In; exact Hd|exact Hts]. Qed.
Lemma fields_room ts : In ts fields_of -> room ts.
Proof.
  pose proof emax_pos as He0. pose proof (fmax_ge O ltac:(lia)) as Hf. intros Hin. apply Forall_forall. intros t Ht.
  pose proof (total_in fmax ts ltac:(lia) Hin). pose proof (ups_in fmax ts t ltac:(lia) Ht). split; [|lia].
  unfold fields_of in Hin. apply in_concat in Hin. destruct Hin as (l & Hl & Hin). apply in_map_iff in Hl. destruct Hl as (d & <- & Hd).
  unfold wf_defs in HD. rewrite forallb_forall in HD. specialize (HD d Hd). destruct d as [ts'|k tags|k alts]; cbn [field_types wf_def] in *.
  - destruct Hin as [->|[]]. rewrite forallb_forall in HD. auto.
  - destruct Hin.
  - apply andb_prop in HD. destruct HD as [_ Ha]. rewrite forallb_forall in Ha. apply in_map_iff in Hin. destruct Hin as (a & <- & Ha').
    specialize (Ha a Ha'). rewrite forallb_forall in Ha. auto.
Qed.
Lemma def_pays i d : nth_error D i = Some d -> pays_def B A d (a_of i) = true.
Proof.
  pose proof emax_pos as He0. pose proof (fmax_ge O ltac:(lia)) as Hf. pose proof (rank_top i) as Hri.
  intros Hd. pose proof (forallb_from_nth _ _ O i d HT Hd) as Ht. cbn [Nat.add] in Ht. unfold term_def in Ht.
  apply andb_prop in Ht. destruct Ht as [Hloops Ht].
  assert (Hpays : forall ts, In ts (field_types d) -> room ts /\ forallb (pays B A) ts = true /\ 1 + ups fmax ts <= total fmax).
  { intros ts Hts. pose proof (fields_in i d ts Hd Hts) as Hin. pose proof (fields_room ts Hin) as Hr.
    split; [exact Hr|]. split; [|apply total_in; [lia|exact Hin]]. apply forallb_forall. intros t Hti.
    unfold room in Hr. rewrite Forall_forall in Hr. destruct (Hr t Hti) as [Hw Hu]. apply pays_loops; try assumption.
    rewrite forallb_forall in Hloops. specialize (Hloops ts Hts). rewrite forallb_forall in Hloops. auto. }
  pose proof (climb_pos 0 (rank R i) ltac:(lia)) as Hc0.
  assert (Hc1 : total emax <= climb emax (rank R i)) by (apply (climb_mono emax O); [lia|apply emax_total|lia]).
  destruct d as [ts|k tags|k alts]; cbn [field_types pays_def] in *.
  - destruct (Hpays ts (or_introl eq_refl)) as (Hr & Hp & Hu). rewrite Hp. cbn [andb].
    pose proof (fields_in i _ ts Hd (or_introl eq_refl)) as Hin.
    apply andb_prop in Ht. destruct Ht as [Hclaim Hrank]. rewrite forallb_forall in Hrank.
    assert (Hbelow : forall e j, 0 <= e -> e <= total e -> In j (field_heads I ts) -> climb e (rank R j) <= before e (rank R i)).
    { intros e j He He' Hj. specialize (Hrank j Hj). apply Nat.ltb_lt in Hrank. destruct (rank R i) as [|r]; [lia|].
      cbn [before]. apply climb_mono; [exact He|exact He'|lia]. }
    destruct (existsb (nonempty I) ts) eqn:E.
    + assert (Hle : bases B A ts <= ups (before emax (rank R i)) ts - B).
      { apply bases_nonempty; [exact Hr|apply fmax_ge; exact Hri|exact E|]. intros j Hj Hn. unfold a_of. rewrite Hn.
        specialize (Hbelow emax j ltac:(lia) emax_total Hj). lia. }
      pose proof (fmax_ge (rank R i) Hri) as Hb. pose proof (total_in (before emax (rank R i)) ts ltac:(lia) Hin) as Hti.
      rewrite <- climb_before in Hti. pose proof (ups_mono (before emax (rank R i)) fmax ts ltac:(lia)).
      unfold a_of. destruct (ti_nonempty (info I i)); lia.
    + assert (Hn : ti_nonempty (info I i) = false) by (destruct (ti_nonempty (info I i)); [discriminate Hclaim|reflexivity]).
      pose proof (emax_ge (rank R i) Hri) as Hb.
      assert (Hle : bases B A ts <= ups (before 0 (rank R i)) ts).
      { apply bases_up; [exact Hr|exact Hb|exact E|]. intros j Hj. unfold a_of.
        specialize (Hbelow 0 j ltac:(lia) zero_total Hj). destruct (ti_nonempty (info I j)) eqn:Ej; [|exact Hbelow].
        pose proof (a_of_nonempty j Ej) as Ha. unfold a_of in Ha. rewrite Ej in Ha.
        pose proof (total_in fmax ts ltac:(lia) Hin). pose proof (ups_nonneg fmax ts ltac:(lia)).
        assert (fmax <= total fmax) by (unfold fmax; apply (climb_step emax top); [lia|apply emax_total]). lia. }
      pose proof (total_in (before 0 (rank R i)) ts ltac:(lia) Hin) as Hti. rewrite <- climb_before in Hti. unfold a_of. rewrite Hn. lia.
  - pose proof (ik_len_pos k). pose proof (total_nonneg emax ltac:(lia)). unfold a_of. destruct (ti_nonempty (info I i)); nia.
  - apply forallb_forall. intros alt Halt. destruct (Hpays (snd alt) (in_map snd _ _ Halt)) as (Hr & Hp & Hu). rewrite Hp. cbn [andb].
    pose proof (fields_in i _ (snd alt) Hd (in_map snd _ _ Halt)) as Hin. pose proof (bases_max _ Hr) as Hm.
    pose proof (total_in emax (snd alt) ltac:(lia) Hin). pose proof (ups_mono emax fmax (snd alt) ltac:(lia)). pose proof (ik_len_pos k).
    unfold a_of. destruct (ti_nonempty (info I i)); nia.
Qed.
Lemma linear_exists : linear B A D = true.
Proof.
  unfold linear. replace (3 <=? B) with true by lia. replace (zlen A =? zlen D) with true
    by (unfold A, zlen; rewrite map_length, seq_length; lia). cbn [andb].
  apply forallb_forall. intros [d a] Hin. cbn [fst snd]. apply In_nth_error in Hin. destruct Hin as [i Hi].
  assert (Hc : forall (l : list def) (l' : list Z) k, nth_error (combine l l') k = Some (d, a) -> nth_error l k = Some d /\ nth_error l' k = Some a).
  { clear. induction l as [|x l IH]; intros [|y l'] k Hk; try (destruct k; discriminate). destruct k as [|k]; cbn [combine nth_error] in *.
    - injection Hk as -> ->. split; reflexivity.
    - apply IH; exact Hk. }
  destruct (Hc _ _ _ Hi) as [Hd Ha]. apply (nth_error_nth _ _ 0) in Ha.
  assert (Hlt : (i < length D)%nat) by (apply nth_error_Some; congruence). rewrite nth_A in Ha by exact Hlt. subst a. apply def_pays; exact Hd.
Qed.
End Exists.

Theorem certificate_exists D I R t : wf_defs D = true -> wf_ty D t = true -> terminating D I R = true -> loops_ok I t = true ->
  exists B A, linear B A D = true /\ pays B A t = true.
Proof.
  intros HD Hw HT HL. set (B := 4 + total D (fmax D R) + up (fmax D R) t). pose proof (emax_pos D I R HD HT).
  pose proof (fmax_ge D I R HD HT O ltac:(lia)) as Hf. pose proof (total_nonneg D I R HD HT (fmax D R) ltac:(lia)). pose proof (up_nonneg (fmax D R) t ltac:(lia)).
  exists B, (A D I R B). split.
  - apply (linear_exists D I R HD HT); unfold B; lia.
  - apply (pays_loops D I R HD HT B); unfold B; try assumption; lia.
Qed.
Lemma decoded_proportional D I R t : wf_defs D = true -> wf_ty D t = true -> terminating D I R = true -> loops_ok I t = true ->
  exists K, forall cf input w v, bytes_ok input -> zlen input <= isize_max ->
    decodes w cf D t input (ROk v) -> weight v <= K * (1 + zlen input).
Proof.
  intros HD Hw HT HL. destruct (certificate_exists D I R t HD Hw HT HL) as (B & A & H1 & H2). pose proof (linear_B B A D H1).
  exists (Z.max B (base B A t)). intros cf input w v Hb Hl Hdec. pose proof (decoded_linear B A cf D t input w v H1 H2 HD Hw Hb Hl Hdec).
  pose proof (zlen_nonneg input). nia.
Qed.

(** One byte before which any number of empty elements is read. *)
Lemma many_units checked D n b : many checked D TUnit [b] (repeat VUnit n) [b].
Proof. induction n as [|n IH]; cbn [repeat]; [constructor|]. econstructor; [discriminate|constructor|exact IH]. Qed.
Lemma weight_units n : fold_right Z.add 0 (map weight (repeat VUnit n)) = Z.of_nat n.
Proof. induction n as [|n IH]; cbn [repeat map fold_right weight]; [reflexivity|]. rewrite IH. lia. Qed.
Lemma no_common_multiple K : 0 <= K <= 2 ^ 60 -> exists t input v,
  wf_ty [] t = true /\ bytes_ok input /\ zlen input = 1 /\
  decodes WByte (mkConfig Release false false false false false) [] t input (ROk v) /\ K * (1 + zlen input) < weight v.
Proof.
  intros HK. exists (TFix (2 * K) TUnit), [7], (VSeq (repeat VUnit (Z.to_nat (2 * K)))).
  assert (HW : wf_ty [] (TFix (2 * K) TUnit) = true) by (cbn [wf_ty]; unfold sizeb, isize_max; lia).
  assert (Hb : bytes_ok [7]) by (constructor; [unfold is_byte; lia|constructor]).
  split; [exact HW|]. split; [exact Hb|]. split; [reflexivity|]. split.
  - apply (grammar_decodes _ [] (TFix (2 * K) TUnit) [7] eq_refl HW Hb); [vm_compute; discriminate|].
    exists [7]. split; [|intros H; discriminate H]. constructor; [apply many_units|]. unfold zlen. rewrite repeat_length. lia.
  - cbn [weight]. rewrite weight_units. change (zlen [7]) with 1. lia.
Qed.
