(** Proofs about the parsers: refinement of the stack-of-lists specification. *)
From Verif Require Import Base BaseLemmas ModelErrors ModelSplitVec ModelParser SpecParser.
From Coq Require Import ZifyBool.

(** Normalise comparisons in hypotheses and goal. *)
Ltac bsimp :=
  repeat match goal with
  | H : (_ <=? _) = true |- _ => apply Z.leb_le in H
  | H : (_ <=? _) = false |- _ => apply Z.leb_gt in H
  | H : (_ <? _) = true |- _ => apply Z.ltb_lt in H
  | H : (_ <? _) = false |- _ => apply Z.ltb_ge in H
  | H : (_ =? _) = true |- _ => apply Z.eqb_eq in H
  | H : (_ =? _) = false |- _ => apply Z.eqb_neq in H
  | H : _ && _ = true |- _ => apply andb_prop in H; destruct H
  end.

Ltac pinv H :=
  apply pair_equal_spec in H;
  let H1 := fresh in let H2 := fresh in destruct H as [H1 H2];
  try (subst || idtac).

Ltac bcase c :=
  let E := fresh "E" in destruct c eqn:E; bsimp.

(** ** ByteParser: invariant and abstraction *)

(** Boundaries are ascending from [i]. *)
Fixpoint asc (i : Z) (bounds : list Z) : Prop :=
  match bounds with [] => True | b :: bs => i <= b /\ asc b bs end.

Fixpoint pieces (buf : list byte) (i : Z) (bounds : list Z) : list (list byte) :=
  match bounds with
  | [] => []
  | b :: bs => zslice i b buf :: pieces buf b bs
  end.

Definition bp_bounds (o : context_offset) : list Z := co_frames o ++ [co_abs o].

Definition co_inv (buf : list byte) (o : context_offset) : Prop :=
  zlen buf <= isize_max /\ co_abs o = zlen buf /\ 0 <= co_cur o /\ asc (co_cur o) (bp_bounds o).

Definition bp_inv (p : byte_parser) : Prop := co_inv (bp_buf p) (bp_off p).

Definition co_alpha (buf : list byte) (o : context_offset) : wstack :=
  let ps := pieces buf (co_cur o) (bp_bounds o) in mkW (hd [] ps) (tl ps).

Definition bp_alpha (p : byte_parser) : wstack := co_alpha (bp_buf p) (bp_off p).

Lemma isize_max_lt : isize_max + isize_max < usize_mod.
Proof. reflexivity. Qed.

Lemma asc_last i fs a : asc i (fs ++ [a]) -> i <= a.
Proof.
  revert i; induction fs as [|f fs IH]; cbn [app asc]; intros i H; [tauto|].
  destruct H as [H1 H2]; apply IH in H2; lia.
Qed.

Lemma co_limit_bounds o : bp_bounds o = co_limit o :: tl (bp_bounds o).
Proof. unfold bp_bounds, co_limit; destruct (co_frames o); reflexivity. Qed.

Lemma co_alpha_cur buf o : w_cur (co_alpha buf o) = zslice (co_cur o) (co_limit o) buf.
Proof. unfold co_alpha; rewrite co_limit_bounds; reflexivity. Qed.

Lemma co_inv_limit buf o :
  co_inv buf o -> 0 <= co_cur o <= co_limit o /\ co_limit o <= co_abs o /\ co_abs o = zlen buf
                  /\ zlen buf <= isize_max.
Proof.
  intros (Hb & Ha & Hc & Hasc). repeat split; try assumption.
  - rewrite co_limit_bounds in Hasc; cbn [asc] in Hasc; tauto.
  - unfold bp_bounds in Hasc; unfold co_limit, fs_peek.
    destruct (co_frames o) as [|t fs]; cbn [hd_error app asc] in *; [lia|].
    destruct Hasc as [_ H]; apply asc_last in H; exact H.
Qed.

Lemma co_alpha_len buf o :
  co_inv buf o -> zlen (w_cur (co_alpha buf o)) = co_limit o - co_cur o.
Proof.
  intros H; apply co_inv_limit in H. rewrite co_alpha_cur. apply zlen_zslice; lia.
Qed.

Lemma co_inv_move buf o n :
  co_inv buf o -> 0 <= n <= co_limit o - co_cur o ->
  co_inv buf (mkCO (co_abs o) (co_frames o) (co_cur o + n)).
Proof.
  intros H Hn. pose proof (co_inv_limit _ _ H) as HL.
  destruct H as (H1 & H2 & H3 & H4). unfold co_inv; cbn [co_abs co_cur].
  repeat split; try assumption; try lia.
  rewrite co_limit_bounds in H4 |- *. cbn [asc] in *.
  change (bp_bounds (mkCO (co_abs o) (co_frames o) (co_cur o + n))) with (bp_bounds o).
  change (co_limit (mkCO (co_abs o) (co_frames o) (co_cur o + n))) with (co_limit o).
  split; [lia | tauto].
Qed.

Lemma co_alpha_move buf o n :
  co_inv buf o -> 0 <= n <= co_limit o - co_cur o ->
  co_alpha buf (mkCO (co_abs o) (co_frames o) (co_cur o + n)) =
  mkW (zdrop n (w_cur (co_alpha buf o))) (w_outer (co_alpha buf o)).
Proof.
  intros H Hn. pose proof (co_inv_limit _ _ H) as HL.
  rewrite co_alpha_cur. unfold co_alpha.
  change (bp_bounds (mkCO (co_abs o) (co_frames o) (co_cur o + n))) with (bp_bounds o).
  rewrite co_limit_bounds; cbn [co_cur pieces hd tl w_outer].
  f_equal. symmetry; apply zdrop_zslice; lia.
Qed.

Lemma size_fits_nonneg m n : size_fits m n -> 0 <= n.
Proof. destruct m; unfold size_fits, is_usize; lia. Qed.

(** What [advance] does in a reachable state. *)
Lemma co_advance_spec {E} m n buf o :
  co_inv buf o -> size_fits m n ->
  (n <= co_limit o - co_cur o /\
   @co_advance E m n o = ROk (co_cur o, true, mkCO (co_abs o) (co_frames o) (co_cur o + n)))
  \/ (co_limit o - co_cur o < n /\ @co_advance E m n o = ROk (co_cur o, false, o))
  \/ (m = Debug /\ isize_max < n /\ @co_advance E m n o = RPanic).
Proof.
  intros H Hn. pose proof (co_inv_limit _ _ H) as HL.
  pose proof isize_max_lt as HM.
  unfold co_advance, increment_checked, rmap, rbind, uadd.
  bcase (co_cur o + n <? usize_mod).
  - bcase (co_cur o + n <=? co_limit o).
    + left; split; [lia | reflexivity].
    + right; left; split; [lia | destruct o; reflexivity].
  - right; right. destruct m; unfold size_fits, is_usize in Hn; [|lia].
    repeat split. assert (co_cur o <= isize_max) by lia. lia.
Qed.

Lemma co_rem_spec {E} m buf o :
  co_inv buf o -> @co_rem E m o = ROk (co_limit o - co_cur o).
Proof.
  intros H; apply co_inv_limit in H. unfold co_rem, co_index.
  replace (co_cur o <=? co_limit o) with true by (symmetry; apply Z.leb_le; lia).
  rewrite usub_ok by lia. destruct m; reflexivity.
Qed.

Lemma tgt_pos buf o t fs :
  co_inv buf o -> co_frames o = t :: fs ->
  w_cur (co_alpha buf o) = zslice (co_cur o) t buf /\ co_cur o <= t.
Proof.
  intros H Hf. pose proof (co_inv_limit _ _ H) as HL.
  rewrite co_alpha_cur. unfold co_limit in *; rewrite Hf in *; cbn [fs_peek hd_error] in *.
  split; [reflexivity | lia].
Qed.

Lemma pieces_outer_nil buf o :
  w_outer (co_alpha buf o) = [] <-> co_frames o = [].
Proof.
  unfold co_alpha, bp_bounds; destruct (co_frames o) as [|t fs]; cbn; [tauto|].
  split; [|discriminate]. destruct (fs ++ [co_abs o]) eqn:E; [destruct fs; discriminate|].
  discriminate.
Qed.

(** The step relation between an implementation and the specification. *)
Definition step_rel {P} (m : mode) (inv : P -> Prop) (alpha : P -> wstack) {X : Set} (o : pop X)
  (x : option X) (w' : wstack) (r : pres X) (p' : P) : Prop :=
  match r with
  | ROk v => x = Some v /\ inv p' /\ alpha p' = w'
  | RErr _ => x = None /\ inv p' /\ alpha p' = w'
  | RPanic => m = Debug /\ x = None
  | _ => False
  end.

Lemma zslice_nil_iff (buf : list byte) i j :
  0 <= i <= j -> j <= zlen buf -> (zslice i j buf = [] <-> i = j).
Proof.
  intros; split.
  - intros Hs. pose proof (zlen_zslice i j buf ltac:(lia) ltac:(lia)) as HH.
    rewrite Hs, zlen_nil in HH; lia.
  - intros ->; apply zslice_nil.
Qed.

(** Popping the innermost frame. *)
Lemma co_pop buf o t fs :
  co_inv buf o -> co_frames o = t :: fs ->
  let o' := mkCO (co_abs o) fs (co_cur o) in
  exists nxt rest, w_outer (co_alpha buf o) = nxt :: rest /\
    co_inv buf o' /\
    co_alpha buf o' = mkW (w_cur (co_alpha buf o) ++ nxt) rest.
Proof.
  intros H Hf o'. pose proof (tgt_pos _ _ _ _ H Hf) as [Hc Hle].
  pose proof (co_inv_limit _ _ H) as HL.
  destruct H as (H1 & H2 & H3 & H4).
  unfold bp_bounds in H4; rewrite Hf in H4; cbn [app asc] in H4; destruct H4 as [H4 H5].
  assert (Hb' : bp_bounds o' = fs ++ [co_abs o]) by reflexivity.
  assert (Ho : w_outer (co_alpha buf o) = pieces buf t (fs ++ [co_abs o])).
  { unfold co_alpha, bp_bounds; rewrite Hf; reflexivity. }
  rewrite Hc, Ho.
  unfold co_alpha, co_inv; rewrite Hb'; cbn [co_cur co_abs o'].
  destruct (fs ++ [co_abs o]) as [|b bs] eqn:E; [destruct fs; discriminate|].
  cbn [pieces hd tl asc] in *.
  exists (zslice t b buf), (pieces buf b bs). repeat split; try assumption; try lia; try tauto.
  f_equal. symmetry; apply zslice_app; lia.
Qed.

(** Pushing a frame. *)
Lemma co_push buf o n :
  co_inv buf o -> 0 <= n <= co_limit o - co_cur o ->
  let o' := mkCO (co_abs o) (co_cur o + n :: co_frames o) (co_cur o) in
  co_inv buf o' /\
  co_alpha buf o' = mkW (ztake n (w_cur (co_alpha buf o)))
                        (zdrop n (w_cur (co_alpha buf o)) :: w_outer (co_alpha buf o)).
Proof.
  intros H Hn o'. pose proof (co_inv_limit _ _ H) as HL.
  destruct H as (H1 & H2 & H3 & H4).
  assert (Hb : bp_bounds o' = co_cur o + n :: bp_bounds o) by reflexivity.
  rewrite co_alpha_cur. unfold co_inv, co_alpha at 1; rewrite Hb; cbn [co_cur co_abs o'].
  cbn [asc pieces hd tl]. rewrite co_limit_bounds in H4 |- *; cbn [asc pieces] in *.
  repeat split; try assumption; try lia; try tauto.
  unfold co_alpha; rewrite co_limit_bounds; cbn [pieces hd tl w_outer].
  rewrite ztake_zslice, zdrop_zslice by lia. reflexivity.
Qed.

Lemma vb_get_slice_unchecked_ok {E} m ix n buf :
  0 <= ix -> 0 <= n -> ix + n <= zlen buf -> zlen buf <= isize_max ->
  @vb_get_slice_unchecked E m ix n buf = ROk (zslice ix (ix + n) buf).
Proof.
  intros. pose proof isize_max_lt. unfold vb_get_slice_unchecked.
  rewrite uadd_ok by lia. cbn [rbind].
  replace ((ix <=? ix + n) && (ix + n <=? zlen buf)) with true; [reflexivity|].
  symmetry; apply andb_true_intro; split; apply Z.leb_le; lia.
Qed.

Lemma vb_get_slice_ok {E} m ix n buf :
  0 <= ix -> 0 <= n -> ix + n <= zlen buf -> zlen buf <= isize_max ->
  @vb_get_slice E m ix n buf = ROk (zslice ix (ix + n) buf).
Proof.
  intros. pose proof isize_max_lt. unfold vb_get_slice.
  rewrite uadd_ok by lia. cbn [rbind]. unfold rassert.
  replace (ix + n <=? zlen buf) with true by (symmetry; apply Z.leb_le; lia).
  cbn [rbind]. apply vb_get_slice_unchecked_ok; lia.
Qed.

Lemma vb_get_byte_ok {E} ix buf :
  0 <= ix < zlen buf ->
  exists b, @vb_get_byte E ix buf = ROk b /\ nth_error buf (Z.to_nat ix) = Some b.
Proof.
  intros H. destruct (nth_error_zslice buf ix (ix + 1)) as (b & Hb & _); try lia.
  exists b; split; [|exact Hb].
  unfold vb_get_byte, rassert, vb_get_byte_unchecked.
  replace (ix <=? zlen buf) with true by (symmetry; apply Z.leb_le; lia).
  cbn [rbind]; rewrite Hb; reflexivity.
Qed.

(** Reading one byte in terms of the abstraction. *)
Lemma co_cur_byte buf o :
  co_inv buf o -> co_cur o < co_limit o ->
  exists b, nth_error buf (Z.to_nat (co_cur o)) = Some b /\
    @vb_get_byte parse_error (co_cur o) buf = ROk b /\
    w_cur (co_alpha buf o) = b :: zdrop 1 (w_cur (co_alpha buf o)).
Proof.
  intros H Hlt. pose proof (co_inv_limit _ _ H) as HL.
  destruct (nth_error_zslice buf (co_cur o) (co_limit o)) as (b & Hb & Hs); try lia.
  exists b. split; [exact Hb|]. split.
  - destruct (@vb_get_byte_ok parse_error (co_cur o) buf) as (b' & Hg & Hb'); [lia|].
    congruence.
  - rewrite co_alpha_cur, Hs. reflexivity.
Qed.

(** ** One operation of ByteParser against the specification *)
Lemma bp_step m {X : Set} (o : pop X) p :
  bp_inv p -> arg_fits m (AnyOp o) ->
  forall x w' r p',
    spec_op Merge o (bp_alpha p) = (x, w') -> byte_h m X o p = (r, p') ->
    step_rel m bp_inv bp_alpha o x w' r p'.
Proof.
  intros Hinv Harg x w' r p' Hs Hb.
  destruct p as [buf off]. unfold bp_inv, bp_alpha in *; cbn [bp_buf bp_off] in *.
  pose proof (co_inv_limit _ _ Hinv) as HL.
  pose proof (co_alpha_len _ _ Hinv) as Hlen.
  destruct o; cbn [byte_h spec_op] in *; unfold step_rel.
  - (* remainder *)
    unfold bp_remainder, bp_view_len, bp_offset, co_index in Hb; cbn [bp_off] in Hb.
    rewrite usub_ok in Hb by lia. pinv Hb; pinv Hs.
    cbn [bp_buf bp_off]. rewrite Hlen; auto.
  - (* consume_byte *)
    unfold bp_consume_byte in Hb; cbn [bp_off bp_buf] in Hb.
    assert (Hsz : size_fits m 1) by (destruct m; cbv; intuition congruence).
    destruct (@co_advance_spec parse_error m 1 buf off Hinv Hsz)
      as [[Hle Ha]|[[Hle Ha]|(Hm & Hle & Ha)]]; rewrite Ha in Hb; clear Ha.
    + destruct (co_cur_byte _ _ Hinv ltac:(lia)) as (b & _ & Hg & Hc).
      rewrite Hg in Hb; pinv Hb.
      rewrite Hc in Hs; pinv Hs.
      cbn [bp_buf bp_off]. split; [reflexivity|]. split.
      * apply co_inv_move; [assumption|lia].
      * apply co_alpha_move; [assumption|lia].
    + pinv Hb. cbn [bp_buf bp_off].
      assert (Hc : w_cur (co_alpha buf off) = []) by (apply zlen_0_nil; lia).
      rewrite Hc in Hs; pinv Hs; auto.
    + unfold isize_max in Hle; lia.
  - (* consume *)
    unfold bp_consume in Hb; cbn [bp_off bp_buf] in Hb.
    assert (Hsz : size_fits m n) by (destruct m; exact Harg).
    pose proof (size_fits_nonneg _ _ Hsz).
    destruct (@co_advance_spec parse_error m n buf off Hinv Hsz)
      as [[Hle Ha]|[[Hle Ha]|(Hm & Hle & Ha)]]; rewrite Ha in Hb; clear Ha.
    + rewrite vb_get_slice_unchecked_ok in Hb by lia.
      pinv Hb.
      bcase (n <=? zlen (w_cur (co_alpha buf off))); [|lia].
      pinv Hs. cbn [bp_buf bp_off]. split.
      * rewrite co_alpha_cur, ztake_zslice by lia. reflexivity.
      * split; [apply co_inv_move | apply co_alpha_move]; auto; lia.
    + pinv Hb. cbn [bp_buf bp_off].
      bcase (n <=? zlen (w_cur (co_alpha buf off))); [lia|].
      pinv Hs; auto.
    + pinv Hb. split; [reflexivity|].
      bcase (n <=? zlen (w_cur (co_alpha buf off))); [lia|].
      pinv Hs; auto.
  - (* set_fit *)
    unfold bp_set_fit, co_set_fit, co_index in Hb; cbn [bp_off bp_buf] in Hb.
    assert (Hsz : size_fits m n) by (destruct m; exact Harg).
    pose proof (size_fits_nonneg _ _ Hsz). pose proof isize_max_lt.
    unfold uadd in Hb. bcase (co_cur off + n <? usize_mod).
    + bcase (co_abs off <? co_cur off + n).
      * bcase (n <=? zlen (w_cur (co_alpha buf off))); [lia|].
        pinv Hs.
        unfold usub in Hb; bcase (n <=? co_abs off); cbn [rbind] in Hb.
        -- pinv Hb; auto.
        -- destruct m; cbn [rbind] in Hb; pinv Hb; auto.
      * unfold fs_push_frame, detect_error in Hb.
        unfold co_limit in HL, Hlen.
        destruct (fs_peek (co_frames off)) as [t|] eqn:Hp.
        -- bcase (t <? co_cur off + n).
           ++ pinv Hb.
              bcase (n <=? zlen (w_cur (co_alpha buf off))); [lia|].
              pinv Hs; auto.
           ++ pinv Hb.
              bcase (n <=? zlen (w_cur (co_alpha buf off))); [|lia].
              pinv Hs. cbn [bp_buf bp_off].
              destruct (co_push buf off n Hinv) as [? ?]; [unfold co_limit; rewrite Hp; lia|].
              auto.
        -- pinv Hb.
           bcase (n <=? zlen (w_cur (co_alpha buf off))); [|lia].
           pinv Hs. cbn [bp_buf bp_off].
           destruct (co_push buf off n Hinv) as [? ?]; [unfold co_limit; rewrite Hp; lia|].
           auto.
    + destruct m; unfold size_fits, is_usize in Hsz; [|lia].
      pinv Hb. split; [reflexivity|].
      bcase (n <=? zlen (w_cur (co_alpha buf off))); [lia|].
      pinv Hs; auto.
  - (* test_target *)
    unfold bp_test_target, co_test_target, co_index in Hb; cbn [bp_off] in Hb.
    pinv Hb. pinv Hs. cbn [bp_buf bp_off].
    destruct (co_frames off) as [|t fs] eqn:Hf; cbn [fs_peek hd_error].
    + rewrite (proj2 (pieces_outer_nil buf off) Hf). auto.
    + destruct (w_outer (co_alpha buf off)) as [|y ys] eqn:Ho.
      { apply pieces_outer_nil in Ho; congruence. }
      destruct (tgt_pos _ _ _ _ Hinv Hf) as [Hc Hle].
      assert (Ht : t <= zlen buf).
      { destruct HL as (_ & HL & HL2 & _). unfold co_limit in HL; rewrite Hf in HL.
        cbn [fs_peek hd_error] in HL. lia. }
      pose proof (zslice_nil_iff buf (co_cur off) t ltac:(lia) Ht) as Hnil.
      rewrite Hc.
      destruct (Z.compare_spec t (co_cur off)) as [E|E|E].
      * rewrite (proj2 Hnil) by lia. auto.
      * lia.
      * destruct (zslice (co_cur off) t buf) eqn:Es; [|auto].
        exfalso; assert (co_cur off = t) by (apply Hnil; reflexivity); lia.
  - (* enforce_target *)
    unfold bp_enforce_target, co_enforce_target, co_index in Hb; cbn [bp_off bp_buf] in Hb.
    destruct (co_frames off) as [|t fs] eqn:Hf.
    + pinv Hb.
      rewrite (proj2 (pieces_outer_nil buf off) Hf) in Hs. pinv Hs; auto.
    + destruct (co_pop _ _ _ _ Hinv Hf) as (nxt & rest & Ho & Hinv' & Hal').
      destruct (tgt_pos _ _ _ _ Hinv Hf) as [Hc Hle].
      assert (Ht : t <= zlen buf).
      { destruct HL as (_ & HL & HL2 & _). unfold co_limit in HL; rewrite Hf in HL.
        cbn [fs_peek hd_error] in HL. lia. }
      pose proof (zslice_nil_iff buf (co_cur off) t ltac:(lia) Ht) as Hnil.
      rewrite Ho in Hs.
      destruct (Z.compare_spec t (co_cur off)) as [E|E|E]; pinv Hb.
      * assert (Hc0 : w_cur (co_alpha buf off) = []) by (rewrite Hc; apply Hnil; lia).
        rewrite Hc0 in Hs, Hal'; pinv Hs. auto.
      * lia.
      * destruct (w_cur (co_alpha buf off)) as [|c0 cs] eqn:Ec.
        { exfalso; symmetry in Hc; apply Hnil in Hc; lia. }
        pinv Hs. auto.
  - (* skip *)
    unfold bp_skip in Hb; cbn [bp_off bp_buf] in Hb.
    rewrite (co_rem_spec m buf off Hinv) in Hb.
    assert (Hsz : size_fits m n) by (destruct m; exact Harg).
    pose proof (size_fits_nonneg _ _ Hsz). pose proof isize_max_lt.
    assert (Hsz' : size_fits m (Z.min (co_limit off - co_cur off) n))
      by (destruct m; unfold size_fits, is_usize; lia).
    destruct (@co_advance_spec parse_error m _ buf off Hinv Hsz')
      as [[Hle Ha]|[[Hle Ha]|(Hm & Hle & Ha)]]; try lia; rewrite Ha in Hb; clear Ha.
    pinv Hb. pinv Hs.
    cbn [bp_buf bp_off]. rewrite Hlen.
    split; [reflexivity|]. split; [apply co_inv_move | apply co_alpha_move]; auto; lia.
  - (* skip_exactly *)
    unfold bp_skip_exactly in Hb; cbn [bp_off bp_buf] in Hb.
    assert (Hsz : size_fits m n) by (destruct m; exact Harg).
    pose proof (size_fits_nonneg _ _ Hsz).
    destruct (@co_advance_spec parse_error m n buf off Hinv Hsz)
      as [[Hle Ha]|[[Hle Ha]|(Hm & Hle & Ha)]]; rewrite Ha in Hb; clear Ha;
      pinv Hb.
    + bcase (n <=? zlen (w_cur (co_alpha buf off))); [|lia].
      pinv Hs. cbn [bp_buf bp_off].
      split; [reflexivity|]. split; [apply co_inv_move | apply co_alpha_move]; auto; lia.
    + bcase (n <=? zlen (w_cur (co_alpha buf off))); [lia|].
      pinv Hs; auto.
    + split; [reflexivity|].
      bcase (n <=? zlen (w_cur (co_alpha buf off))); [lia|].
      pinv Hs; auto.
Qed.
