(** The ranged integers' conversions, with every outcome: the value, the error and the panic. *)
From Verif Require Import Base BaseLemmas ModelErrors ModelInt ModelSchema SpecCodec SpecNum ProofNum.

Lemma try_from_i32_outcome rc m k lo hi x : ri_sanity lo hi = true -> ik_in I32 x = true ->
  (lo <= x <= hi -> ri_try_from_i32 rc m k lo hi x = if ik_in k (ranged_stored lo x) then ROk (ranged_stored lo x) else RErr BFailed) /\
  (hi < x -> ri_try_from_i32 rc m k lo hi x = RErr (BOverflow (ranged_stored lo hi) (ranged_stored lo x))) /\
  (lo <= 0 -> x < lo -> ri_try_from_i32 rc m k lo hi x = RErr (BUnderflow lo x)) /\
  (0 < lo -> - 2 ^ 31 + lo <= x < lo -> ri_try_from_i32 rc m k lo hi x = RErr (BIllegalNegative lo (x - lo))) /\
  (0 < lo -> x < - 2 ^ 31 + lo -> ri_try_from_i32 rc m k lo hi x =
     match m with Debug => RPanic | Release => RErr (BOverflow (hi - lo) (x - lo + 2 ^ 32)) end).
Proof.
  intros S Hx. pose proof S as S0. apply sanity_spec in S. apply i32_in in Hx.
  unfold ri_try_from_i32. rewrite ri_check_ok by exact S0. cbn [rbind]. unfold ranged_stored, restrict, ik_try_from.
  destruct (Z.ltb_spec 0 lo) as [L|L].
  - replace (lo <=? 0) with false by lia. replace (hi <? lo) with false by lia. split; [|split; [|split; [|split]]]; intros.
    + unfold i32_checked. replace (ik_in I32 (x - lo)) with true by (symmetry; apply i32_in; lia). cbn [rbind].
      replace (x - lo <? 0) with false by lia. replace (hi - lo <? x - lo) with false by lia. cbn [rbind]. destruct (ik_in k (x - lo)); reflexivity.
    + unfold i32_checked. replace (ik_in I32 (x - lo)) with true by (symmetry; apply i32_in; lia). cbn [rbind].
      replace (x - lo <? 0) with false by lia. replace (hi - lo <? x - lo) with true by lia. reflexivity.
    + lia.
    + unfold i32_checked. replace (ik_in I32 (x - lo)) with true by (symmetry; apply i32_in; lia). cbn [rbind].
      replace (x - lo <? 0) with true by lia. reflexivity.
    + unfold i32_checked. destruct (ik_in I32 (x - lo)) eqn:E; [apply i32_in in E; lia|]. destruct m; [reflexivity|]. cbn [rbind].
      rewrite i32_wrap_low by lia. replace (x - lo + 2 ^ 32 <? 0) with false by lia. replace (hi - lo <? x - lo + 2 ^ 32) with true by lia. reflexivity.
  - replace (lo <=? 0) with true by lia. cbn [rbind]. split; [|split; [|split; [|split]]]; intros; try lia.
    + replace (lo <=? x) with true by lia. replace (x <=? hi) with true by lia. cbn [rbind]. destruct (ik_in k x); reflexivity.
    + replace (lo <=? x) with true by lia. replace (x <=? hi) with false by lia. replace (hi <? lo) with false by lia. reflexivity.
    + replace (lo <=? x) with false by lia. replace (hi <? lo) with false by lia. reflexivity.
Qed.

(** With the feature on, a type with senseless bounds panics on use. *)
Lemma insane_panics E m k lo hi x : ri_sanity lo hi = false ->
  ri_try_from_i32 true m k lo hi x = RPanic /\ @ri_from_i32 true m k lo hi E x = RPanic /\
  ri_try_from_underlying true lo hi x = RPanic /\ @ri_from_underlying true lo hi E x = RPanic /\
  @ri_to_underlying true lo hi E x = RPanic /\ @ri_to_i32 true m lo hi E x = RPanic.
Proof.
  intros S. unfold ri_from_i32, ri_from_underlying, ri_try_from_i32, ri_try_from_underlying, ri_to_underlying, ri_to_i32, ri_check, rassert.
  rewrite S. repeat split; reflexivity.
Qed.

Lemma from_i32_outcome E rc m k lo hi x :
  (forall y, ri_try_from_i32 rc m k lo hi x = ROk y -> @ri_from_i32 rc m k lo hi E x = ROk y) /\
  ((forall y, ri_try_from_i32 rc m k lo hi x <> ROk y) -> @ri_from_i32 rc m k lo hi E x = RPanic).
Proof.
  unfold ri_from_i32. destruct (ri_try_from_i32 rc m k lo hi x) as [y| | | |]; split; intros; try discriminate; try reflexivity.
  - injection H as <-. reflexivity.
  - destruct (H _ eq_refl).
Qed.

Lemma from_i32_total E rc m k lo hi x : ri_sanity lo hi = true -> ik_in I32 x = true ->
  @ri_from_i32 rc m k lo hi E x =
    if (lo <=? x) && (x <=? hi) && ik_in k (ranged_stored lo x) then ROk (ranged_stored lo x) else RPanic.
Proof.
  intros S Hx. destruct (try_from_i32_outcome rc m k lo hi x S Hx) as (H1 & H2 & H3 & H4 & H5). unfold ri_from_i32.
  destruct (Z.leb_spec lo x) as [A|A], (Z.leb_spec x hi) as [B|B]; cbn [andb].
  - rewrite H1 by lia. destruct (ik_in k (ranged_stored lo x)); reflexivity.
  - rewrite H2 by lia. reflexivity.
  - destruct (Z.le_gt_cases lo 0); [rewrite H3 by lia; reflexivity|].
    destruct (Z.le_gt_cases (- 2 ^ 31 + lo) x); [rewrite H4 by lia; reflexivity|]. rewrite H5 by lia. destruct m; reflexivity.
  - rewrite H2 by lia. reflexivity.
Qed.

(** Stored numbers. *)
Lemma underlying_outcome E rc lo hi x : ri_sanity lo hi = true ->
  let inside := lo <= ranged_value lo x <= hi in
  (inside -> ri_try_from_underlying rc lo hi x = ROk x /\ @ri_from_underlying rc lo hi E x = ROk x /\ @ri_to_underlying rc lo hi E x = ROk x) /\
  (~ inside -> ri_try_from_underlying rc lo hi x =
      RErr (if 0 <? lo then if x <? 0 then BIllegalNegative lo x else BOverflow (hi - lo) x
            else if x <? lo then BUnderflow lo x else BOverflow hi x) /\
    @ri_from_underlying rc lo hi E x = RPanic /\ @ri_to_underlying rc lo hi E x = RPanic).
Proof.
  intros S. unfold ri_from_underlying, ri_to_underlying, ri_try_from_underlying. rewrite !ri_check_ok by exact S. cbn [rbind].
  apply sanity_spec in S. unfold ranged_value, restrict. destruct (Z.ltb_spec 0 lo) as [L|L]; cbn zeta; split; intros H.
  - replace (x <? 0) with false by lia. replace (hi <? lo) with false by lia. replace (hi - lo <? x) with false by lia. auto.
  - destruct (Z.ltb_spec x 0); [auto|]. replace (hi <? lo) with false by lia. replace (hi - lo <? x) with true by lia. auto.
  - replace (lo <=? x) with true by lia. replace (x <=? hi) with true by lia. auto.
  - destruct (Z.ltb_spec x lo).
    + replace (lo <=? x) with false by lia. replace (hi <? lo) with false by lia. auto.
    + replace (lo <=? x) with true by lia. replace (x <=? hi) with false by lia. replace (hi <? lo) with false by lia. auto.
Qed.

(** [TryFrom] of an integer type. *)
Lemma try_from_outcome m k lo hi x : ri_sanity lo hi = true ->
  let top := ranged_stored lo hi in
  (lo <= 0 -> x < lo -> ri_try_from m k lo hi x = RErr (BUnderflow lo x)) /\
  (0 < lo -> x < 0 -> ri_try_from m k lo hi x = RErr (BIllegalNegative lo x)) /\
  (top < x -> ri_try_from m k lo hi x = RErr (BOverflow top x)) /\
  (Z.min 0 lo <= x <= top -> ri_try_from m k lo hi x =
     if ik_in k (ranged_stored lo x) then ROk (ranged_stored lo x) else RPanic).
Proof.
  intros S. pose proof (try_from_positive m k lo hi x S) as P. apply sanity_spec in S. cbn zeta. unfold ranged_stored.
  destruct (Z.ltb_spec 0 lo) as [L|L].
  - unfold ri_try_from, restrict in *. replace (0 <? lo) with true in * by lia. replace (hi <? lo) with false in * by lia.
    repeat split; intros; try lia.
    + replace (x <? 0) with true by lia. reflexivity.
    + replace (x <? 0) with false by lia. replace (hi - lo <? x) with true by lia. reflexivity.
    + apply (proj2 (P ltac:(lia))). lia.
  - clear P. unfold ri_try_from, restrict, ri_from_numeric_unchecked, ik_try_from. replace (0 <? lo) with false by lia. replace (lo <=? 0) with true by lia.
    repeat split; intros; try lia.
    + replace (lo <=? x) with false by lia. replace (hi <? lo) with false by lia. reflexivity.
    + replace (lo <=? x) with true by lia. replace (x <=? hi) with false by lia. replace (hi <? lo) with false by lia. reflexivity.
    + replace (lo <=? x) with true by lia. replace (x <=? hi) with true by lia. destruct (ik_in k x); reflexivity.
Qed.

(** [from_numeric_unchecked] alone. *)
Lemma numeric_unchecked_outcome E m k lo x : - 2 ^ 30 <= lo < 2 ^ 30 -> 
  (ik_in k (ranged_stored lo x) = true -> (0 < lo -> ik_in I32 x = true /\ ik_in I32 (x - lo) = true) ->
     @ri_from_numeric_unchecked m k lo E x = ROk (ranged_stored lo x)) /\
  (lo <= 0 -> ik_in k x = false -> @ri_from_numeric_unchecked m k lo E x = RPanic) /\
  (0 < lo -> ik_in I32 x = false -> @ri_from_numeric_unchecked m k lo E x = RPanic).
Proof.
  intros B. unfold ri_from_numeric_unchecked, ranged_stored, ik_try_from, i32_checked. destruct (Z.leb_spec lo 0) as [L|L].
  - replace (0 <? lo) with false by lia. split; [intros -> _; reflexivity|]. split; [intros _ ->; reflexivity|lia].
  - replace (0 <? lo) with true by lia. split; [|split; [lia|]].
    + intros K H. destruct (H L) as (-> & ->). cbn [rbind]. rewrite K. reflexivity.
    + intros _ ->. reflexivity.
Qed.
