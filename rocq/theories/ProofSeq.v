(** Lemmas behind C33, C34 and C48. *)
From Verif Require Import Base BaseLemmas ModelErrors ModelUtf8 ModelSchema ModelSeq SpecUtf8 SpecSeq ProofUtf8.
From Coq Require Import ZifyBool.

Section Iter.
Context {A S : Type} (next : S -> option A * S).

Lemma nth_yields s xs : yields next s xs -> forall n,
  (length xs <= n)%nat -> exists s0 s', next s0 = (None, s') /\ iter_nth next n s = (None, s').
Proof.
  induction 1 as [s s' H|s x s' xs H _ IH]; intros n Hn.
  - exists s, s'. split; [exact H|]. destruct n; cbn [iter_nth]; rewrite ?H; reflexivity.
  - destruct n as [|n]; cbn [length] in Hn; [lia|]. cbn [iter_nth]. rewrite H. apply IH; lia.
Qed.
Lemma nth_over s xs : yields next s xs -> forall n,
  (n < length xs)%nat -> exists x s', iter_nth next n s = (Some x, s').
Proof.
  induction 1 as [s s' H|s x s' xs H _ IH]; intros n Hn; cbn [length] in Hn; [lia|].
  destruct n as [|n]; cbn [iter_nth]; rewrite H; [eauto|]. apply IH; lia.
Qed.

Lemma extend_take_len n : forall s v, zlen (extend_take next n s v) <= zlen v + Z.of_nat n.
Proof.
  induction n as [|n IH]; intros s v; cbn [extend_take]; [lia|].
  destruct (next s) as [[x|] s']; [|lia]. etransitivity; [apply IH|]. rewrite zlen_app. cbn. lia.
Qed.
Lemma extend_take_none n s s' v : next s = (None, s') -> extend_take next n s v = v.
Proof. intros H. destruct n; cbn [extend_take]; rewrite ?H; reflexivity. Qed.

Lemma extend_bounded m n seq it seq' :
  seq_extend next m n seq it = ROk seq' -> zlen seq' <= n.
Proof.
  unfold seq_extend. destruct (Z.ltb_spec n (zlen seq)); [discriminate|].
  destruct (iter_nth next (Z.to_nat (n - zlen seq)) it) as [[?|] i]; [discriminate|].
  pose proof (extend_take_len (Z.to_nat (n - zlen seq)) i seq) as HL.
  destruct (debug_assert m _); cbn [rbind]; try discriminate. intros [= <-]. lia.
Qed.
Lemma from_iter_bounded m n it seq :
  0 <= n -> seq_from_iter next m n it = ROk seq -> zlen seq <= n.
Proof.
  intros Hn. unfold seq_from_iter.
  destruct (iter_nth next (Z.to_nat n) it) as [[?|] i]; [discriminate|].
  pose proof (extend_take_len (Z.to_nat n) i []) as HL. change (zlen (@nil A)) with 0 in HL.
  destruct (debug_assert m _); cbn [rbind]; try discriminate. intros [= <-]. lia.
Qed.

Lemma extend_loses m n seq it xs :
  fused next -> yields next it xs -> zlen seq + zlen xs <= n ->
  seq_extend next m n seq it = ROk seq.
Proof.
  intros Hf Hy Hn. pose proof (zlen_nonneg xs). unfold seq_extend.
  destruct (Z.ltb_spec n (zlen seq)); [lia|].
  destruct (nth_yields it xs Hy (Z.to_nat (n - zlen seq))) as (s0 & s' & G0 & ->); [unfold zlen in *; lia|].
  destruct (Hf _ _ G0) as [s'' Hs']. rewrite (extend_take_none _ _ _ _ Hs').
  assert (E : (zlen seq <=? n) = true) by lia. rewrite E. destruct m; reflexivity.
Qed.
Lemma from_iter_loses m n it xs :
  fused next -> yields next it xs -> zlen xs <= n -> seq_from_iter next m n it = ROk [].
Proof.
  intros Hf Hy Hn. pose proof (zlen_nonneg xs). unfold seq_from_iter.
  destruct (nth_yields it xs Hy (Z.to_nat n)) as (s0 & s' & G0 & ->); [unfold zlen in *; lia|].
  destruct (Hf _ _ G0) as [s'' Hs']. rewrite (extend_take_none _ _ _ _ Hs').
  change (zlen (@nil A)) with 0. assert (E : (0 <=? n) = true) by lia. rewrite E. destruct m; reflexivity.
Qed.
Lemma extend_over m n seq it xs :
  yields next it xs -> n < zlen seq + zlen xs -> seq_extend next m n seq it = RPanic.
Proof.
  intros Hy Hn. unfold seq_extend. destruct (Z.ltb_spec n (zlen seq)); [reflexivity|].
  destruct (nth_over it xs Hy (Z.to_nat (n - zlen seq))) as (x & s' & ->); [unfold zlen in *; lia|reflexivity].
Qed.
Lemma from_iter_over m n it xs :
  0 <= n -> yields next it xs -> n < zlen xs -> seq_from_iter next m n it = RPanic.
Proof.
  intros H0 Hy Hn. unfold seq_from_iter.
  destruct (nth_over it xs Hy (Z.to_nat n)) as (x & s' & ->); [unfold zlen in *; lia|reflexivity].
Qed.
End Iter.

Lemma built_bounded {A} n (seq : list A) : 0 <= n -> built n seq -> zlen seq <= n.
Proof.
  intros Hn. induction 1 as [|seq x seq' _ IH H|S next m seq it seq' _ IH H|S next m it seq H|l seq H|l seq H|l seq H|l seq H|l seq H|seq seq' _ IH H].
  - exact Hn.
  - unfold try_push in H. destruct (Z.ltb_spec (zlen seq) n); [|discriminate]. injection H as <-.
    rewrite zlen_app. cbn. lia.
  - eapply extend_bounded; exact H.
  - eapply from_iter_bounded; [exact Hn|exact H].
  - unfold fix_try_from_slice in H. destruct (Z.eqb_spec n (zlen l)); [|discriminate]. injection H as <-. lia.
  - unfold fix_try_from_vec in H. destruct (Z.ltb_spec n (zlen l)); [discriminate|]. injection H as <-. lia.
  - unfold lim_try_from_slice in H. destruct (Z.ltb_spec n (zlen l)); [discriminate|]. injection H as <-. lia.
  - unfold lim_try_from_vec in H. destruct (Z.ltb_spec n (zlen l)); [discriminate|]. injection H as <-. lia.
  - unfold lim_from_vec, rassert in H. destruct (Z.leb_spec (zlen l) n); [|discriminate]. injection H as <-. lia.
  - lia.
Qed.

Lemma list_yields {A} (l : list A) : yields list_next l l.
Proof.
  induction l as [|x l IH]; [eapply yields_nil; reflexivity|]. eapply yields_cons; [reflexivity|exact IH].
Qed.
Lemma list_fused {A} : fused (@list_next A).
Proof. intros [|x l] s'; [intros [= <-]; exists []; reflexivity|discriminate]. Qed.

Lemma collect_empty {A S} (next : S -> option A * S) m n seq it :
  fused next -> yields next it [] -> 0 <= n ->
  seq_from_iter next m n it = ROk [] /\
  (zlen seq <= n -> seq_extend next m n seq it = ROk seq).
Proof.
  intros Hf Hy Hn. split.
  - apply (from_iter_loses next m n it []); auto.
  - intros Hs. apply (extend_loses next m n seq it []); auto. change (zlen (@nil A)) with 0. lia.
Qed.
Lemma collect_over {A S} (next : S -> option A * S) m n seq it xs :
  yields next it xs -> 0 <= n ->
  (n < zlen xs -> seq_from_iter next m n it = RPanic) /\
  (n < zlen seq + zlen xs -> seq_extend next m n seq it = RPanic).
Proof.
  intros Hy Hn. split; intros H; [eapply from_iter_over|eapply extend_over]; eassumption.
Qed.
Lemma collect_loses_all :
  (exists m n, seq_from_iter list_next m n [1; 2; 3] = ROk [] /\ n = 5 /\
               seq_extend list_next m n [9] [1; 2; 3] = ROk [9]) /\
  (forall A S (next : S -> option A * S) m n seq it xs, fused next -> yields next it xs ->
     (zlen xs <= n -> seq_from_iter next m n it = ROk []) /\
     (zlen seq + zlen xs <= n -> seq_extend next m n seq it = ROk seq)).
Proof.
  split.
  - exists Release, 5. split; [reflexivity|]. split; reflexivity.
  - intros A S next m n seq it xs Hf Hy. split; intros H; [eapply from_iter_loses|eapply extend_loses]; eassumption.
Qed.

(** TryFrom *)
Lemma lim_try_from {A} n (l : list A) :
  (zlen l <= n -> lim_try_from_slice n l = ROk l /\ lim_try_from_vec n l = ROk l /\ lim_from_vec n l = ROk l) /\
  (n < zlen l -> lim_try_from_slice n l = RErr (TooLong n (zlen l)) /\
                 lim_try_from_vec n l = RErr (TooLong n (zlen l)) /\ lim_from_vec n l = RPanic).
Proof.
  unfold lim_try_from_slice, lim_try_from_vec, lim_from_vec, rassert.
  destruct (Z.ltb_spec n (zlen l)); destruct (Z.leb_spec (zlen l) n); try lia; split; intros; try lia; auto.
Qed.
Lemma fix_vec {A} n (l : list A) :
  (zlen l <= n -> fix_try_from_vec n l = ROk l) /\
  (n < zlen l -> fix_try_from_vec n l = RErr (TooLong n (zlen l))).
Proof. unfold fix_try_from_vec. destruct (Z.ltb_spec n (zlen l)); split; intros; try lia; auto. Qed.
Lemma fix_slice {A} n (l : list A) :
  (zlen l = n -> fix_try_from_slice n l = ROk l) /\
  (zlen l <> n -> fix_try_from_slice n l = RErr (WrongLength n (zlen l))).
Proof. unfold fix_try_from_slice. destruct (Z.eqb_spec n (zlen l)); cbn [negb]; split; intros; try lia; auto. Qed.
Lemma fix_slice_refuted : exists n (l : list Z) e, zlen l <= n /\ fix_try_from_slice n l = RErr e.
Proof. exists 3, [1; 2], (WrongLength 3 2). split; [discriminate|reflexivity]. Qed.

(** C48 *)
Lemma fixed_constructors n bs v :
  (fb_try_from_slice n bs = ROk v <-> zlen bs = n /\ v = bs) /\
  (fb_try_from n bs = ROk v <-> zlen bs = n /\ v = bs) /\
  (fs_try_from_bytes n bs = ROk v <-> zlen bs = n /\ v = bs) /\
  (zlen bs <> n -> fb_try_from_slice n bs = RErr (WrongWidth n (zlen bs)) /\
                   fb_try_from n bs = RErr tt /\
                   fs_try_from_bytes n bs = RErr (WrongWidth n (zlen bs))).
Proof.
  unfold fb_try_from_slice, fb_try_from, fs_try_from_bytes, array_try_from.
  destruct (Z.eqb_spec (zlen bs) n) as [E|E].
  - repeat match goal with |- _ /\ _ => split end; try (split; [intros [= ->]; auto|intros [_ ->]; reflexivity]).
    congruence.
  - repeat match goal with |- _ /\ _ => split end; try (split; [discriminate|intros [? _]; contradiction]).
    auto.
Qed.
Lemma fixed_string_array bs v : bytes_ok bs ->
  (fs_try_from_array bs = ROk v <-> v = bs /\ exists cs, Forall scalar cs /\ bs = utf8_string cs).
Proof.
  intros Hb. unfold fs_try_from_array. pose proof (utf8_valid_iff bs Hb) as H.
  destruct (utf8_valid bs).
  - split; [intros [= <-]; split; [reflexivity|apply H; reflexivity]|intros [-> _]; reflexivity].
  - split; [discriminate|]. intros [_ Hc]. apply H in Hc. discriminate.
Qed.
Lemma fixed_string_from_refuted :
  exists bs, bytes_ok bs /\ zlen bs = 1 /\ fs_from_array bs = bs /\ fs_try_from_array bs = RErr tt /\
             forall cs, Forall scalar cs -> bs <> utf8_string cs.
Proof.
  exists [255]. assert (Hb : bytes_ok [255]) by (constructor; [unfold is_byte; lia|constructor]).
  split; [exact Hb|]. split; [reflexivity|]. split; [reflexivity|]. split; [reflexivity|].
  intros cs Hc E. assert (H : fs_try_from_array [255] = ROk [255]).
  { apply fixed_string_array; [exact Hb|]. split; [reflexivity|]. exists cs. auto. }
  discriminate H.
Qed.

(** Push histories *)
Lemma push_calls_spec {A} n (xs : list A) : forall seq, zlen seq <= n ->
  push_calls n seq xs =
  (seq ++ firstn (Z.to_nat (n - zlen seq)) xs,
   map (fun i => Z.of_nat i <? n - zlen seq) (List.seq 0 (length xs))).
Proof.
  induction xs as [|x xs IH]; intros seq Hs; cbn [push_calls length List.seq map].
  - rewrite firstn_nil, app_nil_r. reflexivity.
  - unfold try_push. destruct (Z.ltb_spec (zlen seq) n) as [H|H].
    + rewrite IH by (rewrite zlen_app; cbn; lia). rewrite zlen_app. change (zlen [x]) with 1.
      destruct (Z.ltb_spec (Z.of_nat 0) (n - zlen seq)); [|lia].
      replace (Z.to_nat (n - zlen seq)) with (Datatypes.S (Z.to_nat (n - (zlen seq + 1)))) by lia.
      cbn [firstn]. rewrite <- app_assoc. cbn [app]. f_equal. f_equal.
      rewrite <- seq_shift, map_map. apply map_ext. intros i. lia.
    + rewrite IH by lia. replace (Z.to_nat (n - zlen seq)) with O by lia.
      destruct (Z.ltb_spec (Z.of_nat 0) (n - zlen seq)); [lia|]. cbn [firstn]. f_equal. f_equal.
      rewrite <- seq_shift, map_map. apply map_ext. intros i. lia.
Qed.
Lemma push_full {A} n (seq : list A) x : zlen seq = n ->
  try_push n seq x = RErr (TooLong n (n + 1)) /\ push_calls n seq [x] = (seq, [false]).
Proof. intros <-. cbn [push_calls]. unfold try_push. rewrite Z.ltb_irrefl. auto. Qed.
