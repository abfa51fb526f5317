(** Lemmas about the vocabulary of [Base]. *)
From Verif Require Import Base.
From Coq Require Import ZifyBool.

Lemma zlen_nonneg {A} (l : list A) : 0 <= zlen l.
Proof. unfold zlen; lia. Qed.

Lemma zlen_nil {A} : zlen (@nil A) = 0.
Proof. reflexivity. Qed.

Lemma zlen_cons {A} (a : A) l : zlen (a :: l) = 1 + zlen l.
Proof. unfold zlen; cbn [length]; lia. Qed.

Lemma zlen_app {A} (l l' : list A) : zlen (l ++ l') = zlen l + zlen l'.
Proof. unfold zlen; rewrite app_length; lia. Qed.

Lemma zlen_map {A B} (f : A -> B) l : zlen (map f l) = zlen l.
Proof. unfold zlen; rewrite map_length; reflexivity. Qed.

Lemma zlen_rev {A} (l : list A) : zlen (rev l) = zlen l.
Proof. unfold zlen; rewrite rev_length; reflexivity. Qed.

Lemma zlen_0_nil {A} (l : list A) : zlen l = 0 -> l = [].
Proof. destruct l; [reflexivity | rewrite zlen_cons; pose proof (zlen_nonneg l); lia]. Qed.

Lemma zlen_repeat {A} (a : A) n : zlen (repeat a n) = Z.of_nat n.
Proof. unfold zlen; rewrite repeat_length; reflexivity. Qed.

Lemma ztake_0 {A} (l : list A) : ztake 0 l = [].
Proof. reflexivity. Qed.

Lemma zdrop_0 {A} (l : list A) : zdrop 0 l = l.
Proof. reflexivity. Qed.

Lemma ztake_zdrop {A} n (l : list A) : ztake n l ++ zdrop n l = l.
Proof. apply firstn_skipn. Qed.

Lemma zlen_ztake {A} n (l : list A) : 0 <= n <= zlen l -> zlen (ztake n l) = n.
Proof. unfold zlen, ztake; intros; rewrite firstn_length; lia. Qed.

Lemma zlen_zdrop {A} n (l : list A) : 0 <= n <= zlen l -> zlen (zdrop n l) = zlen l - n.
Proof. unfold zlen, zdrop; intros; rewrite skipn_length; lia. Qed.

Lemma ztake_app {A} (l l' : list A) : ztake (zlen l) (l ++ l') = l.
Proof.
  unfold ztake, zlen; rewrite Nat2Z.id, firstn_app, Nat.sub_diag, firstn_O, app_nil_r.
  apply firstn_all.
Qed.

Lemma zdrop_app {A} (l l' : list A) : zdrop (zlen l) (l ++ l') = l'.
Proof.
  unfold zdrop, zlen; rewrite Nat2Z.id, skipn_app, Nat.sub_diag, skipn_all; reflexivity.
Qed.

Lemma ztake_app_le {A} n (l l' : list A) : n <= zlen l -> ztake n (l ++ l') = ztake n l.
Proof.
  unfold ztake, zlen; intros; rewrite firstn_app.
  replace (Z.to_nat n - length l)%nat with 0%nat by lia.
  rewrite firstn_O, app_nil_r; reflexivity.
Qed.

Lemma zdrop_app_le {A} n (l l' : list A) : n <= zlen l -> zdrop n (l ++ l') = zdrop n l ++ l'.
Proof.
  unfold zdrop, zlen; intros; rewrite skipn_app.
  replace (Z.to_nat n - length l)%nat with 0%nat by lia; reflexivity.
Qed.

Lemma ztake_all {A} (l : list A) : ztake (zlen l) l = l.
Proof. unfold ztake, zlen; rewrite Nat2Z.id; apply firstn_all. Qed.

Lemma ztake_ge {A} n (l : list A) : zlen l <= n -> ztake n l = l.
Proof. unfold ztake, zlen; intros; apply firstn_all2; lia. Qed.

Lemma zdrop_all {A} (l : list A) : zdrop (zlen l) l = [].
Proof. unfold zdrop, zlen; rewrite Nat2Z.id; apply skipn_all. Qed.

Lemma zdrop_zdrop {A} a b (l : list A) : 0 <= a -> 0 <= b -> zdrop a (zdrop b l) = zdrop (a + b) l.
Proof.
  unfold zdrop; intros Ha Hb. rewrite Z2Nat.inj_add by assumption.
  generalize (Z.to_nat a) (Z.to_nat b); clear; intros a b. rewrite Nat.add_comm.
  revert l; induction b as [|b IH]; intros l; cbn [Nat.add skipn]; [reflexivity|].
  destruct l; [apply skipn_nil | apply IH].
Qed.

Lemma ztake_ztake {A} a b (l : list A) : 0 <= a <= b -> ztake a (ztake b l) = ztake a l.
Proof. unfold ztake; intros. rewrite firstn_firstn. f_equal; lia. Qed.

Lemma ztake_zdrop_comm {A} a b (l : list A) :
  0 <= a -> 0 <= b -> ztake a (zdrop b l) = zdrop b (ztake (a + b) l).
Proof.
  unfold ztake, zdrop; intros Ha Hb. rewrite Z2Nat.inj_add by assumption.
  rewrite firstn_skipn_comm. do 2 f_equal; lia.
Qed.

Lemma zslice_all {A} (l : list A) : zslice 0 (zlen l) l = l.
Proof. unfold zslice; rewrite zdrop_0, Z.sub_0_r; apply ztake_all. Qed.

Lemma zslice_nil {A} i (l : list A) : zslice i i l = [].
Proof. unfold zslice; rewrite Z.sub_diag; reflexivity. Qed.

Lemma zlen_zslice {A} i j (l : list A) : 0 <= i <= j -> j <= zlen l -> zlen (zslice i j l) = j - i.
Proof.
  intros; unfold zslice; apply zlen_ztake; rewrite zlen_zdrop by lia; lia.
Qed.

(** Splitting a slice at an inner point. *)
Lemma ztake_zslice {A} n i j (l : list A) :
  0 <= i -> 0 <= n <= j - i -> ztake n (zslice i j l) = zslice i (i + n) l.
Proof.
  intros; unfold zslice. rewrite ztake_ztake by lia. f_equal; lia.
Qed.

Lemma zdrop_zslice {A} n i j (l : list A) :
  0 <= i -> 0 <= n <= j - i -> zdrop n (zslice i j l) = zslice (i + n) j l.
Proof.
  intros; unfold zslice.
  rewrite !ztake_zdrop_comm by lia.
  rewrite zdrop_zdrop by lia.
  f_equal; [lia|]. f_equal; lia.
Qed.

Lemma zslice_app {A} i j k (l : list A) :
  0 <= i <= j -> j <= k -> zslice i j l ++ zslice j k l = zslice i k l.
Proof.
  intros.
  rewrite <- (ztake_zdrop (j - i) (zslice i k l)).
  rewrite ztake_zslice, zdrop_zslice by lia.
  f_equal; f_equal; lia.
Qed.

Lemma bytes_ok_app l l' : bytes_ok (l ++ l') <-> bytes_ok l /\ bytes_ok l'.
Proof. apply Forall_app. Qed.

Lemma bytes_ok_ztake n l : bytes_ok l -> bytes_ok (ztake n l).
Proof. intros H; rewrite <- (ztake_zdrop n l) in H; apply bytes_ok_app in H; tauto. Qed.

Lemma bytes_ok_zdrop n l : bytes_ok l -> bytes_ok (zdrop n l).
Proof. intros H; rewrite <- (ztake_zdrop n l) in H; apply bytes_ok_app in H; tauto. Qed.

Lemma bytes_ok_zslice i j l : bytes_ok l -> bytes_ok (zslice i j l).
Proof. intros; apply bytes_ok_ztake, bytes_ok_zdrop; assumption. Qed.

Lemma nth_error_zslice (l : list byte) i j :
  0 <= i < j -> j <= zlen l ->
  exists b, nth_error l (Z.to_nat i) = Some b /\ zslice i j l = b :: zslice (i + 1) j l.
Proof.
  intros Hi Hj.
  assert (Hlt : (Z.to_nat i < length l)%nat) by (unfold zlen in Hj; lia).
  destruct (nth_error l (Z.to_nat i)) as [b|] eqn:E.
  2:{ apply nth_error_None in E; lia. }
  exists b; split; [reflexivity|].
  rewrite <- (zslice_app i (i + 1) j) by lia.
  change (b :: zslice (i + 1) j l) with ([b] ++ zslice (i + 1) j l). f_equal.
  unfold zslice. replace (i + 1 - i) with 1 by lia.
  unfold ztake, zdrop; change (Z.to_nat 1) with 1%nat.
  apply nth_error_split in E; destruct E as (l1 & l2 & -> & Hl).
  rewrite <- Hl, skipn_app, skipn_all, Nat.sub_diag; reflexivity.
Qed.

Lemma uadd_ok {E} m a b : a + b < usize_mod -> @uadd E m a b = ROk (a + b).
Proof. unfold uadd; intros; rewrite (proj2 (Z.ltb_lt _ _)) by assumption; reflexivity. Qed.

Lemma usub_ok {E} m a b : b <= a -> @usub E m a b = ROk (a - b).
Proof. unfold usub; intros; rewrite (proj2 (Z.leb_le _ _)) by assumption; reflexivity. Qed.
