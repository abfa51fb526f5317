(** Proofs about floats (C20). *)
From Coq Require Import Floats.SpecFloat.
From Verif Require Import Base BaseLemmas ModelErrors ModelFloat.
From Coq Require Import ZifyBool.

(** Finite numbers of one sign are ordered by exponent, then mantissa. *)
Lemma finite_pos_le m1 e1 m2 e2 :
  SFleb (S754_finite false m1 e1) (S754_finite false m2 e2) = true <->
  e1 < e2 \/ (e1 = e2 /\ (m1 <= m2)%positive).
Proof.
  unfold SFleb, SFcompare. change (Pos.compare_cont Eq m1 m2) with (Pos.compare m1 m2).
  destruct (Z.compare_spec e1 e2); [|split; intros; [lia|reflexivity]|split; intros; [discriminate|lia]].
  destruct (Pos.compare_spec m1 m2); split; intros; try reflexivity; try discriminate; lia.
Qed.
Lemma finite_neg_le m1 e1 m2 e2 :
  SFleb (S754_finite true m1 e1) (S754_finite true m2 e2) = true <->
  e2 < e1 \/ (e1 = e2 /\ (m2 <= m1)%positive).
Proof.
  unfold SFleb, SFcompare. change (Pos.compare_cont Eq m1 m2) with (Pos.compare m1 m2).
  destruct (Z.compare_spec e1 e2); [|split; intros; [discriminate|lia]|split; intros; [lia|reflexivity]].
  destruct (Pos.compare_spec m1 m2); cbn [CompOpp]; split; intros; try reflexivity; try discriminate; lia.
Qed.

Lemma SFleb_trans a b c : SFleb a b = true -> SFleb b c = true -> SFleb a c = true.
Proof.
  destruct a as [sa|sa| |[|] ma ea], b as [sb|sb| |[|] mb eb], c as [sc|sc| |[|] mc ec];
    try (cbn; congruence);
    try destruct sa; try destruct sb; try destruct sc; try (cbn; congruence).
  - rewrite !finite_neg_le. lia.
  - rewrite !finite_pos_le. lia.
Qed.

Lemma f64_le_trans a b c : f64_le a b = true -> f64_le b c = true -> f64_le a c = true.
Proof. apply SFleb_trans. Qed.

Lemma f64_le_not_nan a b : f64_le a b = true -> f64_is_nan a = false /\ f64_is_nan b = false.
Proof.
  unfold f64_le, f64_is_nan, SFleb, SFcompare.
  destruct (f64_of_bits a), (f64_of_bits b); try discriminate; auto.
Qed.

(** [restrict_float] keeps exactly the values between the bounds. *)
Lemma restrict_float_spec val min max :
  (restrict_float val min max = ROk val <-> f64_le min val = true /\ f64_le val max = true) /\
  (forall v, restrict_float val min max = ROk v -> v = val) /\
  match restrict_float val min max with ROk _ | RErr _ => True | _ => False end.
Proof.
  unfold restrict_float.
  destruct (f64_le min val) eqn:E1, (f64_le val max) eqn:E2.
  1:{ rewrite (f64_le_trans _ _ _ E1 E2). intuition congruence. }
  all: destruct (f64_le min max); intuition congruence.
Qed.
