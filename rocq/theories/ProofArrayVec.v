(** The storage of FixSeq and LimSeq does not show. *)
From Verif Require Import Base BaseLemmas ModelErrors ModelParser ModelSchema ModelSeq ModelArrayVec SpecSeq ProofDec ProofSeq.
From Coq Require Import ZifyBool.
Local Open Scope Z_scope. Local Open Scope list_scope.

Definition cap_ok (n : Z) : Prop := 0 <= n <= 2 ^ 32 - 1.

Lemma av_push_same {A} m n (seq : list A) x : avs_try_push m n seq x = try_push n seq x.
Proof. unfold avs_try_push, av_push_unchecked, try_push. destruct (zlen seq <? n); reflexivity. Qed.

Lemma av_extend_same {E A S} (next : S -> option A * S) n k : forall s v, zlen v + Z.of_nat k <= n ->
  @av_extend_take E A S next n k s v = ROk (extend_take next k s v).
Proof.
  induction k as [|k IH]; intros s v Hl; cbn [av_extend_take extend_take]; [reflexivity|].
  destruct (next s) as [[x|] s']; [|reflexivity]. replace (zlen v <? n) with true by lia.
  apply IH. rewrite zlen_app, zlen_cons. change (zlen (@nil A)) with 0. lia.
Qed.
Lemma avs_extend_same {A S} (next : S -> option A * S) m n seq it : zlen seq <= n ->
  avs_extend next m n seq it = seq_extend next m n seq it.
Proof.
  intros Hl. unfold avs_extend, seq_extend. replace (n <? zlen seq) with false by lia.
  pose proof (zlen_nonneg seq). rewrite usub_ok by lia. cbn [rbind].
  destruct (iter_nth next (Z.to_nat (n - zlen seq)) it) as [[x|] i]; [reflexivity|].
  rewrite av_extend_same by lia. reflexivity.
Qed.
Lemma avs_from_iter_same {A S} (next : S -> option A * S) m n it : cap_ok n ->
  avs_from_iter next m n it = seq_from_iter next m n it.
Proof.
  intros Hn. unfold cap_ok in Hn. unfold avs_from_iter, seq_from_iter.
  destruct (iter_nth next (Z.to_nat n) it) as [[x|] i]; [reflexivity|].
  unfold av_new. replace (n <=? 2 ^ 32 - 1) with true by lia. cbn [rbind].
  rewrite av_extend_same by (change (zlen (@nil A)) with 0; lia). reflexivity.
Qed.
Lemma av_extend_list {E A} n : forall (l v : list A), zlen v + zlen l <= n ->
  @av_extend_take E A _ list_next n (S (length l)) l v = ROk (v ++ l).
Proof.
  induction l as [|x l IH]; intros v Hl; [cbn; rewrite app_nil_r; reflexivity|].
  rewrite zlen_cons in Hl. pose proof (zlen_nonneg l). change (length (x :: l)) with (S (length l)).
  remember (S (length l)) as k. cbn [av_extend_take list_next]. replace (zlen v <? n) with true by lia.
  rewrite IH by (rewrite zlen_app, zlen_cons; change (zlen (@nil A)) with 0; lia).
  rewrite <- app_assoc. reflexivity.
Qed.
Lemma avs_collect_same {A} n (l : list A) : cap_ok n -> zlen l <= n -> avs_collect n l = ROk l.
Proof.
  intros Hn Hl. unfold cap_ok in Hn. unfold avs_collect, av_new. replace (n <=? 2 ^ 32 - 1) with true by lia. cbn [rbind].
  rewrite av_extend_list; [reflexivity|]. change (zlen (@nil A)) with 0. lia.
Qed.
Theorem storage_constructors : forall A n, cap_ok n ->
  avs_new n = ROk (@seq_new A) /\
  (forall m (seq : list A) x, avs_try_push m n seq x = try_push n seq x) /\
  (forall S (next : S -> option A * S) m it, avs_from_iter next m n it = seq_from_iter next m n it) /\
  (forall S (next : S -> option A * S) m seq it, zlen seq <= n ->
     avs_extend next m n seq it = seq_extend next m n seq it) /\
  (forall l : list A,
     avs_fix_try_from_slice n l = fix_try_from_slice n l /\
     avs_lim_try_from_slice n l = lim_try_from_slice n l /\
     avs_try_from_vec n l = fix_try_from_vec n l /\
     avs_try_from_vec n l = lim_try_from_vec n l /\
     avs_from_vec n l = lim_from_vec n l).
Proof.
  intros A n Hn. split; [|split; [|split; [|split]]].
  - unfold cap_ok in Hn. unfold avs_new, av_new. replace (n <=? 2 ^ 32 - 1) with true by lia. reflexivity.
  - intros m seq x. apply av_push_same.
  - intros S next m it. apply avs_from_iter_same, Hn.
  - intros S next m seq it. apply avs_extend_same.
  - intros l. unfold avs_fix_try_from_slice, fix_try_from_slice, avs_lim_try_from_slice, lim_try_from_slice, avs_try_from_vec,
      fix_try_from_vec, lim_try_from_vec, avs_from_vec, lim_from_vec, av_try_from_unwrap, rassert.
    destruct (Z.ltb_spec n (zlen l)).
    + replace (n =? zlen l) with false by lia. replace (zlen l <=? n) with false by lia. cbn [negb rbind]. repeat split; reflexivity.
    + replace (zlen l <=? n) with true by lia. cbn [rbind]. rewrite avs_collect_same by assumption.
      destruct (n =? zlen l); repeat split; reflexivity.
Qed.

(** Decoding: the same answer from every parser in every state. *)
Section Loops.
Context {P : Type} (h : handler P) (m : mode) (n : Z) (elem : prog val).
Lemma run_pbind_ext {A B} (pg : prog A) (k k' : A -> prog B) p :
  (forall a q, run h (k a) q = run h (k' a) q) -> run h (pbind pg k) p = run h (pbind pg k') p.
Proof. intros H. rewrite !run_pbind. destruct (run h pg p) as [[a|e| | |] q]; auto. Qed.
Lemma lim_loop_same fuel : forall seq p, run h (avs_lim_loop m fuel n elem seq) p = run h (p_lim_loop fuel n elem seq) p.
Proof.
  induction fuel as [|fuel IH]; intros seq p; cbn [avs_lim_loop p_lim_loop]; [reflexivity|].
  apply run_pbind_ext. intros rem q. destruct (rem =? 0); [reflexivity|]. apply run_pbind_ext. intros v q'.
  rewrite av_push_same. apply run_pbind_ext. intros seq' q''. apply IH.
Qed.
Lemma fix_loop_same fuel : forall seq p, run h (avs_fix_loop m fuel n elem seq) p = run h (p_fix_loop fuel n elem seq) p.
Proof.
  induction fuel as [|fuel IH]; intros seq p; cbn [avs_fix_loop p_fix_loop]; [reflexivity|].
  apply run_pbind_ext. intros rem q. destruct (negb (rem =? 0) && (zlen seq <? n)) eqn:E; [|reflexivity].
  apply run_pbind_ext. intros v q'. rewrite av_push_same. unfold try_push. apply andb_prop in E. destruct E as [_ ->].
  cbn [ext_len plift pbind]. apply IH.
Qed.
End Loops.
Theorem storage_decoding : forall P (h : handler P) m n elem fuel p, cap_ok n ->
  run h (avs_lim_parse m fuel n elem) p = run h (p_lim_loop fuel n elem []) p /\
  run h (avs_fix_parse m fuel n elem) p = run h (p_fix_loop fuel n elem []) p.
Proof.
  intros P h m n elem fuel p Hn. unfold avs_lim_parse, avs_fix_parse.
  replace (@avs_new val n) with (@ROk length_error (list val) []) by (symmetry; apply (storage_constructors val n Hn)).
  cbn [ext_len plift pbind]. split; [apply lim_loop_same|apply fix_loop_same].
Qed.

Lemma storage_into_vec {A} n (l seq : list A) : 0 <= n <= 2 ^ 32 - 1 ->
  avs_try_from_vec n l = ROk seq \/ avs_lim_try_from_slice n l = ROk seq \/ avs_fix_try_from_slice n l = ROk seq ->
  avs_into_vec seq = l.
Proof.
  intros Hn. destruct (storage_constructors A n Hn) as (_ & _ & _ & _ & H). destruct (H l) as (E1 & E2 & E3 & _ & _). rewrite E1, E2, E3.
  unfold avs_into_vec, fix_try_from_vec, lim_try_from_slice, fix_try_from_slice.
  intros [E|[E|E]]; revert E; repeat match goal with |- context [if ?c then _ else _] => destruct c end; congruence.
Qed.
