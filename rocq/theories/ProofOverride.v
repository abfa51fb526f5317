(** The provided methods of [Encode] that types replace (C87). *)
From Verif Require Import Base BaseLemmas ModelErrors ModelInt ModelTarget ModelSchema ModelOverride SpecTarget SpecCodec ProofCodec ProofTarget.
Local Open Scope list_scope.

Lemma uadd_zero {X} m n : 0 <= n <= isize_max -> @uadd X m n 0 = ROk n.
Proof.
  intros H. unfold uadd. rewrite Z.add_0_r. destruct (n <? usize_mod) eqn:E; [reflexivity|].
  apply Z.ltb_ge in E. unfold isize_max, usize_mod in *. lia.
Qed.
Lemma push_vec cf bs buf : zlen bs <= isize_max ->
  w_write_all cf tg_vec bs buf = ROk (zlen bs, buf ++ bs) /\ w_push_many cf tg_vec bs buf = ROk (zlen bs, buf ++ bs).
Proof.
  intros H. unfold w_write_all, w_push_many, w_add, w_call, tg_resolve_macro. cbn [tg_vec tg_push_all tg_push_many tg_resolve tg_resolve_zero default_resolve_zero rbind fst snd].
  pose proof (zlen_nonneg bs). rewrite uadd_zero by lia. auto.
Qed.
Lemma same_write_to_vec cf D kf v t buf : (forall bs, v = VBytes bs -> zlen bs <= isize_max) ->
  call_write_to_vec cf D kf v t buf = write_to_vec_default cf D kf v t buf.
Proof.
  intros Hl. destruct t; try reflexivity; destruct v; try reflexivity.
  - unfold call_write_to_vec, write_to_vec_default. cbn [write_to]. rewrite (proj1 (push_vec cf bs buf (Hl _ eq_refl))). reflexivity.
  - unfold call_write_to_vec, write_to_vec_default. cbn [write_to]. rewrite (proj2 (push_vec cf bs buf (Hl _ eq_refl))). reflexivity.
Qed.
Lemma same_to_bytes cf D kf v t : (forall bs, v = VBytes bs -> zlen bs <= isize_max) ->
  call_to_bytes cf D kf v t = to_bytes cf D kf v t.
Proof.
  intros Hl. assert (E : call_to_bytes cf D kf v t = call_write_to_vec cf D kf v t []).
  { destruct t; try reflexivity; destruct v; reflexivity. }
  rewrite E, same_write_to_vec by exact Hl. reflexivity.
Qed.
Lemma same_to_bytes_full cf D kf v t : (forall bs, v = VBytes bs -> zlen bs <= isize_max) ->
  call_to_bytes_full cf D kf v t = to_bytes_full cf D kf v t.
Proof. intros Hl. unfold call_to_bytes_full, to_bytes_full. rewrite same_write_to_vec by exact Hl. reflexivity. Qed.
Lemma appends cf D kf v t buf : (forall bs, v = VBytes bs -> zlen bs <= isize_max) ->
  call_write_to_vec cf D kf v t buf = rmap (fun bs => buf ++ bs) (call_to_bytes cf D kf v t).
Proof.
  intros Hl. rewrite same_write_to_vec, same_to_bytes by exact Hl. unfold write_to_vec_default.
  assert (C : collects tg_vec (fun u bs => u = bs)) by exact (library_collects ToVec).
  pose proof (custom_same tg_vec _ C cf D kf v t buf buf eq_refl) as S.
  destruct (to_bytes cf D kf v t); unfold rmap; cbn [rbind]; [|rewrite S; reflexivity..].
  destruct S as (n & u' & -> & -> & _). reflexivity.
Qed.
Lemma same_encode cf D kf b U (T : target U) v t : counts T ->
  call_encode cf D kf b T v t = encode cf D kf T v t.
Proof.
  intros HT. destruct t; try reflexivity; destruct v; try reflexivity.
  unfold call_encode, encode, rmap. cbn [write_to]. unfold w_write_all, w_add, w_call, tg_resolve_macro.
  pose proof (proj1 (proj2 (proj2 (HT (tg_create T)))) bs) as E. destruct (tg_push_all T bs (tg_create T)) as [n u]. cbn [rbind fst snd] in *. subst n.
  unfold uadd. rewrite Z.add_0_r. destruct (cf_mode cf), b, (zlen bs <? usize_mod); cbn [rbind fst snd]; rewrite ?Z.eqb_refl; reflexivity.
Qed.
Lemma vec_assert cf D kf U (T : target U) bs : 
  0 <= fst (tg_push_all T bs (tg_create T)) <= isize_max ->
  call_encode cf D kf IsVec T (VBytes bs) TBytes =
  if (match cf_mode cf with Debug => negb (fst (tg_push_all T bs (tg_create T)) =? zlen bs) | Release => false end)
  then RPanic else encode cf D kf T (VBytes bs) TBytes.
Proof.
  intros HT. unfold call_encode, encode, rmap. cbn [write_to]. unfold w_write_all, w_add, w_call, tg_resolve_macro.
  destruct (tg_push_all T bs (tg_create T)) as [n u]. cbn [rbind fst snd] in *. rewrite uadd_zero by exact HT. cbn [rbind fst snd].
  destruct (cf_mode cf); [|reflexivity]. destruct (n =? zlen bs); reflexivity.
Qed.
