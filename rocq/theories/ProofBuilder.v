(** Lemmas behind C49 and C50. *)
From Verif Require Import Base BaseLemmas ModelUtf8 ModelHex ModelSplitVec ModelTarget ModelBuilder
  SpecSplitVec SpecHex SpecUtf8 SpecBuilder ProofSplitVec ProofHex ProofUtf8.

(** ** Contents *)
(** Both builders satisfy this, with [held] the bytes inside. *)
Record lawful {U Seg Final} (B : builder U Seg Final) (held : U -> list byte) : Prop := {
  l_birth : forall b, held (do_birth B b) = birth_bytes b;
  l_call : forall u c, do_call B u c = (call_returns c, snd (do_call B u c)) /\
                       held (snd (do_call B u c)) = held u ++ call_bytes c;
  l_into : forall u, bd_into B u = held u;
  l_vec : forall u, bd_into_vec B u = held u;
  l_len : forall u, bd_len B u = zlen (held u)
}.

Lemma strict_lawful : lawful bd_strict sb_vec.
Proof.
  constructor; try reflexivity.
  - intros []; reflexivity.
  - intros u []; split; cbn; rewrite ?app_nil_r; destruct u; reflexivity.
Qed.

Lemma memo_lawful : lawful bd_memo sv_buffer.
Proof.
  constructor; try reflexivity.
  - intros []; reflexivity.
  - intros u []; split; cbn; rewrite ?app_nil_r; destruct u; reflexivity.
Qed.

Section Lawful.
Context {U Seg Final : Type} (B : builder U Seg Final) (held : U -> list byte) (L : lawful B held).

Lemma calls_held cs : forall u,
  fst (do_calls B u cs) = map call_returns cs /\
  held (snd (do_calls B u cs)) = held u ++ concat (map call_bytes cs).
Proof.
  induction cs as [|c cs IH]; intros u; cbn [do_calls map concat fst snd].
  - rewrite app_nil_r. split; reflexivity.
  - destruct (l_call _ _ L u c) as [H1 H2]. destruct (IH (snd (do_call B u c))) as [H3 H4].
    rewrite H3, H4, H2, H1, app_assoc. split; reflexivity.
Qed.

Lemma made_held b cs : held (made B b cs) = put_in b cs.
Proof. unfold made, put_in. rewrite (proj2 (calls_held cs _)), (l_birth _ _ L). reflexivity. Qed.

Lemma builder_contents b cs :
  bd_into_vec B (made B b cs) = put_in b cs /\
  bd_into B (made B b cs) = put_in b cs /\
  bd_len B (made B b cs) = zlen (put_in b cs) /\
  (bd_is_empty B (made B b cs) = true <-> put_in b cs = []) /\
  fst (do_calls B (do_birth B b) cs) = map call_returns cs.
Proof.
  rewrite (l_vec _ _ L), (l_into _ _ L), (l_len _ _ L). unfold bd_is_empty. rewrite (l_len _ _ L), made_held.
  rewrite (proj1 (calls_held cs _)).
  split; [reflexivity|]. split; [reflexivity|]. split; [reflexivity|]. split; [|reflexivity].
  rewrite Z.eqb_eq. destruct (put_in b cs) as [|x l]; split; intros H; try reflexivity; try discriminate.
Qed.

Lemma builder_hex b cs :
  bytes_ok (put_in b cs) ->
  hex_denotes (bd_into_hex B (made B b cs)) (put_in b cs) /\
  Forall lower_hex (bd_into_hex B (made B b cs)) /\
  bytes_of_hex (bd_into_hex B (made B b cs)) = ROk (put_in b cs).
Proof.
  intros H. unfold bd_into_hex. rewrite (l_vec _ _ L), made_held.
  destruct (to_hex_spec _ H) as (H1 & H2 & _). split; [exact H1|]. split; [exact H2|].
  apply hex_round_trip, H.
Qed.

Lemma builder_bin b cs :
  bytes_ok (put_in b cs) ->
  (forall s, bd_into_bin B (made B b cs) = ROk s <->
     s = put_in b cs /\ exists chars, Forall scalar chars /\ put_in b cs = utf8_string chars) /\
  ((forall chars, Forall scalar chars -> put_in b cs <> utf8_string chars) ->
   bd_into_bin B (made B b cs) = RErr (put_in b cs)).
Proof.
  intros H. pose proof (utf8_valid_iff _ H) as V.
  unfold bd_into_bin. rewrite (l_vec _ _ L), made_held.
  destruct (utf8_valid (put_in b cs)) eqn:E.
  - split.
    + intros s. split.
      * intros G. injection G as <-. split; [reflexivity|]. apply V. reflexivity.
      * intros [-> _]. reflexivity.
    + intros N. destruct (proj1 V eq_refl) as (chars & F & E1). destruct (N chars F E1).
  - split; [|reflexivity]. intros s. split; [discriminate|].
    intros [_ X]. apply V in X. discriminate.
Qed.
End Lawful.

Lemma strict_memo_same b cs :
  bd_into_vec bd_strict (made bd_strict b cs) = bd_into_vec bd_memo (made bd_memo b cs) /\
  bd_len bd_strict (made bd_strict b cs) = bd_len bd_memo (made bd_memo b cs) /\
  bd_into_hex bd_strict (made bd_strict b cs) = bd_into_hex bd_memo (made bd_memo b cs) /\
  bd_into_bin bd_strict (made bd_strict b cs) = bd_into_bin bd_memo (made bd_memo b cs) /\
  fst (do_calls bd_strict (do_birth bd_strict b) cs) = fst (do_calls bd_memo (do_birth bd_memo b) cs).
Proof.
  assert (E : bd_into_vec bd_strict (made bd_strict b cs) = bd_into_vec bd_memo (made bd_memo b cs)).
  { rewrite (l_vec _ _ strict_lawful), (l_vec _ _ memo_lawful).
    rewrite (made_held _ _ strict_lawful), (made_held _ _ memo_lawful). reflexivity. }
  split; [exact E|]. split.
  { rewrite (l_len _ _ strict_lawful), (l_len _ _ memo_lawful).
    rewrite (made_held _ _ strict_lawful), (made_held _ _ memo_lawful). reflexivity. }
  unfold bd_into_hex, bd_into_bin. rewrite E. split; [reflexivity|]. split; [reflexivity|].
  rewrite (proj1 (calls_held _ _ strict_lawful _ _)), (proj1 (calls_held _ _ memo_lawful _ _)). reflexivity.
Qed.

Lemma promote_contents s l :
  bd_into_vec bd_strict (bd_promote bd_strict s) = bd_into_vec bd_strict s /\
  bd_into_vec bd_memo (bd_promote bd_memo l) = l.
Proof. split; reflexivity. Qed.

(** ** Groups *)
Lemma memo_history b cs :
  sv_history (made bd_memo b cs) (fold_left call_groups cs (birth_groups b)).
Proof.
  unfold made.
  assert (B0 : sv_history (do_birth bd_memo b) (birth_groups b)).
  { destruct b; [apply H_new|apply H_from_vec..]. }
  revert B0. generalize (do_birth bd_memo b) (birth_groups b).
  induction cs as [|c cs IH]; intros u s H; cbn [do_calls fold_left snd]; [exact H|].
  apply IH. destruct c; cbn [do_call call_groups snd]; try exact H.
  - apply H_push, H.
  - apply (H_extend_slice arr), H.
  - apply (H_extend_slice bs), H.
  - apply (H_extend_slice bs), H.
  - apply H_split, H.
  - apply H_split, H.
Qed.

Lemma groups_elems b cs : concat (groups b cs) = put_in b cs.
Proof.
  destruct (history_repr _ _ (memo_history b cs)) as (E & _).
  unfold groups. fold (sg_elems (fold_left call_groups cs (birth_groups b))).
  rewrite <- E. apply (made_held _ _ memo_lawful).
Qed.

Lemma memo_final b cs :
  bd_finalize bd_memo (made bd_memo b cs) = (put_in b cs, map zlen (groups b cs)).
Proof.
  destruct (splitvec_adds_up _ _ (memo_history b cs)) as (_ & _ & _ & H & _).
  cbn [bd_finalize bd_memo]. unfold memo_finalize. rewrite H.
  f_equal. apply groups_elems.
Qed.

(** ** Printing *)
Lemma slice_get_mid {T E} (pre g rest : list T) :
  slice_get (E := E) (zlen pre) (zlen pre + zlen g) (pre ++ g ++ rest) = ROk g.
Proof.
  unfold slice_get. rewrite !zlen_app. pose proof (zlen_nonneg g). pose proof (zlen_nonneg rest).
  rewrite (proj2 (Z.leb_le _ _)), (proj2 (Z.leb_le _ _)) by lia. cbn [andb].
  unfold zslice. rewrite zdrop_app. replace (zlen pre + zlen g - zlen pre) with (zlen g) by lia.
  rewrite ztake_app. reflexivity.
Qed.

Lemma show_loop_groups m body gs : forall pre,
  zlen (pre ++ concat gs) < usize_mod ->
  show_loop m body (pre ++ concat gs) (map zlen gs) (zlen pre) = ROk (concat (map body gs)).
Proof.
  induction gs as [|g gs IH]; intros pre H; cbn [show_loop map concat]; [reflexivity|].
  cbn [concat] in H. pose proof H as H'. rewrite !zlen_app in H. pose proof (zlen_nonneg (concat gs)).
  unfold uadd. rewrite (proj2 (Z.ltb_lt _ _)) by lia. cbn [rbind].
  rewrite slice_get_mid. cbn [rbind].
  rewrite app_assoc, <- zlen_app. rewrite IH.
  - reflexivity.
  - rewrite <- app_assoc. exact H'.
Qed.

Lemma shows_groups_intro gs :
  Forall bytes_ok gs -> shows_groups gs (concat (map (fun g => hex_of_bytes g ++ show_bar) gs) ++ show_close).
Proof.
  induction 1 as [|g gs Hg _ IH]; cbn [map concat].
  - constructor.
  - rewrite <- !app_assoc. destruct (to_hex_spec _ Hg) as (H1 & H2 & _). apply shows_group; assumption.
Qed.

Lemma sv_show_history m v s :
  sv_history v s -> zlen (sg_elems s) < usize_mod -> bytes_ok (sg_elems s) ->
  exists t, sv_show m v = ROk t /\ shows (sg_all s) t.
Proof.
  intros H HL HB. pose proof (history_repr _ _ H) as R. pose proof (repr_iter _ _ R) as I0.
  destruct R as (E & _).
  unfold sv_show. rewrite I0, E. unfold sg_elems in *.
  pose proof (show_loop_groups m (fun part => hex_of_bytes part ++ show_bar) (sg_all s) []) as G.
  cbn [app] in G. change (zlen (@nil byte)) with 0 in G. rewrite (G HL). cbn [rbind bracketed].
  eexists. split; [reflexivity|]. eexists. split; [reflexivity|]. apply shows_groups_intro.
  revert HB. generalize (sg_all s). clear. unfold bytes_ok.
  induction l as [|g l IH]; cbn [concat]; intros HB; constructor; apply Forall_app in HB; try tauto.
Qed.

Lemma show_bytes_single l : show_bytes l = concat (map (fun g => hex_of_bytes g ++ show_bar) (map (fun x => [x]) l)).
Proof.
  induction l as [|x l IH]; cbn [show_bytes map concat hex_of_bytes]; [reflexivity|].
  rewrite IH, app_nil_r, <- app_assoc. reflexivity.
Qed.

Lemma memo_show_bytes m b cs :
  zlen (put_in b cs) < usize_mod -> bytes_ok (put_in b cs) ->
  exists t, memo_show m (bd_finalize bd_memo (made bd_memo b cs)) = ROk t /\
            shows (map (fun x => [x]) (put_in b cs)) t.
Proof.
  intros HL HB. rewrite memo_final. unfold memo_show. cbn [fst snd].
  rewrite <- groups_elems in *.
  pose proof (show_loop_groups m show_bytes (groups b cs) []) as G.
  cbn [app] in G. change (zlen (@nil byte)) with 0 in G. rewrite (G HL). cbn [rbind bracketed].
  eexists. split; [reflexivity|]. eexists. split; [reflexivity|].
  replace (concat (map show_bytes (groups b cs))) with (show_bytes (concat (groups b cs))).
  - rewrite show_bytes_single. apply shows_groups_intro.
    revert HB. generalize (concat (groups b cs)). clear. unfold bytes_ok.
    induction l as [|g l IH]; cbn [map]; intros HB; constructor; apply Forall_cons_iff in HB as [H1 H2]; auto.
  - generalize (groups b cs). clear. induction l as [|g l IH]; cbn [map concat]; [reflexivity|].
    rewrite <- IH. clear IH. induction g as [|x g IH]; cbn [show_bytes app]; [reflexivity|].
    rewrite IH, <- !app_assoc. reflexivity.
Qed.

Lemma memo_show_groups m b cs :
  zlen (put_in b cs) < usize_mod -> bytes_ok (put_in b cs) ->
  exists t, sv_show m (made bd_memo b cs) = ROk t /\ shows (groups b cs) t.
Proof.
  intros HL HB. rewrite <- groups_elems in *. apply (sv_show_history m _ _ (memo_history b cs) HL HB).
Qed.

(** A text shows at most one list of groups. *)
Lemma hex_prefix_unique h1 : forall h2 g1 g2 t1 t2,
  hex_denotes h1 g1 -> hex_denotes h2 g2 -> h1 ++ bar :: t1 = h2 ++ bar :: t2 ->
  g1 = g2 /\ t1 = t2.
Proof.
  intros h2 g1 g2 t1 t2 H1. revert h2 g2 t1 t2.
  induction H1 as [|c1 c2 x1 x2 h1 g1 D1 D2 H1 IH]; intros h2 g2 t1 t2 H2 E.
  - destruct H2 as [|d1 d2 y1 y2 h2 g2 E1 E2 H2]; cbn [app] in E.
    + injection E as <-. auto.
    + exfalso. injection E as <- _. apply hex_digit_range in E1. unfold bar in E1. lia.
  - destruct H2 as [|d1 d2 y1 y2 h2 g2 E1 E2 H2]; cbn [app] in E.
    + exfalso. injection E as -> _. apply hex_digit_range in D1. unfold bar in D1. lia.
    + injection E as -> -> E. destruct (IH _ _ _ _ H2 E) as [-> ->].
      rewrite (hex_digit_fun _ _ _ D1 E1), (hex_digit_fun _ _ _ D2 E2). auto.
Qed.

Lemma shows_groups_unique gs1 t : shows_groups gs1 t -> forall gs2, shows_groups gs2 t -> gs1 = gs2.
Proof.
  assert (C : forall g gs h t', hex_denotes h g -> h ++ bar :: t' = [93] -> shows_groups gs t' -> False).
  { intros g gs h t' D E _. destruct D as [|c1 c2 x1 x2 h g D1 D2 D]; cbn [app] in E.
    - discriminate.
    - injection E as -> E. discriminate. }
  induction 1 as [|g gs h t D F H IH]; intros gs2 H2.
  - inversion H2 as [|g2 gs2' h2 t2 D2 F2 H2' E1 E2]; [reflexivity|]. exfalso. eapply C; eauto.
  - inversion H2 as [E1 E2|g2 gs2' h2 t2 D2 F2 H2' E1 E2].
    + exfalso. eapply C; eauto.
    + symmetry in E2. destruct (hex_prefix_unique _ _ _ _ _ _ D D2 E2) as [<- <-]. f_equal. auto.
Qed.

Lemma shows_unique gs1 gs2 t : shows gs1 t -> shows gs2 t -> gs1 = gs2.
Proof.
  intros (t1 & -> & H1) (t2 & E & H2). injection E as <-. eapply shows_groups_unique; eauto.
Qed.

(** F17: the finalized buffer prints a separator after every byte. *)
Lemma memo_buffer_show_refuted :
  exists b cs, groups b cs = [[1; 2]] /\ bytes_ok (put_in b cs) /\
    forall m, exists t, memo_show m (bd_finalize bd_memo (made bd_memo b cs)) = ROk t /\
                        ~ shows (groups b cs) t.
Proof.
  exists BCreate, [CPushAll [1; 2]]. split; [reflexivity|].
  assert (HB : bytes_ok (put_in BCreate [CPushAll [1; 2]])) by (repeat constructor; unfold is_byte; lia).
  split; [exact HB|]. intros m.
  destruct (memo_show_bytes m BCreate [CPushAll [1; 2]]) as (t & E & S0); [reflexivity|exact HB|].
  exists t. split; [exact E|]. intros S1. pose proof (shows_unique _ _ _ S0 S1) as X. discriminate.
Qed.

(** Debug *)
Lemma debug_loop_groups {T} (fmt : list T -> list byte) gs :
  debug_loop fmt (concat gs) (map zlen gs) = ROk (concat (map (fun g => fmt g ++ show_bar) gs)).
Proof.
  induction gs as [|g gs IH]; cbn [debug_loop map concat]; [reflexivity|].
  pose proof (slice_get_mid (E := unit) [] g (concat gs)) as G. cbn [app] in G.
  change (zlen (@nil T)) with 0 in G. rewrite Z.add_0_l in G. rewrite G. cbn [rbind].
  pose proof (slice_get_mid (E := unit) g (concat gs) []) as G2. rewrite app_nil_r in G2.
  rewrite zlen_app, G2. cbn [rbind]. rewrite IH. cbn [rbind]. rewrite <- app_assoc. reflexivity.
Qed.

Lemma sv_debug_history {T} (fmt : list T -> list byte) v s :
  sv_history v s ->
  sv_debug fmt v = ROk ([91; bar] ++ concat (map (fun g => fmt g ++ [bar]) (sg_all s)) ++ [93]).
Proof.
  intros H. pose proof (history_repr _ _ H) as R. pose proof (repr_iter _ _ R) as I0. destruct R as (E & _).
  unfold sv_debug. rewrite I0, E. unfold sg_elems. rewrite debug_loop_groups. reflexivity.
Qed.
