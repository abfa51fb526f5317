(** Proofs about leftovers and the texts of segments (C71, C72). *)
From Coq Require Import String.
From Verif Require Import Base BaseLemmas ModelHex ModelSplitVec ModelParser ModelDisplay ModelSplitText
  SpecHex SpecSplitVec SpecParser SpecDisplay SpecLeftover ProofSplitVec ProofHex ProofDisplay ProofParserClean.

(** ** Histories of a leftover (C71) *)
Lemma held_history lo h : lo_history lo h ->
  match h with
  | Nothing => lo = LEmpty
  | Loose b => lo = LWindowless b
  | Windows s => exists v, lo = LWindowed v /\ sv_history v s
  end.
Proof.
  induction 1 as [| b | v s H | l | lo b l H IH | lo s l H IH | lo h H IH]; try reflexivity.
  - eauto.
  - rewrite IH. reflexivity.
  - destruct IH as (v & -> & Hv). cbn [lo_append]. eexists. split; [reflexivity|].
    exact (H_append_current l _ _ Hv).
  - unfold lo_escape_context. eexists. split; [reflexivity|]. apply H_split_force.
    destruct h as [|b|s]; cbn [held_segs].
    + rewrite IH. exact H_new.
    + rewrite IH. exact (H_from_vec b).
    + destruct IH as (v & -> & Hv). exact Hv.
Qed.

Lemma leftover_contents lo h : lo_history lo h ->
  lo_bytes lo = held_bytes h /\ lo_len lo = zlen (held_bytes h) /\ lo_segments lo = held_segments h.
Proof.
  intros H. apply held_history in H. destruct h as [|b|s].
  - subst lo. repeat split.
  - subst lo. repeat split.
  - destruct H as (v & -> & H). cbn [lo_bytes lo_len lo_segments held_bytes held_segments].
    destruct (splitvec_adds_up _ _ H) as (_ & H0 & H1 & H2 & _). unfold sv_into_inner in H0.
    rewrite H2, H1. repeat split; [exact H0|]. apply cut_map_zlen.
Qed.

Lemma leftover_empty lo h : lo_history lo h ->
  (lo_is_empty lo = true <-> held_segments h = [] \/ h = Loose []).
Proof.
  intros H. apply held_history in H. destruct h as [|b|s]; cbn [held_segments].
  - subst lo. split; [left; reflexivity|reflexivity].
  - subst lo. cbn [lo_is_empty]. destruct b as [|x b]; split; try discriminate; auto.
    intros [E|E]; discriminate.
  - destruct H as (v & -> & H). cbn [lo_is_empty].
    destruct (splitvec_adds_up _ _ H) as (_ & _ & _ & _ & _ & _ & He & _).
    rewrite He. split; [auto|]. intros [E|E]; [exact E|discriminate].
Qed.

Lemma leftover_nonempty lo h x : lo_history lo h -> In x (held_bytes h) -> lo_is_empty lo = false.
Proof.
  intros H Hx. apply Bool.not_true_is_false. intros E. apply (leftover_empty _ _ H) in E.
  destruct E as [E| ->]; [|exact Hx]. destruct h as [|b|s]; cbn [held_bytes held_segments] in *.
  - exact Hx.
  - discriminate.
  - unfold sg_elems in Hx. rewrite E in Hx. exact Hx.
Qed.

Lemma append_empties lo l : snd (lo_append lo l) = [] <-> lo <> LEmpty \/ l = [].
Proof.
  destruct lo as [|b|v]; cbn [lo_append snd].
  - split; [auto|]. intros [H|H]; [congruence|exact H].
  - split; [left; discriminate|reflexivity].
  - split; [left; discriminate|reflexivity].
Qed.

(** ** Texts (C72) *)
Lemma debug_loop_gives segments :
  sv_debug_loop (map zlen segments) (concat segments) =
  ROk (concat (map (fun s => show_list s ++ txt "|") segments)).
Proof.
  induction segments as [|s r IH]; [reflexivity|]. cbn [map concat sv_debug_loop].
  rewrite zlen_app. destruct (Z.leb_spec (zlen s) (zlen s + zlen (concat r))) as [_|H];
    [|pose proof (zlen_nonneg (concat r)); lia].
  rewrite zdrop_app, ztake_app, IH. cbn [rbind]. rewrite <- app_assoc. reflexivity.
Qed.

Lemma display_loop_gives segments : forall pre,
  sv_display_loop (map zlen segments) (pre ++ concat segments) (zlen pre) =
  ROk (concat (map (fun s => hex_of_bytes s ++ txt "|") segments)).
Proof.
  induction segments as [|s r IH]; intros pre; [reflexivity|]. cbn [map concat sv_display_loop].
  rewrite !zlen_app.
  destruct (Z.leb_spec (zlen pre + zlen s) (zlen pre + (zlen s + zlen (concat r)))) as [_|H];
    [|pose proof (zlen_nonneg (concat r)); lia].
  unfold zslice. rewrite zdrop_app.
  replace (zlen pre + zlen s - zlen pre) with (zlen s) by lia. rewrite ztake_app.
  rewrite app_assoc, <- zlen_app, IH. cbn [rbind]. rewrite <- app_assoc. reflexivity.
Qed.

Lemma history_parts (v : split_vec byte) s : sv_history v s ->
  sv_buffer v = concat (sg_all s) /\ sb_iter (sv_spans v) = map zlen (sg_all s).
Proof.
  intros H. apply history_repr in H. split; [exact (proj1 H)|apply repr_iter; exact H].
Qed.

Lemma debug_gives v s : sv_history v s -> sv_debug v = ROk (barred show_list (sg_all s)).
Proof.
  intros H. destruct (history_parts _ _ H) as [E E']. unfold sv_debug.
  rewrite E, E', debug_loop_gives. reflexivity.
Qed.
Lemma display_gives v s : sv_history v s -> sv_display v = ROk (barred hex_of_bytes (sg_all s)).
Proof.
  intros H. destruct (history_parts _ _ H) as [E E']. unfold sv_display.
  rewrite E, E'. pose proof (display_loop_gives (sg_all s) []) as G. cbn [app] in G.
  rewrite zlen_nil in G. rewrite G. reflexivity.
Qed.

(** A bar cannot occur in what is written for a segment. *)
Definition lacks (x : byte) (t : list byte) : Prop := Forall (fun c => c <> x) t.

Lemma split_at x h : lacks x h -> forall h' r r', lacks x h' ->
  h ++ x :: r = h' ++ x :: r' -> h = h' /\ r = r'.
Proof.
  induction 1 as [|c h Hc H IH]; intros h' r r' H' E; destruct H' as [|c' h' Hc' H'].
  - injection E as ->. auto.
  - cbn [app] in E. injection E as E _. congruence.
  - cbn [app] in E. injection E as E _. congruence.
  - cbn [app] in E. injection E as -> E. destruct (IH _ _ _ H' E) as [-> ->]. auto.
Qed.

Lemma bars_inj (f : list byte -> list byte) (P : list byte -> Prop) :
  (forall x, P x -> lacks 124 (f x)) ->
  (forall x y, P x -> P y -> f x = f y -> x = y) ->
  forall a b, Forall P a -> Forall P b ->
  concat (map (fun s => f s ++ txt "|") a) ++ [93] = concat (map (fun s => f s ++ txt "|") b) ++ [93] -> a = b.
Proof.
  intros Hf Hi a b Ha. revert b.
  assert (Hend : forall x r, [93] <> (f x ++ txt "|") ++ r).
  { intros x r. change (txt "|") with [124]. rewrite <- app_assoc. cbn [app].
    destruct (f x) as [|c [|c' t]]; cbn [app]; intros E; discriminate. }
  induction Ha as [|x a Hx Ha IH]; intros b Hb E; destruct Hb as [|y b Hy Hb]; cbn [map concat app] in E.
  - reflexivity.
  - rewrite <- app_assoc in E. exfalso. exact (Hend _ _ E).
  - rewrite <- app_assoc in E. exfalso. exact (Hend _ _ (eq_sym E)).
  - change (txt "|") with [124] in E. rewrite <- !app_assoc in E. cbn [app] in E.
    apply split_at in E; [|apply Hf; assumption|apply Hf; assumption].
    destruct E as [E1 E2]. rewrite (Hi _ _ Hx Hy E1). f_equal. apply IH; [exact Hb|exact E2].
Qed.

Lemma barred_inj (f : list byte -> list byte) (P : list byte -> Prop) :
  (forall x, P x -> lacks 124 (f x)) ->
  (forall x y, P x -> P y -> f x = f y -> x = y) ->
  forall a b, Forall P a -> Forall P b -> barred f a = barred f b -> a = b.
Proof.
  intros Hf Hi a b Ha Hb E. unfold barred in E. apply app_inv_head in E.
  exact (bars_inj f P Hf Hi a b Ha Hb E).
Qed.

Lemma hex_barless x : bytes_ok x -> lacks 124 (hex_of_bytes x).
Proof.
  intros H. destruct (to_hex_spec x H) as (_ & L & _). unfold lacks.
  eapply Forall_impl; [|exact L]. cbn beta. unfold lower_hex. lia.
Qed.

Lemma list_numbers l : numbers (show_list l) = l.
Proof.
  unfold numbers, show_list. destruct l as [|n l]; [reflexivity|].
  rewrite numbers_words0 by reflexivity. rewrite numbers_int by (destruct l; reflexivity).
  rewrite more_numbers by reflexivity. change (numbers_from false None (txt "]")) with (@nil Z).
  rewrite app_nil_r. reflexivity.
Qed.
Lemma show_list_inj l l' : show_list l = show_list l' -> l = l'.
Proof. intros E. rewrite <- (list_numbers l), E. apply list_numbers. Qed.

(** The characters of a list of numbers: digits and the signs "-", "[", "]", ",", " ". *)
Definition list_char (c : byte) : Prop := is_digit c = true \/ In c [45; 91; 93; 44; 32].
Lemma int_chars z : Forall list_char (show_int z).
Proof.
  assert (D : forall t n, numeral 10 t n -> Forall list_char t).
  { intros t n H. apply decimal_chars in H. eapply Forall_impl; [|exact H]. intros c E. left. exact E. }
  destruct (show_int_decimal z) as [[_ H]|(_ & t & -> & H)]; [exact (D _ _ H)|].
  constructor; [right; left; reflexivity|exact (D _ _ H)].
Qed.
Lemma more_chars l : Forall list_char (show_more l).
Proof.
  induction l as [|n l IH]; [constructor|]. cbn [show_more]. change (txt ", ") with [44; 32]. cbn [app].
  constructor; [right; cbn; tauto|]. constructor; [right; cbn; tauto|].
  apply Forall_app. split; [apply int_chars|exact IH].
Qed.
Lemma list_chars l : Forall list_char (show_list l).
Proof.
  destruct l as [|n l]; cbn [show_list]; change (txt "[]") with [91; 93]; change (txt "[") with [91];
    change (txt "]") with [93]; cbn [app].
  - constructor; [right; cbn; tauto|]. constructor; [right; cbn; tauto|]. constructor.
  - constructor; [right; cbn; tauto|]. apply Forall_app. split; [apply int_chars|].
    apply Forall_app. split; [apply more_chars|]. constructor; [right; cbn; tauto|]. constructor.
Qed.
Lemma list_lacks x l : ~ list_char x -> lacks x (show_list l).
Proof.
  intros H. unfold lacks. eapply Forall_impl; [|apply list_chars]. intros c Hc ->. exact (H Hc).
Qed.
Lemma no_list_char x : is_digit x = false -> ~ In x [45; 91; 93; 44; 32] -> ~ list_char x.
Proof. intros H H' [E|E]; [congruence|exact (H' E)]. Qed.
Ltac not_list := apply no_list_char; [reflexivity|]; cbn [In]; lia.

Lemma debug_texts v s w t : sv_history v s -> sv_history w t ->
  (sv_debug v = sv_debug w <-> sg_all s = sg_all t).
Proof.
  intros H H'. rewrite (debug_gives _ _ H), (debug_gives _ _ H'). split; [|intros ->; reflexivity].
  intros E. assert (E' : barred show_list (sg_all s) = barred show_list (sg_all t)) by congruence.
  revert E'. apply (barred_inj show_list (fun _ => True)).
  - intros x _. apply list_lacks. not_list.
  - intros x y _ _. apply show_list_inj.
  - apply Forall_forall; trivial.
  - apply Forall_forall; trivial.
Qed.

Lemma segments_ok s : bytes_ok (sg_elems s) -> Forall bytes_ok (sg_all s).
Proof.
  unfold sg_elems, bytes_ok. induction (sg_all s) as [|x l IH]; intros H; [constructor|].
  cbn [concat] in H. apply Forall_app in H as [Hx H]. constructor; auto.
Qed.

Lemma display_texts v s w t : sv_history v s -> sv_history w t ->
  bytes_ok (sg_elems s) -> bytes_ok (sg_elems t) ->
  (sv_display v = sv_display w <-> sg_all s = sg_all t).
Proof.
  intros H H' B B'. rewrite (display_gives _ _ H), (display_gives _ _ H'). split; [|intros ->; reflexivity].
  intros E. assert (E' : barred hex_of_bytes (sg_all s) = barred hex_of_bytes (sg_all t)) by congruence.
  revert E'. apply (barred_inj hex_of_bytes bytes_ok).
  - exact hex_barless.
  - intros x y Hx Hy. apply hex_of_bytes_inj; assumption.
  - apply segments_ok, B.
  - apply segments_ok, B'.
Qed.

Lemma option_text o o' rest rest' : show_option o ++ rest = show_option o' ++ rest' -> rest = rest' -> o = o'.
Proof.
  intros E <-. apply app_inv_tail in E. destruct o as [n|], o' as [n'|]; cbn [show_option] in E.
  - apply app_inv_head, app_inv_tail in E. f_equal. apply show_int_inj. exact E.
  - discriminate E.
  - discriminate E.
  - reflexivity.
Qed.

Lemma span_texts s s' :
  (sb_debug s = sb_debug s' <-> sb_stable s = sb_stable s' /\ sb_active s = sb_active s') /\
  (sb_display s = sb_display s' <-> sb_stable s = sb_stable s' /\ sb_active s = sb_active s').
Proof.
  split; (split; [|intros [E1 E2]; unfold sb_debug, sb_display; rewrite E1, E2; reflexivity]).
  - unfold sb_debug. intros E. apply app_inv_head in E.
    change (txt " >| ") with ([32] ++ [62; 124; 32]) in E. rewrite <- !app_assoc, !(app_assoc (show_list _)) in E.
    cbn [app] in E. apply split_at in E.
    + destruct E as [E1 E2]. apply app_inv_tail in E1. split; [apply show_list_inj; exact E1|].
      cbn [app] in E2. injection E2 as E2. exact (option_text _ _ _ _ E2 eq_refl).
    + apply Forall_app. split; [apply list_lacks; not_list|]. repeat constructor. lia.
    + apply Forall_app. split; [apply list_lacks; not_list|]. repeat constructor. lia.
  - unfold sb_display. change (txt " + ~") with ([32] ++ [43; 32; 126]). intros E.
    assert (L : forall l, lacks 43 (show_list l)) by (intros l; apply list_lacks; not_list).
    assert (L' : forall l, lacks 43 (show_list l ++ [32])).
    { intros l. apply Forall_app. split; [apply L|]. repeat constructor. lia. }
    assert (N : forall l l' r, show_list l <> show_list l' ++ [32] ++ 43 :: r).
    { intros l l' r G. pose proof (L l) as K. rewrite G in K. apply Forall_app in K as [_ K].
      inversion K as [|? ? _ K2]. inversion K2 as [|? ? K3 _]. congruence. }
    destruct (sb_active s) as [n|], (sb_active s') as [n'|].
    + rewrite <- !app_assoc, !(app_assoc (show_list _)) in E. cbn [app] in E.
      apply split_at in E; [|apply L'|apply L']. destruct E as [E1 E2]. apply app_inv_tail in E1.
      split; [apply show_list_inj; exact E1|]. injection E2 as E2. f_equal. apply show_int_inj. exact E2.
    + rewrite app_nil_r in E. exfalso. exact (N _ _ _ (eq_sym E)).
    + rewrite app_nil_r in E. exfalso. exact (N _ _ _ E).
    + rewrite !app_nil_r in E. split; [apply show_list_inj; exact E|reflexivity].
Qed.

Lemma leftover_text lo h : lo_history lo h ->
  lo_debug lo = ROk match h with
                    | Nothing => txt "Empty"
                    | Loose b => txt "Windowless(" ++ show_list b ++ txt ")"
                    | Windows s => txt "Windowed(" ++ barred show_list (sg_all s) ++ txt ")"
                    end.
Proof.
  intros H. apply held_history in H. destruct h as [|b|s].
  - subst lo. reflexivity.
  - subst lo. reflexivity.
  - destruct H as (v & -> & H). cbn [lo_debug]. rewrite (debug_gives _ _ H). reflexivity.
Qed.

Lemma leftover_texts lo h lo' h' : lo_history lo h -> lo_history lo' h' -> lo_debug lo = lo_debug lo' ->
  held_segments h = held_segments h' /\ held_bytes h = held_bytes h' /\ lo_is_empty lo = lo_is_empty lo'.
Proof.
  intros H H'. rewrite (leftover_text _ _ H), (leftover_text _ _ H').
  assert (Em : held_segments h = held_segments h' -> (h = Loose [] <-> h' = Loose []) ->
               lo_is_empty lo = lo_is_empty lo').
  { intros E1 E2. apply Bool.eq_iff_eq_true.
    rewrite (leftover_empty _ _ H), (leftover_empty _ _ H'), E1, E2. reflexivity. }
  assert (Inj : forall A (x y : A), @ROk unit A x = ROk y -> x = y) by (intros A x y E; congruence).
  intros E. apply Inj in E. clear Inj.
  destruct h as [|b|s], h' as [|b'|s']; try discriminate E.
  - split; [reflexivity|]. split; [reflexivity|]. apply Em; reflexivity.
  - apply app_inv_head, app_inv_tail in E. apply show_list_inj in E. subst b'.
    split; [reflexivity|]. split; [reflexivity|]. apply Em; reflexivity.
  - apply app_inv_head, app_inv_tail in E.
    assert (E' : sg_all s = sg_all s').
    { revert E. apply (barred_inj show_list (fun _ => True)).
      - intros x _. apply list_lacks. not_list.
      - intros x y _ _. apply show_list_inj.
      - apply Forall_forall; trivial.
      - apply Forall_forall; trivial. }
    split; [exact E'|]. split; [cbn [held_bytes]; unfold sg_elems; rewrite E'; reflexivity|].
    apply Em; [exact E'|]. split; discriminate.
Qed.

(** ** Equality (C72) *)
Lemma vec_eq_spec a : forall b, vec_eq a b = true <-> a = b.
Proof.
  induction a as [|x a IH]; intros [|y b]; cbn [vec_eq]; try (split; [discriminate|discriminate]).
  - split; reflexivity.
  - rewrite Bool.andb_true_iff, IH, Z.eqb_eq. split; [intros [-> ->]; reflexivity|].
    intros E. injection E as -> ->. auto.
Qed.
Lemma option_eq_spec a b : option_eq a b = true <-> a = b.
Proof.
  destruct a as [x|], b as [y|]; cbn [option_eq]; try (split; [discriminate|discriminate]).
  - rewrite Z.eqb_eq. split; [intros ->; reflexivity|]. intros E. injection E as ->. reflexivity.
  - split; reflexivity.
Qed.

Lemma cut_segments (a b : list (list byte)) : concat a = concat b -> map zlen a = map zlen b -> a = b.
Proof. intros E E'. rewrite <- (cut_map_zlen a), <- (cut_map_zlen b), E, E'. reflexivity. Qed.

Lemma split_equal v s w t : sv_history v s -> sv_history w t -> (sv_eq v w = true <-> s = t).
Proof.
  intros H H'. apply history_repr in H, H'.
  destruct H as (B & S1 & A & C), H' as (B' & S1' & A' & C').
  unfold sv_eq, sb_eq. rewrite !Bool.andb_true_iff, !vec_eq_spec, option_eq_spec, Z.eqb_eq.
  rewrite B, B', S1, S1', A, A', C, C'. split; [|intros ->; auto].
  intros (E1 & (E2 & E3) & _). destruct s as [c o], t as [c' o']. cbn [sg_closed sg_open] in *.
  assert (E : sg_all (mkSegs c o) = sg_all (mkSegs c' o')).
  { apply cut_segments; [exact E1|]. unfold sg_all. cbn [sg_closed sg_open]. rewrite !map_app, E2.
    f_equal. destruct o as [o|], o' as [o'|]; cbn [option_map] in E3; try discriminate; [|reflexivity].
    cbn [map]. congruence. }
  unfold sg_all in E. cbn [sg_closed sg_open] in E.
  assert (L : length c = length c') by (apply (f_equal (@length Z)) in E2; rewrite !map_length in E2; exact E2).
  assert (Ec : c = c' /\ match o with Some x => [x] | None => [] end = match o' with Some x => [x] | None => [] end).
  { clear - L E. revert c' L E. induction c as [|x c IH]; intros [|x' c'] L E; try discriminate L.
    - split; [reflexivity|exact E].
    - cbn [app] in E. injection E as -> E. injection L as L. destruct (IH _ L E) as [-> ->]. auto. }
  destruct Ec as [-> Ec]. destruct o as [o|], o' as [o'|]; try discriminate Ec; [injection Ec as ->|]; reflexivity.
Qed.

Lemma leftover_equal lo h lo' h' : lo_history lo h -> lo_history lo' h' -> (lo_eq lo lo' = true <-> h = h').
Proof.
  intros H H'. apply held_history in H, H'.
  destruct h as [|b|s], h' as [|b'|s']; repeat match goal with
    | G : exists _, _ |- _ => destruct G as (? & ? & ?) end; subst; cbn [lo_eq];
    try (split; [discriminate|discriminate]); try (split; reflexivity).
  - rewrite vec_eq_spec. split; [intros ->; reflexivity|]. intros E. injection E as ->. reflexivity.
  - match goal with V : sv_history ?v s, W : sv_history ?w s' |- _ => rewrite (split_equal v s w s' V W) end.
    split; [intros ->; reflexivity|]. intros E. injection E as ->. reflexivity.
Qed.

Lemma empty_window_not_empty : exists lo h, lo_history lo h /\ held_bytes h = [] /\ lo_is_empty lo = false.
Proof. exists (lo_escape_context LEmpty). eexists. split; [exact (LH_escape _ _ LH_new)|]. split; reflexivity. Qed.
Lemma append_leaves_bytes : exists lo l,
  lo_history lo Nothing /\ snd (lo_append lo l) <> [] /\ lo_bytes (fst (lo_append lo l)) = l.
Proof. exists LEmpty, [7]. split; [exact LH_new|]. split; [discriminate|reflexivity]. Qed.
