(** Proofs about the [{:?}] texts of errors. *)
From Coq Require Import String.
From Verif Require Import Base BaseLemmas ModelErrors ModelHex ModelUtf8 ModelInt ModelTarget ModelParser ModelSchema ModelInput ModelDisplay ModelText
  ModelDebug ModelSplitVec ModelSplitText ModelErrDebug.
From Verif Require Import SpecHex SpecUtf8 SpecParser SpecDisplay SpecCodec SpecText SpecCompare SpecSplitVec SpecLeftover SpecDebug SpecErrDebug
  ProofUtf8 ProofHex ProofDisplay ProofLeftover ProofDebug.
From Coq Require Import ZifyBool.

(** ** The texts *)
Ltac plain_text := unfold variant, around, debug_struct, debug_tuple; cbn [map combine join join_more fst snd]; rewrite ?app_nil_r;
  repeat rewrite <- app_assoc.
(** Literals side by side are one literal. *)
Lemma txt_app s s' r : txt s ++ txt s' ++ r = txt (s ++ s') ++ r.
Proof.
  unfold txt. rewrite app_assoc. f_equal. rewrite <- map_app. f_equal.
  induction s as [|a s IH]; [reflexivity|]. cbn. f_equal. exact IH.
Qed.
Lemma txt_two s s' : txt s ++ txt s' = txt (s ++ s').
Proof. pose proof (txt_app s s' []) as H. rewrite !app_nil_r in H. exact H. Qed.
Ltac join_txt := repeat (rewrite txt_app || rewrite txt_two); cbn [String.append].

Lemma window_says e : window_text e (window_debug e).
Proof. destruct e; unfold window_debug; plain_text; join_txt; constructor; apply show_int_decimal. Qed.
Lemma list_says l : byte_list l (debug_list (map show_int l)).
Proof. exact (bytes_text l). Qed.
Lemma width_says e : width_text e (width_debug e).
Proof. destruct e; unfold width_debug; plain_text; join_txt; constructor; try apply show_int_decimal. apply list_says. Qed.
Lemma length_says e : length_text e (length_debug e).
Proof. destruct e; unfold length_debug; plain_text; join_txt; constructor; apply show_int_decimal. Qed.
Lemma bounds_says num (P : list byte -> Z -> Prop) e : (forall z, P (num z) z) -> bounds_text P e (bounds_debug num e).
Proof. intros H. destruct e; unfold bounds_debug; plain_text; join_txt; constructor; apply H. Qed.

Section Texts.
Variables (num64 : Z -> list byte) (printable : Z -> bool) (name : list Z) (utf8 boxed : list byte).
Hypothesis HN : Forall scalar name.
Let fty := utf8_string name.

Lemma name_says : exists ss, str_debug printable fty = [34] ++ concat ss ++ [34] /\ Forall2 (quoted_char printable) name ss.
Proof.
  unfold str_debug, fty. rewrite escape_string by (trivial; lia).
  eexists. split; [reflexivity|]. induction HN; cbn [map]; constructor; auto using escape_quoted.
Qed.
Lemma tag_says a l : tag_text printable name a l (tag_debug printable fty a l).
Proof.
  unfold tag_debug. plain_text. join_txt. destruct name_says as (ss & -> & F). rewrite <- !app_assoc. 
  pose proof (tag_fields printable name a l (show_int a) ss (option_debug (option_map (fun l => debug_list (map show_int l)) l))) as H.
  rewrite <- !app_assoc in H. apply H; trivial; [apply show_int_decimal|].
  destruct l as [l|]; cbn [option_map option_debug]; [|constructor].
  plain_text. join_txt. constructor. apply list_says.
Qed.
Lemma token_says e : token_text printable name e (token_debug printable fty e).
Proof.
  destruct e as [b|[] a l|bs|bs]; unfold token_debug; plain_text; join_txt; constructor;
    auto using show_int_decimal, tag_says, list_says.
Qed.
Lemma external_says e : external_text num64 utf8 boxed e (external_debug num64 utf8 boxed e).
Proof.
  destruct e; unfold external_debug; plain_text; join_txt; constructor; auto using width_says, length_says.
  - apply bounds_says, show_int_decimal.
  - apply bounds_says. reflexivity.
Qed.
Lemma parse_says e : parse_text num64 printable name utf8 boxed e (parse_debug num64 printable fty utf8 boxed e).
Proof.
  destruct e as [e|[]|e|e]; unfold parse_debug; plain_text; try (join_txt; constructor; auto using window_says, external_says, token_says).
Qed.
End Texts.

(** ** Equal texts *)
Definition tells {A} (ok : A -> Prop) (f : A -> list byte) : Prop := forall a b r r', ok a -> ok b ->
  opens stop r -> opens stop r' -> f a ++ r = f b ++ r' -> a = b /\ r = r'.
Definition any {A} (_ : A) : Prop := True.

Lemma int_tells : tells any show_int.
Proof. intros a b r r' _ _ O O' E. eapply int_one; eauto. Qed.
Lemma more_tells l : forall l' r r', join_more (map show_int l) ++ 93 :: r = join_more (map show_int l') ++ 93 :: r' -> l = l' /\ r = r'.
Proof.
  induction l as [|z l IH]; intros [|z' l'] r r' E; cbn [map join_more app] in E.
  - injection E as E. auto.
  - exfalso. change (txt ", ") with [44; 32] in E. discriminate E.
  - exfalso. change (txt ", ") with [44; 32] in E. discriminate E.
  - rewrite <- !app_assoc in E. apply app_inv_head in E. apply int_tells in E; try exact I; try (apply join_opens; reflexivity).
    destruct E as [-> E]. destruct (IH _ _ _ E) as [-> ->]. auto.
Qed.
Lemma list_tells l l' r r' : debug_list (map show_int l) ++ r = debug_list (map show_int l') ++ r' -> l = l' /\ r = r'.
Proof.
  unfold debug_list. rewrite <- !app_assoc. change (txt "]" ++ r) with (93 :: r). change (txt "]" ++ r') with (93 :: r').
  intros E. apply app_inv_head in E. destruct l as [|z l], l' as [|z' l']; cbn [map join app] in E.
  - injection E as E. auto.
  - exfalso. destruct (show_int_start z') as (c & s & Ec & S). rewrite Ec in E. injection E as <- _. discriminate S.
  - exfalso. destruct (show_int_start z) as (c & s & Ec & S). rewrite Ec in E. injection E as -> _. discriminate S.
  - rewrite <- !app_assoc in E. apply int_tells in E; try exact I; try (apply join_opens; reflexivity).
    destruct E as [-> E]. destruct (more_tells _ _ _ _ E) as [-> ->]. auto.
Qed.

(** Different literals in front. *)
Ltac spell E := repeat match type of E with context [txt ?s] => let v := eval vm_compute in (txt s) in change (txt s) with v in E end.
Ltac differ E := exfalso; spell E; cbn [app] in E; discriminate E.
Ltac peel E := apply app_inv_head in E.

Lemma window_tells : tells any window_debug.
Proof.
  intros a b r r' _ _ O O' E. destruct a, b; unfold window_debug in E; revert E; plain_text; join_txt; intros E; try (differ E; fail).
  all: try (peel E; repeat (apply int_tells in E; [|exact I|exact I|reflexivity|reflexivity]; destruct E as [-> E]; peel E); subst r'; auto; fail).
Qed.
Lemma width_tells : tells any width_debug.
Proof.
  intros a b r r' _ _ O O' E. destruct a, b; unfold width_debug in E; revert E; plain_text; join_txt; intros E; try (differ E; fail).
  3: { peel E. apply list_tells in E as [-> E]. peel E. apply int_tells in E; [|exact I|exact I|reflexivity|reflexivity].
       destruct E as [-> E]. peel E. auto. }
  all: peel E; repeat (apply int_tells in E; [|exact I|exact I|reflexivity|reflexivity]; destruct E as [-> E]; peel E); subst r'; auto.
Qed.
Lemma length_tells : tells any length_debug.
Proof.
  intros a b r r' _ _ O O' E. destruct a, b; unfold length_debug in E; revert E; plain_text; join_txt; intros E; try (differ E; fail).
  all: peel E; repeat (apply int_tells in E; [|exact I|exact I|reflexivity|reflexivity]; destruct E as [-> E]; peel E); subst r'; auto.
Qed.
Definition bounds_ok (ok : Z -> Prop) (e : bounds_error) : Prop :=
  match e with
  | BUnderflow a b | BOverflow a b | BInvalidBounds a b | BIllegalNegative a b => ok a /\ ok b
  | BFailed => True
  end.
Lemma bounds_tells ok num : tells ok num -> tells (bounds_ok ok) (bounds_debug num).
Proof.
  intros T a b r r' K K' O O' E. destruct a, b; unfold bounds_debug in E; revert E; plain_text; join_txt; intros E; try (differ E; fail);
    cbn [bounds_ok] in K, K'.
  5: { peel E. auto. }
  all: destruct K as [K1 K2], K' as [K1' K2']; peel E;
    apply T in E; [|assumption|assumption|reflexivity|reflexivity]; destruct E as [-> E]; peel E;
    apply T in E; [|assumption|assumption|reflexivity|reflexivity]; destruct E as [-> E]; peel E; subst r'; auto.
Qed.
Lemma internal_tells : tells any internal_debug.
Proof.
  intros [] [] r r' _ _ O O' E; unfold internal_debug in E; revert E; plain_text; join_txt; intros E; try (differ E; fail); peel E; auto.
Qed.

Section Tells.
Variables (num64 : Z -> list byte) (printable : Z -> bool) (utf8 boxed : list byte).
Hypothesis HF : float_text num64.

Lemma float_tells : tells (fun z => float_ok z = true) num64.
Proof.
  intros a b r r' A B O O' E. apply (cut_at stop) in E; try assumption; try (apply num_without; exact HF).
  destruct E as [E ->]. split; [|reflexivity]. unfold float_ok in A, B. apply andb_prop in A as [A A'], B as [B B'].
  destruct HF as [_ H]. destruct (H a b A B E) as [->|[N _]]; [reflexivity|congruence].
Qed.

Definition named (n : list byte) : Prop := bytes_ok n /\ utf8_valid n = true.
Lemma tag_tells n n' a a' l l' r r' : named n -> named n' -> opens stop r -> opens stop r' ->
  tag_debug printable n a l ++ r = tag_debug printable n' a' l' ++ r' -> n = n' /\ a = a' /\ l = l' /\ r = r'.
Proof.
  intros [N1 N2] [N1' N2'] O O'. unfold tag_debug. plain_text. join_txt. intros E. peel E.
  apply int_tells in E; [|exact I|exact I|reflexivity|reflexivity]. destruct E as [-> E]. peel E.
  apply str_inj in E; trivial. destruct E as [-> E]. peel E.
  destruct l as [l|], l' as [l'|]; cbn [option_map option_debug] in E; revert E; plain_text; join_txt; intros E; try (differ E; fail).
  - peel E. apply list_tells in E as [-> E]. peel E. auto.
  - peel E. auto.
Qed.
Lemma token_tells n n' e e' r r' : named n -> named n' -> opens stop r -> opens stop r' ->
  token_debug printable n e ++ r = token_debug printable n' e' ++ r' ->
  e = e' /\ (names_type (EToken e) = true -> n = n') /\ r = r'.
Proof.
  intros N N' O O' E.
  destruct e as [b|[] a l|bs|bs], e' as [b'|[] a' l'|bs'|bs']; unfold token_debug in E; revert E; plain_text; join_txt; intros E; try (differ E; fail).
  - peel E. apply int_tells in E; [|exact I|exact I|reflexivity|reflexivity]. destruct E as [-> E]. peel E.
    split; [reflexivity|]. split; [discriminate|assumption].
  - peel E. apply tag_tells in E; trivial; try reflexivity. destruct E as (-> & -> & -> & E). peel E. auto.
  - peel E. apply tag_tells in E; trivial; try reflexivity. destruct E as (-> & -> & -> & E). peel E. auto.
  - peel E. apply tag_tells in E; trivial; try reflexivity. destruct E as (-> & -> & -> & E). peel E. auto.
  - peel E. apply list_tells in E as [-> E]. peel E. split; [reflexivity|]. split; [discriminate|assumption].
  - peel E. apply list_tells in E as [-> E]. peel E. split; [reflexivity|]. split; [discriminate|assumption].
Qed.
Lemma external_tells : tells (fun e => floats_known (EExternal e) = true) (external_debug num64 utf8 boxed).
Proof.
  intros e e' r r' K K' O O' E.
  destruct e as [|e|e|e|e|], e' as [|e'|e'|e'|e'|]; unfold external_debug in E; revert E; plain_text; join_txt; intros E; try (differ E; fail); peel E.
  - peel E. peel E. auto.
  - apply (bounds_tells _ _ int_tells) in E; [|destruct e; split; exact I|destruct e'; split; exact I|reflexivity|reflexivity].
    destruct E as [-> E]. peel E. auto.
  - apply (bounds_tells _ _ float_tells) in E; [| |  |reflexivity|reflexivity].
    + destruct E as [-> E]. peel E. auto.
    + destruct e; cbn [floats_known bounds_ok] in *; lia.
    + destruct e'; cbn [floats_known bounds_ok] in *; lia.
  - apply width_tells in E; [|exact I|exact I|reflexivity|reflexivity]. destruct E as [-> E]. peel E. auto.
  - apply length_tells in E; [|exact I|exact I|reflexivity|reflexivity]. destruct E as [-> E]. peel E. auto.
  - peel E. peel E. auto.
Qed.

Let dbg n := parse_debug num64 printable n utf8 boxed.
Lemma parse_tells n n' e e' r r' : named n -> named n' -> floats_known e = true -> floats_known e' = true -> opens stop r -> opens stop r' ->
  dbg n e ++ r = dbg n' e' ++ r' -> e = e' /\ (names_type e = true -> n = n') /\ r = r'.
Proof.
  intros N N' K K' O O' E. unfold dbg in E.
  destruct e as [e|e|e|e], e' as [e'|e'|e'|e']; unfold parse_debug in E; revert E; plain_text; join_txt; intros E; try (differ E; fail); peel E.
  - apply window_tells in E; [|exact I|exact I|reflexivity|reflexivity]. destruct E as [-> E]. peel E. split; [reflexivity|]. split; [discriminate|assumption].
  - apply internal_tells in E; [|exact I|exact I|reflexivity|reflexivity]. destruct E as [-> E]. peel E. split; [reflexivity|]. split; [discriminate|assumption].
  - apply external_tells in E; [|exact K|exact K'|reflexivity|reflexivity]. destruct E as [-> E]. peel E. split; [reflexivity|]. split; [discriminate|assumption].
  - apply token_tells in E; trivial; try reflexivity. destruct E as (-> & H & E). peel E. split; [reflexivity|]. split; [exact H|assumption].
Qed.
Lemma parse_texts n n' e e' : named n -> named n' -> floats_known e = true -> floats_known e' = true ->
  dbg n e = dbg n' e' -> e = e' /\ (names_type e = true -> n = n').
Proof.
  intros N N' K K' E. destruct (parse_tells n n' e e' [] []) as (H & H' & _); auto; try exact I.
  rewrite !app_nil_r. exact E.
Qed.
End Tells.

(** ** Decoding *)
Definition made (lo : leftover) : Prop := exists h, lo_history lo h.
Lemma made_append lo bs : made lo -> made (fst (lo_append lo bs)).
Proof.
  intros [h H]. pose proof (held_history _ _ H) as E. destruct h as [|b|s].
  - subst lo. eexists. apply LH_append_new.
  - eexists. apply LH_append_loose. exact H.
  - eexists. apply LH_append_windows. exact H.
Qed.
Lemma made_escape lo : made lo -> made (lo_escape_context lo).
Proof. intros [h H]. eexists. apply LH_escape. exact H. Qed.

Lemma loop_made {P} (h : handler P) fuel : forall ret p lo,
  (forall o, ret = inl o -> made o) -> cleanup_loop h fuel ret p = ROk lo -> made lo.
Proof.
  induction fuel as [|fuel IH]; intros ret p lo M E; [discriminate E|]. cbn [cleanup_loop] in E.
  assert (C : forall ret p, (forall o, ret = inl o -> made o) ->
    match h unit OpEnforceTarget p with
        | (ROk tt, p') =>
            cleanup_loop h fuel
              (match ret with inl o => inl (lo_escape_context o) | inr e => inr e end) p'
        | (RErr (EWindow CloseWithoutWindow), _) =>
            match ret with inl o => ROk o | inr e => RErr e end
        | (RErr (EWindow w), p') => cleanup_loop h fuel (inr (ErrorCaseUnexpected w)) p'
        | (RErr e, p') => cleanup_loop h fuel (inr (ErrorKindUnexpected e)) p'
        | (RPanic, _) => RPanic
        | (RUB, _) => RUB
        | (RDiv, _) => RDiv
        end = ROk lo -> made lo).
  { clear - IH. intros ret p M E. destruct (h unit OpEnforceTarget p) as [[[]|[w|e|e|e]| | |] p']; try discriminate E.
    - apply IH in E; trivial. intros o Ho. destruct ret as [o'|]; [|discriminate]. injection Ho as <-. apply made_escape, M. reflexivity.
    - destruct w; try (apply IH in E; trivial; intros o Ho; discriminate Ho).
      destruct ret as [o|]; [|discriminate E]. injection E as <-. apply M. reflexivity.
    - apply IH in E; trivial. intros o Ho; discriminate Ho.
    - apply IH in E; trivial. intros o Ho; discriminate Ho.
    - apply IH in E; trivial. intros o Ho; discriminate Ho. }
  destruct (h Z OpRemainder p) as [[rem|e| | |] p1]; try discriminate E.
  destruct (rem =? 0); [exact (C _ _ M E)|].
  destruct (h (list byte) (OpConsume rem) p1) as [[tmp|e| | |] p2]; try discriminate E.
  apply C in E; trivial. intros o Ho. destruct ret as [o'|]; [|discriminate]. injection Ho as <-. apply made_append, M. reflexivity.
Qed.
Lemma sloop_made fuel : forall ret p lo, made ret -> sp_cleanup_loop fuel ret p = ROk lo -> made lo.
Proof.
  induction fuel as [|fuel IH]; intros ret p lo M E; [discriminate E|]. cbn [sp_cleanup_loop] in E.
  assert (C : forall ret p, made ret ->
    match sp_enforce_target p with
        | (ROk tt, p') => sp_cleanup_loop fuel (lo_escape_context ret) p'
        | (RErr (EWindow CloseWithoutWindow), _) => ROk ret
        | (RErr (EWindow w), _) => RErr (ErrorCaseUnexpected w)
        | (RErr e, _) => RErr (ErrorKindUnexpected e)
        | (RPanic, _) => RPanic
        | (RUB, _) => RUB
        | (RDiv, _) => RDiv
        end = ROk lo -> made lo).
  { clear - IH. intros ret p M E. destruct (sp_enforce_target p) as [[[]|[w|e|e|e]| | |] p']; try discriminate E.
    - apply IH in E; trivial. apply made_escape, M.
    - destruct w; try discriminate E. injection E as <-. exact M. }
  destruct (sp_remainder p =? 0); [exact (C _ _ M E)|].
  destruct (sp_consume (sp_remainder p) p) as [[tmp|e| | |] p2]; try discriminate E.
  apply C in E; trivial. apply made_append, M.
Qed.
Lemma new_made : made LEmpty.
Proof. exists Nothing. constructor. Qed.

Definition error_made (e : input_error) : Prop :=
  match e with IDecode (DNonEmpty lo) => made lo | _ => True end.
Lemma try_made {P} (h : handler P) cleanup (init : P) cf D fuel t e :
  (forall p lo, cleanup p = ROk lo -> made lo) -> try_decode h cleanup init cf D fuel t = RErr e -> error_made (IDecode e).
Proof.
  intros C. unfold try_decode. destruct (run h (parse cf D fuel t) init) as [[v|e'| | |] p]; intros E; try discriminate E.
  - destruct (cf_complete cf); [|discriminate E]. destruct (cleanup p) as [lo|e'| | |] eqn:L; try discriminate E.
    + destruct (lo_is_empty lo); [discriminate E|]. injection E as <-. exact (C _ _ L).
    + injection E as <-. exact I.
  - injection E as <-. exact I.
Qed.
Lemma decode_made w cf D fuel t bs e : decode_with w cf D fuel t bs = RErr e -> error_made (IDecode e).
Proof.
  destruct w; cbn [decode_with]; apply try_made; intros p lo.
  - apply loop_made. intros o Ho. injection Ho as <-. exact new_made.
  - apply loop_made. intros o Ho. injection Ho as <-. exact new_made.
  - apply sloop_made, new_made.
Qed.
Lemma from_made implicit cf t w D fuel src e :
  try_decode_from implicit cf t (decode_with w cf D fuel t) src = RErr e -> error_made e.
Proof.
  unfold try_decode_from. destruct (ignores_input cf t); [discriminate|].
  destruct (into_vec_buffer implicit src) as [bs|h| | |]; intros E; try discriminate E.
  - destruct (decode_with w cf D fuel t bs) as [v|e'| | |] eqn:De; try discriminate E. injection E as <-. eapply decode_made; exact De.
  - injection E as <-. exact I.
Qed.

Lemma hex_texts a b : hex_debug a = hex_debug b -> a = b.
Proof.
  destruct a, b; unfold hex_debug; intros E; try (differ E; fail); peel E; apply app_inv_tail in E; subst; reflexivity.
Qed.

Section Decode.
Variables (num64 : Z -> list byte) (printable : Z -> bool) (utf8 boxed : list byte).
Hypothesis HF : float_text num64.
Let idbg n := invariant_debug num64 printable n utf8 boxed.
Let ddbg n := decode_debug num64 printable n utf8 boxed.

Lemma invariant_texts n n' e e' : named n -> named n' -> all_known (IDecode (DInvariant e)) = true -> all_known (IDecode (DInvariant e')) = true ->
  idbg n e = idbg n' e' -> e = e'.
Proof.
  intros N N' K K' E. unfold idbg in E. destruct e, e'; unfold invariant_debug in E; try (differ E; fail); peel E.
  - f_equal. destruct (window_tells e e0 [] []) as [H _]; try exact I; [|exact H]. rewrite !app_nil_r. exact E.
  - f_equal. eapply parse_texts in E as [H _]; eassumption.
  - f_equal. eapply parse_texts in E as [H _]; eassumption.
Qed.
Lemma decode_shown n e : error_made e -> exists s, ddbg n e = ROk s.
Proof.
  unfold ddbg. destruct e as [e|[e|e|lo]]; intros M; try (eexists; reflexivity).
  destruct M as [h H]. cbn [decode_debug]. rewrite (leftover_text _ _ H). eexists. reflexivity.
Qed.
Lemma decode_texts n n' e e' s : named n -> named n' -> all_known e = true -> all_known e' = true -> error_made e -> error_made e' ->
  ddbg n e = ROk s -> ddbg n' e' = ROk s -> same_error e e'.
Proof.
  intros N N' K K' M M' E E'. unfold ddbg in *.
  assert (A : forall m d d', around m d = around m d' -> d = d').
  { intros m d d'. unfold around, debug_tuple. cbn [join join_more]. rewrite !app_nil_r. intros J.
    apply app_inv_head, app_inv_head, app_inv_tail in J. exact J. }
  assert (J : ddbg n e = ddbg n' e') by (unfold ddbg; congruence). clear E E'. unfold ddbg in J.
  assert (Inj : forall A (x y : A), @ROk unit A x = ROk y -> x = y) by (intros ? x y Q; congruence).
  destruct e as [e|[e|e|lo]], e' as [e'|[e'|e'|lo']]; cbn [decode_debug] in J; cbn [same_error error_made] in *;
    repeat match goal with H : made _ |- _ => let h := fresh "h" in let Hh := fresh "Hh" in destruct H as [h Hh] end;
    repeat match goal with H : lo_history ?l _ |- _ => match type of J with context [lo_debug l] =>
      pose proof (leftover_text _ _ H); destruct (lo_debug l) as [?d| | | |] eqn:?; try discriminate end end;
    cbn [rbind] in J; try (apply Inj in J); try (exfalso; revert J; plain_text; intros J; differ J).
  - apply A, hex_texts in J as ->. reflexivity.
  - apply A in J. eapply parse_texts in J as [-> _]; eauto.
  - apply A in J. eapply invariant_texts in J as ->; eauto.
  - apply A in J. subst.
    destruct (leftover_texts lo _ lo' _ Hh0 Hh) as (S & _ & X); [congruence|].
    split; [|exact X].
    destruct (leftover_contents _ _ Hh) as (_ & _ & ->). destruct (leftover_contents _ _ Hh0) as (_ & _ & ->). exact S.
Qed.

Let says n := decode_says num64 printable n utf8 boxed.
Lemma decode_speaks n tname implicit cf D fuel t src e :
  try_decode_from implicit cf t (byte_decode cf D fuel t) src = RErr e ->
  decode_from implicit cf D fuel t src = RPanic /\
  exists s, ddbg n e = ROk s /\
    panic_says (says n tname) (try_decode_from implicit cf t (byte_decode cf D fuel t) src) =
      Some (ROk (txt "<" ++ tname ++ txt " as Decode>::decode encountered error: " ++ s)).
Proof.
  intros E. unfold decode_from. rewrite E. split; [reflexivity|].
  destruct (decode_shown n e (from_made implicit cf t WByte D fuel src e E)) as [s Hs]. exists s. split; [exact Hs|].
  cbn [panic_says]. unfold says, decode_says. fold (ddbg n e). rewrite Hs. reflexivity.
Qed.
End Decode.

Lemma some_rok (a b : list byte) : Some (@ROk unit (list byte) a) = Some (ROk b) -> a = b.
Proof. intros E. congruence. Qed.
Lemma both_panics num64 printable utf8 boxed n n' tname implicit cf D fuel t src implicit' cf' D' fuel' t' src' e e' s :
  float_text num64 -> named n -> named n' -> all_known e = true -> all_known e' = true ->
  try_decode_from implicit cf t (byte_decode cf D fuel t) src = RErr e ->
  try_decode_from implicit' cf' t' (byte_decode cf' D' fuel' t') src' = RErr e' ->
  panic_says (decode_says num64 printable n utf8 boxed tname) (RErr e) = Some (ROk s) ->
  panic_says (decode_says num64 printable n' utf8 boxed tname) (RErr e') = Some (ROk s) ->
  same_error e e'.
Proof.
  intros HF N N' K K' E E' P P'.
  destruct (decode_speaks num64 printable utf8 boxed n tname implicit cf D fuel t src e E) as (_ & d & Hd & Q).
  destruct (decode_speaks num64 printable utf8 boxed n' tname implicit' cf' D' fuel' t' src' e' E') as (_ & d' & Hd' & Q').
  rewrite E in Q. rewrite E' in Q'. rewrite Q in P. rewrite Q' in P'. rewrite <- P in P'.
  apply some_rok in P'. repeat peel P'. subst d'.
  eapply decode_texts; [exact HF|exact N|exact N'|exact K|exact K'| | |exact Hd|exact Hd'].
  - exact (from_made implicit cf t WByte D fuel src e E).
  - exact (from_made implicit' cf' t' WByte D' fuel' src' e' E').
Qed.
Lemma any_decode num64 printable utf8 boxed n n' implicit cf w D fuel t src implicit' cf' w' D' fuel' t' src' e e' s s' :
  float_text num64 -> named n -> named n' -> all_known e = true -> all_known e' = true ->
  try_decode_from implicit cf t (decode_with w cf D fuel t) src = RErr e ->
  try_decode_from implicit' cf' t' (decode_with w' cf' D' fuel' t') src' = RErr e' ->
  decode_debug num64 printable n utf8 boxed e = ROk s -> decode_debug num64 printable n' utf8 boxed e' = ROk s' -> s = s' ->
  same_error e e'.
Proof.
  intros HF N N' K K' E E' P P' <-.
  eapply decode_texts; [exact HF|exact N|exact N'|exact K|exact K'| | |exact P|exact P']; eapply from_made; eassumption.
Qed.
Lemma any_shown num64 printable utf8 boxed n implicit cf w D fuel t src e :
  try_decode_from implicit cf t (decode_with w cf D fuel t) src = RErr e ->
  exists s, decode_debug num64 printable n utf8 boxed e = ROk s.
Proof. intros E. apply decode_shown. eapply from_made; exact E. Qed.

Lemma named_string cs : Forall scalar cs -> named (utf8_string cs).
Proof.
  intros F. assert (B : bytes_ok (utf8_string cs)) by (apply utf8_string_bytes; exact F).
  split; [exact B|]. apply utf8_valid_iff; [exact B|]. exists cs. auto.
Qed.
Lemma tells_plain {A} (f : A -> list byte) a b : tells any f -> f a = f b -> a = b.
Proof. intros T E. destruct (T a b [] []) as [H _]; try exact I; [|exact H]. rewrite !app_nil_r. exact E. Qed.
Lemma part_texts :
  (forall e e', window_debug e = window_debug e' -> e = e') /\ (forall e e', width_debug e = width_debug e' -> e = e') /\
  (forall e e', length_debug e = length_debug e' -> e = e') /\ (forall e e', bounds_debug show_int e = bounds_debug show_int e' -> e = e') /\
  (forall e e', internal_debug e = internal_debug e' -> e = e') /\ (forall e e', hex_debug e = hex_debug e' -> e = e').
Proof.
  split; [|split; [|split; [|split; [|split]]]]; intros e e' E.
  - exact (tells_plain _ _ _ window_tells E).
  - exact (tells_plain _ _ _ width_tells E).
  - exact (tells_plain _ _ _ length_tells E).
  - destruct (bounds_tells _ _ int_tells e e' [] []) as [H _]; try exact I; try (destruct e; split; exact I); try (destruct e'; split; exact I); [|exact H].
    rewrite !app_nil_r. exact E.
  - exact (tells_plain _ _ _ internal_tells E).
  - exact (hex_texts _ _ E).
Qed.
Lemma part_says :
  (forall e, window_text e (window_debug e)) /\ (forall e, width_text e (width_debug e)) /\ (forall e, length_text e (length_debug e)) /\
  (forall e, bounds_text decimal e (bounds_debug show_int e)) /\
  (forall s, hex_debug (OddParity s) = txt "non-even length-parity for string `" ++ s ++ txt "`") /\
  (forall s, hex_debug (NonHex s) = txt "non-hex character found in string `" ++ s ++ txt "`").
Proof.
  split; [exact window_says|]. split; [exact width_says|]. split; [exact length_says|].
  split; [intros e; apply bounds_says, show_int_decimal|]. split; reflexivity.
Qed.
Lemma parse_strings num64 printable utf8 boxed cs cs' e e' : float_text num64 -> Forall scalar cs -> Forall scalar cs' ->
  floats_known e = true -> floats_known e' = true ->
  parse_debug num64 printable (utf8_string cs) utf8 boxed e = parse_debug num64 printable (utf8_string cs') utf8 boxed e' ->
  e = e' /\ (names_type e = true -> cs = cs').
Proof.
  intros HF F F' K K' E. apply parse_texts in E; trivial; try (apply named_string; assumption).
  destruct E as [H H']. split; [exact H|]. intros T. apply (utf8_same cs F cs' F'), H', T.
Qed.

(** ** decode_memo *)
Lemma memo_speaks tname implicit cf D fuel t src e :
  try_decode_from implicit cf t (memo_decode cf D fuel t) src = RErr e ->
  decode_memo_from implicit cf D fuel t src = RPanic /\
  exists why, (why = txt "ParseError" \/ why = txt "DecodeError") /\
    decode_memo_says t tname e = ROk (txt "<" ++ tname ++ txt " as Decode>::decode_memo: unable to parse value (" ++ why ++ txt " encountered)").
Proof.
  intros E. unfold decode_memo_from. rewrite E. split; [reflexivity|].
  destruct t; first [exists (txt "DecodeError"); split; [right; reflexivity|reflexivity]|exists (txt "ParseError"); split; [left; reflexivity|reflexivity]].
Qed.
Lemma memo_same t tname e e' : decode_memo_says t tname e = decode_memo_says t tname e'.
Proof. reflexivity. Qed.
Lemma unit_no_parse implicit cf D fuel src e :
  try_decode_from implicit cf TUnit (memo_decode cf D fuel TUnit) src = RErr e -> (0 < fuel)%nat -> forall p, e <> IDecode (DParse p).
Proof.
  unfold try_decode_from. destruct (ignores_input cf TUnit); [discriminate|].
  destruct (into_vec_buffer implicit src) as [bs|h| | |]; intros E Hf p; try discriminate E.
  - destruct fuel as [|fuel]; [lia|]. unfold memo_decode, try_decode in E. cbn [parse run] in E.
    destruct (cf_complete cf); [|discriminate E]. destruct (mp_cleanup (cf_mode cf) (mp_from_buffer bs)) as [lo|i| | |]; try discriminate E.
    + destruct (lo_is_empty lo); [discriminate E|]. injection E as <-. discriminate.
    + injection E as <-. discriminate.
  - injection E as <-. discriminate.
Qed.
Lemma memo_tells_less : exists cf D fuel t a b e e',
  byte_decode cf D fuel t a = RErr e /\ memo_decode cf D fuel t a = RErr e /\
  byte_decode cf D fuel t b = RErr e' /\ memo_decode cf D fuel t b = RErr e' /\ e <> e' /\
  (forall num64 printable n utf8 boxed tname,
     decode_says num64 printable n utf8 boxed tname (IDecode e) <> decode_says num64 printable n utf8 boxed tname (IDecode e')) /\
  (forall tname, decode_memo_says t tname (IDecode e) = decode_memo_says t tname (IDecode e')).
Proof.
  exists (mkConfig Debug false false false false false), [], 9%nat, TBool, [2], [3],
    (DParse (EToken (InvalidBoolean 2))), (DParse (EToken (InvalidBoolean 3))).
  split; [vm_compute; reflexivity|]. split; [vm_compute; reflexivity|]. split; [vm_compute; reflexivity|]. split; [vm_compute; reflexivity|].
  split; [discriminate|]. split; [|reflexivity].
  intros num64 printable n utf8 boxed tname E. unfold decode_says in E. cbn [decode_debug rbind] in E.
  assert (Inj : forall A (x y : A), @ROk unit A x = ROk y -> x = y) by (intros ? x y Q; congruence).
  apply Inj in E. repeat peel E. revert E. vm_compute. discriminate.
Qed.
Lemma hex_messages s s' :
  show_hex_error (OddParity s) = txt "hex-conversion failed on odd-length string" /\
  show_hex_error (NonHex s) = txt "hex-conversion failed on non-hex character" /\
  show_hex_error (OddParity s) <> show_hex_error (NonHex s').
Proof. split; [reflexivity|]. split; [reflexivity|]. vm_compute. discriminate. Qed.
