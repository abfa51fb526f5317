(** Proofs about printed numbers and error messages. *)
From Coq Require Import String.
From Verif Require Import Base BaseLemmas ModelErrors ModelHex ModelInt ModelSchema ModelEnum ModelDisplay SpecHex SpecCodec SpecNum SpecDisplay ProofHex ProofNum.

(** * Digits *)
Lemma lower_digit_ok n : 0 <= n < 16 -> hex_digit (lower_digit n) n.
Proof. intros H. apply lower_digit_spec, H. Qed.
Lemma upper_digit_ok n : 0 <= n < 16 -> hex_digit (upper_digit n) n.
Proof.
  intros H. unfold upper_digit. destruct (n <? 10) eqn:E.
  - replace n with (48 + n - 48) at 2 by lia. apply digit_num. lia.
  - replace n with (10 + (55 + n - 65)) at 2 by lia. apply digit_upper. lia.
Qed.
Lemma radix_digit_ok r n : 0 <= n < 16 -> hex_digit (radix_digit r n) n.
Proof. destruct r; first [apply lower_digit_ok | apply upper_digit_ok]. Qed.

Lemma digits_loop_ok base dig :
  2 <= base <= 16 -> (forall d, 0 <= d < 16 -> hex_digit (dig d) d) ->
  forall fuel n, 0 <= n < base ^ Z.of_nat (S fuel) -> numeral base (digits_loop (S fuel) base dig n) n.
Proof.
  intros Hb Hd. induction fuel as [|f IH]; intros n Hn.
  - cbn [digits_loop]. change (base ^ Z.of_nat 1) with (base ^ 1) in Hn. rewrite Z.pow_1_r in Hn.
    destruct (n <? base) eqn:E; [|lia]. apply numeral_digit; [apply Hd|]; lia.
  - change (digits_loop (S (S f)) base dig n) with
      (if n <? base then [dig n] else digits_loop (S f) base dig (n / base) ++ [dig (n mod base)]).
    destruct (n <? base) eqn:E; [apply numeral_digit; [apply Hd|]; lia|].
    replace n with (base * (n / base) + n mod base) at 3 by (symmetry; apply Z.div_mod; lia).
    pose proof (Z.mod_pos_bound n base ltac:(lia)).
    apply numeral_more; [| |apply Hd; lia|lia].
    + apply IH. split; [apply Z.div_pos; lia|]. apply Z.div_lt_upper_bound; [lia|].
      rewrite Nat2Z.inj_succ, Z.pow_succ_r in Hn by lia. lia.
    + apply Z.div_str_pos. lia.
Qed.

Lemma digits_ok base dig n :
  2 <= base <= 16 -> (forall d, 0 <= d < 16 -> hex_digit (dig d) d) -> 0 <= n -> numeral base (digits base dig n) n.
Proof.
  intros Hb Hd Hn. unfold digits. pose proof (Z.log2_nonneg n).
  rewrite Z2Nat.inj_add by lia. change (Z.to_nat 1) with 1%nat. rewrite Nat.add_1_r. apply digits_loop_ok; trivial. split; [lia|].
  rewrite Nat2Z.inj_succ, Z2Nat.id by lia.
  destruct (Z.eq_dec n 0) as [->|]; [change (Z.log2 0) with 0; rewrite Z.pow_1_r; lia|].
  eapply Z.lt_le_trans; [apply Z.log2_spec; lia|]. apply Z.pow_le_mono_l. lia.
Qed.

Lemma numeral_pos base s n : 2 <= base -> numeral base s n -> 0 <= n.
Proof. intros Hb. induction 1 as [c d Hc|s n c d H IH Hn Hc]; apply hex_digit_range in Hc; nia. Qed.
Lemma numeral_ne base s n : numeral base s n -> s <> [].
Proof. intros [|]; [discriminate|]. intros E. apply app_eq_nil in E as [_ E]. discriminate. Qed.
Lemma numeral_chars base s n : numeral base s n -> Forall (fun c => exists d, hex_digit c d /\ d < base) s.
Proof. induction 1; [eauto|]. apply Forall_app. eauto. Qed.

Lemma numeral_fun base s n : numeral base s n -> forall n', numeral base s n' -> n = n'.
Proof.
  induction 1 as [c d Hc Hd|s n c d H IH Hn Hc Hd]; intros n' H'; inversion H' as [c' d' Hc' Hd' E|s' m c' d' Hs Hm Hc' Hd' E]; subst.
  - eapply hex_digit_fun; eassumption.
  - destruct s' as [|? [|? ?]]; [destruct (numeral_ne _ _ _ Hs eq_refl)|discriminate|discriminate].
  - destruct s as [|? [|? ?]]; [destruct (numeral_ne _ _ _ H eq_refl)|discriminate|discriminate].
  - apply app_inj_tail in E as [-> ->]. rewrite (IH _ Hs), (hex_digit_fun _ _ _ Hc Hc'). reflexivity.
Qed.

Lemma hex_value_fun s n : hex_value s n -> forall n', hex_value s n' -> n = n'.
Proof.
  induction 1 as [|s n c d H IH Hc]; intros n' H'; inversion H' as [E|s' m c' d' Hs Hc' E]; subst; trivial.
  - destruct s'; discriminate.
  - destruct s; discriminate.
  - apply app_inj_tail in E as [-> ->]. rewrite (IH _ Hs), (hex_digit_fun _ _ _ Hc Hc'). reflexivity.
Qed.
Lemma hex_value_zeros k s n : hex_value s n -> hex_value (repeat 48 k ++ s) n.
Proof.
  induction 1 as [|s n c d H IH Hc].
  - rewrite app_nil_r. induction k as [|k IH]; [constructor|].
    change (repeat 48 (S k)) with (48 :: repeat 48 k). rewrite repeat_cons. change 0 with (16 * 0 + (48 - 48)).
    constructor; [exact IH|]. apply digit_num. lia.
  - rewrite app_assoc. constructor; trivial.
Qed.
Lemma numeral_hex_value s n : numeral 16 s n -> hex_value s n.
Proof.
  induction 1 as [c d Hc|s n c d H IH Hn Hc].
  - apply (hex_value_more [] 0 c d) in Hc; [exact Hc|constructor].
  - constructor; trivial.
Qed.

(** * [show_int] *)
Lemma show_int_decimal z : decimal (show_int z) z.
Proof.
  unfold decimal, show_int. destruct (z <? 0) eqn:E.
  - right. split; [lia|]. eexists. split; [reflexivity|]. rewrite Z.abs_neq by lia.
    apply digits_ok; [lia|exact lower_digit_ok|lia].
  - left. split; [lia|]. rewrite Z.abs_eq by lia. cbn [app]. apply digits_ok; [lia|exact lower_digit_ok|lia].
Qed.

Lemma decimal_chars t n : numeral 10 t n -> Forall (fun c => is_digit c = true) t.
Proof.
  intros H. apply numeral_chars in H. eapply Forall_impl; [|exact H]. cbn beta. intros c (d & Hc & Hd). unfold is_digit.
  destruct Hc; lia.
Qed.

(** Reading a run of digits. *)
Lemma numbers_digit neg run c s : is_digit c = true ->
  numbers_from neg run (c :: s) = numbers_from neg (Some (10 * match run with Some n => n | None => 0 end + (c - 48))) s.
Proof. intros H. cbn [numbers_from]. rewrite H. reflexivity. Qed.
Definition ends (rest : list byte) : bool := match rest with [] => true | c :: _ => negb (is_digit c) end.

Lemma digit_value c d : hex_digit c d -> d < 10 -> is_digit c = true /\ c - 48 = d.
Proof. unfold is_digit. intros [c' H|c' H|c' H] Hd; lia. Qed.

Lemma numbers_numeral t n : numeral 10 t n -> forall neg rest,
  numbers_from neg None (t ++ rest) = numbers_from neg (Some n) rest.
Proof.
  induction 1 as [c d Hc Hd|s n c d H IH Hn Hc Hd]; intros neg rest; destruct (digit_value _ _ Hc Hd) as [Hi <-].
  - cbn [app]. rewrite numbers_digit by trivial. f_equal.
  - rewrite <- app_assoc, IH. cbn [app]. rewrite numbers_digit by trivial. reflexivity.
Qed.
Lemma numbers_end neg n rest : ends rest = true ->
  numbers_from neg (Some n) rest = signed neg n :: numbers_from false None rest.
Proof.
  destruct rest as [|c rest]; intros H; [reflexivity|]. cbn [ends] in H. apply negb_true_iff in H.
  cbn [numbers_from]. rewrite H. reflexivity.
Qed.

Lemma numbers_int z rest : ends rest = true ->
  numbers_from false None (show_int z ++ rest) = z :: numbers_from false None rest.
Proof.
  intros He. destruct (show_int_decimal z) as [[Hz H]|(Hz & t & E & H)].
  - rewrite (numbers_numeral _ _ H), numbers_end by trivial. reflexivity.
  - rewrite E. cbn [app numbers_from is_digit]. change (numbers_from true None (t ++ rest) = z :: numbers_from false None rest).
    rewrite (numbers_numeral _ _ H), numbers_end by trivial. cbn [signed]. f_equal. lia.
Qed.

(** Words without digits, not ending in '-', are skipped. *)
Fixpoint quiet (l : list byte) : bool :=
  match l with
  | [] => true
  | c :: l => negb (is_digit c) && match l with [] => negb (c =? 45) | _ => quiet l end
  end.
Lemma numbers_words l rest : quiet l = true -> forall neg, (l <> [] \/ neg = false) ->
  numbers_from neg None (l ++ rest) = numbers_from false None rest.
Proof.
  induction l as [|c l IH]; intros Hq neg Hn.
  - destruct Hn as [[]| ->]; reflexivity.
  - cbn [quiet] in Hq. apply andb_true_iff in Hq as [Hc Hq]. apply negb_true_iff in Hc.
    cbn [app numbers_from]. rewrite Hc. cbn [app]. destruct l as [|c' l].
    + apply negb_true_iff in Hq. rewrite Hq. reflexivity.
    + apply IH; [exact Hq|left; discriminate].
Qed.
Lemma numbers_words0 l rest : quiet l = true -> numbers_from false None (l ++ rest) = numbers_from false None rest.
Proof. intros H. apply numbers_words; auto. Qed.
Lemma numbers_words1 l : quiet l = true -> numbers_from false None l = [].
Proof. intros H. rewrite <- (app_nil_r l), numbers_words0 by trivial. reflexivity. Qed.

Lemma ends_txt l rest : l <> [] -> ends l = true -> ends (l ++ rest) = true.
Proof. destruct l; [congruence|]. trivial. Qed.

Ltac numbers_tac :=
  unfold numbers; rewrite <- ?app_assoc;
  repeat first
    [ rewrite numbers_words0 by reflexivity
    | rewrite numbers_int by first [reflexivity | apply ends_txt; [discriminate|reflexivity]]
    | rewrite numbers_words1 by reflexivity ];
  try reflexivity.

Lemma window_numbers e : numbers (show_window e) = window_facts e.
Proof.
  destruct e; cbn [show_window window_facts]; try (destruct (bytes_left =? 0)); numbers_tac.
Qed.
Lemma length_numbers e : numbers (show_length e) = length_facts e.
Proof. destruct e; cbn [show_length length_facts]; numbers_tac. Qed.

Lemma show_int_end z : numbers_from false None (show_int z) = [z].
Proof. rewrite <- (app_nil_r (show_int z)), numbers_int by reflexivity. reflexivity. Qed.
Lemma bounds_numbers e : numbers (show_bounds show_int e) = bounds_facts e.
Proof.
  destruct e; cbn [show_bounds bounds_facts]; numbers_tac; rewrite ?show_int_end; reflexivity.
Qed.

Lemma more_ends l rest : l <> [] -> ends (show_more l ++ rest) = true.
Proof. destruct l; [congruence|]. reflexivity. Qed.
Lemma more_numbers l : forall rest, ends rest = true ->
  numbers_from false None (show_more l ++ rest) = l ++ numbers_from false None rest.
Proof.
  induction l as [|n l IH]; intros rest He; [reflexivity|]. cbn [show_more]. rewrite <- !app_assoc.
  rewrite numbers_words0 by reflexivity. rewrite numbers_int.
  - rewrite IH by trivial. reflexivity.
  - destruct l; [exact He|reflexivity].
Qed.
Lemma width_numbers e : numbers (show_width e) = width_facts e.
Proof.
  destruct e; cbn [show_width width_facts]; try (numbers_tac; fail). unfold numbers.
  rewrite numbers_words0 by reflexivity.
  rewrite numbers_int by (apply ends_txt; [discriminate|reflexivity]). f_equal.
  rewrite numbers_words0 by reflexivity.
  destruct valid as [|n valid]; [reflexivity|]. unfold show_list. rewrite <- !app_assoc.
  rewrite numbers_words0 by reflexivity. rewrite numbers_int.
  - f_equal. rewrite more_numbers by reflexivity. rewrite numbers_words0 by reflexivity.
    rewrite numbers_words1 by reflexivity. apply app_nil_r.
  - destruct valid; reflexivity.
Qed.

(** * Different errors, different messages *)
Definition wording (s : list byte) : list byte := filter (fun c => negb (is_digit c) && negb (c =? 45)) s.
Lemma wording_app a b : wording (a ++ b) = wording a ++ wording b.
Proof. apply filter_app. Qed.
Lemma wording_digits t : Forall (fun c => is_digit c = true) t -> wording t = [].
Proof. induction 1 as [|c t H _ IH]; [reflexivity|]. unfold wording in *. cbn [filter]. rewrite H. exact IH. Qed.
Lemma wording_int z : wording (show_int z) = [].
Proof.
  destruct (show_int_decimal z) as [[Hz H]|(Hz & t & E & H)].
  - apply wording_digits. eapply decimal_chars. exact H.
  - rewrite E. change (wording (45 :: t)) with (wording t). apply wording_digits. eapply decimal_chars. exact H.
Qed.

(** Two texts that differ before either ends. *)
Fixpoint clash (a b : list byte) : bool :=
  match a, b with
  | x :: a, y :: b => if x =? y then clash a b else true
  | _, _ => false
  end.
Lemma clash_differ a : forall b x y, clash a b = true -> a ++ x <> b ++ y.
Proof.
  induction a as [|c a IH]; intros [|d b] x y H E; cbn [clash] in H; try discriminate.
  cbn [app] in E. injection E as -> E. rewrite Z.eqb_refl in H. exact (IH _ _ _ H E).
Qed.

(** The error of the same kind with all numbers zero. *)
Definition sample_window (e : window_error) : window_error :=
  match e with
  | ConsumeWouldExceedLimit _ _ _ => ConsumeWouldExceedLimit 0 0 0
  | OpenWouldExceedBuffer b _ => if b =? 0 then OpenWouldExceedBuffer 0 0 else OpenWouldExceedBuffer 1 0
  | OpenWouldExceedWindow _ _ => OpenWouldExceedWindow 0 0
  | CloseWithResidue _ => CloseWithResidue 0
  | CloseWithoutWindow => CloseWithoutWindow
  | OffsetOverflow _ => OffsetOverflow 0
  end.
Definition sample_bounds (e : bounds_error) : bounds_error :=
  match e with
  | BUnderflow _ _ => BUnderflow 0 0
  | BOverflow _ _ => BOverflow 0 0
  | BInvalidBounds _ _ => BInvalidBounds 0 0
  | BIllegalNegative _ _ => BIllegalNegative 0 0
  | BFailed => BFailed
  end.
Definition sample_width (e : width_error) : width_error :=
  match e with TooWide _ _ => TooWide 0 0 | WrongWidth _ _ => WrongWidth 0 0 | InvalidWidth _ _ => InvalidWidth [] 0 end.
Definition sample_length (e : length_error) : length_error :=
  match e with TooLong _ _ => TooLong 0 0 | WrongLength _ _ => WrongLength 0 0 end.
Definition sample_token (e : token_error) : token_error :=
  match e with
  | InvalidBoolean _ => InvalidBoolean 0
  | NonTerminating _ => NonTerminating []
  | NonNullPaddingByte _ => NonNullPaddingByte []
  | e => e
  end.
Definition sample (e : parse_error) : parse_error :=
  match e with
  | EWindow e => EWindow (sample_window e)
  | EInternal e => EInternal e
  | EExternal (IntRangeViolation e) => EExternal (IntRangeViolation (sample_bounds e))
  | EExternal (WidthViolation e) => EExternal (WidthViolation (sample_width e))
  | EExternal (LengthViolation e) => EExternal (LengthViolation (sample_length e))
  | EExternal e => EExternal e
  | EToken e => EToken (sample_token e)
  end.
Definition samples : list parse_error :=
  [EWindow (ConsumeWouldExceedLimit 0 0 0); EWindow (OpenWouldExceedBuffer 0 0); EWindow (OpenWouldExceedBuffer 1 0);
   EWindow (OpenWouldExceedWindow 0 0); EWindow (CloseWithResidue 0); EWindow CloseWithoutWindow; EWindow (OffsetOverflow 0);
   EInternal SliceCoerceFailure; EInternal NoValidTags;
   EExternal (IntRangeViolation (BUnderflow 0 0)); EExternal (IntRangeViolation (BOverflow 0 0));
   EExternal (IntRangeViolation (BInvalidBounds 0 0)); EExternal (IntRangeViolation (BIllegalNegative 0 0));
   EExternal (IntRangeViolation BFailed);
   EExternal (WidthViolation (TooWide 0 0)); EExternal (WidthViolation (WrongWidth 0 0)); EExternal (WidthViolation (InvalidWidth [] 0));
   EExternal (LengthViolation (TooLong 0 0)); EExternal (LengthViolation (WrongLength 0 0));
   EToken (InvalidBoolean 0); EToken (NonTerminating []); EToken (NonNullPaddingByte [])].
Lemma sample_in e : self_contained e = true -> In (sample e) samples.
Proof.
  intros H. destruct e as [[]|[]|[|[]| |[]|[]|]|[]]; try discriminate H;
    cbn [sample sample_window sample_bounds sample_width sample_length sample_token];
    try (destruct (bytes_left =? 0)); unfold samples; cbn [In]; tauto.
Qed.

(** How the wording of each kind begins. *)
Definition opening (e : parse_error) : list byte :=
  match e with
  | EWindow e => wording (show_window e)
  | EInternal e => wording (show_internal e)
  | EExternal (IntRangeViolation e) => wording (show_bounds show_int e)
  | EExternal (WidthViolation (InvalidWidth _ _)) => wording (txt "byte-length ") ++ wording (txt " of value not in set ")
  | EExternal (WidthViolation e) => wording (show_width e)
  | EExternal (LengthViolation e) => wording (show_length e)
  | EToken (InvalidBoolean _) => wording (txt "invalid boolean encoding 0x")
  | EToken (NonTerminating _) => wording (txt "element failed to terminate: ")
  | EToken (NonNullPaddingByte _) => wording (txt "non-null byte found in padding: ")
  | _ => []
  end.
Lemma openings_clash : forall i j, (i < 22)%nat -> (j < 22)%nat -> i <> j ->
  clash (opening (nth i samples (EWindow CloseWithoutWindow))) (opening (nth j samples (EWindow CloseWithoutWindow))) = true.
Proof.
  intros i j Hi Hj N.
  assert (F : forallb (fun i => forallb (fun j => Nat.eqb i j ||
     clash (nth i (map opening samples) []) (nth j (map opening samples) [])) (seq 0 22)) (seq 0 22) = true) by (vm_compute; reflexivity).
  rewrite forallb_forall in F. specialize (F i ltac:(apply in_seq; lia)). cbn beta in F.
  rewrite forallb_forall in F. specialize (F j ltac:(apply in_seq; lia)). cbn beta in F.
  apply orb_true_iff in F as [F|F]; [apply Nat.eqb_eq in F; contradiction|].
  rewrite (nth_indep (map opening samples) [] (opening (EWindow CloseWithoutWindow))), map_nth in F by exact Hi.
  rewrite (nth_indep (map opening samples) [] (opening (EWindow CloseWithoutWindow))), map_nth in F by exact Hj.
  exact F.
Qed.

Ltac word_tac := rewrite ?wording_app, ?wording_int; exact eq_refl.
Lemma wording_window e : wording (show_window e) = wording (show_window (sample_window e)).
Proof.
  destruct e as [o r l|b r|l r|n| |n].
  - cbn [sample_window show_window]. word_tac.
  - unfold sample_window. destruct (b =? 0) eqn:Eb; unfold show_window; rewrite Eb.
    + change (0 =? 0) with true. cbv iota. word_tac.
    + change (1 =? 0) with false. cbv iota. word_tac.
  - cbn [sample_window show_window]. word_tac.
  - cbn [sample_window show_window]. word_tac.
  - exact eq_refl.
  - cbn [sample_window show_window]. word_tac.
Qed.
Lemma wording_bounds e : wording (show_bounds show_int e) = wording (show_bounds show_int (sample_bounds e)).
Proof. destruct e; cbn [sample_bounds show_bounds]; rewrite ?wording_app, ?wording_int; reflexivity. Qed.
Lemma wording_length e : wording (show_length e) = wording (show_length (sample_length e)).
Proof. destruct e; cbn [sample_length show_length]; rewrite ?wording_app, ?wording_int; reflexivity. Qed.

Lemma wording_opens ft u o n64 e : self_contained e = true ->
  exists tail, wording (show_parse ft u o n64 e) = opening (sample e) ++ tail.
Proof.
  intros H. destruct e as [e|e|[|e|e|e|e|]|[]]; try discriminate H; clear H.
  - exists []. rewrite app_nil_r. exact (wording_window e).
  - exists []. rewrite app_nil_r. reflexivity.
  - exists []. rewrite app_nil_r. exact (wording_bounds e).
  - destruct e as [l a|x a|v a].
    + exists []. rewrite app_nil_r. change (wording (show_width (TooWide l a)) = wording (show_width (TooWide 0 0))).
      cbn [show_width]. rewrite ?wording_app, ?wording_int. reflexivity.
    + exists []. rewrite app_nil_r. change (wording (show_width (WrongWidth x a)) = wording (show_width (WrongWidth 0 0))).
      cbn [show_width]. rewrite ?wording_app, ?wording_int. reflexivity.
    + exists (wording (show_list v) ++ wording (txt " of valid lengths")).
      change (wording (show_width (InvalidWidth v a)) = (wording (txt "byte-length ") ++ wording (txt " of value not in set ")) ++
        (wording (show_list v) ++ wording (txt " of valid lengths"))).
      cbn [show_width]. rewrite !wording_app, wording_int, app_nil_l. rewrite <- app_assoc. exact eq_refl.
  - exists []. rewrite app_nil_r. exact (wording_length e).
  - exact (ex_intro _ _ (wording_app _ _)).
  - exact (ex_intro _ _ (wording_app _ _)).
  - exact (ex_intro _ _ (wording_app _ _)).
Qed.
Lemma same_sample ft u o n64 e e' : self_contained e = true -> self_contained e' = true ->
  show_parse ft u o n64 e = show_parse ft u o n64 e' -> sample e = sample e'.
Proof.
  intros H H' E.
  destruct (wording_opens ft u o n64 e H) as [t T], (wording_opens ft u o n64 e' H') as [t' T'].
  destruct (In_nth _ _ (EWindow CloseWithoutWindow) (sample_in e H)) as (i & Hi & Si).
  destruct (In_nth _ _ (EWindow CloseWithoutWindow) (sample_in e' H')) as (j & Hj & Sj).
  destruct (Nat.eq_dec i j) as [->|N]; [congruence|exfalso].
  rewrite E, T' in T. rewrite <- Si, <- Sj in T. symmetry in T.
  exact (clash_differ _ _ _ _ (openings_clash i j Hi Hj N) T).
Qed.

Lemma hex_of_bytes_inj a b : bytes_ok a -> bytes_ok b -> hex_of_bytes a = hex_of_bytes b -> a = b.
Proof.
  intros Ha Hb E. pose proof (hex_round_trip a Ha) as A. rewrite E, (hex_round_trip b Hb) in A. injection A as ->. reflexivity.
Qed.

Ltac facts_tac N S :=
  cbn [window_facts bounds_facts width_facts length_facts] in N; first [reflexivity | injection N; intros; subst; trivial].
Lemma window_differ e e' : sample_window e = sample_window e' -> window_facts e = window_facts e' -> e = e'.
Proof.
  intros S N. destruct e, e'; cbn [sample_window window_facts] in S, N;
    repeat match type of S with context [?b =? 0] => destruct (b =? 0) eqn:? end; try discriminate S; facts_tac N S.
  f_equal. lia.
Qed.
Lemma bounds_differ e e' : sample_bounds e = sample_bounds e' -> bounds_facts e = bounds_facts e' -> e = e'.
Proof. intros S N. destruct e, e'; cbn [sample_bounds] in S; try discriminate S; facts_tac N S. Qed.
Lemma width_differ e e' : sample_width e = sample_width e' -> width_facts e = width_facts e' -> e = e'.
Proof. intros S N. destruct e, e'; cbn [sample_width] in S; try discriminate S; facts_tac N S. Qed.
Lemma length_differ e e' : sample_length e = sample_length e' -> length_facts e = length_facts e' -> e = e'.
Proof. intros S N. destruct e, e'; cbn [sample_length] in S; try discriminate S; facts_tac N S. Qed.

Lemma messages_differ ft u o n64 e e' : self_contained e = true -> self_contained e' = true ->
  error_bytes_ok e -> error_bytes_ok e' ->
  show_parse ft u o n64 e = show_parse ft u o n64 e' -> e = e'.
Proof.
  intros H H' B B' E. pose proof (same_sample _ _ _ _ _ _ H H' E) as S.
  destruct e as [e|e|[|e|e|e|e|]|[b|? ? ?|b|b]], e' as [e'|e'|[|e'|e'|e'|e'|]|[b'|? ? ?|b'|b']];
    try discriminate H; try discriminate H'; cbn [sample sample_token] in S; try discriminate S; clear H H'.
  - injection S as S. change (show_window e = show_window e') in E. apply (f_equal numbers) in E. rewrite !window_numbers in E.
    f_equal. apply window_differ; trivial.
  - exact S.
  - injection S as S. change (show_bounds show_int e = show_bounds show_int e') in E. apply (f_equal numbers) in E.
    rewrite !bounds_numbers in E. do 2 f_equal. apply bounds_differ; trivial.
  - injection S as S. change (show_width e = show_width e') in E. apply (f_equal numbers) in E.
    rewrite !width_numbers in E. do 2 f_equal. apply width_differ; trivial.
  - injection S as S. change (show_length e = show_length e') in E. apply (f_equal numbers) in E.
    rewrite !length_numbers in E. do 2 f_equal. apply length_differ; trivial.
  - cbn [show_parse show_token] in E. apply app_inv_head in E. cbn [error_bytes_ok] in B, B'.
    assert (F : [b] = [b']); [|injection F as ->; reflexivity].
    apply hex_of_bytes_inj; [constructor; trivial; constructor..|]. cbn [hex_of_bytes]. rewrite !app_nil_r. exact E.
  - cbn [show_parse show_token] in E. apply app_inv_head in E. do 2 f_equal. apply hex_of_bytes_inj; trivial.
  - cbn [show_parse show_token] in E. apply app_inv_head in E. do 2 f_equal. apply hex_of_bytes_inj; trivial.
Qed.

(** * Tags *)
Lemma digits_len_pos base dig n : 2 <= base <= 16 -> (forall d, 0 <= d < 16 -> hex_digit (dig d) d) -> 0 <= n -> 0 < zlen (digits base dig n).
Proof.
  intros. pose proof (numeral_ne _ _ _ (digits_ok base dig n ltac:(lia) H0 H1)). destruct (digits base dig n); [congruence|].
  unfold zlen. cbn [length]. lia.
Qed.
Lemma alt_hex_ok width n : 0 <= n -> exists h, show_alt_hex width n = txt "0x" ++ h /\ hex_value h n /\
  Forall (fun c => exists d, hex_digit c d) h /\ (exists h0, numeral 16 h0 n /\ zlen h = Z.max (zlen h0) (width - 2)).
Proof.
  intros Hn. pose proof (digits_ok 16 lower_digit n ltac:(lia) lower_digit_ok Hn) as D.
  eexists. split; [reflexivity|]. split; [apply hex_value_zeros, numeral_hex_value, D|]. split.
  - apply Forall_app. split.
    + apply Forall_forall. intros c Hc. apply repeat_spec in Hc. subst. exists (48 - 48). apply digit_num. lia.
    + apply numeral_chars in D. eapply Forall_impl; [|exact D]. cbn beta. intros c (d & Hd & _). eauto.
  - eexists. split; [exact D|]. rewrite zlen_app. unfold zlen at 1. rewrite repeat_length.
    generalize (zlen (digits 16 lower_digit n)). intros k. lia.
Qed.

Lemma split_at_space (h h' r r' : list byte) : Forall (fun c => c <> 32) h -> Forall (fun c => c <> 32) h' ->
  h ++ 32 :: r = h' ++ 32 :: r' -> h = h' /\ r = r'.
Proof.
  intros H. revert h'. induction H as [|c h Hc H IH]; intros h' H' E; destruct H' as [|c' h' Hc' H'].
  - injection E as ->. auto.
  - cbn [app] in E. injection E as E _. congruence.
  - cbn [app] in E. injection E as E _. congruence.
  - cbn [app] in E. injection E as -> E. destruct (IH _ H' E) as [-> ->]. auto.
Qed.

Lemma tag_message ft w n : 0 <= n -> exists h h0,
  show_tag ft w n = txt "unexpected discriminant 0x" ++ h ++ txt " for enum-type " ++ ft /\
  hex_value h n /\ numeral 16 h0 n /\ zlen h = Z.max (zlen h0) (2 * tag_size w - 2).
Proof.
  intros Hn. destruct (alt_hex_ok (tag_size w * 2) n Hn) as (h & E & V & F & h0 & N & L). exists h, h0.
  repeat split; trivial; [|lia]. unfold show_tag. rewrite E, <- app_assoc. reflexivity.
Qed.

Lemma tag_messages_differ ft ft' w w' n n' : 0 <= n -> 0 <= n' ->
  show_tag ft w n = show_tag ft' w' n' -> n = n' /\ ft = ft'.
Proof.
  intros Hn Hn' E. unfold show_tag in E. apply app_inv_head in E.
  destruct (alt_hex_ok (tag_size w * 2) n Hn) as (h & Eh & V & F & _).
  destruct (alt_hex_ok (tag_size w' * 2) n' Hn') as (h' & Eh' & V' & F' & _).
  rewrite Eh, Eh', <- !app_assoc in E. apply app_inv_head in E.
  assert (G : forall h, Forall (fun c => exists d, hex_digit c d) h -> Forall (fun c => c <> 32) h).
  { intros l. apply Forall_impl. intros c [d Hd]. apply hex_digit_range in Hd. lia. }
  change (txt " for enum-type ") with (32 :: txt "for enum-type ") in E. cbn [app] in E.
  destruct (split_at_space _ _ _ _ (G _ F) (G _ F') E) as [-> E'].
  split; [eapply hex_value_fun; eassumption|]. exact (app_inv_head _ _ _ E').
Qed.

Lemma token_bytes ft e : error_bytes_ok (EToken e) ->
  match e with
  | InvalidBoolean b => exists h, show_token ft e = txt "invalid boolean encoding 0x" ++ h /\ hex_denotes h [b]
  | NonTerminating l => exists h, show_token ft e = txt "element failed to terminate: " ++ h /\ hex_denotes h l
  | NonNullPaddingByte l => exists h, show_token ft e = txt "non-null byte found in padding: " ++ h /\ hex_denotes h l
  | InvalidTag w n _ => show_token ft e = txt "invalid tag: " ++ show_tag ft w n
  end.
Proof.
  destruct e as [b|w n x|l|l]; cbn [error_bytes_ok]; intros H; [|reflexivity|..]; (eexists; split; [reflexivity|]).
  - rewrite <- (app_nil_r (fmt_02x b)). change (hex_denotes (hex_of_bytes [b]) [b]). apply to_hex_spec. constructor; [exact H|constructor].
  - apply to_hex_spec. exact H.
  - apply to_hex_spec. exact H.
Qed.

(** * Numbers *)
Lemma decimal_fun s z z' : decimal s z -> decimal s z' -> z = z'.
Proof.
  intros [[Hz H]|(Hz & t & E & H)] [[Hz' H']|(Hz' & t' & E' & H')].
  - eapply numeral_fun; eassumption.
  - subst. apply decimal_chars in H. inversion H; subst. discriminate.
  - subst. apply decimal_chars in H'. inversion H'; subst. discriminate.
  - subst. injection E' as ->. pose proof (numeral_fun _ _ _ H _ H'). lia.
Qed.
Lemma show_int_inj z z' : show_int z = show_int z' -> z = z'.
Proof. intros E. eapply decimal_fun; [apply show_int_decimal|]. rewrite E. apply show_int_decimal. Qed.

Lemma wrap_u32 z : ik_wrap U32 z = z mod 2 ^ 32.
Proof. reflexivity. Qed.
Lemma ranged_format rc m k lo hi r z :
  ri_sanity lo hi = true -> ranged_ok k lo hi z = true ->
  exists s, ri_fmt rc m lo hi r z = ROk s /\ numeral (match r with Bin => 2 | Oct => 8 | LHex | UHex => 16 end) s (ranged_value lo z mod 2 ^ 32).
Proof.
  intros Hs Hz. unfold ri_fmt. rewrite (to_i32_value rc m k lo hi z Hs Hz). cbn [rbind]. eexists. split; [reflexivity|].
  change (match r with Bin => 2 | Oct => 8 | _ => 16 end) with (radix_base r). unfold fmt_i32. rewrite wrap_u32. apply digits_ok; [destruct r; cbn [radix_base]; lia|apply radix_digit_ok|].
  apply Z.mod_pos_bound. reflexivity.
Qed.

(** The case of the digits. *)
Lemma digits_chars (Q : byte -> Prop) base dig n : 2 <= base <= 16 -> (forall d, 0 <= d < 16 -> Q (dig d)) -> 0 <= n -> Forall Q (digits base dig n).
Proof.
  intros Hb HQ. unfold digits. generalize (Z.to_nat (Z.log2 n + 1)) as f. intros f. revert n.
  induction f as [|f IH]; intros n Hn; cbn [digits_loop]; [constructor|].
  destruct (n <? base) eqn:E; [constructor; [apply HQ; lia|constructor]|].
  apply Forall_app. split; [apply IH, Z.div_pos; lia|]. constructor; [|constructor]. apply HQ.
  pose proof (Z.mod_pos_bound n base ltac:(lia)). lia.
Qed.
Lemma ranged_format_case rc m k lo hi r z s :
  ri_sanity lo hi = true -> ranged_ok k lo hi z = true -> ri_fmt rc m lo hi r z = ROk s ->
  Forall (match r with UHex => upper_hex | _ => lower_hex end) s.
Proof.
  intros Hs Hz. unfold ri_fmt. rewrite (to_i32_value rc m k lo hi z Hs Hz). cbn [rbind]. intros E. injection E as <-.
  unfold fmt_i32. apply digits_chars.
  - destruct r; cbn [radix_base]; lia.
  - intros d Hd. destruct r; cbn [radix_digit]; try (apply lower_digit_spec; exact Hd). unfold upper_digit, upper_hex. destruct (d <? 10) eqn:?; lia.
  - rewrite wrap_u32. apply Z.mod_pos_bound. reflexivity.
Qed.

Lemma debug_text z : exists s, decimal s z /\
  debug_n z = [226; 132; 149] ++ txt "(" ++ s ++ txt ")" /\ debug_z z = [226; 132; 164] ++ txt "(" ++ s ++ txt ")".
Proof. exists (show_zarith z). split; [apply show_int_decimal|]. split; reflexivity. Qed.

Lemma tag_message_expected name utf8 other f64 k actual expected :
  show_parse name utf8 other f64 (promote k (te_new actual expected)) =
    txt "invalid tag: " ++ show_tag name (tag_width_of k) actual /\
  show_parse name utf8 other f64 (promote k (te_from actual)) =
    show_parse name utf8 other f64 (promote k (te_new actual expected)) /\
  te_actual (te_from actual) = actual /\ te_expected (te_from actual) = None.
Proof. repeat split. Qed.
