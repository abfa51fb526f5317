(** When a release build reads out of bounds while decoding (C31), concluded: the
    three parsers. *)
From Verif Require Import Base BaseLemmas ModelErrors ModelSplitVec ModelParser ModelInt ModelFloat ModelZarith
  ModelUtf8 ModelTarget ModelSchema SpecParser SpecCodec SpecNum SpecUtf8 SpecGrammar SpecPanic SpecSpill
  ProofParser ProofParserSim ProofParserProps ProofParserExact ProofInt ProofSafe ProofDec ProofCodec ProofMeta ProofTransfer
  ProofTyped ProofRoundTrip ProofSettle ProofView ProofBroken ProofNum ProofCodecThms ProofHalt ProofCodecProps ProofGrammar ProofPanic
  ProofSpill ProofSpillAll ProofSpillHalt.
From Coq Require Import ZifyBool.

(** ** Offsets *)
Definition co_at (L c : Z) (o : context_offset) : Prop :=
  (exists fs, co_frames o = L :: fs) /\ co_cur o = c /\ 0 <= L < c /\ c <= co_abs o <= isize_max.

Lemma at_limit L c o : co_at L c o -> co_limit o = L.
Proof. intros ((fs & H) & _). unfold co_limit. rewrite H. reflexivity. Qed.
Lemma at_advance L c o n : co_at L c o -> 0 <= n <= isize_max -> @co_advance parse_error Release n o = ROk (c, false, mkCO (co_abs o) (co_frames o) c).
Proof.
  intros H Hn. pose proof (at_limit L c o H) as HL. destruct H as (_ & Hc & Hr & Ha). pose proof isize_max_lt.
  unfold co_advance, increment_checked. rewrite Hc, HL, uadd_ok by lia. cbn [rbind].
  destruct (Z.leb_spec (c + n) L); [lia|]. reflexivity.
Qed.
Lemma wrap_add c L n : 0 <= c <= isize_max -> 0 <= n -> 0 <= L - n < c -> @uadd parse_error Release c (L - c + usize_mod - n) = ROk (L - n).
Proof.
  intros H1 H2 H3. unfold uadd. destruct (Z.ltb_spec (c + (L - c + usize_mod - n)) usize_mod); [lia|]. f_equal.
  replace (c + (L - c + usize_mod - n)) with (L - n + 1 * usize_mod) by lia. rewrite Z.mod_add by (unfold usize_mod; lia).
  apply Z.mod_small. pose proof isize_max_lt. lia.
Qed.
Lemma at_all L c o : co_at L c o -> @co_advance parse_error Release (L - c + usize_mod) o = ROk (c, true, mkCO (co_abs o) (co_frames o) L).
Proof.
  intros H. pose proof (at_limit L c o H) as HL. destruct H as (_ & Hc & Hr & Ha).
  unfold co_advance, increment_checked. rewrite Hc, HL. replace (L - c + usize_mod) with (L - c + usize_mod - 0) by lia.
  rewrite wrap_add by lia. rewrite Z.sub_0_r. cbn [rbind]. destruct (Z.leb_spec L L); [|lia]. reflexivity.
Qed.
Lemma at_slice L c o buf : co_at L c o -> @vb_get_slice_unchecked parse_error Release c (L - c + usize_mod) buf = RUB.
Proof.
  intros (_ & Hc & Hr & Ha). unfold vb_get_slice_unchecked. replace (L - c + usize_mod) with (L - c + usize_mod - 0) by lia.
  rewrite wrap_add by lia. cbn [rbind]. replace (c <=? L - 0) with false by lia. reflexivity.
Qed.
Lemma at_shift L c o n : co_at L c o -> 0 <= n <= isize_max ->
  if n <=? L then exists o', co_set_fit Release (L - c + usize_mod - n) o = (ROk tt, o') /\ co_at (L - n) c o'
  else exists e o', co_set_fit Release (L - c + usize_mod - n) o = (RErr e, o').
Proof.
  intros ((fs & Hf) & Hc & Hr & Ha) Hn. pose proof isize_max_lt. unfold co_set_fit, co_index. rewrite Hc. destruct (Z.leb_spec n L).
  - rewrite wrap_add by lia. destruct (Z.ltb_spec (co_abs o) (L - n)); [lia|]. unfold fs_push_frame. rewrite Hf. cbn [fs_peek hd_error detect_error].
    destruct (Z.ltb_spec L (L - n)); [lia|]. eexists. split; [reflexivity|]. unfold co_at. cbn [co_frames co_cur co_abs].
    split; [eauto|]. split; [reflexivity|]. lia.
  - rewrite uadd_ok by lia. destruct (Z.ltb_spec (co_abs o) (c + (L - c + usize_mod - n))); [|lia].
    unfold usub. destruct (_ <=? _); cbn [rbind]; eauto.
Qed.
Lemma at_close L c o : co_at L c o -> exists e o', co_enforce_target o = (RErr e, o').
Proof.
  intros ((fs & Hf) & Hc & Hr & Ha). unfold co_enforce_target, co_index. rewrite Hf, Hc. destruct (Z.compare_spec L c); [lia|eauto|lia].
Qed.
Lemma at_rem L c o : co_at L c o -> @usub parse_error Release (co_limit o) (co_index o) = ROk (L - c + usize_mod).
Proof.
  intros H. rewrite (at_limit L c o H). destruct H as (_ & Hc & Hr & Ha). unfold co_index. rewrite Hc. unfold usub.
  pose proof isize_max_lt. destruct (Z.leb_spec c L); [lia|]. f_equal.
  rewrite <- (Z.mod_add _ 1) by (unfold usize_mod; lia). rewrite Z.mul_1_l. apply Z.mod_small. lia.
Qed.

(** The end of the window that is open. *)
Definition total (outer : list (list byte)) : Z := zsum (map zlen outer).
Lemma pieces_total buf bs : forall i, asc i bs -> 0 <= i -> (forall b, In b bs -> b <= zlen buf) -> total (pieces buf i bs) = last bs i - i.
Proof.
  unfold total. induction bs as [|b bs IH]; intros i Ha Hi Hb; cbn [pieces map].
  - cbn [last]. unfold zsum. cbn [fold_right]. lia.
  - destruct Ha as [H1 H2]. change (zsum (zlen (zslice i b buf) :: map zlen (pieces buf b bs))) with (zlen (zslice i b buf) + zsum (map zlen (pieces buf b bs))).
    rewrite IH; [|exact H2|lia|intros; apply Hb; right; assumption]. rewrite zlen_zslice by (try lia; apply Hb; left; reflexivity).
    assert (last (b :: bs) i = last bs b) by (clear; revert b; induction bs as [|x xs IHx]; intros b; [reflexivity|]; cbn [last] in *; destruct xs; [reflexivity|apply IHx]).
    lia.
Qed.
Lemma asc_le i bs a b : asc i (bs ++ [a]) -> In b (bs ++ [a]) -> b <= a.
Proof.
  revert i. induction bs as [|x xs IH]; intros i Ha Hin; cbn [app asc] in *.
  - destruct Hin as [<-|[]]; lia.
  - destruct Ha as [_ Ha]. destruct Hin as [<-|Hin]; [apply asc_last in Ha; exact Ha|eapply IH; eassumption].
Qed.
Lemma co_edge buf o cur outer : co_inv buf o -> co_alpha buf o = mkW cur outer -> co_limit o = zlen buf - total outer.
Proof.
  intros Hi Ha. pose proof (co_inv_limit _ _ Hi) as (H1 & H2 & H3 & H4). destruct Hi as (_ & _ & Hc & Hasc).
  unfold co_alpha in Ha. injection Ha as _ <-. pose proof (co_limit_bounds o) as Eb.
  assert (Hle : forall b, In b (bp_bounds o) -> b <= zlen buf).
  { intros b Hb. rewrite <- H3. unfold bp_bounds in *. eapply asc_le; eassumption. }
  assert (Hl : last (bp_bounds o) 0 = co_abs o) by (unfold bp_bounds; apply last_last).
  rewrite Eb in Hasc, Hle, Hl. rewrite Eb. cbn [pieces tl]. destruct Hasc as [_ Hasc].
  rewrite pieces_total; [|exact Hasc|lia|intros b Hb; apply Hle; right; exact Hb].
  assert (last (co_limit o :: tl (bp_bounds o)) 0 = last (tl (bp_bounds o)) (co_limit o)).
  { generalize (co_limit o). generalize (tl (bp_bounds o)). clear. induction l as [|x xs IHx]; intros b; [reflexivity|]. cbn [last] in *. destruct xs; [reflexivity|apply IHx]. }
  lia.
Qed.
Lemma co_short buf o cur outer n : co_inv buf o -> co_alpha buf o = mkW cur outer -> zlen cur < n <= isize_max ->
  if n <=? zlen buf - total outer then exists o', co_set_fit Release (zlen cur - n + usize_mod) o = (ROk tt, o') /\ co_at (zlen buf - total outer - n) (co_cur o) o'
  else exists e o', co_set_fit Release (zlen cur - n + usize_mod) o = (RErr e, o').
Proof.
  intros Hi Ha Hn. rewrite <- (co_edge buf o cur outer Hi Ha). pose proof (co_alpha_len _ _ Hi) as HC. rewrite Ha in HC. cbn [w_cur] in HC.
  pose proof (co_inv_limit _ _ Hi) as (H1 & H2 & H3 & H4). pose proof isize_max_lt.
  replace (zlen cur - n + usize_mod) with (co_limit o - co_cur o + usize_mod - n) by lia.
  unfold co_set_fit, co_index. destruct (Z.leb_spec n (co_limit o)).
  - rewrite wrap_add by lia. destruct (Z.ltb_spec (co_abs o) (co_limit o - n)); [lia|]. unfold fs_push_frame.
    assert (Ed : detect_error (fs_peek (co_frames o)) (co_limit o - n) = None).
    { unfold detect_error. unfold co_limit. destruct (fs_peek (co_frames o)); [|reflexivity]. destruct (Z.ltb_spec z (z - n)); [lia|reflexivity]. }
    rewrite Ed. eexists. split; [reflexivity|]. unfold co_at. cbn [co_frames co_cur co_abs]. split; [eauto|]. split; [reflexivity|]. lia.
  - rewrite uadd_ok by lia. destruct (Z.ltb_spec (co_abs o) (co_cur o + (co_limit o - co_cur o + usize_mod - n))); [|lia].
    unfold usub. destruct (_ <=? _); cbn [rbind]; eauto.
Qed.

(** ** MemoParser: what was consumed can still be dumped *)
Definition mun_ok (c : Z) (p : memo_parser) : Prop :=
  zlen (mp_buf p) <= isize_max /\ c <= zlen (mp_buf p) /\ Forall (fun n => 0 <= n) (mp_munches p) /\ zsum (mp_munches p) <= c.
Lemma mun_dump c p : mun_ok c p -> exists sv, @mp_dump parse_error Release p = ROk sv.
Proof. intros (H1 & H2 & H3 & H4). apply mp_dump_loop_ok; try assumption; lia. Qed.

Section Input.
Variables (cf : config) (D : list def) (t : ty) (input : list byte).
Hypothesis HD : wf_defs D = true.
Hypothesis HW : wf_ty D t = true.
Hypothesis HB : bytes_ok input.
Hypothesis HL : zlen input <= isize_max.
Hypothesis HM : cf_mode cf = Release.
Let spl (b : bool) (e : Z) := spills (culprit b) (cf_check_padding cf) D e t input.

Section From.
Context {P : Type} (w : which_parser) (h : handler P) (inv : P -> Prop) (alpha : P -> wstack) (B : Z -> Z -> P -> Prop) (edge : list (list byte) -> Z)
  (cleanup : P -> cleanup_result) (init : P).
Hypothesis Href : refines_contract Release h inv alpha.
Hypothesis Hedge : forall r outer, edge (r :: outer) = edge outer - zlen r.
Hypothesis Hopen : forall p cur outer n, inv p -> alpha p = mkW cur outer -> zlen cur < n <= isize_max ->
  if n <=? edge outer then exists c p', h unit (OpSetFit (zlen cur - n + usize_mod)) p = (ROk tt, p') /\ B (edge outer - n) c p'
  else exists e p', h unit (OpSetFit (zlen cur - n + usize_mod)) p = (RErr e, p').
Hypothesis HBr : forall L c p, B L c p -> 0 <= L < c /\ c <= isize_max.
Hypothesis Hrem : forall L c p, B L c p -> h Z OpRemainder p = (ROk (L - c + usize_mod), p).
Hypothesis Hbyte : forall L c p, B L c p -> exists e p', h byte OpConsumeByte p = (RErr e, p').
Hypothesis Hcons : forall L c p n, B L c p -> 0 <= n <= isize_max -> exists e p', h (list byte) (OpConsume n) p = (RErr e, p').
Hypothesis Hall : forall L c p, B L c p -> fst (h (list byte) (OpConsume (L - c + usize_mod)) p) = RUB.
Hypothesis Hshift : forall L c p n, B L c p -> 0 <= n <= isize_max ->
  if n <=? L then exists p', h unit (OpSetFit (L - c + usize_mod - n)) p = (ROk tt, p') /\ B (L - n) c p'
  else exists e p', h unit (OpSetFit (L - c + usize_mod - n)) p = (RErr e, p').
Hypothesis Hclose : forall L c p, B L c p -> exists e p', h unit OpEnforceTarget p = (RErr e, p').
Hypothesis Hnev : forall f t, wf_ty D t = true -> never h inv alpha (parse cf D f t) (dec cf D f t).
Hypothesis Hinit : inv init.
Hypothesis Halpha : alpha init = mkW input [].
Hypothesis Hw : forall f, decode_with w cf D f t input = try_decode h cleanup init cf D f t.

Lemma bad_of (b : bool) f : decode_with w cf D f t input = (if b then RUB else RPanic) -> bad h b (parse cf D f t) init.
Proof.
  intros H. pose proof H as H'. rewrite Hw in H. unfold try_decode in H. unfold bad, wrong.
  destruct (run h (parse cf D f t) init) as [r p] eqn:Er. cbn [fst].
  destruct r as [v|e| | |]; [exfalso|exfalso; destruct b; discriminate H|destruct b; [discriminate H|reflexivity]|destruct b; [reflexivity|discriminate H]|exfalso; destruct b; discriminate H].
  destruct (rel_ok_inv h inv alpha Href _ _ init input [] v p (Hnev f t HW) (runs_dec cf D f t) (try_parse cf D f t) Hinit Halpha (conj HB HL) Er) as (rest & Ed & _).
  pose proof (decode_cases w cf D t input HL f) as C. rewrite Ed, H' in C. unfold finished in C.
  destruct (_ && _) in C; [destruct C as (lo & C & _)|]; destruct b; congruence.
Qed.
Lemma wrong_from (b : bool) : decodes w cf D t input (if b then RUB else RPanic) <-> spl b (edge []).
Proof.
  split.
  - intros [_ [f Hf]].
    refine (sound_bad_all h inv alpha B edge Href Hedge Hopen HBr Hrem Hbyte Hcons Hall Hshift Hclose b cf D HD HM Hnev f t init input [] HW Hinit Halpha (conj HB HL) _).
    apply bad_of. apply Hf. apply Nat.le_refl.
  - intros H. eapply (complete_ub h inv alpha B edge Href Hedge Hopen HBr Hrem Hall Hshift b cf D HD HM) in H; [|exact HW|split; assumption].
    destruct H as [f Hf]. apply (decodes_at w cf D t input f); [|destruct b; discriminate]. specialize (Hf f init [] (Nat.le_refl f) Hinit Halpha eq_refl).
    unfold bad in Hf. rewrite Hw. unfold try_decode. destruct (run h (parse cf D f t) init) as [r p]. cbn [fst] in Hf. subst r. destruct b; reflexivity.
Qed.
Lemma ends_from I R f : terminating D I R = true -> loops_ok I t = true -> step_bound D I R t (zlen input) <= Z.of_nat f ->
  decode_with w cf D f t input <> RDiv.
Proof.
  intros HT HLo Hf H. pose proof (dec_halts cf D I R f t input HT HLo Hf) as N. pose proof (decode_cases w cf D t input HL f) as C.
  destruct (dec cf D f t input) as [[v rest]|e| | |] eqn:Ed; [| | | |congruence].
  - unfold finished in C. destruct (_ && _); [destruct C as (lo & C & _)|]; congruence.
  - destruct C as [[e' C]|[_ C]]; congruence.
  - congruence.
  - rewrite Hw in H. unfold try_decode in H.
    assert (HR : 0 <= max_rank R) by apply R_nonneg. pose proof (P_pos D I R HT).
    assert (S0 : ends (fst (run h (parse cf D f t) init))).
    { refine (stops_all h inv alpha B edge Href Hopen HBr Hrem Hbyte Hcons Hall Hshift Hclose cf D I R HD HM HT
        (Z.max (rounds I t) (max_rounds D I)) ltac:(lia) f t (zlen input) (max_rank R + 1) HW HLo ltac:(lia) (low_top D I R HT _) ltac:(lia) _
        init input [] Hinit Halpha (conj HB HL) ltac:(lia) Ed).
      unfold step_bound in Hf. unfold need. lia. }
    destruct (run h (parse cf D f t) init) as [[v|e| | |] p']; try discriminate H; destruct S0.
Qed.
End From.

Lemma never_sub {P A} (h : handler P) (inv inv' : P -> Prop) alpha (pg : prog A) d : (forall p, inv' p -> inv p) -> never h inv alpha pg d -> never h inv' alpha pg d.
Proof. intros Hs H p cur outer Hi. apply H. apply Hs; exact Hi. Qed.

Lemma byte_spills : (decodes WByte cf D t input RUB <-> spl true (zlen input)) /\ (decodes WByte cf D t input RPanic <-> spl false (zlen input)) /\
  (forall I R f, terminating D I R = true -> loops_ok I t = true -> step_bound D I R t (zlen input) <= Z.of_nat f -> decode_with WByte cf D f t input <> RDiv).
Proof.
  set (inv := fun p => bp_inv p /\ bp_buf p = input). set (B := fun L c p => co_at L c (bp_off p)). set (edge := fun outer => zlen input - total outer).
  assert (A1 : refines_contract Release (byte_h Release) inv bp_alpha).
  { intros X o p x w' r p' [Hi Hb] Hc Es E. pose proof (byte_refines Release X o p x w' r p' Hi Hc Es E) as H.
    pose proof (bp_buf_const Release o p) as Hk. rewrite E in Hk. cbn [snd] in Hk. unfold inv. destruct r; intuition congruence. }
  assert (A2 : forall r outer, edge (r :: outer) = edge outer - zlen r).
  { intros r outer. unfold edge, total. cbn [map]. change (zsum (zlen r :: map zlen outer)) with (zlen r + zsum (map zlen outer)). lia. }
  assert (A3 : forall p cur outer n, inv p -> bp_alpha p = mkW cur outer -> zlen cur < n <= isize_max ->
    if n <=? edge outer then exists c p', byte_h Release unit (OpSetFit (zlen cur - n + usize_mod)) p = (ROk tt, p') /\ B (edge outer - n) c p'
    else exists e p', byte_h Release unit (OpSetFit (zlen cur - n + usize_mod)) p = (RErr e, p')).
  { intros p cur outer n [Hi Hb] Ha Hn. pose proof (co_short _ _ cur outer n Hi Ha Hn) as H. unfold edge, B. rewrite <- Hb. cbn [byte_h]. unfold bp_set_fit.
    destruct (_ <=? _); [destruct H as (o' & -> & Hat)|destruct H as (e & o' & ->)]; cbn [fst]; eauto. }
  assert (A4 : forall L c p, B L c p -> 0 <= L < c /\ c <= isize_max) by (intros L c p (_ & _ & H1 & H2); lia).
  assert (A5 : forall L c p, B L c p -> byte_h Release Z OpRemainder p = (ROk (L - c + usize_mod), p)).
  { intros L c p H. cbn [byte_h]. unfold bp_remainder, bp_view_len, bp_offset. rewrite (at_rem L c _ H). reflexivity. }
  assert (A6 : forall L c p n, B L c p -> 0 <= n <= isize_max -> exists e p', byte_h Release (list byte) (OpConsume n) p = (RErr e, p')).
  { intros L c p n H Hn. cbn [byte_h]. unfold bp_consume. rewrite (at_advance L c _ n H Hn). cbv iota beta zeta. eauto. }
  assert (A7 : forall L c p, B L c p -> exists e p', byte_h Release byte OpConsumeByte p = (RErr e, p')).
  { intros L c p H. cbn [byte_h]. unfold bp_consume_byte. rewrite (at_advance L c _ 1 H) by (split; vm_compute; discriminate). cbv iota beta zeta. eauto. }
  assert (A8 : forall L c p, B L c p -> fst (byte_h Release (list byte) (OpConsume (L - c + usize_mod)) p) = RUB).
  { intros L c p H. cbn [byte_h]. unfold bp_consume. rewrite (at_all L c _ H). cbn [fst]. exact (at_slice L c _ _ H). }
  assert (A9 : forall L c p n, B L c p -> 0 <= n <= isize_max ->
    if n <=? L then exists p', byte_h Release unit (OpSetFit (L - c + usize_mod - n)) p = (ROk tt, p') /\ B (L - n) c p'
    else exists e p', byte_h Release unit (OpSetFit (L - c + usize_mod - n)) p = (RErr e, p')).
  { intros L c p n H Hn. pose proof (at_shift L c _ n H Hn) as H'. unfold B. cbn [byte_h]. unfold bp_set_fit.
    destruct (_ <=? _); [destruct H' as (o' & -> & Hat)|destruct H' as (e & o' & ->)]; eauto. }
  assert (A10 : forall L c p, B L c p -> exists e p', byte_h Release unit OpEnforceTarget p = (RErr e, p')).
  { intros L c p H. cbn [byte_h]. unfold bp_enforce_target. destruct (at_close L c _ H) as (e & o' & ->). eauto. }
  assert (A11 : forall f t, wf_ty D t = true -> never (byte_h Release) inv bp_alpha (parse cf D f t) (dec cf D f t)).
  { intros f t0 HW0. apply (never_sub _ bp_inv); [intros p [Hp _]; exact Hp|].
    exact (never_dec (byte_h Release) bp_inv bp_alpha bp_broken (byte_refines Release) bp_open bp_step bp_fail cf D HD HM f t0 HW0). }
  assert (A12 : inv (bp_from_buffer input)) by (split; [apply bp_init_inv; exact HL|reflexivity]).
  assert (A13 : forall f, decode_with WByte cf D f t input = try_decode (byte_h Release) (bp_cleanup Release) (bp_from_buffer input) cf D f t).
  { intros f. cbn [decode_with]. unfold byte_decode. rewrite HM. reflexivity. }
  assert (Ee : edge [] = zlen input) by (unfold edge, total, zsum; cbn [map fold_right]; lia).
  split; [rewrite <- Ee|split; [rewrite <- Ee|]].
  - exact (wrong_from WByte (byte_h Release) inv bp_alpha B edge (bp_cleanup Release) (bp_from_buffer input) A1 A2 A3 A4 A5 A7 A6 A8 A9 A10 A11 A12 (bp_init_alpha input) A13 true).
  - exact (wrong_from WByte (byte_h Release) inv bp_alpha B edge (bp_cleanup Release) (bp_from_buffer input) A1 A2 A3 A4 A5 A7 A6 A8 A9 A10 A11 A12 (bp_init_alpha input) A13 false).
  - exact (ends_from WByte (byte_h Release) inv bp_alpha B edge (bp_cleanup Release) (bp_from_buffer input) A1 A3 A4 A5 A7 A6 A8 A9 A10 A12 (bp_init_alpha input) A13).
Qed.

Lemma memo_spills : (decodes WMemo cf D t input RUB <-> spl true (zlen input)) /\ (decodes WMemo cf D t input RPanic <-> spl false (zlen input)) /\
  (forall I R f, terminating D I R = true -> loops_ok I t = true -> step_bound D I R t (zlen input) <= Z.of_nat f -> decode_with WMemo cf D f t input <> RDiv).
Proof.
  set (inv := fun p => mp_inv p /\ bp_buf (mp_bp p) = input).
  set (alpha := fun p => bp_alpha (mp_bp p)).
  set (B := fun L c p => co_at L c (mp_off p) /\ mun_ok c p). set (edge := fun outer => zlen input - total outer).
  assert (A1 : refines_contract Release (memo_h Release) inv alpha).
  { intros X o p x w' r p' [Hi Hb] Hc Es E. pose proof (memo_refines Release X o p x w' r p' Hi Hc Es E) as H.
    destruct (ProofParserSim.mp_step Release o p Hi (in_contract_fits Release o _ Hc) _ _ E) as [E' _].
    pose proof (bp_buf_const Release o (mp_bp p)) as Hk. rewrite E' in Hk. cbn [snd] in Hk. unfold inv, alpha. destruct r; intuition congruence. }
  assert (A2 : forall r outer, edge (r :: outer) = edge outer - zlen r).
  { intros r outer. unfold edge, total. cbn [map]. change (zsum (zlen r :: map zlen outer)) with (zlen r + zsum (map zlen outer)). lia. }
  assert (A3 : forall p cur outer n, inv p -> alpha p = mkW cur outer -> zlen cur < n <= isize_max ->
    if n <=? edge outer then exists c p', memo_h Release unit (OpSetFit (zlen cur - n + usize_mod)) p = (ROk tt, p') /\ B (edge outer - n) c p'
    else exists e p', memo_h Release unit (OpSetFit (zlen cur - n + usize_mod)) p = (RErr e, p')).
  { intros p cur outer n [(Hi & Hf & Hs) Hb] Ha Hn. pose proof (co_short _ _ cur outer n Hi Ha Hn) as H.
    pose proof (co_inv_limit _ _ Hi) as (G1 & G2 & G3 & G4).
    change (mp_buf p) with (bp_buf (mp_bp p)) in H. unfold edge, B. rewrite <- Hb. cbn [memo_h]. unfold mp_set_fit.
    destruct (_ <=? _); [destruct H as (o' & -> & Hat)|destruct H as (e & o' & ->)]; [|eauto].
    eexists _, _. split; [reflexivity|]. cbn [mp_off]. split; [exact Hat|]. unfold mun_ok. cbn [mp_buf mp_munches]. repeat split; try assumption; lia. }
  assert (A4 : forall L c p, B L c p -> 0 <= L < c /\ c <= isize_max) by (intros L c p [(_ & _ & H1 & H2) _]; lia).
  assert (A5 : forall L c p, B L c p -> memo_h Release Z OpRemainder p = (ROk (L - c + usize_mod), p)).
  { intros L c p [H _]. cbn [memo_h]. unfold mp_remainder, mp_view_len, mp_offset. rewrite (at_rem L c _ H). reflexivity. }
  assert (A6 : forall L c p n, B L c p -> 0 <= n <= isize_max -> exists e p', memo_h Release (list byte) (OpConsume n) p = (RErr e, p')).
  { intros L c p n [H Hu] Hn. cbn [memo_h]. unfold mp_consume. rewrite (at_advance L c _ n H Hn). cbv iota beta zeta.
    match goal with |- context [mp_dump Release ?q] => destruct (mun_dump c q) as [sv E]; [exact Hu|rewrite E] end. cbn [rbind]. eauto. }
  assert (A7 : forall L c p, B L c p -> exists e p', memo_h Release byte OpConsumeByte p = (RErr e, p')).
  { intros L c p [H Hu]. cbn [memo_h]. unfold mp_consume_byte. rewrite (at_advance L c _ 1 H) by (split; vm_compute; discriminate). cbv iota beta zeta.
    match goal with |- context [mp_dump Release ?q] => destruct (mun_dump c q) as [sv E]; [exact Hu|rewrite E] end. cbn [rbind]. eauto. }
  assert (A8 : forall L c p, B L c p -> fst (memo_h Release (list byte) (OpConsume (L - c + usize_mod)) p) = RUB).
  { intros L c p [H _]. cbn [memo_h]. unfold mp_consume. rewrite (at_all L c _ H). cbn [fst]. exact (at_slice L c _ _ H). }
  assert (A9 : forall L c p n, B L c p -> 0 <= n <= isize_max ->
    if n <=? L then exists p', memo_h Release unit (OpSetFit (L - c + usize_mod - n)) p = (ROk tt, p') /\ B (L - n) c p'
    else exists e p', memo_h Release unit (OpSetFit (L - c + usize_mod - n)) p = (RErr e, p')).
  { intros L c p n [H Hu] Hn. pose proof (at_shift L c _ n H Hn) as H'. unfold B. cbn [memo_h]. unfold mp_set_fit.
    destruct (_ <=? _); [destruct H' as (o' & -> & Hat)|destruct H' as (e & o' & ->)]; [|eauto].
    eexists. split; [reflexivity|]. split; [exact Hat|exact Hu]. }
  assert (A10 : forall L c p, B L c p -> exists e p', memo_h Release unit OpEnforceTarget p = (RErr e, p')).
  { intros L c p [H _]. cbn [memo_h]. unfold mp_enforce_target. destruct (at_close L c _ H) as (e & o' & ->). eauto. }
  assert (A11 : forall f t, wf_ty D t = true -> never (memo_h Release) inv alpha (parse cf D f t) (dec cf D f t)).
  { intros f t0 HW0. apply (never_sub _ mp_inv); [intros p [Hp _]; exact Hp|].
    exact (never_dec (memo_h Release) mp_inv alpha mp_broken (memo_refines Release) mp_open mp_step mp_fail cf D HD HM f t0 HW0). }
  assert (A12 : inv (mp_from_buffer input)) by (split; [apply mp_init_inv; exact HL|reflexivity]).
  assert (A13 : forall f, decode_with WMemo cf D f t input = try_decode (memo_h Release) (mp_cleanup Release) (mp_from_buffer input) cf D f t).
  { intros f. cbn [decode_with]. unfold memo_decode. rewrite HM. reflexivity. }
  assert (Ee : edge [] = zlen input) by (unfold edge, total, zsum; cbn [map fold_right]; lia).
  split; [rewrite <- Ee|split; [rewrite <- Ee|]].
  - exact (wrong_from WMemo (memo_h Release) inv alpha B edge (mp_cleanup Release) (mp_from_buffer input) A1 A2 A3 A4 A5 A7 A6 A8 A9 A10 A11 A12 (bp_init_alpha input) A13 true).
  - exact (wrong_from WMemo (memo_h Release) inv alpha B edge (mp_cleanup Release) (mp_from_buffer input) A1 A2 A3 A4 A5 A7 A6 A8 A9 A10 A11 A12 (bp_init_alpha input) A13 false).
  - exact (ends_from WMemo (memo_h Release) inv alpha B edge (mp_cleanup Release) (mp_from_buffer input) A1 A3 A4 A5 A7 A6 A8 A9 A10 A12 (bp_init_alpha input) A13).
Qed.

(** Without an end to run past there is nothing to spill. *)
Lemma no_spill what e t0 bs : spills what (cf_check_padding cf) D e t0 bs -> 0 < e.
Proof.
  intros H. induction H using spills_mut with (P0 := fun e ts bs _ => 0 < e); try assumption.
  - pose proof (zlen_nonneg bs). lia.
  - pose proof (zlen_nonneg r). lia.
  - pose proof (zlen_nonneg r). lia.
Qed.
Lemma slice_spills : ~ decodes WSlice cf D t input RUB /\ ~ decodes WSlice cf D t input RPanic /\
  (forall I R f, terminating D I R = true -> loops_ok I t = true -> step_bound D I R t (zlen input) <= Z.of_nat f -> decode_with WSlice cf D f t input <> RDiv).
Proof.
  set (B := fun (_ _ : Z) (_ : slice_parser) => False). set (edge := fun outer => - total outer).
  assert (A2 : forall r outer, edge (r :: outer) = edge outer - zlen r).
  { intros r outer. unfold edge, total. cbn [map]. change (zsum (zlen r :: map zlen outer)) with (zlen r + zsum (map zlen outer)). lia. }
  assert (A3 : forall p cur outer n, sp_inv p -> sp_alpha p = mkW cur outer -> zlen cur < n <= isize_max ->
    if n <=? edge outer then exists c p', slice_h unit (OpSetFit (zlen cur - n + usize_mod)) p = (ROk tt, p') /\ B (edge outer - n) c p'
    else exists e p', slice_h unit (OpSetFit (zlen cur - n + usize_mod)) p = (RErr e, p')).
  { intros p cur outer n Hi Ha Hn. pose proof (zlen_nonneg cur) as H0.
    assert (Ht : 0 <= total outer) by (apply zsum_nonneg; clear; induction outer; constructor; [apply zlen_nonneg|assumption]).
    destruct (Z.leb_spec n (edge outer)) as [Hle|_]; [unfold edge in Hle; lia|].
    destruct p as [|fr rest]; [destruct (Hi eq_refl)|]. unfold sp_alpha in Ha. cbn [hd tl] in Ha.
    injection Ha as -> _. cbn [slice_h]. unfold sp_set_fit. pose proof isize_max_lt. assert (0 < isize_max) by reflexivity.
    destruct (Z.leb_spec (zlen cur - n + usize_mod) (zlen cur)); [lia|eauto]. }
  assert (A11 : forall f t, wf_ty D t = true -> never slice_h sp_inv sp_alpha (parse cf D f t) (dec cf D f t)).
  { intros f t0 HW0. refine (never_dec slice_h sp_inv sp_alpha (fun _ => False) (slice_refines Release) sp_open _ _ cf D HD HM f t0 HW0); contradiction. }
  assert (A12 : sp_inv (sp_from_buffer input)) by (unfold sp_inv, sp_from_buffer; discriminate).
  assert (A13 : forall f, decode_with WSlice cf D f t input = try_decode slice_h sp_cleanup (sp_from_buffer input) cf D f t) by reflexivity.
  assert (F : forall L c p (X : Prop), B L c p -> X) by (intros L c p X []).
  assert (Ee : edge [] = 0) by reflexivity.
  assert (U : forall b : bool, ~ decodes WSlice cf D t input (if b then RUB else RPanic)).
  { intros b H. apply (wrong_from WSlice slice_h sp_inv sp_alpha B edge sp_cleanup (sp_from_buffer input) (slice_refines Release) A2 A3
      (fun L c p H => F L c p _ H) (fun L c p H => F L c p _ H) (fun L c p H => F L c p _ H) (fun L c p n H _ => F L c p _ H) (fun L c p H => F L c p _ H)
      (fun L c p n H _ => F L c p _ H) (fun L c p H => F L c p _ H) A11 A12 eq_refl A13) in H.
    rewrite Ee in H. apply no_spill in H. lia. }
  split; [exact (U true)|split; [exact (U false)|]].
  - exact (ends_from WSlice slice_h sp_inv sp_alpha B edge sp_cleanup (sp_from_buffer input) (slice_refines Release) A3
      (fun L c p H => F L c p _ H) (fun L c p H => F L c p _ H) (fun L c p H => F L c p _ H) (fun L c p n H _ => F L c p _ H) (fun L c p H => F L c p _ H)
      (fun L c p n H _ => F L c p _ H) (fun L c p H => F L c p _ H) A12 eq_refl A13).
Qed.
End Input.

Theorem undefined_iff_spills w cf D t input : wf_defs D = true -> wf_ty D t = true -> bytes_ok input -> zlen input <= isize_max ->
  decodes w cf D t input RUB <->
  cf_mode cf = Release /\ w <> WSlice /\ spills all_left (cf_check_padding cf) D (zlen input) t input.
Proof.
  intros HD HW HB HL. destruct (cf_mode cf) eqn:Em.
  - split; [|intros [F _]; discriminate F]. intros [_ [f Hf]]. exfalso.
    apply (no_ub_with w cf D t input f HD HW); [unfold pads_ok; rewrite Em; reflexivity|exact HB|exact HL|]. apply Hf. apply Nat.le_refl.
  - destruct w.
    + destruct (byte_spills cf D t input HD HW HB HL Em) as [U _]. rewrite U. intuition discriminate.
    + destruct (memo_spills cf D t input HD HW HB HL Em) as [U _]. rewrite U. intuition discriminate.
    + destruct (slice_spills cf D t input HD HW HB HL Em) as [U _]. tauto.
Qed.
Theorem panics_iff w cf D t input : wf_defs D = true -> wf_ty D t = true -> bytes_ok input -> zlen input <= isize_max ->
  decodes w cf D t input RPanic <->
  (cf_mode cf = Debug /\ trips (cf_check_padding cf) D (fun n => w <> WSlice /\ zlen input < n) t input) \/
  (cf_mode cf = Release /\ w <> WSlice /\ spills big_number (cf_check_padding cf) D (zlen input) t input).
Proof.
  intros HD HW HB HL. destruct (cf_mode cf) eqn:Em.
  - rewrite (panics_exactly cf D t input HD HW HB HL Em w). intuition discriminate.
  - destruct w.
    + destruct (byte_spills cf D t input HD HW HB HL Em) as (_ & U & _). rewrite U. intuition discriminate.
    + destruct (memo_spills cf D t input HD HW HB HL Em) as (_ & U & _). rewrite U. intuition discriminate.
    + destruct (slice_spills cf D t input HD HW HB HL Em) as (_ & U & _). intuition discriminate.
Qed.

(** Decoding ends, undefined behaviour included. *)
Theorem decoding_ends_all w cf D I R t input f : wf_defs D = true -> wf_ty D t = true -> terminating D I R = true ->
  loops_ok I t = true -> bytes_ok input -> zlen input <= isize_max ->
  step_bound D I R t (zlen input) <= Z.of_nat f -> decode_with w cf D f t input <> RDiv.
Proof.
  intros HD HW HT HLo HB HL Hf. destruct (cf_mode cf) eqn:Em.
  - apply (decoding_ends w cf D I R); try assumption. unfold pads_ok. rewrite Em. reflexivity.
  - destruct w.
    + exact (proj2 (proj2 (byte_spills cf D t input HD HW HB HL Em)) I R f HT HLo Hf).
    + exact (proj2 (proj2 (memo_spills cf D t input HD HW HB HL Em)) I R f HT HLo Hf).
    + exact (proj2 (proj2 (slice_spills cf D t input HD HW HB HL Em)) I R f HT HLo Hf).
Qed.
Theorem decoding_answers_all w cf D I R t input : wf_defs D = true -> wf_ty D t = true -> terminating D I R = true ->
  loops_ok I t = true -> bytes_ok input -> zlen input <= isize_max -> exists out, decodes w cf D t input out.
Proof.
  intros HD HW HT HLo HB HL. set (f := Z.to_nat (step_bound D I R t (zlen input))).
  exists (decode_with w cf D f t input). eapply decodes_at; [reflexivity|].
  apply (decoding_ends_all w cf D I R); auto. unfold f. lia.
Qed.
Theorem answered w cf D I R t input : wf_defs D = true -> wf_ty D t = true -> terminating D I R = true -> loops_ok I t = true ->
  bytes_ok input -> zlen input <= isize_max ->
  match cf_mode cf with
  | Debug => ~ trips (cf_check_padding cf) D (fun n => w <> WSlice /\ zlen input < n) t input
  | Release => w = WSlice \/ (~ spills all_left (cf_check_padding cf) D (zlen input) t input /\ ~ spills big_number (cf_check_padding cf) D (zlen input) t input)
  end ->
  (exists v, decodes w cf D t input (ROk v)) \/ (exists e, decodes w cf D t input (RErr e)).
Proof.
  intros HD HW HT HLo HB HL N. destruct (decoding_answers_all w cf D I R t input HD HW HT HLo HB HL) as [out Ho].
  destruct out as [v|e| | |]; [left; eauto|right; eauto| | |].
  - apply (panics_iff w cf D t input HD HW HB HL) in Ho. destruct Ho as [[Em Ho]|(Em & Hw & Ho)]; rewrite Em in N; [contradiction|]. destruct N as [N|N]; [contradiction|]. destruct (proj2 N Ho).
  - apply (undefined_iff_spills w cf D t input HD HW HB HL) in Ho. destruct Ho as (Em & Hw & Ho). rewrite Em in N. destruct N as [N|N]; [contradiction|]. destruct (proj1 N Ho).
  - destruct Ho as [F _]. congruence.
Qed.

Lemma parsed_or_refused w cf D f t input e : decode_with w cf D f t input = RErr e ->
  (exists e', e = DParse e') \/ exists v, run_with w (cf_mode cf) (pbind (parse cf D f t) (fun v => PRet v)) input = ROk v.
Proof.
  assert (HH : forall P (h : handler P) c p0, try_decode h c p0 cf D f t = RErr e ->
    (exists e', e = DParse e') \/ exists v, fst (run h (pbind (parse cf D f t) (fun v => PRet v)) p0) = ROk v).
  { intros P h c p0 H. unfold try_decode in H. rewrite run_pbind. destruct (run h (parse cf D f t) p0) as [[v'|e'| | |] p]; try discriminate H.
    - right. exists v'. reflexivity.
    - left. injection H as <-. eauto. }
  destruct w; cbn [decode_with run_with]; unfold byte_decode, memo_decode, slice_decode; apply HH.
Qed.
Theorem outside_refused cf D t input : wf_defs D = true -> wf_ty D t = true -> bytes_ok input -> zlen input <= isize_max ->
  forall I R w, terminating D I R = true -> loops_ok I t = true ->
  (forall v rest, ~ denotes (cf_check_padding cf) D t input v rest) ->
  (exists e, decodes w cf D t input (RErr (DParse e))) \/ ((cf_mode cf = Release -> w <> WSlice) /\ decodes w cf D t input RPanic) \/
  (cf_mode cf = Release /\ w <> WSlice /\ decodes w cf D t input RUB).
Proof.
  intros HD HW HB HL I R w HT HLo N. destruct (decoding_answers_all w cf D I R t input HD HW HT HLo HB HL) as [out Ho].
  assert (ND : forall f v rest, dec cf D f t input <> ROk (v, rest)).
  { intros f v rest E. destruct (N v rest). eapply (sound_all cf D HD); [exact HW|split; assumption|exact E]. }
  destruct out as [v|e| | |].
  - destruct (decodes_inv w cf D t input HD HW HB HL v Ho) as (f & rest & E & _). destruct (ND f v rest E).
  - left. apply settles_at in Ho as Hf. destruct Hf as [f Hf]. destruct (parsed_or_refused w cf D f t input e Hf) as [[e' ->]|[v Hv]]; [eauto|].
    pose proof (decode_cases w cf D t input HL f) as C. destruct (dec cf D f t input) as [[v' rest]|e0| | |] eqn:E.
    + destruct (ND f v' rest E).
    + destruct C as [[e' C]|[_ C]]; rewrite Hf in C; [injection C as ->; eauto|discriminate C].
    + rewrite Hf in C. discriminate C.
    + destruct (never_parse w cf D t input HD HW HB HL f _ _ E Hv).
    + rewrite Hf in C. discriminate C.
  - right. left. split; [|exact Ho]. apply (panics_iff w cf D t input HD HW HB HL) in Ho. destruct Ho as [[Em _]|[_ [Hw _]]]; [rewrite Em; discriminate|auto].
  - right. right. pose proof Ho as Hu. apply (undefined_iff_spills w cf D t input HD HW HB HL) in Hu. tauto.
  - destruct Ho as [F _]. congruence.
Qed.
