(** Errors of decoding are justified by the input and the type. *)
From Verif Require Import Base BaseLemmas ModelErrors ModelParser ModelInt ModelFloat ModelZarith
  ModelUtf8 ModelTarget ModelSchema SpecParser SpecCodec SpecError ProofInt ProofZarith ProofFloat
  ProofParser ProofParserSim ProofDec ProofCodec ProofMeta ProofSafe ProofTransfer ProofView ProofNum ProofSettle.
From Coq Require Import ZifyBool.

(** ** Errors of the contract machine carry over *)
Definition shortage (e : parse_error) : Prop :=
  match e with
  | EWindow (ConsumeWouldExceedLimit _ _ _)
  | EWindow (OpenWouldExceedBuffer _ _)
  | EWindow (OpenWouldExceedWindow _ _) => True
  | EWindow (CloseWithResidue n) => 0 < n
  | _ => False
  end.
Definition short_only {P} (h : handler P) (inv : P -> Prop) (alpha : P -> wstack) : Prop :=
  forall (X : Set) (o : pop X) p e p', inv p -> in_contract o (alpha p) = true -> h X o p = (RErr e, p') -> shortage e.

(** ** No program of the library raises a window error itself *)
Definition own (e : parse_error) : Prop := match e with EWindow _ => False | _ => True end.
Fixpoint raises_own {A} (pg : prog A) : Prop :=
  match pg with
  | PErr e => own e
  | POp _ k => forall x, raises_own (k x)
  | PTry _ k f => (forall x, raises_own (k x)) /\ raises_own f
  | _ => True
  end.

Lemma run_error_own {P} m (h : handler P) inv alpha :
  refines_contract m h inv alpha -> short_only h inv alpha ->
  forall {A} (pg : prog A) p e, inv p -> try_bytes_only pg -> raises_own pg ->
  fst (run contract_h pg (alpha p)) <> RUB -> fst (run h pg p) = RErr e ->
  shortage e \/ (own e /\ fst (run contract_h pg (alpha p)) = RErr e).
Proof.
  intros Href Hs A pg.
  induction pg as [a|e0| | | |X o k IH|X o k IHk f IHf]; intros p e Hinv Htry Hown Hub He; cbn [run] in *;
    try discriminate; auto.
  - injection He as <-. right. split; [exact Hown|reflexivity].
  - unfold contract_h at 1 in Hub. unfold contract_h at 1.
    destruct (in_contract o (alpha p)) eqn:Ec; [|exfalso; apply Hub; reflexivity].
    destruct (spec_op Keep o (alpha p)) as [x w'] eqn:Es. rewrite (spec_h_eq _ _ _ _ _ Es) in *.
    destruct (h X o p) as [r p'] eqn:Eh.
    pose proof (Href X o p x w' r p' Hinv Ec Es Eh) as Hst.
    destruct r; try contradiction; try discriminate He.
    + destruct Hst as (-> & Hi & <-). apply IH; auto.
    + cbn [fst] in He. injection He as <-. left. exact (Hs X o p _ p' Hinv Ec Eh).
  - destruct Htry as (Hbop & Hk & Hf). destruct Hown as [Ho1 Ho2].
    unfold contract_h at 1 in Hub. unfold contract_h at 1.
    destruct (in_contract o (alpha p)) eqn:Ec; [|exfalso; apply Hub; reflexivity].
    destruct (spec_op Keep o (alpha p)) as [x w'] eqn:Es. rewrite (spec_h_eq _ _ _ _ _ Es) in *.
    destruct (h X o p) as [r p'] eqn:Eh.
    pose proof (Href X o p x w' r p' Hinv Ec Es Eh) as Hst.
    destruct r; try contradiction; try discriminate He.
    + destruct Hst as (-> & Hi & <-). apply IHk; auto.
    + destruct Hst as (-> & Hi). destruct (Hi Hbop) as [Hi1 <-]. apply IHf; auto.
Qed.

Lemma own_bind {A B} (pg : prog A) (k : A -> prog B) :
  raises_own pg -> (forall a, raises_own (k a)) -> raises_own (pbind pg k).
Proof.
  induction pg as [a|e| | | |X o kk IH|X o kk IHk f IHf]; cbn [pbind raises_own]; intros Hp Hk; auto.
  destruct Hp as (H1 & H2); split; auto.
Qed.
Lemma own_op {X : Set} (o : pop X) : raises_own (do_op o). Proof. cbn; auto. Qed.
Lemma own_ret {A} (a : A) : raises_own (PRet a). Proof. exact I. Qed.
Lemma own_panic {A} : raises_own (@PPanic A). Proof. exact I. Qed.
Lemma own_div {A} : raises_own (@PDiv A). Proof. exact I. Qed.
Lemma own_ext_int {A} (r : res bounds_error A) : raises_own (plift (ext_int r)). Proof. destruct r; exact I. Qed.
Lemma own_ext_float {A} (r : res bounds_error A) : raises_own (plift (ext_float r)). Proof. destruct r; exact I. Qed.
Lemma own_ext_len {A} (r : res length_error A) : raises_own (plift (ext_len r)). Proof. destruct r; exact I. Qed.
Lemma own_coerce n bs : raises_own (plift (coerce_slice n bs)).
Proof. unfold coerce_slice. destruct (_ =? _); exact I. Qed.
Lemma own_n bs : raises_own (plift (n_deserialize bs)).
Proof. unfold n_deserialize. destruct (from_radix_le_128 _); exact I. Qed.
Lemma own_z bs : raises_own (plift (z_deserialize bs)).
Proof. unfold z_deserialize. destruct bs; [exact I|]. destruct (from_radix_le_128 _); exact I. Qed.
Lemma own_assert m b : raises_own (plift (debug_assert m b)). Proof. destruct m, b; exact I. Qed.
Lemma own_usub m a b : raises_own (plift (usub m a b)).
Proof. unfold usub. destruct m, (b <=? a); exact I. Qed.
Lemma own_st_loop term fuel : forall acc, raises_own (p_self_terminating_loop fuel term acc).
Proof.
  induction fuel as [|fuel IH]; intros acc; cbn [p_self_terminating_loop raises_own]; auto.
  split; [|exact I]. intros b. destruct (term b); cbn [raises_own]; auto.
Qed.
Create HintDb own.
#[local] Hint Resolve own_op own_ret own_panic own_div own_ext_int own_ext_float own_ext_len own_coerce own_n own_z
  own_assert own_usub own_st_loop : own.
Ltac owns :=
  repeat first
    [ solve [auto with own]
    | apply own_bind; [|intros ?]
    | match goal with
      | |- raises_own (if ?b then _ else _) => destruct b
      | |- raises_own (match ?o with _ => _ end) => destruct o
      end
    | exact I ].
Lemma own_fixed n : raises_own (p_take_fixed n). Proof. unfold p_take_fixed, p_consume_arr, p_consume; owns. Qed.
#[local] Hint Resolve own_fixed : own.
Lemma own_int k : raises_own (p_int k). Proof. unfold p_int; owns. Qed.
#[local] Hint Resolve own_int : own.
Lemma own_tag k tags : raises_own (p_take_tagword k tags). Proof. unfold p_take_tagword; owns. Qed.
Lemma own_ranged cf k lo hi : raises_own (p_ranged cf k lo hi). Proof. unfold p_ranged; owns. Qed.
#[local] Hint Resolve own_tag own_ranged : own.
Lemma own_pref cf s : raises_own (p_pref cf s). Proof. destruct s; unfold p_pref; owns. Qed.
Lemma own_st term : raises_own (p_take_self_terminating term).
Proof. unfold p_take_self_terminating, p_remainder; owns. Qed.
Lemma own_bool : raises_own p_take_bool. Proof. unfold p_take_bool, p_consume_byte; owns. Qed.
#[local] Hint Resolve own_pref own_st own_bool : own.
Lemma own_parse cf D fuel : forall t, raises_own (parse cf D fuel t).
Proof.
  assert (Hseq : forall (pe : prog val) fl seq, raises_own pe -> raises_own (p_seq_loop fl pe seq)).
  { intros pe fl; induction fl as [|fl IHl]; intros seq He; cbn [p_seq_loop]; [exact I|unfold p_remainder; owns]. }
  assert (Hlim : forall (pe : prog val) n fl seq, raises_own pe -> raises_own (p_lim_loop fl n pe seq)).
  { intros pe n fl; induction fl as [|fl IHl]; intros seq He; cbn [p_lim_loop]; [exact I|unfold p_remainder; owns]. }
  assert (Hfix : forall (pe : prog val) n fl seq, raises_own pe -> raises_own (p_fix_loop fl n pe seq)).
  { intros pe n fl; induction fl as [|fl IHl]; intros seq He; cbn [p_fix_loop]; [exact I|unfold p_remainder; owns]. }
  assert (Hfld : forall ps ts, (forall t, raises_own (ps t)) -> raises_own (p_fields ps ts)).
  { intros ps ts He; induction ts as [|t ts IH]; cbn [p_fields]; owns. }
  induction fuel as [|f IH]; intros t; cbn [parse]; [exact I|].
  destruct t; unfold p_remainder, p_take_dynamic, p_consume, p_set_fit, p_enforce_target; owns.
Qed.

(** ** Programs that only report justified errors *)
Section Tells.
Variable input : list byte.
Hypothesis HB : bytes_ok input.
Hypothesis HL : zlen input <= isize_max.

Lemma occurs_refl bs : occurs bs bs.
Proof. exists [], []. rewrite app_nil_r. reflexivity. Qed.
Lemma occurs_trans a b c : occurs a b -> occurs b c -> occurs a c.
Proof.
  intros (x & y & ->) (u & v & ->). exists (u ++ x), (y ++ v). rewrite !app_assoc. reflexivity.
Qed.
Lemma occurs_suffix a b : suffix a b -> occurs a b.
Proof. intros [p ->]. exists p, []. rewrite app_nil_r. reflexivity. Qed.
Lemma occurs_prefix a b : occurs a (a ++ b).
Proof. exists [], b. reflexivity. Qed.
Lemma occurs_ztake n l : occurs (ztake n l) l.
Proof. exists [], (zdrop n l). cbn [app]. symmetry. apply ztake_zdrop. Qed.
Lemma occurs_good cur : occurs cur input -> good cur.
Proof.
  intros (a & b & E). split.
  - rewrite E in HB. apply bytes_ok_app in HB. destruct HB as [_ H]. apply bytes_ok_app in H. tauto.
  - rewrite E in HL. rewrite !zlen_app in HL. pose proof (zlen_nonneg a). pose proof (zlen_nonneg b). lia.
Qed.

Section P.
Variable P : parse_error -> Prop.
Hypothesis Pshort : P spec_failure.

Definition tells {A} (pg : prog A) : Prop :=
  forall cur outer e, occurs cur input -> fst (run contract_h pg (mkW cur outer)) = RErr e -> P e.

Lemma tells_bind {A B} (pg : prog A) (d : dm A) (k : A -> prog B) :
  runs pg d -> shrinks d -> tells pg ->
  (forall a cur rest, occurs cur input -> d cur = ROk (a, rest) -> tells (k a)) -> tells (pbind pg k).
Proof.
  intros Hr Hs Hp Hk cur outer e Hc H. rewrite run_pbind in H.
  pose proof (Hr cur outer (proj2 (occurs_good _ Hc))) as Ho. pose proof (Hp cur outer) as Hp'.
  destruct (run contract_h pg (mkW cur outer)) as [r s]. cbn [fst] in Hp'.
  destruct r as [a|e'| | |]; try discriminate H.
  - destruct (d cur) as [[a' rest]|e'| | |] eqn:Ed; unfold outcome in Ho; try discriminate Ho;
      [|destruct Ho as [? Ho]; discriminate Ho]. injection Ho as <- ->.
    apply (Hk a cur rest Hc Ed rest outer e); [|exact H].
    eapply occurs_trans; [apply occurs_suffix; exact (Hs _ _ _ Ed)|exact Hc].
  - cbn [fst] in H. injection H as <-. apply Hp'; auto.
Qed.
Lemma tells_ret {A} (a : A) : tells (PRet a). Proof. intros cur outer e _ H; discriminate H. Qed.
Lemma tells_panic {A} : tells (@PPanic A). Proof. intros cur outer e _ H; discriminate H. Qed.
Lemma tells_div {A} : tells (@PDiv A). Proof. intros cur outer e _ H; discriminate H. Qed.
Lemma tells_err {A} e : P e -> tells (@PErr A e).
Proof. intros He cur outer e' _ H. injection H as <-. exact He. Qed.
Lemma tells_lift {A} (r : pres A) : (forall e, r = RErr e -> P e) -> tells (plift r).
Proof. intros He cur outer e _ H. destruct r; try discriminate H. injection H as <-. apply He; reflexivity. Qed.
Lemma tells_rem : tells p_remainder. Proof. intros cur outer e _ H; discriminate H. Qed.
Lemma tells_byte : tells p_consume_byte.
Proof. intros [|b cur] outer e _ H; [|discriminate H]. injection H as <-. exact Pshort. Qed.
Lemma tells_consume n : tells (p_consume n).
Proof.
  intros cur outer e _ H. unfold p_consume in H. rewrite run_do_op in H. unfold contract_h in H.
  cbn [in_contract] in H. destruct (size_ok n); [|discriminate H]. unfold spec_h in H. cbn [spec_op w_cur w_outer] in H.
  destruct (n <=? zlen cur); [discriminate H|]. injection H as <-. exact Pshort.
Qed.
Lemma tells_window {A B} n (pg : prog A) (d : dm A) (f : A -> B) : runs pg d -> tells pg ->
  tells (pbind (p_set_fit n) (fun _ => pbind pg (fun v => pbind p_enforce_target (fun _ => PRet (f v))))).
Proof.
  intros Hr Hp cur outer e Hc H. rewrite run_pbind in H. unfold p_set_fit in H. rewrite run_do_op, contract_set_fit in H.
  destruct (size_ok n) eqn:Es; [|discriminate H].
  destruct (n <=? zlen cur) eqn:El; [|injection H as <-; exact Pshort].
  rewrite run_pbind in H.
  assert (Hc' : occurs (ztake n cur) input) by (eapply occurs_trans; [apply occurs_ztake|exact Hc]).
  pose proof (Hr (ztake n cur) (zdrop n cur :: outer) (proj2 (occurs_good _ Hc'))) as Ho.
  pose proof (Hp (ztake n cur) (zdrop n cur :: outer)) as Hp'.
  destruct (run contract_h pg (mkW (ztake n cur) (zdrop n cur :: outer))) as [r s]. cbn [fst] in Hp'.
  destruct r as [a|e'| | |]; try discriminate H.
  - destruct (d (ztake n cur)) as [[a' rest]|e'| | |] eqn:Ed; unfold outcome in Ho; try discriminate Ho;
      [|destruct Ho as [? Ho]; discriminate Ho]. injection Ho as <- ->.
    rewrite run_pbind in H. destruct rest as [|b rest]; cbn in H; [discriminate H|]. injection H as <-. exact Pshort.
  - cbn [fst] in H. injection H as <-. apply Hp'; auto.
Qed.

Lemma tells_fixed n : 0 <= n <= isize_max -> tells (p_take_fixed n).
Proof.
  intros Hn. unfold p_take_fixed, p_consume_arr. apply (tells_bind _ (d_consume n)); auto using tells_consume with dec.
  intros bs cur rest Hc Hd. apply tells_lift. intros e He. exfalso. unfold d_consume in Hd.
  destruct (size_ok n); [|discriminate Hd]. destruct (Z.leb_spec n (zlen cur)); [|discriminate Hd]. injection Hd as <- _.
  unfold coerce_slice in He. rewrite zlen_ztake, Z.eqb_refl in He by lia. discriminate He.
Qed.
Lemma tells_int k : tells (p_int k).
Proof.
  unfold p_int. apply (tells_bind _ (d_fixed (ik_len k))); auto using tells_ret with dec. apply tells_fixed.
  unfold isize_max. destruct (ik_len_cases k) as [E|[E|[E|E]]]; rewrite E; split; reflexivity || discriminate.
Qed.
(** What follows a number may use that its encoding was read. *)
Lemma tells_int_then {B} k (K : Z -> prog B) :
  (forall z, occurs (int_format k z) input -> ik_in k z = true -> tells (K z)) -> tells (pbind (p_int k) K).
Proof.
  intros H. apply (tells_bind _ (d_int k)); auto using tells_int with dec. intros z cur rest Hc Hd.
  apply d_int_ok in Hd; [|apply (occurs_good _ Hc)]. destruct Hd as [-> Hz]. apply H; [|exact Hz].
  eapply occurs_trans; [apply occurs_prefix|exact Hc].
Qed.
Lemma tells_bool : (forall b, occurs [b] input -> b <> 0 -> b <> 255 -> P (EToken (InvalidBoolean b))) -> tells p_take_bool.
Proof.
  intros H. unfold p_take_bool. apply (tells_bind _ d_byte); auto using tells_byte with dec. intros b cur rest Hc Hd.
  unfold d_byte in Hd. destruct cur as [|b' cur]; [discriminate Hd|]. injection Hd as -> ->.
  destruct (Z.eqb_spec b 255); [apply tells_ret|]. destruct (Z.eqb_spec b 0); [apply tells_ret|].
  apply tells_err, H; try assumption. eapply occurs_trans; [|exact Hc]. exists [], rest. reflexivity.
Qed.
Lemma tells_tag k tags : (tags = [] -> P (EInternal NoValidTags)) ->
  (forall z, occurs (int_format k z) input -> ~ In z tags -> P (EToken (InvalidTag (tag_width_of k) z (Some tags)))) ->
  tells (p_take_tagword k tags).
Proof.
  intros H1 H2. unfold p_take_tagword. apply tells_int_then. intros z Hz _.
  destruct (existsb (Z.eqb z) tags) eqn:Ex; [apply tells_ret|].
  assert (~ In z tags). { intros Hin. rewrite <- not_true_iff_false in Ex. apply Ex, existsb_exists. exists z. split; [exact Hin|apply Z.eqb_refl]. }
  destruct tags; apply tells_err; auto.
Qed.
Lemma tells_st_loop term fuel : forall acc cur outer e, (length cur < fuel)%nat -> occurs (acc ++ cur) input ->
  (forall b, In b acc -> term b = false) ->
  (forall buf, occurs buf input -> (forall b, In b buf -> term b = false) -> P (EToken (NonTerminating buf))) ->
  fst (run contract_h (p_self_terminating_loop fuel term acc) (mkW cur outer)) = RErr e -> P e.
Proof.
  induction fuel as [|fuel IH]; intros acc cur outer e Hf Hc Ha HP H; [lia|].
  cbn [p_self_terminating_loop run] in H. unfold contract_h at 1 in H. cbn [in_contract] in H.
  unfold spec_h in H; cbn [spec_op w_cur w_outer] in H.
  destruct cur as [|b cur]; cbn [run] in H.
  - injection H as <-. apply HP; [|exact Ha]. rewrite app_nil_r in Hc. exact Hc.
  - destruct (term b) eqn:Et; [discriminate H|].
    apply (IH (acc ++ [b]) cur outer e); [cbn [length] in Hf; lia|rewrite <- app_assoc; exact Hc| |exact HP|exact H].
    intros b' Hb. apply in_app_or in Hb. destruct Hb as [Hb|[<-|[]]]; auto.
Qed.
Lemma tells_st term :
  (forall buf, occurs buf input -> (forall b, In b buf -> term b = false) -> P (EToken (NonTerminating buf))) ->
  tells (p_take_self_terminating term).
Proof.
  intros HP cur outer e Hc H. unfold p_take_self_terminating in H. rewrite run_pbind in H.
  unfold p_remainder in H; rewrite run_do_op in H.
  change (contract_h Z OpRemainder (mkW cur outer)) with (@ROk parse_error _ (zlen cur), mkW cur outer) in H. cbv iota beta in H.
  destruct (Z.leb_spec (zlen cur) isize_max) as [_|]; [|discriminate H].
  apply (tells_st_loop term _ [] cur outer e) in H; [exact H|unfold zlen; lia|exact Hc|intros b []|exact HP].
Qed.
Lemma tells_seq (elem : prog val) d fuel : runs elem d -> shrinks d -> tells elem -> forall acc, tells (p_seq_loop fuel elem acc).
Proof.
  intros Hr Hs Ht. induction fuel as [|fuel IH]; intros acc; cbn [p_seq_loop]; [apply tells_div|].
  apply (tells_bind _ d_rem); auto using tells_rem with dec. intros rem _ _ _ _. destruct (rem =? 0); [apply tells_ret|].
  apply (tells_bind _ d); auto.
Qed.
Lemma tells_lim (elem : prog val) d n fuel : runs elem d -> shrinks d -> tells elem ->
  P (EExternal (LengthViolation (TooLong n (n + 1)))) -> forall acc, tells (p_lim_loop fuel n elem acc).
Proof.
  intros Hr Hs Ht Hl. induction fuel as [|fuel IH]; intros acc; cbn [p_lim_loop]; [apply tells_div|].
  apply (tells_bind _ d_rem); auto using tells_rem with dec. intros rem _ _ _ _. destruct (rem =? 0); [apply tells_ret|].
  apply (tells_bind _ d); auto. intros v _ _ _ _.
  apply (tells_bind _ (d_lift (ext_len (try_push n acc v)))); auto with dec.
  apply tells_lift. intros e. unfold try_push. destruct (_ <? _); [discriminate|]. intros H. injection H as <-. exact Hl.
Qed.
Lemma tells_fix (elem : prog val) d n fuel : runs elem d -> shrinks d -> tells elem ->
  (forall k, 0 <= k < n -> P (EExternal (LengthViolation (WrongLength n k)))) ->
  forall acc, zlen acc <= n -> tells (p_fix_loop fuel n elem acc).
Proof.
  intros Hr Hs Ht Hl. induction fuel as [|fuel IH]; intros acc Ha; cbn [p_fix_loop]; [apply tells_div|].
  apply (tells_bind _ d_rem); auto using tells_rem with dec. intros rem _ _ _ _.
  destruct (negb (rem =? 0) && (zlen acc <? n)) eqn:E.
  - apply (tells_bind _ d); auto. intros v _ _ _ _. apply IH. rewrite zlen_app. change (zlen [v]) with 1. lia.
  - destruct (Z.eqb_spec (zlen acc) n); [apply tells_ret|]. apply tells_err, Hl. pose proof (zlen_nonneg acc). lia.
Qed.
Lemma tells_fields parse dec ts : (forall t, In t ts -> tells (parse t)) -> (forall t, runs (parse t) (dec t)) ->
  (forall t, shrinks (dec t)) -> tells (p_fields parse ts).
Proof.
  intros Ht Hr Hs. induction ts as [|t ts IH]; cbn [p_fields]; [apply tells_ret|].
  apply (tells_bind _ (dec t)); auto; [apply Ht; left; reflexivity|]. intros v _ _ _ _.
  apply (tells_bind _ (d_fields dec ts)); auto with dec; [|intros; apply tells_ret].
  apply IH. intros u Hu. apply Ht. right. exact Hu.
Qed.
End P.

Lemma tells_mono (P Q : parse_error -> Prop) {A} (pg : prog A) : (forall e, P e -> Q e) -> tells P pg -> tells Q pg.
Proof. intros H Hp cur outer e Hc He. apply H. eapply Hp; eassumption. Qed.

(** ** The errors of a type *)
Section Types.
Variables (cf : config) (D : list def).
Hypothesis HD : wf_defs D = true.

(** The justification on the contract machine, whose shortages are all alike. *)
Definition just (t : ty) (e : parse_error) : Prop := e = spec_failure \/ justified cf D t input e.

Lemma justified_part t u e : (forall v, part D u v -> part D t v) -> justified cf D u input e -> justified cf D t input e.
Proof.
  intros H. unfold justified. destruct e as [[]|[]|[| | | |[|]|]|[|? ? []| |]]; try tauto.
  - intros (x & k & Hp & Ht). exists x, k; auto.
  - intros (k & lo & hi & val & Hp & Ho). exists k, lo, hi, val; auto.
  - intros (lo & hi & val & Hp & Ho). exists lo, hi, val; auto.
  - intros [[x Hp] Ho]. split; [exists x; auto|exact Ho].
  - intros [[x Hp] Ho]. split; [exists x; auto|exact Ho].
  - intros [Hp Ho]. auto.
  - intros (x & k & Hp & Ho). exists x, k; auto.
  - intros [[Hp|Hp] Ho]; auto.
  - intros (Hc & (n & x & Hp & Hn) & Ho). split; [exact Hc|]. split; [exists n, x; auto|exact Ho].
Qed.
Lemma just_part t u e : (forall v, part D u v -> part D t v) -> just u e -> just t e.
Proof. intros H [E|J]; [left; exact E|right; eapply justified_part; eassumption]. Qed.

Lemma restrict_blames val lo hi e : lo <= hi -> restrict val lo hi = RErr e -> blames_bounds lo hi val e.
Proof.
  intros Hlh. unfold restrict. repeat match goal with |- context [if ?b then _ else _] => destruct b eqn:? end;
    intros H; try discriminate H; injection H as <-; cbn [blames_bounds];
    repeat match goal with |- context [if ?b then _ else _] => destruct b eqn:? end; lia.
Qed.
Lemma restrict_float_blames val lo hi e : restrict_float val lo hi = RErr e -> blames_bounds_float lo hi val e.
Proof.
  unfold restrict_float. repeat match goal with |- context [if ?b then _ else _] => destruct b eqn:? end;
    intros H; try discriminate H; injection H as <-; cbn [blames_bounds_float]; auto.
Qed.

Lemma tells_ranged k lo hi : ri_sanity lo hi = true -> tells (just (TRanged k lo hi)) (p_ranged cf k lo hi).
Proof.
  intros Hs. unfold p_ranged. apply tells_int_then; [left; reflexivity|]. intros z Hz _.
  apply tells_lift. intros e. unfold ri_try_from_underlying, ri_check, rassert. rewrite Hs.
  replace (rbind (if cf_range_check cf then ROk tt else ROk tt) (fun _ => restrict z lo hi)) with (restrict z lo hi)
    by (destruct (cf_range_check cf); reflexivity).
  intros H. right. destruct (restrict z lo hi) as [|e'| | |] eqn:E; try discriminate H. injection H as <-.
  exists k, lo, hi, z. split; [apply part_here|]. split; [exact Hz|]. apply restrict_blames; [|exact E].
  unfold ri_sanity in Hs. lia.
Qed.
Lemma tells_pref s : tells (just (pref_ty s)) (p_pref cf s).
Proof.
  destruct s; cbn [p_pref pref_ty]; try (apply tells_int; left; reflexivity).
  apply (tells_bind _ _ (d_ranged cf U32 0 u30_max)); auto using tells_ret with dec. apply tells_ranged. reflexivity.
Qed.

Lemma tells_parse f : forall t, wf_ty D t = true -> tells (just t) (parse cf D f t).
Proof.
  induction f as [|f IH]; intros t HW; cbn [parse]; [apply tells_div|].
  assert (S : forall t, just t spec_failure) by (left; reflexivity).
  assert (Sub : forall t u, (forall v, part D u v -> part D t v) -> wf_ty D u = true ->
    tells (just t) (parse cf D f u)).
  { intros t' u Hp Hu. eapply tells_mono; [intros e; apply just_part; exact Hp|]. apply IH, Hu. }
  assert (Part_tag : forall t k tags, tagged D t k tags -> tells (just t) (p_take_tagword k tags)).
  { intros t' k tags Ht. apply tells_tag; auto.
    - intros ->. right. exists t', k. split; [apply part_here|exact Ht].
    - intros z Hz Hn. right. exists t', k. split; [apply part_here|]. auto. }
  assert (St : forall t, t = TN \/ t = TZ -> tells (just t) (p_take_self_terminating zarith_terminal)).
  { intros t' Ht. apply tells_st; auto. intros buf Hb Hn. right. split.
    - destruct Ht as [->| ->]; [left|right]; apply part_here.
    - split; [exact Hb|]. intros b Hin. pose proof (Hn b Hin) as Hz. pose proof (occurs_good _ Hb) as [Hk _].
      unfold bytes_ok in Hk. rewrite Forall_forall in Hk. specialize (Hk b Hin). rewrite terminal_spec in Hz by exact Hk. lia. }
  destruct t; cbn [wf_ty] in HW.
  - apply tells_ret.
  - apply (tells_bind _ _ d_bool); auto using tells_ret with dec. apply tells_bool; auto.
    intros b Hb H0 H1. right. split; [apply part_here|]. auto.
  - apply tells_int_then; auto using tells_ret.
  - apply (tells_bind _ _ (d_ranged cf k lo hi)); auto using tells_ret with dec. apply tells_ranged, HW.
  - apply tells_int_then; auto using tells_ret.
  - apply tells_int_then; auto. intros z Hz _. apply (tells_bind _ _ (d_lift (ext_float (rf_try_from_f64 lo hi z)))); auto using tells_ret with dec.
    apply tells_lift. intros e He. unfold rf_try_from_f64 in He. destruct (restrict_float z lo hi) as [|e'| | |] eqn:E; try discriminate He.
    injection He as <-. right. exists lo, hi, z. split; [apply part_here|]. split; [exact Hz|]. apply restrict_float_blames, E.
  - apply (tells_bind _ _ (d_st zarith_terminal)); auto with dec. intros bs cur rest Hc Hd.
    assert (Hb : bytes_ok bs) by (apply (proj2 (st_good true zarith_terminal cur (occurs_good _ Hc)) _ _ Hd)).
    rewrite n_deserialize_value by exact Hb. apply tells_ret.
  - apply (tells_bind _ _ (d_st zarith_terminal)); auto with dec. intros bs cur rest Hc Hd.
    destruct (proj2 (st_good true zarith_terminal cur (occurs_good _ Hc)) _ _ Hd) as [Hb Hn].
    rewrite z_deserialize_value by assumption. apply tells_ret.
  - apply (tells_bind _ _ d_rem); auto using tells_rem with dec. intros rem _ _ _ _. unfold p_take_dynamic.
    apply (tells_bind _ _ (d_consume rem)); auto using tells_consume, tells_ret with dec.
  - apply (tells_bind _ _ d_rem); auto using tells_rem with dec. intros rem _ _ _ _. unfold p_take_dynamic.
    apply (tells_bind _ _ (d_consume rem)); auto using tells_consume, tells_ret with dec.
  - apply (tells_bind _ _ (d_fixed n)); auto using tells_ret with dec. apply tells_fixed; auto. unfold sizeb in HW; lia.
  - apply (tells_bind _ _ (d_fixed n)); auto using tells_ret with dec. apply tells_fixed; auto. unfold sizeb in HW; lia.
  - (* option *)
    apply (tells_bind _ _ (d_tag U8 [0; 255])); auto with dec; [apply Part_tag; split; reflexivity|].
    intros tag _ _ _ _. destruct (tag =? 255).
    + apply (tells_bind _ _ (dec cf D f t)); auto using tells_ret, runs_dec with dec. apply Sub; auto using part_option.
    + destruct (tag =? 0); [apply tells_ret|apply tells_panic].
  - apply (tells_bind _ _ d_rem); auto using tells_rem with dec. intros rem _ _ _ _. destruct (negb _); [|apply tells_ret].
    apply (tells_bind _ _ (dec cf D f t)); auto using tells_ret, runs_dec with dec. apply Sub; auto using part_nullable.
  - apply (tells_bind _ _ (d_seq f (dec cf D f t) [])); auto using tells_ret, runs_seq, runs_dec with dec.
    apply (tells_seq _ _ (dec cf D f t)); auto using runs_dec with dec. apply Sub; auto using part_seq.
  - apply andb_prop in HW; destruct HW as [HN HW].
    apply (tells_bind _ _ (d_lim f n (dec cf D f t) [])); auto using tells_ret, runs_lim, runs_dec with dec.
    apply (tells_lim _ _ (dec cf D f t)); auto using runs_dec with dec; [apply Sub; auto using part_lim|].
    right. split; [exists t; apply part_here|lia].
  - apply andb_prop in HW; destruct HW as [HN HW].
    apply (tells_bind _ _ (d_fix f n (dec cf D f t) [])); auto using tells_ret, runs_fix, runs_dec with dec.
    apply (tells_fix _ _ (dec cf D f t)); auto using runs_dec with dec; [apply Sub; auto using part_fix| |].
    + intros k Hk. right. split; [exists t; apply part_here|exact Hk].
    + unfold sizeb in HN. change (zlen (@nil val)) with 0. lia.
  - apply (tells_bind _ _ (d_pref cf s)); auto with dec.
    + eapply tells_mono; [intros e; apply just_part; apply part_prefix|]. apply tells_pref.
    + intros n _ _ _ _. apply (tells_window _ (S _) _ _ (dec cf D f t)); auto using runs_dec. apply Sub; auto using part_dyn.
  - apply andb_prop in HW; destruct HW as [HN HW].
    apply (tells_bind _ _ d_rem); auto using tells_rem with dec. intros rem _ _ _ _.
    apply (tells_bind _ _ (d_lift (debug_assert (cf_mode cf) (n <=? rem)))); auto with dec.
    { apply tells_lift. intros e. unfold debug_assert. destruct (cf_mode cf), (n <=? rem); discriminate. }
    intros _ _ _ _ _. apply (tells_bind _ _ (d_lift (usub (cf_mode cf) rem n))); auto with dec.
    { apply tells_lift. intros e. unfold usub. destruct (cf_mode cf), (n <=? rem); discriminate. }
    intros win _ _ _ _. apply (tells_window _ (S _) _ _ (dec cf D f t)); auto using runs_dec. apply Sub; auto using part_vpad.
  - apply andb_prop in HW; destruct HW as [HN HW].
    apply (tells_bind _ _ (dec cf D f t)); auto using runs_dec with dec; [apply Sub; auto using part_pad|].
    intros v _ _ _ _. apply (tells_bind _ _ (d_consume n)); auto using tells_consume with dec. intros p cur rest Hc Hd.
    destruct (cf_check_padding cf && negb (forallb (Z.eqb 0) p)) eqn:E; [|apply tells_ret].
    apply andb_prop in E. destruct E as [E1 E2]. apply tells_err. right. unfold d_consume in Hd.
    destruct (size_ok n) eqn:Es; [|discriminate Hd]. destruct (Z.leb_spec n (zlen cur)); [|discriminate Hd]. injection Hd as <- _.
    unfold sizeb in HN. split; [exact E1|]. split; [|split].
    + exists n, t. split; [apply part_here|]. rewrite zlen_ztake by lia. lia.
    + eapply occurs_trans; [apply occurs_ztake|exact Hc].
    + apply negb_true_iff in E2. clear - E2. induction (ztake n cur) as [|b l IHl]; [discriminate E2|]. cbn [forallb] in E2.
      destruct (Z.eqb_spec 0 b) as [<-|]; [|exists b; split; [left; reflexivity|congruence]].
      destruct (IHl E2) as (x & Hx & Hn). exists x. split; [right; exact Hx|exact Hn].
  - apply (tells_bind _ _ (dec cf D f t)); auto using runs_dec, tells_ret with dec. apply Sub; auto using part_box.
  - destruct (nth_error D i) as [[ts|k tags|k alts]|] eqn:Ei; [| | |apply tells_panic].
    + apply (tells_bind _ _ (d_fields (dec cf D f) ts)); auto using runs_dec, tells_ret with dec.
      apply (tells_fields _ _ (dec cf D f)); auto using runs_dec with dec. intros u Hu.
      apply Sub; [intros v Hv; eapply part_struct; eassumption|].
      pose proof (wf_struct D i ts HD Ei) as W. rewrite forallb_forall in W. auto.
    + apply (tells_bind _ _ (d_tag k tags)); auto with dec; [apply Part_tag; unfold tagged; rewrite Ei; auto|].
      intros tag _ _ _ _. destruct (find_tag tag tags); [apply tells_ret|apply tells_panic].
    + apply (tells_bind _ _ (d_tag k (map fst alts))); auto with dec; [apply Part_tag; unfold tagged; rewrite Ei; auto|].
      intros tag _ _ _ _. destruct (find_tag tag (map fst alts)) as [ix|]; [|apply tells_panic].
      destruct (nth_error alts ix) as [[tg ts]|] eqn:Ea; [|apply tells_panic].
      apply (tells_bind _ _ (d_fields (dec cf D f) ts)); auto using runs_dec, tells_ret with dec.
      apply (tells_fields _ _ (dec cf D f)); auto using runs_dec with dec. intros u Hu.
      apply Sub; [intros v Hv; eapply part_data; try eassumption; eapply nth_error_In; exact Ea|].
      pose proof (wf_data D i k alts ix tg ts HD Ei Ea) as W. rewrite forallb_forall in W. auto.
Qed.
End Types.
End Tells.

(** ** The three parsers fail an operation only for want of bytes *)
Lemma usub_err {E} m a b (e : E) : usub m a b <> RErr e.
Proof. unfold usub. destruct m, (b <=? a); discriminate. Qed.

Lemma byte_short m : short_only (byte_h m) bp_inv bp_alpha.
Proof.
  intros X o [buf off] e p' Hi Hc H. unfold bp_inv, bp_alpha in *; cbn [bp_buf bp_off] in *.
  pose proof (co_inv_limit _ _ Hi) as HL.
  destruct o; cbn [byte_h] in H.
  - unfold bp_remainder in H. destruct (usub _ _ _) eqn:E; try discriminate H. exfalso; exact (usub_err _ _ _ _ E).
  - unfold bp_consume_byte in H. destruct (co_advance _ _ _) as [[[ix []] off']| | | |]; try discriminate H.
    + unfold vb_get_byte, vb_get_byte_unchecked, rassert in H. destruct (_ <=? _); [|discriminate H].
      cbn [rbind] in H. destruct (nth_error _ _); discriminate H.
    + injection H as <- _. exact I.
  - unfold bp_consume in H. destruct (co_advance _ _ _) as [[[ix []] off']| | | |]; try discriminate H.
    + unfold vb_get_slice_unchecked, uadd in H. destruct m, (_ <? _); try discriminate H; cbn [rbind] in H;
        destruct (_ && _); discriminate H.
    + injection H as <- _. exact I.
  - unfold bp_set_fit, co_set_fit in H. cbn [bp_off] in H. destruct (uadd _ _ _); try discriminate H.
    destruct (_ <? _).
    + destruct (usub _ _ _) eqn:E; cbn [rbind] in H; try discriminate H; [injection H as <- _; exact I|].
      exfalso; exact (usub_err _ _ _ _ E).
    + unfold fs_push_frame, detect_error in H. destruct (fs_peek _); [destruct (_ <? _)|]; try discriminate H.
      injection H as <- _. exact I.
  - unfold bp_test_target in H. injection H as H _. exfalso. unfold co_test_target, fs_peek, co_index in H.
    destruct Hi as (_ & _ & _ & Ha). unfold bp_bounds in Ha. destruct (co_frames off) as [|t fs]; [discriminate H|].
    cbn [app asc hd_error] in *. destruct (Z.compare_spec t (co_cur off)); try discriminate H. cbn [bp_off] in *. lia.
  - unfold bp_enforce_target, co_enforce_target, co_index in H. cbn [bp_off] in H.
    destruct Hi as (_ & _ & _ & Ha). unfold bp_bounds in Ha.
    destruct (co_frames off) as [|t fs] eqn:Ef.
    + exfalso. cbn [in_contract] in Hc. unfold co_alpha, bp_bounds in Hc. rewrite Ef in Hc. discriminate Hc.
    + cbn [app asc] in Ha. destruct (Z.compare_spec t (co_cur off)); try discriminate H; [lia|].
      injection H as <- _. cbn [shortage]. lia.
  - unfold bp_skip in H. cbn [bp_off] in H. destruct (co_rem m off) eqn:E; try discriminate H.
    + destruct (co_advance _ _ _) as [[[ix []] off']| | | |]; discriminate H.
    + exfalso. revert E. unfold co_rem, debug_assert. destruct m, (co_index off <=? co_limit off); cbn [rbind]; try discriminate; apply usub_err.
  - unfold bp_skip_exactly in H. destruct (co_advance _ _ _) as [[[ix []] off']| | | |]; try discriminate H.
    injection H as <- _. exact I.
Qed.
Lemma memo_short m : short_only (memo_h m) mp_inv (fun p => bp_alpha (mp_bp p)).
Proof.
  intros X o p e p' Hi Hc H. destruct (mp_step m o p Hi (in_contract_fits m o _ Hc) _ _ H) as [H' _].
  exact (byte_short m X o (mp_bp p) e _ (proj1 Hi) Hc H').
Qed.
Lemma slice_short : short_only slice_h sp_inv sp_alpha.
Proof.
  intros X o p e p' Hi Hc H. destruct p as [|fr p]; [destruct (Hi eq_refl)|].
  destruct o; cbn [slice_h] in H.
  all: cbn [sp_consume_byte sp_consume sp_set_fit sp_test_target sp_enforce_target sp_skip sp_skip_exactly] in H;
    unfold slb_cut_first, slb_take_unchecked, slb_split_unchecked in H.
  - discriminate H.
  - destruct fr; [|discriminate H]. injection H as <- _. exact I.
  - destruct (n <=? zlen fr); [discriminate H|]. injection H as <- _. exact I.
  - destruct (n <=? zlen fr); [discriminate H|]. injection H as <- _. exact I.
  - discriminate H.
  - destruct (Z.eqb_spec (zlen fr) 0); [discriminate H|]. injection H as <- _. cbn [shortage].
    pose proof (zlen_nonneg fr). lia.
  - destruct (_ <=? _); discriminate H.
  - destruct (n <=? zlen fr); [discriminate H|]. injection H as <- _. exact I.
Qed.

(** ** The property *)
Lemma shortage_justified cf D t input e : shortage e -> justified cf D t input e.
Proof. destruct e as [[]| | |]; cbn; tauto. Qed.

Section Final.
Variables (cf : config) (D : list def) (t : ty) (input : list byte).
Hypothesis HD : wf_defs D = true.
Hypothesis HW : wf_ty D t = true.
Hypothesis HP : pads_ok cf D t = true.
Hypothesis HB : bytes_ok input.
Hypothesis HL : zlen input <= isize_max.

Lemma run_justified {P} m (h : handler P) inv alpha p0 f e :
  refines_contract m h inv alpha -> short_only h inv alpha -> inv p0 -> alpha p0 = mkW input [] ->
  fst (run h (parse cf D f t) p0) = RErr e -> justified cf D t input e.
Proof.
  intros Href Hs Hi Ha He.
  assert (Hub : fst (run contract_h (parse cf D f t) (alpha p0)) <> RUB).
  { rewrite Ha. pose proof (runs_dec cf D f t input [] HL) as Ho. pose proof (dec_no_ub cf D t input f HD HW HP HB HL) as Hn.
    unfold outcome in Ho. destruct (dec cf D f t input) as [[v r]|e'| | |]; try congruence.
    - rewrite Ho. discriminate.
    - destruct Ho as [? ->]. discriminate. }
  destruct (run_error_own m h inv alpha Href Hs (parse cf D f t) p0 e Hi (try_parse cf D f t) (own_parse cf D f t) Hub He)
    as [S|[Ho Hc]].
  - apply shortage_justified, S.
  - rewrite Ha in Hc.
    destruct (tells_parse input HB HL cf D HD f t HW input [] e (occurs_refl input) Hc) as [->|J]; [destruct Ho|exact J].
Qed.

Lemma errors_justified w e : decodes w cf D t input (RErr (DParse e)) -> justified cf D t input e.
Proof.
  intros [_ [f0 H]]. specialize (H f0 (le_n _)). cbv beta in H.
  assert (K : forall {P} (h : handler P) cl p0, try_decode h cl p0 cf D f0 t = RErr (DParse e) ->
    fst (run h (parse cf D f0 t) p0) = RErr e).
  { intros P h cl p0. unfold try_decode. destruct (run h _ p0) as [[v|e'| | |] p]; try discriminate.
    - destruct (cf_complete cf); [|discriminate]. destruct (cl p) as [lo| | | |]; try discriminate. destruct (lo_is_empty lo); discriminate.
    - intros E. injection E as <-. reflexivity. }
  destruct w; cbn [decode_with] in H; apply K in H.
  - eapply (run_justified _ _ bp_inv bp_alpha); [apply byte_refines|apply byte_short| |exact (bp_init_alpha input)|exact H].
    apply bp_init_inv; exact HL.
  - eapply (run_justified _ _ mp_inv (fun p => bp_alpha (mp_bp p)) (mp_from_buffer input)); [apply memo_refines|apply memo_short| |exact (bp_init_alpha input)|exact H].
    apply mp_init_inv; exact HL.
  - eapply (run_justified Release _ sp_inv sp_alpha (sp_from_buffer input)); [apply slice_refines|apply slice_short| |reflexivity|exact H].
    discriminate.
Qed.
End Final.
