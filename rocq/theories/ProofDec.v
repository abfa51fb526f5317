(** A decoder seen from inside one window: a function from the unread bytes of
    the window to a value and the bytes it leaves.  [dec] mirrors
    [ModelSchema.parse] in this style; [runs_dec] shows that the two agree on
    the contract machine of SpecParser, and with [run_refines] on the three
    parsers.  This is a proof device: the property theorems speak about
    [ModelSchema] only. *)
From Verif Require Import Base BaseLemmas ModelErrors ModelParser ModelInt ModelFloat ModelZarith
  ModelUtf8 ModelTarget ModelSchema SpecParser.
From Coq Require Import ZifyBool.

Definition dm (A : Type) := list byte -> pres (A * list byte).

Definition d_ret {A} (a : A) : dm A := fun cur => ROk (a, cur).
Definition d_fail {A} (e : parse_error) : dm A := fun _ => RErr e.
Definition d_panic {A} : dm A := fun _ => RPanic.
Definition d_div {A} : dm A := fun _ => RDiv.
Definition d_lift {A} (r : pres A) : dm A := fun cur =>
  match r with ROk a => ROk (a, cur) | RErr e => RErr e | RPanic => RPanic | RUB => RUB | RDiv => RDiv end.
Definition d_bind {A B} (d : dm A) (k : A -> dm B) : dm B := fun cur =>
  match d cur with
  | ROk (a, rest) => k a rest
  | RErr e => RErr e | RPanic => RPanic | RUB => RUB | RDiv => RDiv
  end.
Definition d_rem : dm Z := fun cur => ROk (zlen cur, cur).
Definition d_byte : dm byte := fun cur =>
  match cur with b :: rest => ROk (b, rest) | [] => RErr spec_failure end.
Definition d_consume (n : Z) : dm (list byte) := fun cur =>
  if size_ok n then
    if n <=? zlen cur then ROk (ztake n cur, zdrop n cur) else RErr spec_failure
  else RUB.
Definition d_window {A} (n : Z) (d : dm A) : dm A := fun cur =>
  if size_ok n then
    if n <=? zlen cur then
      match d (ztake n cur) with
      | ROk (a, []) => ROk (a, zdrop n cur)
      | ROk (_, _ :: _) => RErr spec_failure
      | RErr e => RErr e | RPanic => RPanic | RUB => RUB | RDiv => RDiv
      end
    else RErr spec_failure
  else RUB.

(** Bytes up to and including the first terminal one. *)
Fixpoint st_split (term : byte -> bool) (l : list byte) : option (list byte * list byte) :=
  match l with
  | [] => None
  | b :: l =>
      if term b then Some ([b], l)
      else match st_split term l with Some (p, r) => Some (b :: p, r) | None => None end
  end.
Definition d_st (term : byte -> bool) : dm (list byte) := fun cur =>
  match st_split term cur with Some (p, r) => ROk (p, r) | None => RErr spec_failure end.

(** ** Programs and decoders *)
Definition outcome {A} (r : pres (A * list byte)) (outer : list (list byte)) (o : pres A * wstack) : Prop :=
  match r with
  | ROk (a, rest) => o = (ROk a, mkW rest outer)
  | RErr _ => exists e, fst o = RErr e
  | RPanic => fst o = RPanic
  | RUB => fst o = RUB
  | RDiv => fst o = RDiv
  end.

Definition suffix (rest cur : list byte) : Prop := exists pre, cur = pre ++ rest.

Lemma suffix_refl l : suffix l l.
Proof. exists []; reflexivity. Qed.
Lemma suffix_trans a b c : suffix a b -> suffix b c -> suffix a c.
Proof. intros [p ->] [q ->]. exists (q ++ p). apply app_assoc. Qed.
Lemma suffix_zlen a b : suffix a b -> zlen a <= zlen b.
Proof. intros [p ->]. rewrite zlen_app. pose proof (zlen_nonneg p). lia. Qed.
Lemma suffix_zdrop n l : suffix (zdrop n l) l.
Proof. exists (ztake n l). symmetry; apply ztake_zdrop. Qed.
Lemma suffix_bytes a b : suffix a b -> bytes_ok b -> bytes_ok a.
Proof. intros [p ->] H. apply bytes_ok_app in H; tauto. Qed.
Lemma suffix_cons b l : suffix l (b :: l).
Proof. exists [b]; reflexivity. Qed.

Definition shrinks {A} (d : dm A) : Prop := forall cur a rest, d cur = ROk (a, rest) -> suffix rest cur.

Definition runs {A} (pg : prog A) (d : dm A) : Prop :=
  forall cur outer, zlen cur <= isize_max ->
    outcome (d cur) outer (run contract_h pg (mkW cur outer)).

Lemma run_pbind {P A B} (h : handler P) (pg : prog A) (k : A -> prog B) s :
  run h (pbind pg k) s =
  match run h pg s with
  | (ROk a, s') => run h (k a) s'
  | (RErr e, s') => (RErr e, s')
  | (RPanic, s') => (RPanic, s')
  | (RUB, s') => (RUB, s')
  | (RDiv, s') => (RDiv, s')
  end.
Proof.
  revert s; induction pg as [a|e| | | |X o kk IH|X o kk IHk f IHf]; intros s; cbn [pbind run]; try reflexivity.
  - destruct (h X o s) as [[] s']; try reflexivity. apply IH.
  - destruct (h X o s) as [[] s']; try reflexivity; auto.
Qed.

Lemma runs_bind {A B} (pg : prog A) (d : dm A) (k : A -> prog B) (kd : A -> dm B) :
  runs pg d -> shrinks d -> (forall a, runs (k a) (kd a)) -> runs (pbind pg k) (d_bind d kd).
Proof.
  intros Hr Hs Hk cur outer Hc. rewrite run_pbind. specialize (Hr cur outer Hc). unfold d_bind.
  destruct (d cur) as [[a rest]|e| | |] eqn:Ed; unfold outcome in Hr.
  - rewrite Hr. apply Hk. pose proof (suffix_zlen _ _ (Hs _ _ _ Ed)). lia.
  - destruct Hr as [e' Hr]. destruct (run contract_h pg _) as [r s]; cbn [fst] in Hr; subst r. exists e'; reflexivity.
  - destruct (run contract_h pg _) as [r s]; cbn [fst] in Hr; subst r; reflexivity.
  - destruct (run contract_h pg _) as [r s]; cbn [fst] in Hr; subst r; reflexivity.
  - destruct (run contract_h pg _) as [r s]; cbn [fst] in Hr; subst r; reflexivity.
Qed.

Lemma runs_ret {A} (a : A) : runs (PRet a) (d_ret a).
Proof. intros cur outer _; reflexivity. Qed.
Lemma runs_err {A} e e' : runs (@PErr A e) (d_fail e').
Proof. intros cur outer _; exists e; reflexivity. Qed.
Lemma runs_panic {A} : runs (@PPanic A) d_panic.
Proof. intros cur outer _; reflexivity. Qed.
Lemma runs_div {A} : runs (@PDiv A) d_div.
Proof. intros cur outer _; reflexivity. Qed.
Lemma runs_lift {A} (r : pres A) : runs (plift r) (d_lift r).
Proof. intros cur outer _. unfold d_lift. destruct r; cbn; eauto. Qed.
Lemma runs_rem : runs p_remainder d_rem.
Proof. intros cur outer _; reflexivity. Qed.
Lemma runs_byte : runs p_consume_byte d_byte.
Proof. intros cur outer _. destruct cur; cbn; eauto. Qed.
Lemma runs_consume n : runs (p_consume n) (d_consume n).
Proof.
  intros cur outer _. unfold d_consume, p_consume, do_op. cbn [run]. unfold contract_h.
  cbn [in_contract]. destruct (size_ok n); [|reflexivity].
  unfold spec_h; cbn [spec_op w_cur w_outer]. destruct (n <=? zlen cur); cbn; eauto.
Qed.

Lemma run_do_op {P} (h : handler P) {X : Set} (o : pop X) s : run h (do_op o) s = h X o s.
Proof. unfold do_op; cbn [run]. destruct (h X o s) as [[] ?]; reflexivity. Qed.

Lemma contract_set_fit n cur outer :
  contract_h unit (OpSetFit n) (mkW cur outer) =
  if size_ok n then
    if n <=? zlen cur then (ROk tt, mkW (ztake n cur) (zdrop n cur :: outer))
    else (RErr spec_failure, mkW cur outer)
  else (RUB, mkW cur outer).
Proof.
  unfold contract_h. cbn [in_contract]. destruct (size_ok n); [|reflexivity].
  unfold spec_h; cbn [spec_op w_cur w_outer]. destruct (n <=? zlen cur); reflexivity.
Qed.

Lemma runs_window {A B} n (pg : prog A) (d : dm A) (f : A -> B) :
  runs pg d ->
  runs (pbind (p_set_fit n) (fun _ => pbind pg (fun v => pbind p_enforce_target (fun _ => PRet (f v)))))
       (d_bind (d_window n d) (fun v => d_ret (f v))).
Proof.
  intros Hr cur outer Hc. rewrite run_pbind.
  unfold p_set_fit. rewrite run_do_op, contract_set_fit.
  unfold d_bind, d_window.
  destruct (size_ok n) eqn:Es; [|reflexivity].
  destruct (n <=? zlen cur) eqn:El; [|cbn; eauto].
  rewrite run_pbind.
  assert (Hz : zlen (ztake n cur) <= isize_max).
  { rewrite zlen_ztake; [|unfold size_ok in Es; lia]. lia. }
  specialize (Hr (ztake n cur) (zdrop n cur :: outer) Hz).
  destruct (d (ztake n cur)) as [[a rest]|e| | |]; unfold outcome in Hr.
  - rewrite Hr. rewrite run_pbind. destruct rest as [|b rest]; [reflexivity|]. cbn. eauto.
  - destruct Hr as [e' Hr]. destruct (run contract_h pg _) as [r s]; cbn [fst] in Hr; subst r. exists e'; reflexivity.
  - destruct (run contract_h pg _) as [r s]; cbn [fst] in Hr; subst r; reflexivity.
  - destruct (run contract_h pg _) as [r s]; cbn [fst] in Hr; subst r; reflexivity.
  - destruct (run contract_h pg _) as [r s]; cbn [fst] in Hr; subst r; reflexivity.
Qed.

Lemma runs_st_loop term fuel : forall acc cur outer, (length cur < fuel)%nat ->
  outcome (match st_split term cur with Some (p, r) => ROk (acc ++ p, r) | None => RErr spec_failure end) outer
    (run contract_h (p_self_terminating_loop fuel term acc) (mkW cur outer)).
Proof.
  induction fuel as [|fuel IH]; intros acc cur outer Hf; [lia|].
  cbn [p_self_terminating_loop run]. unfold contract_h at 1. cbn [in_contract].
  unfold spec_h; cbn [spec_op w_cur w_outer].
  destruct cur as [|b cur]; cbn [st_split].
  - cbn. eauto.
  - destruct (term b).
    + reflexivity.
    + cbn [length] in Hf. specialize (IH (acc ++ [b]) cur outer ltac:(lia)).
      destruct (st_split term cur) as [[p r]|]; [|exact IH].
      rewrite <- app_assoc in IH. exact IH.
Qed.

Lemma runs_st term : runs (p_take_self_terminating term) (d_st term).
Proof.
  intros cur outer Hc. unfold p_take_self_terminating. rewrite run_pbind.
  unfold p_remainder; rewrite run_do_op.
  change (contract_h Z OpRemainder (mkW cur outer)) with (@ROk parse_error _ (zlen cur), mkW cur outer). cbv iota beta.
  replace (zlen cur <=? isize_max) with true by lia.
  unfold d_st. pose proof (runs_st_loop term (S (Z.to_nat (zlen cur))) [] cur outer) as H.
  destruct (st_split term cur) as [[p r]|]; apply H; unfold zlen; lia.
Qed.

(** ** The window decoder of a type *)
Definition d_fixed (n : Z) : dm (list byte) :=
  d_bind (d_consume n) (fun bs => d_lift (coerce_slice n bs)).
Definition d_bool : dm bool :=
  d_bind d_byte (fun b =>
    if b =? 255 then d_ret true else if b =? 0 then d_ret false else d_fail spec_failure).
Definition d_int (k : int_kind) : dm Z :=
  d_bind (d_fixed (ik_len k)) (fun bs => d_ret (from_be_bytes k bs)).
Definition d_tag (k : int_kind) (tags : list Z) : dm Z :=
  d_bind (d_int k) (fun a => if existsb (Z.eqb a) tags then d_ret a else d_fail spec_failure).
Definition d_ranged (cf : config) (k : int_kind) (lo hi : Z) : dm Z :=
  d_bind (d_int k) (fun x => d_lift (ext_int (ri_try_from_underlying (cf_range_check cf) lo hi x))).
Definition d_pref (cf : config) (s : len_pref) : dm Z :=
  match s with
  | PrefU8 => d_int U8
  | PrefU16 => d_int U16
  | PrefU30 => d_bind (d_ranged cf U32 0 u30_max) (fun x => d_ret (ri_into U64 x))
  end.

Fixpoint d_seq (fuel : nat) (elem : dm val) (seq : list val) : dm (list val) :=
  match fuel with
  | O => d_div
  | S fuel => d_bind d_rem (fun rem =>
      if rem =? 0 then d_ret seq else d_bind elem (fun v => d_seq fuel elem (seq ++ [v])))
  end.
Fixpoint d_lim (fuel : nat) (n : Z) (elem : dm val) (seq : list val) : dm (list val) :=
  match fuel with
  | O => d_div
  | S fuel => d_bind d_rem (fun rem =>
      if rem =? 0 then d_ret seq
      else d_bind elem (fun v => d_bind (d_lift (ext_len (try_push n seq v))) (fun seq' =>
             d_lim fuel n elem seq')))
  end.
Fixpoint d_fix (fuel : nat) (n : Z) (elem : dm val) (seq : list val) : dm (list val) :=
  match fuel with
  | O => d_div
  | S fuel => d_bind d_rem (fun rem =>
      if negb (rem =? 0) && (zlen seq <? n) then
        d_bind elem (fun v => d_fix fuel n elem (seq ++ [v]))
      else if zlen seq =? n then d_ret seq
      else d_fail spec_failure)
  end.
Fixpoint d_fields (dec : ty -> dm val) (ts : list ty) : dm (list val) :=
  match ts with
  | [] => d_ret []
  | t :: ts => d_bind (dec t) (fun v => d_bind (d_fields dec ts) (fun vs => d_ret (v :: vs)))
  end.

Fixpoint dec (cf : config) (D : list def) (fuel : nat) (t : ty) : dm val :=
  match fuel with
  | O => d_div
  | S f =>
      match t with
      | TUnit => d_ret VUnit
      | TBool => d_bind d_bool (fun b => d_ret (VBool b))
      | TInt k => d_bind (d_int k) (fun z => d_ret (VInt z))
      | TRanged k lo hi => d_bind (d_ranged cf k lo hi) (fun z => d_ret (VInt z))
      | TF64 => d_bind (d_int U64) (fun z => d_ret (VInt z))
      | TRangedF lo hi =>
          d_bind (d_int U64) (fun z =>
          d_bind (d_lift (ext_float (rf_try_from_f64 lo hi z))) (fun z => d_ret (VInt z)))
      | TN =>
          d_bind (d_st zarith_terminal) (fun bs =>
          d_bind (d_lift (n_deserialize bs)) (fun z => d_ret (VInt z)))
      | TZ =>
          d_bind (d_st zarith_terminal) (fun bs =>
          d_bind (d_lift (z_deserialize bs)) (fun z => d_ret (VInt z)))
      | TBytes => d_bind d_rem (fun rem => d_bind (d_consume rem) (fun bs => d_ret (VBytes bs)))
      | TString =>
          d_bind d_rem (fun rem => d_bind (d_consume rem) (fun bs => d_ret (VBytes (utf8_lossy bs))))
      | TFixedBytes n => d_bind (d_fixed n) (fun bs => d_ret (VBytes bs))
      | TFixedString n => d_bind (d_fixed n) (fun bs => d_ret (VBytes bs))
      | TOption t =>
          d_bind (d_tag U8 [0; 255]) (fun tag =>
            if tag =? 255 then d_bind (dec cf D f t) (fun v => d_ret (VSome v))
            else if tag =? 0 then d_ret VNone
            else d_panic)
      | TNullable t =>
          d_bind d_rem (fun rem =>
            if negb (rem =? 0) then d_bind (dec cf D f t) (fun v => d_ret (VSome v)) else d_ret VNone)
      | TSeq t => d_bind (d_seq f (dec cf D f t) []) (fun vs => d_ret (VSeq vs))
      | TLim n t => d_bind (d_lim f n (dec cf D f t) []) (fun vs => d_ret (VSeq vs))
      | TFix n t => d_bind (d_fix f n (dec cf D f t) []) (fun vs => d_ret (VSeq vs))
      | TDyn s t =>
          d_bind (d_pref cf s) (fun buflen =>
          d_bind (d_window buflen (dec cf D f t)) (fun v => d_ret (VWrap v)))
      | TVPad n t =>
          d_bind d_rem (fun rem =>
          d_bind (d_lift (debug_assert (cf_mode cf) (n <=? rem))) (fun _ =>
          d_bind (d_lift (usub (cf_mode cf) rem n)) (fun win =>
          d_bind (d_window win (dec cf D f t)) (fun v => d_ret (VWrap v)))))
      | TPad n t =>
          d_bind (dec cf D f t) (fun v =>
          d_bind (d_consume n) (fun padding =>
          if cf_check_padding cf && negb (forallb (Z.eqb 0) padding)
          then d_fail spec_failure
          else d_ret (VWrap v)))
      | TBox t => d_bind (dec cf D f t) (fun v => d_ret (VWrap v))
      | TNamed i =>
          match nth_error D i with
          | None => d_panic
          | Some (DStruct ts) => d_bind (d_fields (dec cf D f) ts) (fun vs => d_ret (VStruct vs))
          | Some (DCStyle k tags) =>
              d_bind (d_tag k tags) (fun tag =>
                match find_tag tag tags with
                | Some ix => d_ret (VEnum ix [])
                | None => d_panic
                end)
          | Some (DData k alts) =>
              d_bind (d_tag k (map fst alts)) (fun tag =>
                match find_tag tag (map fst alts) with
                | Some ix =>
                    match nth_error alts ix with
                    | Some (_, ts) => d_bind (d_fields (dec cf D f) ts) (fun vs => d_ret (VEnum ix vs))
                    | None => d_panic
                    end
                | None => d_panic
                end)
          end
      end
  end.

(** ** Decoders only move forward *)
Lemma shrinks_ret {A} (a : A) : shrinks (d_ret a).
Proof. intros cur x rest H. injection H as _ <-. apply suffix_refl. Qed.
Lemma shrinks_fail {A} e : shrinks (@d_fail A e). Proof. intros ? ? ? H; discriminate H. Qed.
Lemma shrinks_panic {A} : shrinks (@d_panic A). Proof. intros ? ? ? H; discriminate H. Qed.
Lemma shrinks_div {A} : shrinks (@d_div A). Proof. intros ? ? ? H; discriminate H. Qed.
Lemma shrinks_lift {A} (r : pres A) : shrinks (d_lift r).
Proof. intros cur x rest H. destruct r; try discriminate H. injection H as _ <-. apply suffix_refl. Qed.
Lemma shrinks_rem : shrinks d_rem.
Proof. intros cur x rest H. injection H as _ <-. apply suffix_refl. Qed.
Lemma shrinks_byte : shrinks d_byte.
Proof. intros cur x rest H. destruct cur; [discriminate H|]. injection H as _ <-. apply suffix_cons. Qed.
Lemma shrinks_consume n : shrinks (d_consume n).
Proof.
  intros cur x rest H. unfold d_consume in H. destruct (size_ok n); [|discriminate].
  destruct (n <=? zlen cur); [|discriminate]. injection H as _ <-. apply suffix_zdrop.
Qed.
Lemma shrinks_window {A} n (d : dm A) : shrinks (d_window n d).
Proof.
  intros cur x rest H. unfold d_window in H. destruct (size_ok n); [|discriminate].
  destruct (n <=? zlen cur); [|discriminate].
  destruct (d (ztake n cur)) as [[a [|]]| | | |]; try discriminate. injection H as _ <-. apply suffix_zdrop.
Qed.
Lemma st_split_app term l p r : st_split term l = Some (p, r) -> l = p ++ r.
Proof.
  revert p r; induction l as [|b l IH]; intros p r; cbn [st_split]; [discriminate|].
  destruct (term b); [intros H; injection H as <- <-; reflexivity|].
  destruct (st_split term l) as [[p' r']|]; [|discriminate]. intros H; injection H as <- <-.
  rewrite (IH _ _ eq_refl). reflexivity.
Qed.
Lemma shrinks_st term : shrinks (d_st term).
Proof.
  intros cur x rest H. unfold d_st in H. destruct (st_split term cur) as [[p r]|] eqn:E; [|discriminate].
  injection H as _ <-. apply st_split_app in E. exists p; exact E.
Qed.
Lemma shrinks_bind {A B} (d : dm A) (k : A -> dm B) :
  shrinks d -> (forall a, shrinks (k a)) -> shrinks (d_bind d k).
Proof.
  intros Hd Hk cur x rest H. unfold d_bind in H. destruct (d cur) as [[a r]| | | |] eqn:E; try discriminate.
  eapply suffix_trans; [eapply Hk; exact H|]. eapply Hd; exact E.
Qed.

Create HintDb dec.
#[export] Hint Resolve shrinks_ret shrinks_fail shrinks_panic shrinks_div shrinks_lift shrinks_rem shrinks_byte
  shrinks_consume shrinks_window shrinks_st : dec.
Ltac shr :=
  repeat first
    [ apply shrinks_bind; [|intros ?]
    | solve [auto with dec]
    | match goal with
      | |- shrinks (if ?b then _ else _) => destruct b
      | |- shrinks (match ?o with _ => _ end) => destruct o
      end ].

Lemma shrinks_fixed n : shrinks (d_fixed n). Proof. unfold d_fixed; shr. Qed.
#[export] Hint Resolve shrinks_fixed : dec.
Lemma shrinks_bool : shrinks d_bool. Proof. unfold d_bool; shr. Qed.
Lemma shrinks_int k : shrinks (d_int k). Proof. unfold d_int; shr. Qed.
#[export] Hint Resolve shrinks_bool shrinks_int : dec.
Lemma shrinks_tag k tags : shrinks (d_tag k tags). Proof. unfold d_tag; shr. Qed.
Lemma shrinks_ranged cf k lo hi : shrinks (d_ranged cf k lo hi). Proof. unfold d_ranged; shr. Qed.
#[export] Hint Resolve shrinks_tag shrinks_ranged : dec.
Lemma shrinks_pref cf s : shrinks (d_pref cf s). Proof. destruct s; unfold d_pref; shr. Qed.
#[export] Hint Resolve shrinks_pref : dec.
Lemma shrinks_seq elem fuel : shrinks elem -> forall seq, shrinks (d_seq fuel elem seq).
Proof. intros He; induction fuel as [|fuel IH]; intros seq; cbn [d_seq]; shr. Qed.
Lemma shrinks_lim elem n fuel : shrinks elem -> forall seq, shrinks (d_lim fuel n elem seq).
Proof. intros He; induction fuel as [|fuel IH]; intros seq; cbn [d_lim]; shr. Qed.
Lemma shrinks_fix elem n fuel : shrinks elem -> forall seq, shrinks (d_fix fuel n elem seq).
Proof. intros He; induction fuel as [|fuel IH]; intros seq; cbn [d_fix]; shr. Qed.
Lemma shrinks_fields dec ts : (forall t, shrinks (dec t)) -> shrinks (d_fields dec ts).
Proof. intros He; induction ts as [|t ts IH]; cbn [d_fields]; shr. Qed.
#[export] Hint Resolve shrinks_seq shrinks_lim shrinks_fix shrinks_fields : dec.

Lemma shrinks_dec cf D fuel : forall t, shrinks (dec cf D fuel t).
Proof.
  induction fuel as [|f IH]; intros t; cbn [dec]; [apply shrinks_div|].
  destruct t; shr.
Qed.
#[export] Hint Resolve shrinks_dec : dec.

(** ** Programs run as their decoders say *)
#[export] Hint Resolve runs_ret runs_err runs_panic runs_div runs_lift runs_rem runs_byte runs_consume runs_st : dec.
Ltac rns :=
  repeat first
    [ solve [auto with dec]
    | apply runs_bind; [|solve [auto with dec]|intros ?]
    | match goal with
      | |- runs (if ?b then _ else _) _ => destruct b
      | |- runs (match ?o with _ => _ end) _ => destruct o
      end ].

Lemma runs_fixed n : runs (p_take_fixed n) (d_fixed n).
Proof. unfold p_take_fixed, p_consume_arr, d_fixed; rns. Qed.
#[export] Hint Resolve runs_fixed : dec.
Lemma runs_bool : runs p_take_bool d_bool. Proof. unfold p_take_bool, d_bool; rns. Qed.
Lemma runs_int k : runs (p_int k) (d_int k). Proof. unfold p_int, d_int; rns. Qed.
#[export] Hint Resolve runs_bool runs_int : dec.
Lemma runs_tag k tags : runs (p_take_tagword k tags) (d_tag k tags).
Proof. unfold p_take_tagword, d_tag; rns. Qed.
Lemma runs_ranged cf k lo hi : runs (p_ranged cf k lo hi) (d_ranged cf k lo hi).
Proof. unfold p_ranged, d_ranged; rns. Qed.
#[export] Hint Resolve runs_tag runs_ranged : dec.
Lemma runs_pref cf s : runs (p_pref cf s) (d_pref cf s). Proof. destruct s; unfold p_pref, d_pref; rns. Qed.
#[export] Hint Resolve runs_pref : dec.
Lemma runs_seq pe elem fuel : runs pe elem -> shrinks elem ->
  forall seq, runs (p_seq_loop fuel pe seq) (d_seq fuel elem seq).
Proof. intros He Hs; induction fuel as [|fuel IH]; intros seq; cbn [p_seq_loop d_seq]; rns. Qed.
Lemma runs_lim pe elem n fuel : runs pe elem -> shrinks elem ->
  forall seq, runs (p_lim_loop fuel n pe seq) (d_lim fuel n elem seq).
Proof. intros He Hs; induction fuel as [|fuel IH]; intros seq; cbn [p_lim_loop d_lim]; rns. Qed.
Lemma runs_fix pe elem n fuel : runs pe elem -> shrinks elem ->
  forall seq, runs (p_fix_loop fuel n pe seq) (d_fix fuel n elem seq).
Proof. intros He Hs; induction fuel as [|fuel IH]; intros seq; cbn [p_fix_loop d_fix]; rns. Qed.
Lemma runs_fields parse dec ts : (forall t, runs (parse t) (dec t)) -> (forall t, shrinks (dec t)) ->
  runs (p_fields parse ts) (d_fields dec ts).
Proof. intros Hr Hs; induction ts as [|t ts IH]; cbn [p_fields d_fields]; rns. Qed.
#[export] Hint Resolve runs_seq runs_lim runs_fix runs_fields : dec.

Lemma runs_dec cf D fuel : forall t, runs (parse cf D fuel t) (dec cf D fuel t).
Proof.
  induction fuel as [|f IH]; intros t; cbn [parse dec]; [apply runs_div|].
  destruct t; unfold p_take_dynamic; try solve [rns].
  - apply runs_bind; [auto with dec..|intros n]. apply runs_window, IH.
  - repeat (apply runs_bind; [auto with dec..|intros ?]). apply runs_window, IH.
Qed.

(** ** No program of the library recovers from anything but a missing byte *)
Lemma try_bind {A B} (pg : prog A) (k : A -> prog B) :
  try_bytes_only pg -> (forall a, try_bytes_only (k a)) -> try_bytes_only (pbind pg k).
Proof.
  induction pg as [a|e| | | |X o kk IH|X o kk IHk f IHf]; cbn [pbind try_bytes_only]; intros Hp Hk; auto.
  destruct Hp as (H1 & H2 & H3); repeat split; auto.
Qed.
Lemma try_op {X : Set} (o : pop X) : try_bytes_only (do_op o). Proof. cbn; auto. Qed.
Lemma try_lift {A} (r : pres A) : try_bytes_only (plift r). Proof. destruct r; exact I. Qed.
Lemma try_ret {A} (a : A) : try_bytes_only (PRet a). Proof. exact I. Qed.
Lemma try_err {A} e : try_bytes_only (@PErr A e). Proof. exact I. Qed.
Lemma try_panic {A} : try_bytes_only (@PPanic A). Proof. exact I. Qed.
Lemma try_div {A} : try_bytes_only (@PDiv A). Proof. exact I. Qed.
Lemma try_st_loop term fuel : forall acc, try_bytes_only (p_self_terminating_loop fuel term acc).
Proof.
  induction fuel as [|fuel IH]; intros acc; cbn [p_self_terminating_loop try_bytes_only]; auto.
  repeat split; auto. intros b. destruct (term b); cbn [try_bytes_only]; auto.
Qed.
#[export] Hint Resolve try_op try_lift try_ret try_err try_panic try_div try_st_loop : dec.
Ltac tries :=
  repeat first
    [ solve [auto with dec]
    | apply try_bind; [|intros ?]
    | match goal with
      | |- try_bytes_only (if ?b then _ else _) => destruct b
      | |- try_bytes_only (match ?o with _ => _ end) => destruct o
      end ].
Lemma try_parse cf D fuel : forall t, try_bytes_only (parse cf D fuel t).
Proof.
  assert (Hseq : forall (pe : prog val) fl seq, try_bytes_only pe -> try_bytes_only (p_seq_loop fl pe seq)).
  { intros pe fl; induction fl as [|fl IHl]; intros seq He; cbn [p_seq_loop]; [exact I|unfold p_remainder; tries]. }
  assert (Hlim : forall (pe : prog val) n fl seq, try_bytes_only pe -> try_bytes_only (p_lim_loop fl n pe seq)).
  { intros pe n fl; induction fl as [|fl IHl]; intros seq He; cbn [p_lim_loop]; [exact I|unfold p_remainder; tries]. }
  assert (Hfix : forall (pe : prog val) n fl seq, try_bytes_only pe -> try_bytes_only (p_fix_loop fl n pe seq)).
  { intros pe n fl; induction fl as [|fl IHl]; intros seq He; cbn [p_fix_loop]; [exact I|unfold p_remainder; tries]. }
  assert (Hfields : forall pe ts, (forall t, try_bytes_only (pe t)) -> try_bytes_only (p_fields pe ts)).
  { intros pe ts He; induction ts as [|t ts IHl]; cbn [p_fields]; tries. }
  induction fuel as [|f IH]; intros t; cbn [parse]; [exact I|].
  destruct t; unfold p_take_bool, p_take_tagword, p_ranged, p_int, p_take_fixed, p_consume_arr, p_take_dynamic,
    p_take_self_terminating, p_remainder, p_consume, p_consume_byte, p_set_fit, p_enforce_target; tries.
  unfold p_pref, p_ranged, p_int, p_take_fixed, p_consume_arr, p_consume; destruct s; tries.
Qed.
