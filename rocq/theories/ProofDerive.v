(** Derive macros. *)
From Coq Require Import String DecimalString DecimalNat FinFun.
From Verif Require Import Base BaseLemmas ModelErrors ModelParser ModelInt ModelTarget ModelSchema ModelDerive
  SpecParser SpecCodec SpecDerive ProofDec ProofInput ProofCodecProps ProofCodecThms.
Local Open Scope list_scope.

Lemma member_eqb_eq a b : member_eqb a b = true <-> a = b.
Proof.
  destruct a, b; cbn [member_eqb]; try (split; congruence).
  - rewrite Nat.eqb_eq. split; congruence.
  - rewrite String.eqb_eq. split; congruence.
Qed.
Lemma member_eqb_refl a : member_eqb a a = true. Proof. apply member_eqb_eq; reflexivity. Qed.

Lemma map_snd_combine {A B} (l : list A) (l' : list B) : List.length l = List.length l' -> map snd (combine l l') = l'.
Proof. revert l'. induction l; intros [|b l'] H; cbn in *; try lia; [reflexivity|]. f_equal. apply IHl. lia. Qed.
Lemma map_fst_combine {A B} (l : list A) (l' : list B) : List.length l = List.length l' -> map fst (combine l l') = l.
Proof. revert l'. induction l; intros [|b l'] H; cbn in *; try lia; [reflexivity|]. f_equal. apply IHl. lia. Qed.
Lemma indices_length {A} (tys : list A) : List.length (map MIndex (seq 0 (List.length tys))) = List.length tys.
Proof. rewrite map_length, seq_length. reflexivity. Qed.

Lemma types_unnamed tys : member_types (FUnnamed tys) = tys.
Proof. unfold member_types; cbn [declared]. apply map_snd_combine, indices_length. Qed.
Lemma members_unnamed tys : map fst (declared (FUnnamed tys)) = map MIndex (seq 0 (List.length tys)).
Proof. cbn [declared]. apply map_fst_combine, indices_length. Qed.
Lemma types_named named : member_types (FNamed named) = map snd named.
Proof. unfold member_types; cbn [declared]. rewrite map_map. reflexivity. Qed.
Lemma members_named named : map fst (declared (FNamed named)) = map (fun f => MName (fst f)) named.
Proof. cbn [declared]. rewrite map_map. reflexivity. Qed.

(** ------------------------------------------------------------------ *)
(** * Decode *)
Lemma struct_parse cf D f i ts : nth_error D i = Some (DStruct ts) ->
  parse cf D (S f) (TNamed i) = (vs <- p_fields (parse cf D f) ts ;; PRet (VStruct vs))%prog.
Proof. intros H. cbn [parse]. rewrite H. reflexivity. Qed.

Lemma eval_self_fields cf D f fs e : derive_decode (DataStruct fs) = ROk e ->
  forall P (h : handler P) s, run h (eval_self cf D f e) s =
    run h (vs <- p_fields (parse cf D f) (member_types fs) ;; PRet (struct_of fs vs))%prog s.
Proof.
  intros He P h s. unfold struct_of. destruct fs as [|tys|named]; cbn [derive_decode] in He; injection He as <-; cbn [eval_self].
  - reflexivity.
  - rewrite types_unnamed, members_unnamed. reflexivity.
  - rewrite types_named, members_named. reflexivity.
Qed.
Definition map_run {P A B} (g : A -> B) (x : pres A * P) : pres B * P := (rmap g (fst x), snd x).

Lemma derived_decode cf D f i fs e : nth_error D i = Some (DStruct (member_types fs)) -> derive_decode (DataStruct fs) = ROk e ->
  forall P (h : handler P) s,
    run h (eval_self cf D f e) s =
    (rmap (as_struct fs) (fst (run h (parse cf D (S f) (TNamed i)) s)), snd (run h (parse cf D (S f) (TNamed i)) s)).
Proof.
  intros Hi He P h s. rewrite (eval_self_fields cf D f fs e He), (struct_parse cf D f i _ Hi), !run_pbind.
  destruct (run h (p_fields (parse cf D f) (member_types fs)) s) as [[vs|x| | |] q]; reflexivity.
Qed.

Lemma then_rest_map {A B} (g : A -> B) (pg : prog A) (pg' : prog B) {P} (h : handler P) s :
  run h pg' s = (rmap g (fst (run h pg s)), snd (run h pg s)) ->
  fst (run h (then_rest pg') s) = rmap (fun x => (g (fst x), snd x)) (fst (run h (then_rest pg) s)).
Proof.
  intros H. unfold then_rest. rewrite (run_pbind h pg'), (run_pbind h pg), H.
  destruct (run h pg s) as [[a|x| | |] q]; try reflexivity. cbn [fst snd].
  change (rmap g (ROk a)) with (ROk (E := parse_error) (g a)). cbv iota beta.
  rewrite !run_pbind. destruct (run h p_remainder q) as [[n|x| | |] q']; try reflexivity.
  rewrite !run_pbind. destruct (run h (p_consume n) q') as [[r|x| | |] q'']; reflexivity.
Qed.
Lemma derived_then_rest w cf D f i fs e input : nth_error D i = Some (DStruct (member_types fs)) -> derive_decode (DataStruct fs) = ROk e ->
  run_with w (cf_mode cf) (then_rest (eval_self cf D f e)) input =
  rmap (fun x => (as_struct fs (fst x), snd x)) (run_with w (cf_mode cf) (then_rest (parse cf D (S f) (TNamed i))) input).
Proof. intros Hi He. destruct w; cbn [run_with]; apply then_rest_map; apply derived_decode; assumption. Qed.

Lemma parse_struct_value cf D f i fs : nth_error D i = Some (DStruct (member_types fs)) -> forall w input v rest,
  run_with w (cf_mode cf) (then_rest (parse cf D f (TNamed i))) input = ROk (v, rest) -> exists vs, v = VStruct vs.
Proof.
  intros Hi w input v rest. destruct f as [|f]; [destruct w; discriminate|]. rewrite (struct_parse cf D f i _ Hi).
  assert (G : forall P (h : handler P) s, fst (run h (then_rest (vs <- p_fields (parse cf D f) (member_types fs);; PRet (VStruct vs))%prog) s) = ROk (v, rest) ->
    exists vs, v = VStruct vs).
  { intros P h s. unfold then_rest. rewrite !run_pbind. destruct (run h (p_fields (parse cf D f) (member_types fs)) s) as [[vs|x| | |] q]; try discriminate.
    cbn [run]. rewrite !run_pbind. destruct (run h p_remainder q) as [[n|x| | |] q']; cbn [fst]; try discriminate.
    rewrite !run_pbind. destruct (run h (p_consume n) q') as [[r|x| | |] q'']; cbn [run fst]; try discriminate.
    intros H. injection H as <- _. eauto. }
  destruct w; cbn [run_with]; apply G.
Qed.

Lemma settles_shift {E A} (r r' : nat -> res E A) out : (forall f, r f = r' (S f)) -> settles r out <-> settles r' out.
Proof.
  intros H. split; intros [Ho [f0 Hf]]; (split; [exact Ho|]).
  - exists (S f0). intros [|f] Hle; [lia|]. rewrite <- H. apply Hf. lia.
  - exists f0. intros f Hle. rewrite H. apply Hf. lia.
Qed.
Lemma derived_reads_same w cf D i fs e input : nth_error D i = Some (DStruct (member_types fs)) -> derive_decode (DataStruct fs) = ROk e ->
  (forall self rest, derived_reads w cf D e input (ROk (self, rest)) <->
     exists vs, self = struct_of fs vs /\ reads w cf D (TNamed i) input (ROk (VStruct vs, rest))) /\
  (forall x, derived_reads w cf D e input (RErr x) <-> reads w cf D (TNamed i) input (RErr x)) /\
  (derived_reads w cf D e input RPanic <-> reads w cf D (TNamed i) input RPanic).
Proof.
  intros Hi He. unfold derived_reads, reads.
  pose proof (fun f => derived_then_rest w cf D f i fs e input Hi He) as Hr.
  split; [|split].
  - intros self rest. rewrite (settles_shift _ (fun f => rmap (fun x => (as_struct fs (fst x), snd x)) (run_with w (cf_mode cf) (then_rest (parse cf D f (TNamed i))) input)) _ Hr).
    split.
    + intros [_ [f0 Hf]]. pose proof (Hf f0 (Nat.le_refl _)) as H0.
      destruct (run_with w (cf_mode cf) (then_rest (parse cf D f0 (TNamed i))) input) as [[v r]|x| | |] eqn:E0; try discriminate H0.
      destruct (parse_struct_value cf D f0 i fs Hi _ _ _ _ E0) as [vs ->]. cbn [rmap fst snd as_struct] in H0. injection H0 as <- <-.
      exists vs. split; [reflexivity|]. apply (ProofSettle.reads_at w cf D (TNamed i) input f0); [exact E0|discriminate].
    + intros (vs & -> & _ & f0 & Hf). split; [discriminate|]. exists f0. intros f Hle. rewrite (Hf f Hle). reflexivity.
  - intros x. rewrite (settles_shift _ (fun f => rmap (fun x => (as_struct fs (fst x), snd x)) (run_with w (cf_mode cf) (then_rest (parse cf D f (TNamed i))) input)) _ Hr).
    split; intros [_ [f0 Hf]]; (split; [discriminate|]); exists f0; intros f Hle; specialize (Hf f Hle).
    + destruct (run_with w (cf_mode cf) (then_rest (parse cf D f (TNamed i))) input); try discriminate Hf. cbn [rmap] in Hf. injection Hf as ->. reflexivity.
    + rewrite Hf. reflexivity.
  - rewrite (settles_shift _ (fun f => rmap (fun x => (as_struct fs (fst x), snd x)) (run_with w (cf_mode cf) (then_rest (parse cf D f (TNamed i))) input)) _ Hr).
    split; intros [_ [f0 Hf]]; (split; [discriminate|]); exists f0; intros f Hle; specialize (Hf f Hle).
    + destruct (run_with w (cf_mode cf) (then_rest (parse cf D f (TNamed i))) input); try discriminate Hf. reflexivity.
    + rewrite Hf. reflexivity.
Qed.

(** ------------------------------------------------------------------ *)
(** * Members *)
Lemma find_named (named : list (string * ty)) : NoDup (map fst named) -> forall n t, In (n, t) named -> find (fun f => String.eqb n (fst f)) named = Some (n, t).
Proof.
  induction named as [|[n' t'] named IH]; cbn [map fst find In]; intros Hd n t Hin; [contradiction|].
  inversion Hd as [|x0 l0 Hn Hd']; subst. destruct Hin as [E|Hin].
  - injection E as -> ->. rewrite String.eqb_refl. reflexivity.
  - destruct (String.eqb_spec n n') as [->|_]; [|apply IH; assumption].
    destruct Hn. apply in_map_iff. exists (n', t). auto.
Qed.
Lemma nth_indices {A} (tys : list A) k m t : In (m, t) (combine (map MIndex (seq k (List.length tys))) tys) ->
  exists i, m = MIndex (k + i) /\ nth_error tys i = Some t.
Proof.
  revert k. induction tys as [|t' tys IH]; intros k; cbn [List.length seq map combine In]; [contradiction|].
  intros [E|Hin].
  - injection E as <- <-. exists 0%nat. rewrite Nat.add_0_r. auto.
  - destruct (IH _ Hin) as (i & -> & Hi). exists (S i). rewrite Nat.add_succ_r. auto.
Qed.
Lemma type_of_declared fs m t : distinct fs -> In (m, t) (declared fs) -> type_of_member fs m = Some t.
Proof.
  unfold distinct. destruct fs as [|tys|named]; cbn [declared].
  - intros _ H. destruct H.
  - intros _ Hin. apply nth_indices in Hin. destruct Hin as (i & -> & Hi). exact Hi.
  - rewrite map_map. cbn [fst]. intros Hd Hin. apply in_map_iff in Hin. destruct Hin as ([n t'] & E & Hin). injection E as <- <-.
    cbn [type_of_member fst snd]. rewrite (find_named named) with (t := t'); [reflexivity| |exact Hin].
    clear Hin. induction named as [|f named IH]; cbn [map] in *; [constructor|]. inversion Hd as [|x0 l0 Hn Hd']; subst. constructor; [|auto].
    intros Hx. apply Hn. apply in_map_iff in Hx. destruct Hx as (g & Eg & Hg). apply in_map_iff. exists g. split; [congruence|exact Hg].
Qed.

(** ------------------------------------------------------------------ *)
(** * Encode *)
Lemma derived_members fs e : derive_encode (DataStruct fs) = ROk e -> se_terms e = map fst (declared fs).
Proof.
  destruct fs as [|tys|named]; cbn [derive_encode]; intros H; injection H as <-; cbn [se_terms].
  - reflexivity.
  - symmetry. apply members_unnamed.
  - symmetry. apply members_named.
Qed.
Lemma eval_terms_map2 cf D kf U (T : target U) fs self : distinct fs -> forall ms vs, (forall mt, In mt ms -> In mt (declared fs)) ->
  Forall2 (fun mt v => field_of (fst mt) self = Some v) ms vs ->
  eval_terms cf D kf T fs self (map fst ms) = map2 (fun v t => write_to cf D kf v U T t) w_bad vs (map snd ms).
Proof.
  intros Hd ms vs Hin H. induction H as [|[m t] v ms vs Hv H IH]; [reflexivity|].
  cbn [map fst snd eval_terms map2]. cbn [fst] in Hv. rewrite Hv, (type_of_declared fs m t Hd); [|apply Hin; left; reflexivity].
  f_equal. apply IH. intros mt Hm. apply Hin. right. exact Hm.
Qed.
Lemma derived_write cf D kf i fs e self vs : nth_error D i = Some (DStruct (member_types fs)) -> distinct fs ->
  derive_encode (DataStruct fs) = ROk e -> holds fs self vs ->
  forall U (T : target U) u, eval_write cf D kf T fs e self u = write_to cf D kf (VStruct vs) U T (TNamed i) u.
Proof.
  intros Hi Hd He Hh U T u. unfold eval_write. rewrite (derived_members fs e He). cbn [write_to]. rewrite Hi.
  rewrite (eval_terms_map2 cf D kf U T fs self Hd _ vs (fun mt H => H) Hh). reflexivity.
Qed.

(** ------------------------------------------------------------------ *)
(** * Estimable *)
Lemma to_uint_nonnil i : Nat.to_uint i <> Decimal.Nil.
Proof.
  intros H. pose proof (DecimalNat.Unsigned.of_to i) as G. rewrite H in G. cbn in G. subst i. discriminate H.
Qed.
Lemma pos_ident_inj i j : pos_ident i = pos_ident j -> i = j.
Proof.
  unfold pos_ident. cbn [String.append]. intros H. injection H as H. apply (f_equal NilZero.uint_of_string) in H.
  rewrite !NilZero.usu in H by apply to_uint_nonnil. injection H as H. apply DecimalNat.Unsigned.to_uint_inj; exact H.
Qed.

Fixpoint sum_opts (l : list (option Z)) : option Z :=
  match l with
  | [] => Some 0
  | Some a :: l => option_map (Z.add a) (sum_opts l)
  | None :: _ => None
  end.
Lemma bind_somes_length names : forall args env, bind_somes names args = Some env -> map fst env = names /\ args = map (fun p => Some (snd p)) env.
Proof.
  induction names as [|n names IH]; intros [|[a|] args] env; cbn [bind_somes]; try discriminate.
  - intros H; injection H as <-. auto.
  - destruct (bind_somes names args) as [env'|] eqn:E; cbn [option_map]; [|discriminate]. intros H; injection H as <-.
    destruct (IH _ _ E) as [<- ->]. auto.
Qed.
Lemma bind_somes_none names : forall args, List.length names = List.length args -> bind_somes names args = None -> sum_opts args = None.
Proof.
  induction names as [|n names IH]; intros [|[a|] args]; cbn [bind_somes List.length sum_opts]; try discriminate; auto.
  intros Hl. destruct (bind_somes names args) eqn:E; cbn [option_map]; [discriminate|]. intros _. rewrite (IH args); auto.
Qed.
Lemma sum_names_ext names env n z : ~ In n names -> sum_names names ((n, z) :: env) = sum_names names env.
Proof.
  induction names as [|n' names IH]; cbn [sum_names lookup In]; [reflexivity|]. intros H.
  destruct (String.eqb_spec n' n) as [->|_]; [tauto|]. rewrite IH by tauto. reflexivity.
Qed.
Lemma sum_names_env env : NoDup (map fst env) -> sum_names (map fst env) env = sum_opts (map (fun p => Some (snd p)) env).
Proof.
  induction env as [|[n z] env IH]; cbn [map fst snd]; [reflexivity|]. intros Hd. inversion Hd as [|x0 l0 Hn Hd']; subst.
  cbn [sum_names lookup]. rewrite String.eqb_refl, sum_names_ext by exact Hn. rewrite (IH Hd'). cbn [sum_opts].
  destruct (sum_opts _); reflexivity.
Qed.
Lemma call_f_sum names args : NoDup names -> List.length names = List.length args -> call_f names args = sum_opts args.
Proof.
  intros Hd Hl. unfold call_f. destruct (bind_somes names args) as [env|] eqn:E.
  - destruct (bind_somes_length _ _ _ E) as [<- ->]. apply sum_names_env; exact Hd.
  - symmetry. eapply bind_somes_none; eauto.
Qed.
Lemma all_known_length cf D kf ts : forall ks, all_known cf D kf ts = Some ks -> List.length ks = List.length ts.
Proof.
  induction ts as [|t ts IH]; cbn [all_known]; intros ks.
  - intros H; injection H as <-; reflexivity.
  - destruct (known cf D kf t); [|discriminate]. destruct (all_known cf D kf ts) eqn:E; [|discriminate].
    intros H; injection H as <-. cbn [List.length]. f_equal. apply IH. reflexivity.
Qed.
Lemma known_sum_all cf D kf ts : known_sum (known cf D kf) ts = option_map sum_opts (all_known cf D kf ts).
Proof.
  induction ts as [|t ts IH]; [reflexivity|]. cbn [known_sum all_known]. rewrite IH.
  destruct (known cf D kf t) as [[a|]|]; destruct (all_known cf D kf ts) as [ks|]; cbn [option_map sum_opts]; try reflexivity.
  destruct (sum_opts ks); reflexivity.
Qed.
Lemma names_distinct named : distinct (FNamed named) -> NoDup (map fst named).
Proof.
  unfold distinct. rewrite members_named. induction named as [|f named IH]; cbn [map]; intros Hd; [constructor|].
  inversion Hd as [|x0 l0 Hn Hd']; subst. constructor; [|auto]. intros Hx. apply Hn. apply in_map_iff in Hx.
  destruct Hx as (g & Eg & Hg). apply in_map_iff. exists g. split; [congruence|exact Hg].
Qed.
Lemma pos_distinct n : NoDup (map pos_ident (seq 0 n)).
Proof.
  apply FinFun.Injective_map_NoDup; [|apply seq_NoDup]. intros i j. apply pos_ident_inj.
Qed.
Lemma tuple_distinct tys : distinct (FUnnamed tys).
Proof.
  unfold distinct. rewrite members_unnamed. apply FinFun.Injective_map_NoDup; [|apply seq_NoDup]. intros i j H. congruence.
Qed.

Lemma derived_known cf D kf i fs e : nth_error D i = Some (DStruct (member_types fs)) -> distinct fs ->
  derive_estimable (DataStruct fs) = ROk e -> eval_known cf D kf e = known cf D (S kf) (TNamed i).
Proof.
  intros Hi Hd He. cbn [known]. rewrite Hi. destruct fs as [|tys|named]; cbn [derive_estimable] in He.
  - injection He as <-. reflexivity.
  - rewrite types_unnamed. destruct tys as [|t [|t' tys]].
    + injection He as <-. reflexivity.
    + injection He as <-. cbn [eval_known known_sum]. destruct (known cf D kf t) as [[a|]|]; try reflexivity. rewrite Z.add_0_r. reflexivity.
    + injection He as <-. set (l := t :: t' :: tys). cbn [eval_known]. rewrite known_sum_all.
      assert (Hc : List.length (map pos_ident (seq 0 (List.length l))) = List.length l) by (rewrite map_length, seq_length; reflexivity).
      change ((pos_ident 0, t) :: (pos_ident 1, t') :: combine (map pos_ident (seq 2 (List.length tys))) tys) with
        (combine (map pos_ident (seq 0 (List.length l))) l).
      rewrite map_fst_combine, map_snd_combine by exact Hc.
      destruct (all_known cf D kf l) as [ks|] eqn:E; [|reflexivity]. cbn [option_map]. f_equal. apply call_f_sum; [apply pos_distinct|].
      rewrite Hc. symmetry. eapply all_known_length; exact E.
  - rewrite types_named. destruct named as [|f named].
    + injection He as <-. reflexivity.
    + injection He as <-. cbn [eval_known]. rewrite known_sum_all. destruct (all_known cf D kf (map snd (f :: named))) as [ks|] eqn:E; [|reflexivity].
      cbn [option_map]. f_equal. apply call_f_sum; [apply names_distinct; exact Hd|].
      rewrite (all_known_length _ _ _ _ _ E), !map_length. reflexivity.
Qed.

Lemma member_unknowns cf D kf fs self : distinct fs -> forall ms vs, (forall mt, In mt ms -> In mt (declared fs)) ->
  Forall2 (fun mt v => field_of (fst mt) self = Some v) ms vs ->
  map (member_unknown cf D kf fs self) (map fst ms) = map2 (unknown cf D kf) (RErr tt) vs (map snd ms).
Proof.
  intros Hd ms vs Hin H. induction H as [|[m t] v ms vs Hv H IH]; [reflexivity|].
  cbn [map fst snd map2]. unfold member_unknown at 1. cbn [fst] in Hv. rewrite Hv, (type_of_declared fs m t Hd); [|apply Hin; left; reflexivity].
  f_equal. apply IH. intros mt Hm. apply Hin. right. exact Hm.
Qed.
Lemma est_terms fs params terms : derive_estimable (DataStruct fs) = ROk (EstSum params terms) -> terms = map fst (declared fs).
Proof.
  destruct fs as [|tys|named]; cbn [derive_estimable]; [discriminate| |].
  - rewrite members_unnamed. destruct tys as [|t [|t' tys]]; try discriminate. intros H. injection H as _ <-. reflexivity.
  - rewrite members_named. destruct named; [discriminate|]. intros H. injection H as _ <-. reflexivity.
Qed.
Lemma holds_one fs self vs m t : declared fs = [(m, t)] -> holds fs self vs -> exists v, vs = [v] /\ field_of m self = Some v.
Proof.
  unfold holds. intros ->. intros H. inversion H as [|x0 v l0 vs' Hv H']; subst. inversion H'; subst. eauto.
Qed.
Lemma derived_unknown cf D kf i fs e self vs : nth_error D i = Some (DStruct (member_types fs)) -> distinct fs ->
  derive_estimable (DataStruct fs) = ROk e -> holds fs self vs ->
  (forall n, eval_unknown cf D kf fs e self = ROk n -> n < usize_mod) ->
  unknown cf D kf (VStruct vs) (TNamed i) = eval_unknown cf D kf fs e self.
Proof.
  intros Hi Hd He Hh Hn. cbn [unknown]. rewrite Hi. destruct e as [|t m|params terms]; cbn [eval_unknown] in *.
  - assert (Hf : declared fs = []).
    { destruct fs as [|tys|named]; cbn [derive_estimable] in He.
      - reflexivity.
      - destruct tys as [|t [|t' tys]]; try discriminate He. reflexivity.
      - destruct named; [|discriminate He]. reflexivity. }
    unfold holds in Hh. rewrite Hf in Hh. unfold member_types. rewrite Hf. inversion Hh; subst. reflexivity.
  - assert (Hf : declared fs = [(m, t)]).
    { destruct fs as [|tys|named]; cbn [derive_estimable] in He; try discriminate He.
      - destruct tys as [|t0 [|t' tys]]; try discriminate He. injection He as <- <-. reflexivity.
      - destruct named; discriminate He. }
    destruct (holds_one fs self vs m t Hf Hh) as (v & -> & Hv). unfold member_unknown in *.
    rewrite Hv, (type_of_declared fs m t Hd) in * by (rewrite Hf; left; reflexivity).
    unfold member_types. rewrite Hf. cbn [map snd map2 usum]. destruct (unknown cf D kf v t) as [n|x| | |]; cbn [rbind]; try reflexivity.
    specialize (Hn n eq_refl). unfold uadd. rewrite Z.add_0_l. destruct (n <? usize_mod) eqn:E; [reflexivity|lia].
  - rewrite (est_terms _ _ _ He), (member_unknowns cf D kf fs self Hd _ vs (fun mt H => H) Hh). reflexivity.
Qed.

(** ------------------------------------------------------------------ *)
(** * FixedLength *)
Lemma sum_len_known cf D kf ts n : sum_len cf D kf ts = Some n <-> known_sum (known cf D kf) ts = Some (Some n).
Proof.
  revert n. induction ts as [|t ts IH]; intros n; cbn [sum_len known_sum]; [split; congruence|].
  destruct (known cf D kf t) as [[a|]|]; [|split; [|destruct (known_sum (known cf D kf) ts)]; discriminate|split; discriminate].
  destruct (sum_len cf D kf ts) as [b|].
  - rewrite (proj1 (IH b) eq_refl). split; congruence.
  - destruct (known_sum (known cf D kf) ts) as [[b'|]|]; try (split; discriminate). pose proof (proj2 (IH b') eq_refl) as H. discriminate H.
Qed.
Lemma derived_len cf D kf i fs e : nth_error D i = Some (DStruct (member_types fs)) ->
  derive_fixed_length (DataStruct fs) = ROk e -> (forall tys, fs = FUnnamed tys -> tys = []) ->
  forall n, eval_len cf D kf e = Some n <-> known cf D (S kf) (TNamed i) = Some (Some n).
Proof.
  intros Hi He Hf n. cbn [known]. rewrite Hi. rewrite <- sum_len_known.
  destruct fs as [|tys|named]; cbn [derive_fixed_length] in He.
  - injection He as <-. reflexivity.
  - rewrite (Hf tys eq_refl) in *. injection He as <-. reflexivity.
  - rewrite types_named. destruct named; injection He as <-; reflexivity.
Qed.

(** ------------------------------------------------------------------ *)
(** * Together *)
Lemma struct_of_holds fs vs : distinct fs -> List.length vs = List.length (declared fs) -> holds fs (struct_of fs vs) vs.
Proof.
  unfold distinct, holds, struct_of. generalize (declared fs). intros l. revert vs.
  assert (G : forall (l : list (member * ty)) self vs m w, ~ In m (map fst l) ->
    Forall2 (fun mt v => field_of (fst mt) self = Some v) l vs -> Forall2 (fun mt v => field_of (fst mt) ((m, w) :: self) = Some v) l vs).
  { clear. intros l self vs m w Hn H. induction H as [|[m' t'] v' l' vs' H H' IH]; constructor.
    - cbn [fst field_of] in *. destruct (member_eqb m' m) eqn:E; [|exact H]. apply member_eqb_eq in E. subst m'. destruct Hn. left; reflexivity.
    - apply IH. intros Hx. apply Hn. right; exact Hx. }
  induction l as [|[m t] l IH]; intros [|v vs]; cbn [List.length map combine fst]; try discriminate; intros Hd Hl; constructor.
  - cbn [fst field_of]. rewrite member_eqb_refl. reflexivity.
  - inversion Hd as [|x0 l0 Hn Hd']; subst. specialize (IH vs Hd' ltac:(lia)).
    exact (G l (combine (map fst l) vs) vs m v Hn IH).
Qed.

Lemma derived_round_trip cf D I kf i fs ee de self vs n bs w extra :
  nth_error D i = Some (DStruct (member_types fs)) -> distinct fs ->
  wf_defs D = true -> disciplined D I = true -> self_delimiting I (TNamed i) = true ->
  derive_encode (DataStruct fs) = ROk ee -> derive_decode (DataStruct fs) = ROk de ->
  holds fs self vs -> well_typed D (VStruct vs) (TNamed i) = true ->
  eval_write cf D kf tg_vec fs ee self [] = ROk (n, bs) -> zlen (bs ++ extra) <= isize_max ->
  (cf_est_override cf = true -> zeros D (VStruct vs) (TNamed i) = 0) ->
  n = zlen bs /\ derived_reads w cf D de (bs ++ extra) (ROk (struct_of fs vs, extra)).
Proof.
  intros Hi Hd Hw Hc Hs Hee Hde Hh Ht He Hl Hz.
  rewrite (derived_write cf D kf i fs ee self vs Hi Hd Hee Hh) in He. split.
  - destruct (write_appends cf D kf (VStruct vs) (TNamed i) ToVec [] n bs He) as (bs' & Hb & Hn). cbn [tg_bytes app] in Hb. subst bs'.
    apply Hn. rewrite zlen_app in Hl. pose proof (zlen_nonneg extra). unfold isize_max, usize_mod in *. lia.
  - apply (proj1 (derived_reads_same w cf D i fs de (bs ++ extra) Hi Hde)). exists vs. split; [reflexivity|].
    apply (exact_thm cf D I kf (TNamed i) (VStruct vs) bs w extra); try assumption.
    + cbn [wf_ty]. apply Nat.ltb_lt, nth_error_Some. congruence.
    + unfold to_bytes. rewrite He. reflexivity.
Qed.
Lemma derived_format cf D kf i fs ee self vs :
  nth_error D i = Some (DStruct (member_types fs)) -> distinct fs -> wf_defs D = true ->
  derive_encode (DataStruct fs) = ROk ee -> holds fs self vs -> valid D (VStruct vs) (TNamed i) = true ->
  cf_est_override cf = false -> zlen (concat2 (format D) vs (member_types fs)) <= isize_max ->
  rmap snd (eval_write cf D kf tg_vec fs ee self []) = ROk (concat2 (format D) vs (member_types fs)).
Proof.
  intros Hi Hd Hw Hee Hh Hv Ho Hl. rewrite (derived_write cf D kf i fs ee self vs Hi Hd Hee Hh).
  assert (F : format D (VStruct vs) (TNamed i) = concat2 (format D) vs (member_types fs)) by (cbn [format]; rewrite Hi; reflexivity).
  change (rmap snd (write_to cf D kf (VStruct vs) (list byte) tg_vec (TNamed i) [])) with (to_bytes cf D kf (VStruct vs) (TNamed i)).
  rewrite (encode_is_format cf D kf (TNamed i) (VStruct vs) Hw); rewrite ?Hv, ?F; auto.
  - cbn [wf_ty]. apply Nat.ltb_lt, nth_error_Some. congruence.
  - apply ProofEncValid.valid_typed; exact Hv.
Qed.

Lemma derive_applies :
  (forall fs, (exists e, derive_decode (DataStruct fs) = ROk e) /\ (exists e, derive_encode (DataStruct fs) = ROk e) /\
     (exists e, derive_estimable (DataStruct fs) = ROk e)) /\
  (forall d, d = DataEnum \/ d = DataUnion -> derive_decode d = RPanic /\ derive_encode d = RPanic /\
     derive_estimable d = RPanic /\ derive_fixed_length d = RPanic).
Proof.
  split.
  - intros [|tys|named]; (split; [|split]); try (eexists; reflexivity).
    + destruct tys as [|t [|t' tys]]; eexists; reflexivity.
    + destruct named; eexists; reflexivity.
  - intros d [-> | ->]; repeat split; reflexivity.
Qed.
