(** Proofs about decoding with an allocator that can refuse. *)
From Verif Require Import Base BaseLemmas ModelErrors ModelParser ModelInt ModelSchema ModelMemory ModelLimit SpecCodec SpecSize SpecWork SpecMemory ProofCodec ProofMemory.
From Coq Require Import ZifyBool.

Section Run.
Context {P : Type} (h : handler P) (grants : Z -> Z -> bool).

Lemma at_most_mono {A} (m : mprog A) : forall s u, at_most u <= at_most (snd (mrun h m s u)).
Proof.
  induction m as [a|X pg k IH|k IH|n k IH|n k IH]; intros s u; cbn [mrun snd].
  - lia.
  - destruct (run h pg s) as [[x|e| | |] s']; cbn [snd]; try lia. apply IH.
  - apply IH.
  - eapply Z.le_trans; [|apply IH]. cbn [at_most]. lia.
  - eapply Z.le_trans; [|apply IH]. cbn [at_most]. lia.
Qed.
(** [Q] holds of the answer, the parser and the bytes in use at the end; no request
    is for a block that cannot be, unless more than that is in use. *)
Fixpoint sober {A} (m : mprog A) (s : P) (used : Z) (Q : Z -> Prop) : Prop :=
  match m with
  | MRet _ => Q used
  | MRun pg k => forall x s', run h pg s = (ROk x, s') -> sober (k x) s' used Q
  | MTick k => sober k s used Q
  | MAsk n k => (n <= isize_max \/ 0 <= used) /\ sober k s (used + n) Q
  | MGive n k => sober k s (used - n) Q
  end.
Lemma lrun_enough {A} M (m : mprog A) : (forall used n, used + n <= M -> grants used n = true) -> forall s u Q,
  sober m s (in_use u) Q -> at_most (snd (mrun h m s u)) <= M -> M <= isize_max ->
  lrun grants h m s (in_use u) = Ended (fst (mrun h m s u)).
Proof.
  intros G. induction m as [a|X pg k IH|k IH|n k IH|n k IH]; intros s u Q S L B; cbn [mrun lrun fst snd sober] in *.
  - reflexivity.
  - destruct (run h pg s) as [[x|e| | |] s']; try reflexivity. eapply IH; eauto.
  - eapply IH; eauto.
  - destruct S as [S0 S]. pose proof (at_most_mono k s (mkMem (in_use u + n) (Z.max (at_most u) (in_use u + n)))) as Hm.
    cbn [at_most] in Hm. replace (isize_max <? n) with false by lia. rewrite G by lia.
    exact (IH s (mkMem (in_use u + n) (Z.max (at_most u) (in_use u + n))) Q S L B).
  - exact (IH s (mkMem (in_use u - n) (at_most u)) Q S L B).
Qed.
Lemma sober_bind {A B} (m : mprog A) (k : A -> mprog B) (Q R : Z -> Prop) : (forall a s used, Q used -> sober (k a) s used R) ->
  forall s used, sober m s used Q -> sober (mbind m k) s used R.
Proof.
  intros K. induction m as [a|X pg c IH|c IH|n c IH|n c IH]; intros s used S; cbn [mbind sober] in *; auto.
  destruct S; auto.
Qed.
Definition thrifty {A} (m : mprog A) : Prop := forall s used, 0 <= used -> sober m s used (fun u => 0 <= u).
Lemma thrifty_ret {A} (a : A) : thrifty (MRet a). Proof. intros s used H. exact H. Qed.
Lemma thrifty_run {X A} (pg : prog X) (k : X -> mprog A) : (forall x, thrifty (k x)) -> thrifty (MRun pg k).
Proof. intros K s used H x s' _. apply K, H. Qed.
Lemma thrifty_fail {A} (pg : prog A) : thrifty (mfail pg). Proof. apply thrifty_run, thrifty_ret. Qed.
Lemma thrifty_ask {A} n (m : mprog A) : 0 <= n -> thrifty m -> thrifty (MAsk n m).
Proof. intros N T s used H. split; [right; exact H|]. apply T. lia. Qed.
Lemma thrifty_bind {A B} (m : mprog A) (k : A -> mprog B) : thrifty m -> (forall a, thrifty (k a)) -> thrifty (mbind m k).
Proof. intros M K s used H. eapply sober_bind; [|apply M, H]. intros a s' u Hu. apply K, Hu. Qed.

Lemma st_short fl term : forall ret s bs s', run h (p_self_terminating_loop fl term ret) s = (ROk bs, s') -> zlen bs <= zlen ret + Z.of_nat fl.
Proof.
  induction fl as [|fl IH]; intros ret s bs s'; cbn [p_self_terminating_loop run]; [discriminate|].
  destruct (h byte OpConsumeByte s) as [[b|e| | |] p1]; try discriminate. destruct (term b).
  - cbn [run]. intros E. injection E as <- _. rewrite zlen_app. change (zlen [b]) with 1. lia.
  - intros E. specialize (IH _ _ _ _ E). rewrite zlen_app in IH. change (zlen [b]) with 1 in IH. lia.
Qed.
Lemma thrifty_number d : thrifty (m_number d).
Proof.
  apply thrifty_run. intros rem. destruct (Z.leb_spec rem isize_max) as [L|]; [|apply thrifty_fail].
  intros s used H. cbn [sober]. split; [left; exact L|]. intros bs s' E. split.
  - apply st_short in E. change (zlen []) with 0 in E. unfold isize_max in *. lia.
  - intros z s2 _. lia.
Qed.
Lemma thrifty_seq size m : 0 <= size -> thrifty m -> forall fl cap acc, 0 <= cap -> thrifty (m_seq_loop fl size cap m acc).
Proof.
  intros Hz Hm. induction fl as [|fl IH]; intros cap acc Hc; cbn [m_seq_loop]; [apply thrifty_fail|].
  apply thrifty_run. intros rem. destruct (rem =? 0); [apply thrifty_ret|]. apply thrifty_bind; [exact Hm|]. intros v.
  destruct (zlen acc =? cap); [|apply IH, Hc]. pose proof (grown_range size cap Hc) as Hg. set (c' := grown size cap) in *. clearbody c'.
  intros s used H. cbn [sober]. split; [right; exact H|]. apply IH; [lia|]. nia.
Qed.
Lemma thrifty_lim n m : thrifty m -> forall fl acc, thrifty (m_lim_loop fl n m acc).
Proof.
  intros Hm. induction fl as [|fl IH]; intros acc; cbn [m_lim_loop]; [apply thrifty_fail|].
  apply thrifty_run. intros rem. destruct (rem =? 0); [apply thrifty_ret|]. apply thrifty_bind; [exact Hm|]. intros v.
  apply thrifty_run. intros seq. apply IH.
Qed.
Lemma thrifty_fix n m : thrifty m -> forall fl acc, thrifty (m_fix_loop fl n m acc).
Proof.
  intros Hm. induction fl as [|fl IH]; intros acc; cbn [m_fix_loop]; [apply thrifty_fail|].
  apply thrifty_run. intros rem. destruct (_ && _); [apply thrifty_bind; [exact Hm|]; intros v; apply IH|].
  destruct (_ =? _); [apply thrifty_ret|apply thrifty_fail].
Qed.
Lemma thrifty_fields D m : (forall t, wf_ty D t = true -> thrifty (m t)) -> forall ts, forallb (wf_ty D) ts = true -> thrifty (m_fields m ts).
Proof.
  intros Hm. induction ts as [|t ts IH]; cbn [m_fields forallb]; intros W; [apply thrifty_ret|]. apply andb_prop in W. destruct W.
  apply thrifty_bind; [apply Hm; assumption|]. intros v. apply thrifty_bind; [apply IH; assumption|]. intros vs. apply thrifty_ret.
Qed.
Lemma thrifty_parse size_of cf D : wf_defs D = true -> (forall t, 0 <= size_of t) ->
  forall f t, wf_ty D t = true -> thrifty (mparse size_of cf D f t).
Proof.
  intros WD Hs. induction f as [|f IH]; intros t W; [apply thrifty_fail|]. cbn [mparse]. intros s used H. cbn [sober]. revert s used H.
  match goal with |- forall s used, _ -> sober ?m _ _ _ => change (thrifty m) end.
  assert (B : forall t (k : val -> mprog val), wf_ty D t = true -> (forall v, thrifty (k v)) -> thrifty (mbind (mparse size_of cf D f t) k)).
  { intros t0 k W0 K. apply thrifty_bind; auto. }
  destruct t; cbn [wf_ty] in W; try (apply thrifty_fail); try (apply thrifty_number).
  - apply thrifty_run. intros rem. apply thrifty_run. intros bs. apply thrifty_ask; [apply zlen_nonneg|apply thrifty_ret].
  - apply thrifty_run. intros rem. apply thrifty_run. intros bs s used H. pose proof (zlen_nonneg bs). cbn [sober]. cbv zeta.
    split; [right; exact H|]. split; [right; lia|]. lia.
  - apply thrifty_run. intros tag. destruct (tag =? 255); [apply B; [exact W|intros; apply thrifty_ret]|].
    destruct (tag =? 0); [apply thrifty_ret|apply thrifty_fail].
  - apply thrifty_run. intros rem. destruct (negb _); [apply B; [exact W|intros; apply thrifty_ret]|apply thrifty_ret].
  - apply thrifty_bind; [apply thrifty_seq; auto; lia|]. intros; apply thrifty_ret.
  - apply andb_prop in W. destruct W as [Wn W]. unfold sizeb in Wn. specialize (Hs t).
    apply thrifty_ask; [apply Z.mul_nonneg_nonneg; lia|]. apply thrifty_bind; [apply thrifty_lim; auto|]. intros; apply thrifty_ret.
  - apply andb_prop in W. destruct W as [Wn W]. unfold sizeb in Wn. specialize (Hs t).
    apply thrifty_ask; [apply Z.mul_nonneg_nonneg; lia|]. apply thrifty_bind; [apply thrifty_fix; auto|]. intros; apply thrifty_ret.
  - do 2 (apply thrifty_run; intros). apply B; [exact W|]. intros. apply thrifty_run; intros. apply thrifty_ret.
  - apply andb_prop in W. destruct W as [Wn W]. do 4 (apply thrifty_run; intros). apply B; [exact W|]. intros. apply thrifty_run; intros. apply thrifty_ret.
  - apply andb_prop in W. destruct W as [Wn W]. apply B; [exact W|]. intros. apply thrifty_run; intros. destruct (_ && _); [apply thrifty_fail|apply thrifty_ret].
  - apply B; [exact W|]. intros. apply thrifty_ask; [apply Hs|apply thrifty_ret].
  - destruct (nth_error D i) as [[ts|k tags|k alts]|] eqn:EN; try apply thrifty_fail.
    + pose proof (wf_nth D i _ WD EN) as Wd. apply thrifty_bind; [apply (thrifty_fields D); [exact IH|exact Wd]|]. intros; apply thrifty_ret.
    + pose proof (wf_nth D i _ WD EN) as Wd. cbn [wf_def] in Wd. apply andb_prop in Wd. destruct Wd as [_ Wd].
      apply thrifty_run. intros tag. destruct (find_tag tag (map fst alts)) as [ix|]; [|apply thrifty_fail].
      destruct (nth_error alts ix) as [[n ts]|] eqn:EA; [|apply thrifty_fail].
      rewrite forallb_forall in Wd. specialize (Wd _ (nth_error_In _ _ EA)).
      apply thrifty_bind; [apply (thrifty_fields D); [exact IH|exact Wd]|]. intros; apply thrifty_ret.
Qed.
Lemma lrun_either {A} (m : mprog A) : forall s u used,
  lrun grants h m s used = Ended (fst (mrun h m s u)) \/ lrun grants h m s used = Aborted \/ exists p, lrun grants h m s used = Ended (RPanic, p).
Proof.
  induction m as [a|X pg k IH|k IH|n k IH|n k IH]; intros s u used; cbn [mrun lrun fst].
  - auto.
  - destruct (run h pg s) as [[x|e| | |] s']; auto.
  - apply IH.
  - destruct (isize_max <? n); [eauto|]. destruct (grants used n); [|auto]. apply IH.
  - apply IH.
Qed.
End Run.

Section Decode.
Variables (size_of : ty -> Z) (grants : Z -> Z -> bool) (D : list def) (t : ty).
Hypothesis WD : wf_defs D = true.
Hypothesis WT : wf_ty D t = true.
Hypothesis Sz : forall t, 0 <= size_of t.

Lemma limited_enough M w cf f input : (forall used n, used + n <= M -> grants used n = true) -> M <= isize_max ->
  at_most (decode_memory size_of w cf D f t input) <= M ->
  limited_decode size_of grants w cf D f t input = Ended (decode_with w cf D f t input).
Proof.
  intros G B L. destruct w; cbn [limited_decode decode_with decode_memory] in *;
    unfold byte_decode, memo_decode, slice_decode, try_decode;
    erewrite <- (same_parse _ size_of cf D f t _ (mkMem 0 0));
    (match goal with |- context [lrun grants ?h ?m ?s 0] =>
       pose proof (lrun_enough h grants M m G s (mkMem 0 0) _ (thrifty_parse h size_of cf D WD Sz f t WT s 0 (Z.le_refl 0)) L B) as E end);
    cbn [in_use] in E; rewrite E;
    destruct (fst _) as [[v|e| | |] p]; reflexivity.
Qed.
Lemma limited_either w cf f input :
  limited_decode size_of grants w cf D f t input = Ended (decode_with w cf D f t input) \/
  limited_decode size_of grants w cf D f t input = Aborted \/
  limited_decode size_of grants w cf D f t input = Ended RPanic.
Proof.
  destruct w; cbn [limited_decode decode_with]; unfold byte_decode, memo_decode, slice_decode, try_decode;
    match goal with |- context [lrun grants ?h ?m ?s 0] => destruct (lrun_either h grants m s (mkMem 0 0) 0) as [E|[E|[p E]]]; rewrite E end; auto;
    rewrite same_parse; destruct (run _ _ _) as [[v|e| | |] p]; left; reflexivity.
Qed.
End Decode.
Lemma limited_proportional D I R t size_of :
  wf_defs D = true -> wf_ty D t = true -> terminating D I R = true -> loops_ok I t = true -> (forall t, 0 <= size_of t) ->
  exists K, forall grants M cf input w f, (forall used n, used + n <= M -> grants used n = true) ->
    K * (1 + zlen input) <= M -> M <= isize_max -> zlen input <= isize_max ->
    limited_decode size_of grants w cf D f t input = Ended (decode_with w cf D f t input).
Proof.
  intros WD WT HT HL Sz. destruct (memory_proportional D I R t size_of WD WT HT HL Sz) as [K HK]. exists K.
  intros grants M cf input w f G H1 H2 H3. apply (limited_enough size_of grants D t WD WT Sz M); auto.
  specialize (HK cf input w f H3). lia.
Qed.
Lemma limited_slots size_of grants w cf D f n t input :
  (isize_max < n * size_of t -> limited_decode size_of grants w cf D (S f) (TLim n t) input = Ended RPanic /\
                                limited_decode size_of grants w cf D (S f) (TFix n t) input = Ended RPanic) /\
  (n * size_of t <= isize_max -> grants 0 (n * size_of t) = false ->
     limited_decode size_of grants w cf D (S f) (TLim n t) input = Aborted /\
     limited_decode size_of grants w cf D (S f) (TFix n t) input = Aborted).
Proof.
  split.
  - intros H. split; destruct w; cbn [limited_decode mparse lrun]; replace (isize_max <? n * size_of t) with true by lia; reflexivity.
  - intros H G. split; destruct w; cbn [limited_decode mparse lrun]; replace (isize_max <? n * size_of t) with false by lia; rewrite G; reflexivity.
Qed.
