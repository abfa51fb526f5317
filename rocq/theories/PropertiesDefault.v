(** Property C96: default values. *)
From Verif Require Import Base ModelErrors ModelInt ModelParser ModelSchema ModelDefault
  SpecCodec SpecNum SpecDefault ProofDefault.

(** The default value of a type is a value of the type, exactly when it contains no
    default of a FixSeq that must not be empty, and no default of a range above 0
    that ends before twice its minimum. *)
Theorem C96_exact : forall D t f v,
  wf_defs D = true -> wf_ty D t = true -> backers_hold D t -> default_val f D t = ROk v ->
  (valid D v t = true <-> (forall u, default_of D t u -> sound_default u)).
Proof. exact (fun D t f v => default_exact D true f t v). Qed.
Print Assumptions C96_exact.

(** Such a default can be encoded, and decoding gives it back. *)
Theorem C96_round_trip_partial : forall cf D I t v f kf w,
  wf_defs D = true -> disciplined D I = true -> wf_ty D t = true -> decodable I t = true -> backers_hold D t ->
  default_val f D t = ROk v -> (forall u, default_of D t u -> sound_default u) ->
  cf_est_override cf = false -> zlen (format D v t) <= isize_max -> (w = WSlice -> cf_complete cf = false) ->
  exists bs, to_bytes cf D kf v t = ROk bs /\ decodes w cf D t bs (ROk v).
Proof. exact default_round_trip. Qed.
Print Assumptions C96_round_trip_partial.

(** Any other default is a value that no input decodes to. *)
Theorem C96_never_decoded : forall cf D t v f input w u,
  wf_defs D = true -> wf_ty D t = true -> backers_hold D t -> default_val f D t = ROk v ->
  default_of D t u -> ~ sound_default u ->
  bytes_ok input -> zlen input <= isize_max -> ~ decodes w cf D t input (ROk v).
Proof. exact default_never_decoded. Qed.
Print Assumptions C96_never_decoded.

(** A type has at most one default. *)
Theorem C96_unique : forall D t f g v w,
  default_val f D t = ROk v -> default_val g D t = ROk w -> v = w.
Proof. exact default_unique. Qed.
Print Assumptions C96_unique.

(** Which types have one. *)
Theorem C96_exists : forall D t, has_default D t <-> exists f v, default_val f D t = ROk v.
Proof. exact default_exists. Qed.
Print Assumptions C96_exists.

(** Where 0 is in range, the default is the zero of its type: its encoding has no
    other byte. *)
Theorem C96_zero : forall D f t v, default_val f D t = ROk v -> (forall u, default_of D t u -> zero_in_range u) ->
  Forall (fun b => b = 0) (format D v t).
Proof. exact default_zero. Qed.
Print Assumptions C96_zero.

Definition default_cfg : config := mkConfig Release false false false false false.

(** FixSeq<u8, 2>: the default is encoded, but as nothing. *)
Theorem C96_fixseq_refuted : exists D t v,
  wf_defs D = true /\ wf_ty D t = true /\ backers_hold D t /\ default_val 5 D t = ROk v /\
  to_bytes default_cfg D 5 v t = ROk [] /\
  (exists e, decode_with WByte default_cfg D 5 t [] = RErr e).
Proof.
  exists [], (TFix 2 (TInt U8)), (VSeq []). split; [reflexivity|]. split; [reflexivity|].
  split; [intros k lo hi Q; inversion Q|]. split; [reflexivity|]. split; [reflexivity|]. eexists. vm_compute. reflexivity.
Qed.
Print Assumptions C96_fixseq_refuted.

(** RangedInt<u8, 10, 15>: encoding the default panics. *)
Theorem C96_ranged_refuted : exists D t v,
  wf_defs D = true /\ wf_ty D t = true /\ backers_hold D t /\ default_val 5 D t = ROk v /\
  to_bytes default_cfg D 5 v t = RPanic.
Proof.
  exists [], (TRanged U8 10 15), (VInt 10). split; [reflexivity|]. split; [reflexivity|].
  split; [|split; reflexivity].
  intros k lo hi Q; inversion Q; subst. unfold backer_holds. cbn. split; [split|]; discriminate.
Qed.
Print Assumptions C96_ranged_refuted.

(** A struct with two nested structs, one behind an AutoBox. *)
Definition default_defs : list def :=
  [DStruct [TBool; TRanged I16 (-300) (-20); TPad 2 (TNamed 1); TFixedBytes 3; TBox (TNamed 1); TOption (TFix 4 TBool)];
   DStruct [TRangedF 0 4607182418800017408; TN; TRanged U8 3 9; TFix 0 TBool]].
Definition default_info : list tinfo := [mkInfo Delim true None; mkInfo Delim true None].
Definition default_leaf (u : ty) : Prop :=
  (forall k lo hi, u = TRanged k lo hi -> backer_holds k lo hi /\ (0 < lo -> lo <= ik_max k)) /\ sound_default u.
Lemma default_leaf_other u : (forall k lo hi, u <> TRanged k lo hi) -> sound_default u -> default_leaf u.
Proof. intros N S. split; [|exact S]. intros k lo hi E. destruct (N _ _ _ E). Qed.
Lemma default_leaf_ranged k lo hi : backer_holds k lo hi -> (0 < lo -> lo <= ik_max k) -> lo <= 0 \/ lo + lo <= hi -> default_leaf (TRanged k lo hi).
Proof. intros B L S. split; [|exact S]. intros k' lo' hi' E. injection E as <- <- <-. split; assumption. Qed.
Ltac leaf := first [apply default_leaf_ranged; [unfold backer_holds; cbn; lia|cbn; lia|lia]
                   |apply default_leaf_other; [intros ? ? ?; discriminate|cbn; first [exact Logic.I|reflexivity]]].
Lemma default_leaves_inner u : default_of default_defs (TNamed 1) u -> default_leaf u.
Proof.
  intros Q. inversion Q as [|? ? ? H|? ? ? H|? ? H|i ts t u' N I H]; subst; [leaf|]. cbn in N. injection N as N. subst ts.
  cbn in I. destruct I as [<-|[<-|[<-|[<-|[]]]]]; inversion H; subst; leaf.
Qed.
Lemma default_leaves u : default_of default_defs (TNamed 0) u -> default_leaf u.
Proof.
  intros Q. inversion Q as [|? ? ? H|? ? ? H|? ? H|i ts t u' N I H]; subst; [leaf|]. cbn in N. injection N as N. subst ts.
  cbn in I. destruct I as [<-|[<-|[<-|[<-|[<-|[<-|[]]]]]]]; inversion H; subst; try leaf; apply default_leaves_inner; assumption.
Qed.
Lemma default_backers : backers_hold default_defs (TNamed 0) /\ (forall u, default_of default_defs (TNamed 0) u -> sound_default u).
Proof.
  split; [intros k lo hi Q; exact (proj1 (default_leaves _ Q) _ _ _ eq_refl)|].
  intros u Q. exact (proj2 (default_leaves _ Q)).
Qed.
Example C96_meets :
  wf_defs default_defs = true /\ disciplined default_defs default_info = true /\ decodable default_info (TNamed 0) = true /\
  backers_hold default_defs (TNamed 0) /\ (forall u, default_of default_defs (TNamed 0) u -> sound_default u) /\
  exists inner,
    inner = VStruct [VInt 0; VInt 0; VInt 3; VSeq []] /\
    default_val 9 default_defs (TNamed 0) =
      ROk (VStruct [VBool false; VInt (-20); VWrap inner; VBytes [0; 0; 0]; VWrap inner; VNone]).
Proof. split; [reflexivity|]. split; [reflexivity|]. split; [reflexivity|]. split; [apply default_backers|]. split; [apply default_backers|].
  eexists. split; reflexivity. Qed.

Example C96_zero_meets :
  let D := [DStruct [TBool; TOption TString; TRanged I16 (-3) 5; TBox (TNamed 1)]; DStruct [TN; TZ; TF64; TFixedBytes 2]] in
  (exists v, default_val 9 D (TNamed 0) = ROk v /\ format D v (TNamed 0) = repeat 0 16) /\
  (forall u, default_of D (TNamed 0) u -> zero_in_range u).
Proof.
  split; [eexists; split; reflexivity|].
  intros u Q. inversion Q as [|? ? ? H|? ? ? H|? ? H|i ts t u' N I H]; subst; [exact Logic.I|]. cbn in N. injection N as N. subst ts.
  cbn in I. destruct I as [<-|[<-|[<-|[<-|[]]]]]; inversion H as [|? ? ? H'|? ? ? H'|? ? H'|]; subst; try exact Logic.I; [cbn; lia|].
  inversion H' as [|? ? ? H2|? ? ? H2|? ? H2|i ts t u' N I H2]; subst; [exact Logic.I|]. cbn in N. injection N as N. subst ts.
  cbn in I. destruct I as [<-|[<-|[<-|[<-|[]]]]]; inversion H2; subst; exact Logic.I.
Qed.
