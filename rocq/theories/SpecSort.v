(** Specification of C99: types whose encodings, compared byte by byte as in a
    dictionary, come in the order of the values. *)
From Verif Require Import Base ModelErrors ModelInt ModelSchema SpecCodec SpecHexString SpecCompare.

(** What is claimed of a named type: its encodings sort like its values also in front
    of other bytes, or at the end of the bytes compared, or nothing is claimed. *)
Inductive place := Anywhere | AtEnd | Nowhere.

Definition unsigned (k : int_kind) : bool := match k with U8 | U16 | U32 | U64 => true | _ => false end.

Section Sorted.
Variables (I : list tinfo) (K : list place).

(** [sorted last t]: encodings of [t] sort like the values; unless [last], also when
    other bytes follow. *)
Fixpoint sorted (last : bool) (t : ty) : bool :=
  match t with
  | TUnit | TBool | TFixedBytes _ | TFixedString _ => true
  | TInt k => unsigned k
  | TRanged k lo _ => unsigned k || (0 <=? lo)
  | TRangedF lo _ => (0 <? lo) && (lo <? 2 ^ 63)                  (* only positive numbers *)
  | TF64 | TN | TZ => false
  | TBytes | TString => last
  | TOption t | TBox t | TVPad _ t | TPad _ t => sorted last t
  | TNullable t => last && nonempty I t && sorted true t
  | TSeq t | TLim _ t => last && nonempty I t && sorted false t
  | TFix _ t => sorted false t
  | TDyn _ t => match len_of I t with Some _ => sorted true t | None => false end
  | TNamed i => match nth i K Nowhere with Anywhere => true | AtEnd => last | Nowhere => false end
  end.

(** Fields in sequence. *)
Fixpoint sorted_fields (last : bool) (ts : list ty) : bool :=
  match ts with
  | [] => true
  | [t] => sorted last t
  | t :: ts => sorted false t && sorted_fields last ts
  end.

Fixpoint ascending (l : list Z) : bool :=
  match l with
  | x :: ((y :: _) as l1) => (x <? y) && ascending l1
  | _ => true
  end.

(** Variants of a data enum are declared in the order of their discriminants. *)
Definition sorted_def (last : bool) (d : def) : bool :=
  match d with
  | DStruct ts => sorted_fields last ts
  | DCStyle _ _ => true
  | DData _ alts => ascending (map fst alts) && forallb (fun a => sorted_fields last (snd a)) alts
  end.
Definition place_check (d : def) (p : place) : bool :=
  match p with Anywhere => sorted_def false d | AtEnd => sorted_def true d | Nowhere => true end.
End Sorted.

(** The claims [K] about the named types of [D] are right. *)
Definition sorted_defs (D : list def) (I : list tinfo) (K : list place) : bool :=
  (length D =? length K)%nat && all2 (place_check I K) D K.

(** Otherwise: the encodings of two values come in the wrong order. *)
Definition swapped (D : list def) (t : ty) : Prop :=
  exists v w, well_typed D v t = true /\ well_typed D w t = true /\ less D t v w /\
    forall cf kf, cf_est_override cf = false -> exists bs bs', to_bytes cf D kf v t = ROk bs /\ to_bytes cf D kf w t = ROk bs' /\ before bs' bs.
(** Different values have the same encoding. *)
Definition merged (D : list def) (t : ty) : Prop :=
  exists v w, well_typed D v t = true /\ well_typed D w t = true /\ less D t v w /\
    forall cf kf, cf_est_override cf = false -> exists bs, to_bytes cf D kf v t = ROk bs /\ to_bytes cf D kf w t = ROk bs.
