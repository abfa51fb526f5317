(** Specification of C101: the smallest and the largest encodings of a type. *)
From Verif Require Import Base ModelErrors ModelInt ModelFloat ModelSchema SpecCodec.

Section Sizes.
(** For each named type, a lower bound and, unless its encodings have no bound, an upper one. *)
Variable J : list (Z * option Z).
Definition bound (i : nat) : Z * option Z := nth i J (0, None).

Fixpoint least (t : ty) : Z :=
  match t with
  | TUnit | TBytes | TString | TNullable _ | TSeq _ | TLim _ _ => 0
  | TBool | TN | TZ | TOption _ => 1
  | TInt k | TRanged k _ _ => ik_len k
  | TF64 | TRangedF _ _ => 8
  | TFixedBytes n | TFixedString n => n
  | TFix n t => n * least t
  | TDyn s t => pref_len s + least t
  | TVPad _ t | TBox t => least t
  | TPad n t => least t + n
  | TNamed i => fst (bound i)
  end.

(** [None]: there is no largest one.  A payload is at most what its prefix can announce. *)
Fixpoint most (t : ty) : option Z :=
  match t with
  | TUnit => Some 0
  | TBool => Some 1
  | TInt k | TRanged k _ _ => Some (ik_len k)
  | TF64 | TRangedF _ _ => Some 8
  | TN | TZ | TBytes | TString => None
  | TFixedBytes n | TFixedString n => Some n
  | TOption t => opt_add (Some 1) (most t)
  | TNullable t => most t
  | TSeq t => match most t with Some m => if m =? 0 then Some 0 else None | None => None end
  | TLim n t | TFix n t => match most t with Some m => Some (n * m) | None => None end
  | TDyn s t => Some (pref_len s + match most t with Some m => Z.min m (pref_max s) | None => pref_max s end)
  | TVPad _ t | TBox t => most t
  | TPad n t => opt_add (most t) (Some n)
  | TNamed i => snd (bound i)
  end.
Definition least_fields (ts : list ty) : Z := fold_right (fun t acc => least t + acc) 0 ts.
Definition most_fields (ts : list ty) : option Z := fold_right (fun t acc => opt_add (most t) acc) (Some 0) ts.

Definition no_more (m hi : option Z) : bool :=
  match hi with None => true | Some h => match m with Some m => m <=? h | None => false end end.
Definition size_check (d : def) (b : Z * option Z) : bool :=
  (0 <=? fst b) && no_more (Some (fst b)) (snd b) &&
  match d with
  | DStruct ts => (fst b <=? least_fields ts) && no_more (most_fields ts) (snd b)
  | DCStyle k _ => (fst b <=? ik_len k) && no_more (Some (ik_len k)) (snd b)
  | DData k alts =>
      forallb (fun a => (fst b <=? ik_len k + least_fields (snd a)) &&
                        no_more (opt_add (Some (ik_len k)) (most_fields (snd a))) (snd b)) alts
  end.
End Sizes.

(** The bounds [J] of the named types of [D] are right. *)
Definition sized (D : list def) (J : list (Z * option Z)) : bool :=
  (length D =? length J)%nat && all2 (size_check J) D J.

Definition within (J : list (Z * option Z)) (t : ty) (n : Z) : Prop :=
  least J t <= n /\ forall m, most J t = Some m -> n <= m.

(** ** Where the bounds are reached *)
(** [W]: for each named type a value with the smallest encoding and one with the largest. *)
Definition reached (D : list def) (J : list (Z * option Z)) (W : list (val * val)) : Prop :=
  forall i, (i < length D)%nat -> exists lo hi, nth_error W i = Some (lo, hi) /\
    valid D lo (TNamed i) = true /\ zlen (format D lo (TNamed i)) = fst (bound J i) /\
    forall m, snd (bound J i) = Some m -> valid D hi (TNamed i) = true /\ zlen (format D hi (TNamed i)) = m.

(** The types that have a value of the smallest length: ranges are not empty, and payloads
    fit their prefix. *)
Fixpoint least_met (J : list (Z * option Z)) (t : ty) : bool :=
  match t with
  | TRanged k lo hi => ranged_ok k lo hi (if 0 <? lo then 0 else lo)
  | TRangedF lo hi => f64_le lo lo && f64_le lo hi
  | TFix _ t | TVPad _ t | TPad _ t | TBox t => least_met J t
  | TDyn s t => least_met J t && (least J t <=? pref_max s)
  | _ => true
  end.
Fixpoint most_met (J : list (Z * option Z)) (t : ty) : bool :=
  match t with
  | TRanged k lo hi => ranged_ok k lo hi (if 0 <? lo then 0 else lo)
  | TRangedF lo hi => f64_le lo lo && f64_le lo hi
  | TOption t | TNullable t | TLim _ t | TFix _ t | TVPad _ t | TPad _ t | TBox t => most_met J t
  | TDyn s t =>
      match t, most J t with
      | TBytes, _ | TString, _ => true
      | _, Some m => most_met J t && (m <=? pref_max s)
      | _, None => false
      end
  | _ => true
  end.
