(** How much memory a value takes, and how much each type may take per byte of
    input. *)
From Verif Require Import Base ModelErrors ModelInt ModelSchema SpecCodec.

(** One unit per node of the value, one per byte of a string, one per byte of a
    number. *)
Definition number_bytes (z : Z) : Z := Z.log2 (Z.abs z) / 8 + 1.
Fixpoint weight (v : val) : Z :=
  match v with
  | VUnit | VBool _ | VNone => 1
  | VInt z => 1 + number_bytes z
  | VBytes bs => 1 + zlen bs
  | VSome v | VWrap v => 1 + weight v
  | VSeq vs | VStruct vs | VEnum _ vs => 1 + fold_right Z.add 0 (map weight vs)
  end.

(** [B] units are granted per byte consumed, and [base t] units besides (a
    negative number when the bytes a [t] surely consumes grant more than needed).
    [A] claims the [base] of the declarations. *)
Section Base.
Variables (B : Z) (A : list Z).
Fixpoint base (t : ty) : Z :=
  match t with
  | TUnit => 1
  | TBool => 1 - B
  | TInt k | TRanged k _ _ => 1 + ik_len k - B * ik_len k
  | TF64 | TRangedF _ _ => 9 - B * 8
  | TN | TZ => 2 - B
  | TBytes | TString => 1
  | TFixedBytes n | TFixedString n => 1 + n - B * n
  | TOption t => 1 - B + Z.max 0 (base t)
  | TNullable t => 1 + Z.max 0 (base t)
  | TSeq _ => 1
  | TLim n t => 1 + n * Z.max 0 (base t)
  | TFix n t => 1 + n * base t
  | TDyn s t => 1 + base t - B * pref_len s
  | TVPad _ t | TBox t => 1 + base t
  | TPad n t => 1 + base t - B * n
  | TNamed i => nth i A 0
  end.
(** The elements of every unbounded sequence pay for themselves. *)
Fixpoint pays (t : ty) : bool :=
  match t with
  | TSeq t => (base t <=? 0) && pays t
  | TOption t | TNullable t | TLim _ t | TFix _ t | TDyn _ t | TVPad _ t | TPad _ t | TBox t => pays t
  | _ => true
  end.
Definition bases (ts : list ty) : Z := fold_right Z.add 0 (map base ts).
Definition pays_def (d : def) (a : Z) : bool :=
  match d with
  | DStruct ts => forallb pays ts && (1 + bases ts <=? a)
  | DCStyle k _ => 1 - B * ik_len k <=? a
  | DData k alts => forallb (fun alt => forallb pays (snd alt) && (1 - B * ik_len k + bases (snd alt) <=? a)) alts
  end.
(** The claims [A] hold; [3 <=? B] because a bad byte of a string becomes a
    replacement character of three. *)
Definition linear (D : list def) : bool :=
  (3 <=? B) && (zlen A =? zlen D) && forallb (fun da => pays_def (fst da) (snd da)) (combine D A).
End Base.
