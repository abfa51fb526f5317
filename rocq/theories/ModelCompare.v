(** Model of [==] and [partial_cmp] of the codec types: the derived instances and
    those written out for [Dynamic] (/repo/src/dynamic.rs 146-173).  Core and alloc
    define the instances of numbers, [bool], [Option], [Vec], [Box] and arrays.

    Both are [None]/[false] on values that are not of the type. *)
From Coq Require Import Floats.SpecFloat.
From Verif Require Import Base ModelErrors ModelInt ModelFloat ModelSchema ModelHexString.

(** Core: [f64::partial_cmp], [==] (false on NaN, true on the two zeros). *)
Definition f64_cmp (a b : Z) : option comparison := SFcompare (f64_of_bits a) (f64_of_bits b).
Definition f64_eq (a b : Z) : bool := SFeqb (f64_of_bits a) (f64_of_bits b).

(** Core: [bool::cmp]. *)
Definition bool_cmp (a b : bool) : comparison :=
  match a, b with false, true => Lt | true, false => Gt | _, _ => Eq end.

(** Core: [partial_cmp] of slices: the first elements that are not equal decide,
    then the lengths. *)
Definition lex_seq {A} (f : A -> A -> option comparison) : list A -> list A -> option comparison :=
  fix go l l' :=
    match l, l' with
    | [], [] => Some Eq
    | [], _ :: _ => Some Lt
    | _ :: _, [] => Some Gt
    | a :: l, b :: l' => match f a b with Some Eq => go l l' | c => c end
    end.
Definition eq_seq {A} (f : A -> A -> bool) : list A -> list A -> bool :=
  fix go l l' :=
    match l, l' with
    | [], [] => true
    | a :: l, b :: l' => f a b && go l l'
    | _, _ => false
    end.

(** Derived [partial_cmp] and [==] of a struct: member by member. *)
Definition lex_fields {A T} (f : A -> A -> T -> option comparison) : list A -> list A -> list T -> option comparison :=
  fix go l l' ts :=
    match l, l', ts with
    | [], [], [] => Some Eq
    | a :: l, b :: l', t :: ts => match f a b t with Some Eq => go l l' ts | c => c end
    | _, _, _ => None
    end.
Definition eq_fields {A T} (f : A -> A -> T -> bool) : list A -> list A -> list T -> bool :=
  fix go l l' ts :=
    match l, l', ts with
    | [], [], [] => true
    | a :: l, b :: l', t :: ts => f a b t && go l l' ts
    | _, _, _ => false
    end.

(** int.rs 134, float.rs 131, zarith.rs 37 and 167, schema.rs 116, 247 and 363,
    fixed.rs 29 and 275, seq/mod.rs 75, seq/lim.rs 48, seq/fix.rs 74, dynamic.rs
    146-173 and 420, autobox.rs 70, adt.rs 48 (by discriminant) and 279-284 (by
    position, then payload). *)
Fixpoint val_cmp (D : list def) (v w : val) (t : ty) : option comparison :=
  match t, v, w with
  | TUnit, VUnit, VUnit => Some Eq
  | TBool, VBool a, VBool b => Some (bool_cmp a b)
  | TInt _, VInt a, VInt b | TRanged _ _ _, VInt a, VInt b | TN, VInt a, VInt b | TZ, VInt a, VInt b =>
      Some (Z.compare a b)
  | TF64, VInt a, VInt b | TRangedF _ _, VInt a, VInt b => f64_cmp a b
  | TBytes, VBytes a, VBytes b | TString, VBytes a, VBytes b
  | TFixedBytes _, VBytes a, VBytes b | TFixedString _, VBytes a, VBytes b => Some (slice_cmp a b)
  | TOption t, v, w | TNullable t, v, w =>
      match v, w with
      | VNone, VNone => Some Eq
      | VNone, VSome _ => Some Lt
      | VSome _, VNone => Some Gt
      | VSome v, VSome w => val_cmp D v w t
      | _, _ => None
      end
  | TSeq t, VSeq vs, VSeq ws | TLim _ t, VSeq vs, VSeq ws | TFix _ t, VSeq vs, VSeq ws =>
      lex_seq (fun v w => val_cmp D v w t) vs ws
  | TDyn _ t, VWrap v, VWrap w | TVPad _ t, VWrap v, VWrap w | TPad _ t, VWrap v, VWrap w | TBox t, VWrap v, VWrap w =>
      val_cmp D v w t
  | TNamed i, v, w =>
      match nth_error D i, v, w with
      | Some (DStruct ts), VStruct vs, VStruct ws => lex_fields (val_cmp D) vs ws ts
      | Some (DCStyle _ tags), VEnum ix _, VEnum ix' _ => Some (Z.compare (nth ix tags 0) (nth ix' tags 0))
      | Some (DData _ alts), VEnum ix vs, VEnum ix' ws =>
          match Nat.compare ix ix' with
          | Eq => lex_fields (val_cmp D) vs ws (snd (nth ix alts (0, [])))
          | c => Some c
          end
      | _, _, _ => None
      end
  | _, _, _ => None
  end.

Fixpoint val_eq (D : list def) (v w : val) (t : ty) : bool :=
  match t, v, w with
  | TUnit, VUnit, VUnit => true
  | TBool, VBool a, VBool b => Bool.eqb a b
  | TInt _, VInt a, VInt b | TRanged _ _ _, VInt a, VInt b | TN, VInt a, VInt b | TZ, VInt a, VInt b => a =? b
  | TF64, VInt a, VInt b | TRangedF _ _, VInt a, VInt b => f64_eq a b
  | TBytes, VBytes a, VBytes b | TString, VBytes a, VBytes b
  | TFixedBytes _, VBytes a, VBytes b | TFixedString _, VBytes a, VBytes b => eq_seq Z.eqb a b
  | TOption t, v, w | TNullable t, v, w =>
      match v, w with
      | VNone, VNone => true
      | VSome v, VSome w => val_eq D v w t
      | _, _ => false
      end
  | TSeq t, VSeq vs, VSeq ws | TLim _ t, VSeq vs, VSeq ws | TFix _ t, VSeq vs, VSeq ws =>
      eq_seq (fun v w => val_eq D v w t) vs ws
  | TDyn _ t, VWrap v, VWrap w | TVPad _ t, VWrap v, VWrap w | TPad _ t, VWrap v, VWrap w | TBox t, VWrap v, VWrap w =>
      val_eq D v w t
  | TNamed i, v, w =>
      match nth_error D i, v, w with
      | Some (DStruct ts), VStruct vs, VStruct ws => eq_fields (val_eq D) vs ws ts
      | Some (DCStyle _ tags), VEnum ix _, VEnum ix' _ => nth ix tags 0 =? nth ix' tags 0
      | Some (DData _ alts), VEnum ix vs, VEnum ix' ws =>
          Nat.eqb ix ix' && eq_fields (val_eq D) vs ws (snd (nth ix alts (0, [])))
      | _, _, _ => false
      end
  | _, _, _ => false
  end.
