(** Specification of the order of values. *)
From Verif Require Import Base ModelErrors ModelInt ModelSchema SpecCodec SpecNum SpecHexString.

(** Types grouped by the shape of their values. *)
Definition is_number (t : ty) : bool :=
  match t with TInt _ | TRanged _ _ _ | TN | TZ => true | _ => false end.
Definition is_text (t : ty) : bool :=
  match t with TBytes | TString | TFixedBytes _ | TFixedString _ => true | _ => false end.
Definition optional_of (t : ty) : option ty := match t with TOption t | TNullable t => Some t | _ => None end.
Definition element_of (t : ty) : option ty := match t with TSeq t | TLim _ t | TFix _ t => Some t | _ => None end.
Definition payload_of (t : ty) : option ty :=
  match t with TDyn _ t | TVPad _ t | TPad _ t | TBox t => Some t | _ => None end.

(** Whether a binary64 pattern is a number (an infinity counts), that is not NaN.
    [f64_value] puts the infinities at 2^2098 units, above every finite number. *)
Definition f64_number (b : Z) : bool := negb ((b / 2 ^ 52 mod 2048 =? 2047) && negb (b mod 2 ^ 52 =? 0)).
Definition is_float (t : ty) : bool := match t with TF64 | TRangedF _ _ => true | _ => false end.

(** [same D t v w]: the values are the same, where floating-point numbers count as
    the same when they are numbers of the same size (so the two zeros are the same,
    and NaN is not the same as anything). *)
Inductive same (D : list def) : ty -> val -> val -> Prop :=
| same_unit : same D TUnit VUnit VUnit
| same_bool b : same D TBool (VBool b) (VBool b)
| same_int t x : is_number t = true -> same D t (VInt x) (VInt x)
| same_float t x y : is_float t = true -> f64_number x = true -> f64_number y = true -> f64_value x = f64_value y ->
    same D t (VInt x) (VInt y)
| same_text t x : is_text t = true -> same D t (VBytes x) (VBytes x)
| same_none t t' : optional_of t = Some t' -> same D t VNone VNone
| same_some t t' v w : optional_of t = Some t' -> same D t' v w -> same D t (VSome v) (VSome w)
| same_seq t t' vs ws : element_of t = Some t' -> Forall2 (same D t') vs ws -> same D t (VSeq vs) (VSeq ws)
| same_payload t t' v w : payload_of t = Some t' -> same D t' v w -> same D t (VWrap v) (VWrap w)
| same_struct i ts vs ws : nth_error D i = Some (DStruct ts) -> same_members D ts vs ws ->
    same D (TNamed i) (VStruct vs) (VStruct ws)
| same_cstyle i k tags ix : nth_error D i = Some (DCStyle k tags) -> same D (TNamed i) (VEnum ix []) (VEnum ix [])
| same_data i k alts ix n ts vs ws : nth_error D i = Some (DData k alts) -> nth_error alts ix = Some (n, ts) ->
    same_members D ts vs ws -> same D (TNamed i) (VEnum ix vs) (VEnum ix ws)
with same_members (D : list def) : list ty -> list val -> list val -> Prop :=
| same_no_members : same_members D [] [] []
| same_more_members t ts v vs w ws : same D t v w -> same_members D ts vs ws -> same_members D (t :: ts) (v :: vs) (w :: ws).

(** [less D t v w]: of the type [t], [v] comes before [w].  Numbers by size (ranged
    ones by the number meant), byte strings and sequences as in a dictionary, nothing
    before something, structs by the first member that is not the same, C-style enums
    by their discriminants, data enums by the variants' positions. *)
Inductive less (D : list def) : ty -> val -> val -> Prop :=
| less_bool : less D TBool (VBool false) (VBool true)
| less_int k x y : x < y -> less D (TInt k) (VInt x) (VInt y)
| less_ranged k lo hi x y : ranged_value lo x < ranged_value lo y -> less D (TRanged k lo hi) (VInt x) (VInt y)
| less_natural x y : x < y -> less D TN (VInt x) (VInt y)
| less_integer x y : x < y -> less D TZ (VInt x) (VInt y)
| less_float t x y : is_float t = true -> f64_number x = true -> f64_number y = true -> f64_value x < f64_value y ->
    less D t (VInt x) (VInt y)
| less_text t x y : is_text t = true -> before x y -> less D t (VBytes x) (VBytes y)
| less_none t t' v : optional_of t = Some t' -> less D t VNone (VSome v)
| less_some t t' v w : optional_of t = Some t' -> less D t' v w -> less D t (VSome v) (VSome w)
| less_shorter t t' vs p w ws : element_of t = Some t' -> Forall2 (same D t') vs p -> less D t (VSeq vs) (VSeq (p ++ w :: ws))
| less_element t t' p p' v vs w ws : element_of t = Some t' -> Forall2 (same D t') p p' -> less D t' v w ->
    less D t (VSeq (p ++ v :: vs)) (VSeq (p' ++ w :: ws))
| less_payload t t' v w : payload_of t = Some t' -> less D t' v w -> less D t (VWrap v) (VWrap w)
| less_struct i ts vs ws : nth_error D i = Some (DStruct ts) -> less_members D ts vs ws ->
    less D (TNamed i) (VStruct vs) (VStruct ws)
| less_tag i k tags ix ix' : nth_error D i = Some (DCStyle k tags) -> nth ix tags 0 < nth ix' tags 0 ->
    less D (TNamed i) (VEnum ix []) (VEnum ix' [])
| less_variant i k alts ix ix' vs ws : nth_error D i = Some (DData k alts) -> (ix < ix')%nat ->
    less D (TNamed i) (VEnum ix vs) (VEnum ix' ws)
| less_data i k alts ix n ts vs ws : nth_error D i = Some (DData k alts) -> nth_error alts ix = Some (n, ts) ->
    less_members D ts vs ws -> less D (TNamed i) (VEnum ix vs) (VEnum ix ws)
with less_members (D : list def) : list ty -> list val -> list val -> Prop :=
| less_first t ts v vs w ws : less D t v w -> less_members D (t :: ts) (v :: vs) (w :: ws)
| less_later t ts v vs w ws : same D t v w -> less_members D ts vs ws -> less_members D (t :: ts) (v :: vs) (w :: ws).

(** No floating-point number occurs in the type, nor in any declaration. *)
Fixpoint no_float (t : ty) : bool :=
  match t with
  | TF64 | TRangedF _ _ => false
  | TOption t | TNullable t | TSeq t | TLim _ t | TFix _ t | TDyn _ t | TVPad _ t | TPad _ t | TBox t => no_float t
  | _ => true
  end.
Definition no_float_def (d : def) : bool :=
  match d with
  | DStruct ts => forallb no_float ts
  | DCStyle _ _ => true
  | DData _ alts => forallb (fun a => forallb no_float (snd a)) alts
  end.

(** No floating-point number other than ranged ones, which are never NaN. *)
Fixpoint no_nan (t : ty) : bool :=
  match t with
  | TF64 => false
  | TOption t | TNullable t | TSeq t | TLim _ t | TFix _ t | TDyn _ t | TVPad _ t | TPad _ t | TBox t => no_nan t
  | _ => true
  end.
Definition no_nan_def (d : def) : bool :=
  match d with
  | DStruct ts => forallb no_nan ts
  | DCStyle _ _ => true
  | DData _ alts => forallb (fun a => forallb no_nan (snd a)) alts
  end.

(** The value with [f] applied to each floating-point number in it. *)
Definition map_members {A T} (g : A -> T -> A) : list A -> list T -> list A :=
  fix go l ts := match l, ts with a :: l, t :: ts => g a t :: go l ts | l, _ => l end.
Fixpoint on_floats (D : list def) (f : Z -> Z) (v : val) (t : ty) : val :=
  match v with
  | VInt x => if is_float t then VInt (f x) else v
  | VSome v' => match optional_of t with Some t' => VSome (on_floats D f v' t') | None => v end
  | VSeq vs => match element_of t with Some t' => VSeq (map (fun v => on_floats D f v t') vs) | None => v end
  | VWrap v' => match payload_of t with Some t' => VWrap (on_floats D f v' t') | None => v end
  | VStruct vs => match t with
      | TNamed i => match nth_error D i with Some (DStruct ts) => VStruct (map_members (on_floats D f) vs ts) | _ => v end
      | _ => v end
  | VEnum ix vs => match t with
      | TNamed i => match nth_error D i with
          | Some (DData _ alts) => VEnum ix (map_members (on_floats D f) vs (snd (nth ix alts (0, []))))
          | _ => v end
      | _ => v end
  | _ => v
  end.
(** Whether [p] holds of each floating-point number in the value. *)
Definition all_members {A T} (g : A -> T -> bool) : list A -> list T -> bool :=
  fix go l ts := match l, ts with a :: l, t :: ts => g a t && go l ts | _, _ => true end.
Fixpoint every_float (D : list def) (p : Z -> bool) (v : val) (t : ty) : bool :=
  match v with
  | VInt x => if is_float t then p x else true
  | VSome v' => match optional_of t with Some t' => every_float D p v' t' | None => true end
  | VSeq vs => match element_of t with Some t' => forallb (fun v => every_float D p v t') vs | None => true end
  | VWrap v' => match payload_of t with Some t' => every_float D p v' t' | None => true end
  | VStruct vs => match t with
      | TNamed i => match nth_error D i with Some (DStruct ts) => all_members (every_float D p) vs ts | _ => true end
      | _ => true end
  | VEnum ix vs => match t with
      | TNamed i => match nth_error D i with
          | Some (DData _ alts) => all_members (every_float D p) vs (snd (nth ix alts (0, [])))
          | _ => true end
      | _ => true end
  | _ => true
  end.
(** The pattern of -0.0 is 2^63; that of 0.0 is 0. *)
Definition positive_zero (b : Z) : Z := if b =? 2 ^ 63 then 0 else b.
