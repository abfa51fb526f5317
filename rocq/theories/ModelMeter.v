(** Model of what encoding costs: [Encode::write_to] and [Estimable::unknown] as
    in ModelSchema, with a meter.  One unit is one call of [write_to], [estimate]
    or [unknown], one call of a method of the target, or one byte handed to the
    target.  A count made by a [ByteCounter] (std::io::Sink) is metered like any
    other writing.  [KNOWN] is a constant and costs nothing. *)
From Verif Require Import Base ModelErrors ModelInt ModelFloat ModelZarith ModelTarget ModelSchema.

(** An outcome, and the units spent until then. *)
Definition metered (A : Type) := (wres A * Z)%type.
Definition m_free {A} (r : wres A) : metered A := (r, 0).
Definition m_tick {A} (n : Z) (x : metered A) : metered A := (fst x, n + snd x).
Definition m_bind {A B} (x : metered A) (k : A -> metered B) : metered B :=
  match fst x with
  | ROk a => m_tick (snd x) (k a)
  | RErr e => (RErr e, snd x)
  | RPanic => (RPanic, snd x)
  | RUB => (RUB, snd x)
  | RDiv => (RDiv, snd x)
  end.
Definition m_map {A B} (f : A -> B) (x : metered A) : metered B := (rmap f (fst x), snd x).

Section Metered.
Variables (cf : config) (D : list def) (kf : nat).
Let m := cf_mode cf.

(** [usize] sums. *)
Fixpoint m_usum (acc : Z) (l : list (metered Z)) : metered Z :=
  match l with
  | [] => m_free (ROk acc)
  | x :: l => m_bind x (fun n => m_bind (m_free (uadd m acc n)) (fun s => m_usum s l))
  end.

(** conv/len.rs 160-162: [estimate]. *)
Definition m_estimate_with (k : option (option Z)) (unknown : metered Z) : metered Z :=
  m_tick 1 match k with
  | None => m_free RDiv
  | Some (Some n) => m_free (ROk n)
  | Some None => unknown
  end.

(** [Estimable::unknown]; the places are those cited in ModelSchema. *)
Fixpoint m_unknown (v : val) (t : ty) : metered Z :=
  let estimate := fun v t => m_estimate_with (known cf D kf t) (m_unknown v t) in
  m_tick 1 match t, v with
  | TUnit, VUnit => m_free (ROk 0)
  | TBool, VBool _ => m_free (ROk 1)
  | TInt k, VInt _ | TRanged k _ _, VInt _ => m_free (ROk (ik_len k))
  | TF64, VInt _ | TRangedF _ _, VInt _ => m_free (ROk 8)
  | TN, VInt z => m_free (ROk (n_unknown z))
  | TZ, VInt z => m_free (ROk (z_unknown z))
  | TBytes, VBytes bs | TString, VBytes bs => m_free (ROk (zlen bs))
  | TFixedBytes n, VBytes _ | TFixedString n, VBytes _ => m_free (ROk n)
  | TOption _, VNone => m_free (ROk 1)
  | TOption t, VSome v => m_bind (estimate v t) (fun n => m_free (uadd m 1 n))
  | TNullable _, VNone => m_free (ROk 0)
  | TNullable t, VSome v => estimate v t
  | TSeq t, VSeq vs | TLim _ t, VSeq vs => m_usum 0 (map (fun v => estimate v t) vs)
  | TFix _ t, VSeq vs => m_usum 0 (map (fun v => m_unknown v t) vs)
  | TDyn s t, VWrap v => m_bind (m_unknown v t) (fun n => m_free (uadd m (pref_len s) n))
  | TVPad _ t, VWrap v => m_unknown v t
  | TPad n t, VWrap v => m_bind (m_unknown v t) (fun k => m_free (uadd m k n))
  | TBox t, VWrap v => m_unknown v t
  | TNamed i, _ =>
      match nth_error D i, v with
      | Some (DStruct ts), VStruct vs => m_usum 0 (map2 m_unknown (m_free (RErr tt)) vs ts)
      | Some (DCStyle k _), VEnum _ [] => m_free (ROk (ik_len k))
      | Some (DData k alts), VEnum ix vs =>
          match nth_error alts ix with
          | Some (_, ts) =>
              m_bind (m_estimate_with (known_sum (known cf D kf) ts)
                        (m_usum 0 (map2 m_unknown (m_free (RErr tt)) vs ts)))
                     (fun n => m_free (uadd m (ik_len k) n))
          | None => m_free (RErr tt)
          end
      | _, _ => m_free (RErr tt)
      end
  | _, _ => m_free (RErr tt)
  end.
Definition m_estimate (v : val) (t : ty) : metered Z := m_estimate_with (known cf D kf t) (m_unknown v t).

(** ModelSchema [writer], metered. *)
Definition m_writer (U : Type) := U -> metered (Z * U).
Definition mw_add {U} (a b : m_writer U) : m_writer U := fun u =>
  m_bind (a u) (fun r => m_bind (b (snd r)) (fun r' =>
    m_bind (m_free (uadd m (fst r) (fst r'))) (fun n => m_free (ROk (n, snd r'))))).
(** A call that hands [n] bytes to the target. *)
Definition mw_call {U} (n : Z) (f : U -> Z * U) : m_writer U := fun u => m_tick (1 + n) (m_free (ROk (f u))).
Definition mw_bad {U} : m_writer U := fun _ => m_free (RErr tt).
Fixpoint mw_sum {U} (acc : Z) (l : list (m_writer U)) : m_writer U := fun u =>
  match l with
  | [] => m_free (ROk (acc, u))
  | w :: l => m_bind (w u) (fun r => m_bind (m_free (uadd m acc (fst r))) (fun n => mw_sum n l (snd r)))
  end.
Definition mw_resolve {U} (T : target U) : m_writer U := mw_call 0 (tg_resolve_zero T).
Definition mw_one {U} (T : target U) (b : byte) : m_writer U := mw_call 1 (tg_push_one T b).
Definition mw_many {U} (T : target U) (bs : list byte) : m_writer U := mw_call (zlen bs) (tg_push_many T bs).
Definition mw_push_all {U} (T : target U) (bs : list byte) : m_writer U :=
  mw_add (mw_call (zlen bs) (tg_push_all T bs)) (mw_resolve T).
Definition mw_push_many {U} (T : target U) (bs : list byte) : m_writer U := mw_add (mw_many T bs) (mw_resolve T).
Definition mw_end {U} (T : target U) : m_writer U := mw_call 0 (tg_resolve_macro T).
Definition mw_write_all {U} (T : target U) (bs : list byte) : m_writer U :=
  mw_add (mw_call (zlen bs) (tg_push_all T bs)) (mw_end T).
Definition mw_push_one {U} (T : target U) (b : byte) : m_writer U := mw_add (mw_one T b) (mw_end T).

(** int.rs 549-553 and 513-523: [write_to] of the integers; the numbers that
    RangedInt, length prefixes and tags are made of are written by a call of their
    own. *)
Definition mw_int {U} (T : target U) (k : int_kind) (z : Z) : m_writer U := fun u =>
  m_tick 1 (mw_push_all T (to_be_bytes k z) u).
Definition mw_ranged {U} (T : target U) (k : int_kind) (lo hi z : Z) : m_writer U := fun u =>
  m_bind (m_free (ri_to_underlying (cf_range_check cf) lo hi z)) (fun x =>
    mw_add (mw_int T k x) (mw_resolve T) u).
Definition mw_pref {U} (T : target U) (s : len_pref) (lp : Z) : m_writer U :=
  match s with
  | PrefU8 => mw_int T U8 lp
  | PrefU16 => mw_int T U16 lp
  | PrefU30 => fun u => m_tick 1 (mw_ranged T U32 0 u30_max lp u)
  end.

(** [Encode::write_to]; the places are those cited in ModelSchema. *)
Fixpoint m_write (v : val) : forall (U : Type) (T : target U) (t : ty), m_writer U :=
  fun U T t u => m_tick 1 (
  let resolve := mw_resolve T in
  match t, v with
  | TUnit, VUnit => fun u => m_free (ROk (0, u))
  | TBool, VBool b => mw_push_one T (if b then 255 else 0)
  | TInt k, VInt z => mw_push_all T (to_be_bytes k z)
  | TRanged k lo hi, VInt z => mw_ranged T k lo hi z
  | TF64, VInt z => mw_int T U64 z                               (* float.rs 330-332 *)
  | TRangedF _ _, VInt z => fun u => m_tick 1 (mw_int T U64 z u) (* float.rs 336-338 *)
  | TN, VInt z => fun u => m_bind (m_free (n_serialize z)) (fun bs => mw_push_all T bs u)
  | TZ, VInt z => fun u => m_bind (m_free (z_serialize z)) (fun bs => mw_push_all T bs u)
  | TBytes, VBytes bs | TString, VBytes bs => mw_write_all T bs
  | TFixedBytes _, VBytes bs => mw_push_many T bs
  | TFixedString _, VBytes bs => mw_push_all T bs
  | TOption t, VSome v => mw_add (mw_add (mw_one T 255) (m_write v U T t)) (mw_end T)
  | TOption _, VNone => mw_push_one T 0
  | TNullable t, VSome v => mw_add (m_write v U T t) resolve
  | TNullable _, VNone => resolve
  | TSeq t, VSeq vs | TLim _ t, VSeq vs | TFix _ t, VSeq vs =>
      mw_add (mw_sum 0 (map (fun v => m_write v U T t) vs)) resolve
  | TDyn s t, VWrap v => fun u =>                                (* dynamic.rs 371-387 *)
      m_bind (if cf_est_override cf then m_estimate v t
              else m_map fst (m_write v unit tg_counter t tt)) (fun l =>
      m_bind (m_free (rassert (l <=? pref_max s))) (fun _ =>
      match pref_try_from cf s l with
      | Some lp =>
          m_bind (if cf_est_override cf then m_tick 1 (m_free (ROk (pref_len s)))
                  else m_map fst (mw_pref tg_counter s lp tt)) (fun ll =>
          m_bind (m_free (uadd m l ll)) (fun total =>
            m_tick 1 (mw_add (mw_add (mw_pref T s lp) (m_write v U T t)) resolve (tg_anticipate T total u))))
      | None => m_free RPanic
      end))
  | TVPad _ t, VWrap v => m_write v U T t
  | TPad n t, VWrap v =>
      mw_add (mw_add (m_write v U T t) (mw_many T (repeat 0 (Z.to_nat n)))) resolve
  | TBox t, VWrap v => m_write v U T t
  | TNamed i, _ =>
      match nth_error D i, v with
      | Some (DStruct ts), VStruct vs =>
          mw_add (mw_sum 0 (map2 (fun v t => m_write v U T t) mw_bad vs ts)) resolve
      | Some (DCStyle k tags), VEnum ix [] =>
          match nth_error tags ix with Some tag => mw_int T k tag | None => mw_bad end
      | Some (DData k alts), VEnum ix vs =>
          match nth_error alts ix with
          | Some (tag, ts) =>
              mw_add (mw_add (mw_int T k tag)
                (mw_add (mw_sum 0 (map2 (fun v t => m_write v U T t) mw_bad vs ts)) resolve)) resolve
          | None => mw_bad
          end
      | _, _ => mw_bad
      end
  | _, _ => mw_bad
  end u).
End Metered.

(** What encoding into a target costs: the bytes, and the units. *)
Definition encode_metered (cf : config) (D : list def) (kf : nat) {U} (T : target U) (v : val) (t : ty) : metered U :=
  m_map snd (m_write cf D kf v U T t (tg_create T)).
Definition encode_effort (cf : config) (D : list def) (kf : nat) {U} (T : target U) (v : val) (t : ty) : Z :=
  snd (encode_metered cf D kf T v t).
