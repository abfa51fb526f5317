(** [Encode::write_to] with the state of the target kept when a call panics.

    In [ModelSchema.write_to] a panic has no target: the caller never sees it again.
    Here it does ([catch_unwind], a [Drop] impl, a target behind a reference that
    outlives the call).  The same code of /repo is modelled once more, and
    ProofInterrupt proves that the two models agree. *)
From Verif Require Import Base ModelTarget ModelInt ModelZarith ModelSchema.

Definition swriter (U : Type) := U -> wres Z * U.

Section Interrupt.
Variables (cf : config) (D : list def) (kf : nat).
Local Notation m := (cf_mode cf).

(** A computation that does not touch the target, then a write. *)
Definition s_bind {U A} (r : wres A) (f : A -> swriter U) : swriter U := fun u =>
  match r with
  | ROk a => f a u
  | RErr e => (RErr e, u)
  | RPanic => (RPanic, u)
  | RUB => (RUB, u)
  | RDiv => (RDiv, u)
  end.
(** [a + b] where both sides write: the left side, the right side, the sum. *)
Definition s_add {U} (a b : swriter U) : swriter U := fun u =>
  match a u with
  | (ROk n, u) => match b u with (ROk k, u) => (uadd m n k, u) | stopped => stopped end
  | stopped => stopped
  end.
Definition s_call {U} (f : U -> Z * U) : swriter U := fun u => (ROk (fst (f u)), snd (f u)).
Definition s_bad {U} : swriter U := fun u => (RErr tt, u).
(** [iter.map(|x| x.write_to(buf)).sum()] *)
Fixpoint s_sum {U} (acc : Z) (l : list (swriter U)) : swriter U := fun u =>
  match l with
  | [] => (ROk acc, u)
  | w :: l =>
      match w u with
      | (ROk n, u) => s_bind (uadd m acc n) (fun acc => s_sum acc l) u
      | stopped => stopped
      end
  end.

(** Pushes followed by [resolve_zero]; see [ModelSchema.w_push_all] and the others. *)
Definition s_push_all {U} (T : target U) (bs : list byte) : swriter U :=
  s_add (s_call (tg_push_all T bs)) (s_call (tg_resolve_zero T)).
Definition s_push_many {U} (T : target U) (bs : list byte) : swriter U :=
  s_add (s_call (tg_push_many T bs)) (s_call (tg_resolve_zero T)).
Definition s_write_all {U} (T : target U) (bs : list byte) : swriter U :=
  s_add (s_call (tg_push_all T bs)) (s_call (tg_resolve_macro T)).
Definition s_push_one {U} (T : target U) (b : byte) : swriter U :=
  s_add (s_call (tg_push_one T b)) (s_call (tg_resolve_macro T)).

(** int.rs 549-553 and 513-523: fixed-width integers, RangedInt. *)
Definition s_int {U} (T : target U) (k : int_kind) (z : Z) : swriter U := s_push_all T (to_be_bytes k z).
Definition s_ranged {U} (T : target U) (k : int_kind) (lo hi z : Z) : swriter U :=
  s_bind (ri_to_underlying (cf_range_check cf) lo hi z) (fun x =>
    s_add (s_int T k x) (s_call (tg_resolve_zero T))).
(** dynamic.rs 382: the length prefix. *)
Definition s_pref {U} (T : target U) (s : len_pref) (lp : Z) : swriter U :=
  match s with
  | PrefU8 => s_int T U8 lp
  | PrefU16 => s_int T U16 lp
  | PrefU30 => s_ranged T U32 0 u30_max lp
  end.

(** [Encode::write_to]: prim.rs 6-8, 99-101; int.rs 519-523, 550-553; float.rs 330-338;
    zarith.rs 15-17; conv/mod.rs 371-373 (Bytes), 398-400 (String), 412-417 (Option);
    fixed.rs 247-249, 472-474; schema.rs 184-186 (Padded), 330-335 (Nullable); seq/mod.rs
    222-224, seq/lim.rs 291-293, seq/fix.rs 271-273; dynamic.rs 371-387 (Dynamic), 458-460
    (VPadded); autobox.rs 247-249; adt.rs 103-111 (cstyle!), 356-364 (data!);
    encode_derive/src/lib.rs 24-62 (structs). *)
Fixpoint write_st (v : val) : forall (U : Type) (T : target U) (t : ty), swriter U :=
  fun U T t =>
  let resolve := s_call (tg_resolve_zero T) in
  match t, v with
  | TUnit, VUnit => fun u => (ROk 0, u)
  | TBool, VBool b => s_push_one T (if b then 255 else 0)
  | TInt k, VInt z => s_int T k z
  | TRanged k lo hi, VInt z => s_ranged T k lo hi z
  | TF64, VInt z | TRangedF _ _, VInt z => s_int T U64 z
  | TN, VInt z => s_bind (n_serialize z) (s_push_all T)
  | TZ, VInt z => s_bind (z_serialize z) (s_push_all T)
  | TBytes, VBytes bs | TString, VBytes bs => s_write_all T bs
  | TFixedBytes _, VBytes bs => s_push_many T bs
  | TFixedString _, VBytes bs => s_push_all T bs
  | TOption t, VSome v => s_add (s_add (s_call (tg_push_one T 255)) (write_st v U T t)) (s_call (tg_resolve_macro T))
  | TOption _, VNone => s_push_one T 0
  | TNullable t, VSome v => s_add (write_st v U T t) resolve
  | TNullable _, VNone => resolve
  | TSeq t, VSeq vs | TLim _ t, VSeq vs | TFix _ t, VSeq vs =>
      s_add (s_sum 0 (map (fun v => write_st v U T t) vs)) resolve
  | TDyn s t, VWrap v =>
      s_bind (if cf_est_override cf then estimate cf D kf v t else fst (write_st v unit tg_counter t tt)) (fun l =>
      s_bind (rassert (l <=? pref_max s)) (fun _ =>
      match pref_try_from cf s l with
      | Some lp =>
          s_bind (if cf_est_override cf then ROk (pref_len s) else fst (s_pref tg_counter s lp tt)) (fun ll =>
          s_bind (uadd m l ll) (fun total u =>
            s_add (s_add (s_pref T s lp) (write_st v U T t)) resolve (tg_anticipate T total u)))
      | None => fun u => (RPanic, u)
      end))
  | TVPad _ t, VWrap v => write_st v U T t
  | TPad n t, VWrap v =>
      s_add (s_add (write_st v U T t) (s_call (tg_push_many T (repeat 0 (Z.to_nat n))))) resolve
  | TBox t, VWrap v => write_st v U T t
  | TNamed i, _ =>
      match nth_error D i, v with
      | Some (DStruct ts), VStruct vs =>
          s_add (s_sum 0 (map2 (fun v t => write_st v U T t) s_bad vs ts)) resolve
      | Some (DCStyle k tags), VEnum ix [] =>
          match nth_error tags ix with Some tag => s_int T k tag | None => s_bad end
      | Some (DData k alts), VEnum ix vs =>
          match nth_error alts ix with
          | Some (tag, ts) =>
              s_add (s_add (s_int T k tag)
                (s_add (s_sum 0 (map2 (fun v t => write_st v U T t) s_bad vs ts)) resolve)) resolve
          | None => s_bad
          end
      | _, _ => s_bad
      end
  | _, _ => s_bad
  end.
End Interrupt.
