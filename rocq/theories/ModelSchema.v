(** Model of the codecs of /repo: which types can be composed, their values,
    [Decode::parse], [Encode::write_to] and [Estimable].

    Rust's trait dispatch on types is a match on a description of the type
    ([ty]).  Structs (derive macros) and enums (cstyle!/data!) are named and kept
    in an environment, so that recursive types can be described; every cycle
    goes through a name, as in Rust. *)
From Verif Require Import Base ModelErrors ModelParser ModelInt ModelFloat ModelZarith
  ModelUtf8 ModelTarget.

(** dynamic.rs 315-358: the three implementors of [LenPref]. *)
Inductive len_pref := PrefU8 | PrefU16 | PrefU30.

(** Types with both [Encode] and [Decode]. *)
Inductive ty :=
| TUnit                                  (* ()                  prim.rs 5-96 *)
| TBool                                  (* bool                prim.rs 98-111 *)
| TInt (k : int_kind)                    (* u8..i64             int.rs 546-575 *)
| TRanged (k : int_kind) (lo hi : Z)     (* RangedInt<k,lo,hi>  int.rs 136-543 *)
| TF64                                   (* f64                 float.rs 323-333 *)
| TRangedF (lo hi : Z)                   (* RangedFloat (bits)  float.rs 335-349 *)
| TN                                     (* N                   zarith.rs 12-29, 107-139 *)
| TZ                                     (* Z                   zarith.rs 12-29, 234-328 *)
| TBytes                                 (* Vec<u8>, Bytes      conv/mod.rs 370-395, schema.rs 365-577 *)
| TString                                (* String              conv/mod.rs 397-409 *)
| TFixedBytes (n : Z)                    (* FixedBytes<n>       fixed.rs 246-273 *)
| TFixedString (n : Z)                   (* FixedString<n>      fixed.rs 471-483 *)
| TOption (t : ty)                       (* Option<t>           conv/mod.rs 411-428 *)
| TNullable (t : ty)                     (* Nullable<t>         schema.rs 249-349 *)
| TSeq (t : ty)                          (* Sequence<t>         seq/mod.rs 213-237 *)
| TLim (n : Z) (t : ty)                  (* LimSeq<t, n>        seq/lim.rs 279-309 *)
| TFix (n : Z) (t : ty)                  (* FixSeq<t, n>        seq/fix.rs 256-297 *)
| TDyn (s : len_pref) (t : ty)           (* Dynamic<s, t>       dynamic.rs 360-397 *)
| TVPad (n : Z) (t : ty)                 (* VPadded<t, n>       dynamic.rs 422-490 *)
| TPad (n : Z) (t : ty)                  (* Padded<t, n>        schema.rs 118-232 *)
| TBox (t : ty)                          (* AutoBox<t>          autobox.rs 246-267 *)
| TNamed (i : nat).                      (* a struct or enum of the environment *)

(** encode_derive/decode_derive (structs), adt.rs 46-118 (cstyle!: backing
    integer and discriminants) and 255-380 (data!: backing integer and, per
    variant, discriminant and payload fields). *)
Inductive def :=
| DStruct (fields : list ty)
| DCStyle (k : int_kind) (tags : list Z)
| DData (k : int_kind) (alts : list (Z * list ty)).

(** Values.  [VInt] holds every number: integers, the stored number of a
    RangedInt, the bits of a float, N and Z.  [VBytes] holds byte strings and
    the UTF-8 bytes of a String.  [VEnum i vs] is the i-th variant. *)
Inductive val :=
| VUnit
| VBool (b : bool)
| VInt (z : Z)
| VBytes (bs : list byte)
| VNone
| VSome (v : val)
| VSeq (vs : list val)
| VStruct (vs : list val)
| VEnum (ix : nat) (vs : list val)
| VWrap (v : val).

(** Cargo features (Cargo.toml) that change the code modelled here; none is on
    by default.  [cf_mode] is the build profile. *)
Record config := mkConfig {
  cf_mode : mode;
  cf_check_padding : bool;       (* check_padding *)
  cf_est_override : bool;        (* enc_len_estimable_override *)
  cf_relaxed_padding : bool;     (* relaxed_padding_invariant *)
  cf_range_check : bool;         (* invalid_range_checking *)
  cf_complete : bool             (* check_complete_parse *)
}.

(** int.rs 144: [u30]. *)
Definition u30_max : Z := 2 ^ 30 - 1.
Definition u30_ty : ty := TRanged U32 0 u30_max.

(** The type that is written and read as a length prefix. *)
Definition pref_ty (s : len_pref) : ty :=
  match s with PrefU8 => TInt U8 | PrefU16 => TInt U16 | PrefU30 => u30_ty end.

(** Its [FixedLength::LEN]; conv/len.rs 95-97, int.rs 531-533. *)
Definition pref_len (s : len_pref) : Z :=
  match s with PrefU8 => 1 | PrefU16 => 2 | PrefU30 => 4 end.

(** dynamic.rs 324-326, 338-340, 355-357: [max_len]. *)
Definition pref_max (s : len_pref) : Z :=
  match s with PrefU8 => 255 | PrefU16 => 65535 | PrefU30 => u30_max end.

Definition tag_width_of (k : int_kind) : tag_width :=
  match k with U8 | I8 => TagU8 | U16 | I16 => TagU16 | _ => TagU32 end.

(** ------------------------------------------------------------------ *)
(** * Decode *)

Definition ext_int {A} (r : res bounds_error A) : pres A :=
  match r with
  | ROk a => ROk a
  | RErr e => RErr (EExternal (IntRangeViolation e))
  | RPanic => RPanic | RUB => RUB | RDiv => RDiv
  end.
Definition ext_float {A} (r : res bounds_error A) : pres A :=
  match r with
  | ROk a => ROk a
  | RErr e => RErr (EExternal (FloatRangeViolation e))
  | RPanic => RPanic | RUB => RUB | RDiv => RDiv
  end.

(** parse/mod.rs 278-284: [take_bool]. *)
Definition p_take_bool : prog bool :=
  b <- p_consume_byte ;;
  if b =? 255 then PRet true
  else if b =? 0 then PRet false
  else PErr (EToken (InvalidBoolean b)).

(** int.rs 556-562: [Decode] of the fixed-width integers. *)
Definition p_int (k : int_kind) : prog Z :=
  bs <- p_take_fixed (ik_len k) ;; PRet (from_be_bytes k bs).

(** parse/mod.rs 310-328: [take_tagword] with an array of valid tags. *)
Definition p_take_tagword (k : int_kind) (tags : list Z) : prog Z :=
  actual <- p_int k ;;
  if existsb (Z.eqb actual) tags then PRet actual
  else match tags with
       | [] => PErr (EInternal NoValidTags)
       | _ => PErr (EToken (InvalidTag (tag_width_of k) actual (Some tags)))
       end.

(** The variant a [match] on the discriminant selects (first match). *)
Fixpoint find_tag (tag : Z) (tags : list Z) : option nat :=
  match tags with
  | [] => None
  | t :: rest => if tag =? t then Some O else option_map S (find_tag tag rest)
  end.

(** int.rs 533-543: [Decode] of RangedInt. *)
Definition p_ranged (cf : config) (k : int_kind) (lo hi : Z) : prog Z :=
  x <- p_int k ;; plift (ext_int (ri_try_from_underlying (cf_range_check cf) lo hi x)).

(** dynamic.rs 391-392: [S::parse(p)] and [.into()]. *)
Definition p_pref (cf : config) (s : len_pref) : prog Z :=
  match s with
  | PrefU8 => p_int U8
  | PrefU16 => p_int U16
  | PrefU30 => x <- p_ranged cf U32 0 u30_max ;; PRet (ri_into U64 x)
  end.

(** seq/mod.rs 231-233: [while p.remainder() != 0 { seq.push(T::parse(p)?) }]. *)
Fixpoint p_seq_loop {A : Type} (fuel : nat) (elem : prog A) (seq : list A) : prog (list A) :=
  match fuel with
  | O => PDiv
  | S fuel =>
      rem <- p_remainder ;;
      if rem =? 0 then PRet seq
      else v <- elem ;; p_seq_loop fuel elem (seq ++ [v])
  end.

(** boundedseq_impl.rs 47-59: [try_push]; the sequence after a failed push is
    the unchanged argument. *)
Definition try_push {A} (n : Z) (seq : list A) (x : A) : res length_error (list A) :=
  if zlen seq <? n then ROk (seq ++ [x]) else RErr (TooLong n (n + 1)).

Definition ext_len {A} (r : res length_error A) : pres A :=
  match r with
  | ROk a => ROk a
  | RErr e => RErr (EExternal (LengthViolation e))
  | RPanic => RPanic | RUB => RUB | RDiv => RDiv
  end.

(** seq/lim.rs 296-309: [LimSeq::parse]. *)
Fixpoint p_lim_loop {A : Type} (fuel : nat) (n : Z) (elem : prog A) (seq : list A) : prog (list A) :=
  match fuel with
  | O => PDiv
  | S fuel =>
      rem <- p_remainder ;;
      if rem =? 0 then PRet seq
      else v <- elem ;;
           seq' <- plift (ext_len (try_push n seq v)) ;;
           p_lim_loop fuel n elem seq'
  end.

(** seq/fix.rs 276-297: [FixSeq::parse]; the final check is on the length. *)
Fixpoint p_fix_loop {A : Type} (fuel : nat) (n : Z) (elem : prog A) (seq : list A) : prog (list A) :=
  match fuel with
  | O => PDiv
  | S fuel =>
      rem <- p_remainder ;;
      if negb (rem =? 0) && (zlen seq <? n) then
        v <- elem ;; p_fix_loop fuel n elem (seq ++ [v])
      else if zlen seq =? n then PRet seq
      else PErr (EExternal (LengthViolation (WrongLength n (zlen seq))))
  end.

(** decode_derive: fields in order. *)
Fixpoint p_fields (parse : ty -> prog val) (ts : list ty) : prog (list val) :=
  match ts with
  | [] => PRet []
  | t :: ts => v <- parse t ;; vs <- p_fields parse ts ;; PRet (v :: vs)
  end.

(** [Decode::parse] of the type [t].  The fuel bounds the nesting of calls and,
    separately, the rounds of each loop; running out is [PDiv]. *)
Fixpoint parse (cf : config) (D : list def) (fuel : nat) (t : ty) : prog val :=
  match fuel with
  | O => PDiv
  | S f =>
      match t with
      | TUnit => PRet VUnit
      | TBool => b <- p_take_bool ;; PRet (VBool b)
      | TInt k => z <- p_int k ;; PRet (VInt z)
      | TRanged k lo hi => z <- p_ranged cf k lo hi ;; PRet (VInt z)
      | TF64 => z <- p_int U64 ;; PRet (VInt z)
      | TRangedF lo hi =>
          z <- p_int U64 ;;
          z <- plift (ext_float (rf_try_from_f64 lo hi z)) ;;
          PRet (VInt z)
      | TN =>
          bs <- p_take_self_terminating zarith_terminal ;;
          z <- plift (n_deserialize bs) ;; PRet (VInt z)
      | TZ =>
          bs <- p_take_self_terminating zarith_terminal ;;
          z <- plift (z_deserialize bs) ;; PRet (VInt z)
      | TBytes =>
          rem <- p_remainder ;; bs <- p_take_dynamic rem ;; PRet (VBytes bs)
      | TString =>
          rem <- p_remainder ;; bs <- p_take_dynamic rem ;; PRet (VBytes (utf8_lossy bs))
      | TFixedBytes n => bs <- p_take_fixed n ;; PRet (VBytes bs)
      | TFixedString n => bs <- p_take_fixed n ;; PRet (VBytes bs)
      | TOption t =>
          tag <- p_take_tagword U8 [0; 255] ;;
          if tag =? 255 then v <- parse cf D f t ;; PRet (VSome v)
          else if tag =? 0 then PRet VNone
          else PPanic
      | TNullable t =>
          rem <- p_remainder ;;
          if negb (rem =? 0) then v <- parse cf D f t ;; PRet (VSome v) else PRet VNone
      | TSeq t => vs <- p_seq_loop f (parse cf D f t) [] ;; PRet (VSeq vs)
      | TLim n t => vs <- p_lim_loop f n (parse cf D f t) [] ;; PRet (VSeq vs)
      | TFix n t => vs <- p_fix_loop f n (parse cf D f t) [] ;; PRet (VSeq vs)
      | TDyn s t =>
          buflen <- p_pref cf s ;;
          p_set_fit buflen ;;;
          v <- parse cf D f t ;;
          p_enforce_target ;;;
          PRet (VWrap v)
      | TVPad n t =>
          rem <- p_remainder ;;
          plift (debug_assert (cf_mode cf) (n <=? rem)) ;;;
          win <- plift (usub (cf_mode cf) rem n) ;;
          p_set_fit win ;;;
          v <- parse cf D f t ;;
          p_enforce_target ;;;
          PRet (VWrap v)
      | TPad n t =>
          v <- parse cf D f t ;;
          padding <- p_consume n ;;
          if cf_check_padding cf && negb (forallb (Z.eqb 0) padding)
          then PErr (EToken (NonNullPaddingByte padding))
          else PRet (VWrap v)
      | TBox t => v <- parse cf D f t ;; PRet (VWrap v)
      | TNamed i =>
          match nth_error D i with
          | None => PPanic
          | Some (DStruct ts) => vs <- p_fields (parse cf D f) ts ;; PRet (VStruct vs)
          | Some (DCStyle k tags) =>
              tag <- p_take_tagword k tags ;;
              match find_tag tag tags with
              | Some ix => PRet (VEnum ix [])
              | None => PPanic
              end
          | Some (DData k alts) =>
              tag <- p_take_tagword k (map fst alts) ;;
              match find_tag tag (map fst alts) with
              | Some ix =>
                  match nth_error alts ix with
                  | Some (_, ts) => vs <- p_fields (parse cf D f) ts ;; PRet (VEnum ix vs)
                  | None => PPanic
                  end
              | None => PPanic
              end
          end
      end
  end.

(** ------------------------------------------------------------------ *)
(** * Estimable *)

(** [Estimable::KNOWN].  Outer [None]: the constant cannot be evaluated at
    compile time (a cycle, or schema.rs 219-225 without
    relaxed_padding_invariant), so there is no program. *)
Fixpoint known_sum (known : ty -> option (option Z)) (ts : list ty) : option (option Z) :=
  match ts with
  | [] => Some (Some 0)
  | t :: ts =>
      match known t, known_sum known ts with
      | Some (Some a), Some (Some b) => Some (Some (a + b))
      | Some _, Some _ => Some None
      | _, _ => None
      end
  end.

Fixpoint known (cf : config) (D : list def) (fuel : nat) (t : ty) : option (option Z) :=
  match fuel with
  | O => None
  | S f =>
      match t with
      | TUnit => Some (Some 0)                                   (* conv/len.rs 94 *)
      | TBool => Some (Some 1)                                   (* conv/len.rs 95 *)
      | TInt k | TRanged k _ _ => Some (Some (ik_len k))         (* 95-98, int.rs 525-531 *)
      | TF64 | TRangedF _ _ => Some (Some 8)                     (* 98, float.rs 341 *)
      | TN | TZ => Some None                                     (* zarith.rs 105, 232 *)
      | TBytes | TString => Some None                            (* conv/len.rs 218-219 *)
      | TFixedBytes n | TFixedString n => Some (Some n)          (* fixed.rs *)
      | TOption t =>                                             (* conv/len.rs 180-185 *)
          match known cf D f t with
          | Some (Some n) => Some (if n =? 0 then Some 1 else None)
          | Some None => Some None
          | None => None
          end
      | TNullable t =>                                           (* schema.rs 313-319 *)
          match known cf D f t with
          | Some (Some n) => Some (if n =? 0 then Some 0 else None)
          | Some None => Some None
          | None => None
          end
      | TSeq _ | TLim _ _ => Some None                           (* seq/mod.rs 214, lim.rs 280 *)
      | TFix n t =>                                              (* seq/fix.rs 257-262 *)
          match known cf D f t with
          | Some (Some m) => Some (Some (n * m))
          | Some None => Some None
          | None => None
          end
      | TDyn s t =>                                              (* dynamic.rs 203-209 *)
          match known cf D f t with
          | Some (Some n) => Some (Some (pref_len s + n))
          | Some None => Some None
          | None => None
          end
      | TVPad _ t => known cf D f t                              (* dynamic.rs 485 *)
      | TPad n t =>                                              (* schema.rs 216-227 *)
          match known cf D f t with
          | Some (Some m) => Some (Some (m + n))
          | Some None => if cf_relaxed_padding cf then Some None else None
          | None => None
          end
      | TBox t => known cf D f t                                 (* autobox.rs 262 *)
      | TNamed i =>
          match nth_error D i with
          | None => None
          | Some (DStruct ts) => known_sum (known cf D f) ts     (* estimable_derive 85-173 *)
          | Some (DCStyle k _) => Some (Some (ik_len k))         (* adt.rs 114-116 *)
          | Some (DData _ _) => Some None                        (* adt.rs 368 *)
          end
      end
  end.

(** Results of encoding functions: the only error is an ill-typed value, which
    Rust's type checker excludes. *)
Definition wres (A : Type) := res unit A.

(** [usize] sums. *)
Fixpoint usum (m : mode) (acc : Z) (l : list (wres Z)) : wres Z :=
  match l with
  | [] => ROk acc
  | x :: l => rbind x (fun n => rbind (uadd m acc n) (fun s => usum m s l))
  end.

Section Map2.
Context {A B C : Type} (f : A -> B -> C) (bad : C).
(** Pointwise [f]; [bad] stands for the missing part of the longer list. *)
Fixpoint map2 (l : list A) (l' : list B) : list C :=
  match l, l' with
  | [], [] => []
  | a :: l, b :: l' => f a b :: map2 l l'
  | _, _ => [bad]
  end.
End Map2.

Section Encode.
Variables (cf : config) (D : list def) (kf : nat).
Let m := cf_mode cf.

(** [estimate] (conv/len.rs 160-162), given [unknown]. *)
Definition estimate_with (k : option (option Z)) (unknown : wres Z) : wres Z :=
  match k with
  | None => RDiv
  | Some (Some n) => ROk n
  | Some None => unknown
  end.

(** [Estimable::unknown]. *)
Fixpoint unknown (v : val) (t : ty) : wres Z :=
  let estimate := fun v t => estimate_with (known cf D kf t) (unknown v t) in
  match t, v with
  | TUnit, VUnit => ROk 0                                        (* conv/len.rs 171-173 *)
  | TBool, VBool _ => ROk 1
  | TInt k, VInt _ | TRanged k _ _, VInt _ => ROk (ik_len k)
  | TF64, VInt _ | TRangedF _ _, VInt _ => ROk 8
  | TN, VInt z => ROk (n_unknown z)
  | TZ, VInt z => ROk (z_unknown z)
  | TBytes, VBytes bs | TString, VBytes bs => ROk (zlen bs)
  | TFixedBytes n, VBytes _ | TFixedString n, VBytes _ => ROk n
  | TOption _, VNone => ROk 1                                    (* conv/len.rs 187-192 *)
  | TOption t, VSome v => rbind (estimate v t) (fun n => uadd m 1 n)
  | TNullable _, VNone => ROk 0                                  (* schema.rs 321-326 *)
  | TNullable t, VSome v => estimate v t
  | TSeq t, VSeq vs | TLim _ t, VSeq vs =>                       (* seq/mod.rs 216, lim.rs 283 *)
      usum m 0 (map (fun v => estimate v t) vs)
  | TFix _ t, VSeq vs =>                                         (* seq/fix.rs 264-267 *)
      usum m 0 (map (fun v => unknown v t) vs)
  | TDyn s t, VWrap v =>                                         (* dynamic.rs 211-215 *)
      rbind (unknown v t) (fun n => uadd m (pref_len s) n)
  | TVPad _ t, VWrap v => unknown v t                            (* dynamic.rs 487 *)
  | TPad n t, VWrap v => rbind (unknown v t) (fun k => uadd m k n) (* schema.rs 229 *)
  | TBox t, VWrap v => unknown v t                               (* autobox.rs 264 *)
  | TNamed i, _ =>
      match nth_error D i, v with
      | Some (DStruct ts), VStruct vs => usum m 0 (map2 unknown (RErr tt) vs ts)
      | Some (DCStyle k _), VEnum _ [] => ROk (ik_len k)
      | Some (DData k alts), VEnum ix vs =>                      (* adt.rs 370-377 *)
          match nth_error alts ix with
          | Some (_, ts) =>
              rbind (estimate_with (known_sum (known cf D kf) ts)
                       (usum m 0 (map2 unknown (RErr tt) vs ts)))
                    (fun n => uadd m (ik_len k) n)
          | None => RErr tt
          end
      | _, _ => RErr tt
      end
  | _, _ => RErr tt
  end.

Definition estimate (v : val) (t : ty) : wres Z := estimate_with (known cf D kf t) (unknown v t).

(** ------------------------------------------------------------------ *)
(** * Encode *)

(** A call that writes into a target and returns a count. *)
Definition writer (U : Type) := U -> wres (Z * U).

(** [a + b] where both sides write. *)
Definition w_add {U} (a b : writer U) : writer U := fun u =>
  rbind (a u) (fun r => rbind (b (snd r)) (fun r' =>
    rbind (uadd m (fst r) (fst r')) (fun n => ROk (n, snd r')))).
Definition w_call {U} (f : U -> Z * U) : writer U := fun u => ROk (f u).
Definition w_bad {U} : writer U := fun _ => RErr tt.

(** [iter.map(|x| x.write_to(buf)).sum()] *)
Fixpoint w_sum {U} (acc : Z) (l : list (writer U)) : writer U := fun u =>
  match l with
  | [] => ROk (acc, u)
  | w :: l => rbind (w u) (fun r => rbind (uadd m acc (fst r)) (fun n => w_sum n l (snd r)))
  end.

(** [bytes] written with [push_all] or [push_many], then [resolve_zero], the method
    or (the last two) the macro. *)
Definition w_push_all {U} (T : target U) (bs : list byte) : writer U :=
  w_add (w_call (tg_push_all T bs)) (w_call (tg_resolve_zero T)).
Definition w_push_many {U} (T : target U) (bs : list byte) : writer U :=
  w_add (w_call (tg_push_many T bs)) (w_call (tg_resolve_zero T)).
Definition w_write_all {U} (T : target U) (bs : list byte) : writer U :=
  w_add (w_call (tg_push_all T bs)) (w_call (tg_resolve_macro T)).
Definition w_push_one {U} (T : target U) (b : byte) : writer U :=
  w_add (w_call (tg_push_one T b)) (w_call (tg_resolve_macro T)).

(** int.rs 549-553: [write_to] of the fixed-width integers. *)
Definition w_int {U} (T : target U) (k : int_kind) (z : Z) : writer U :=
  w_push_all T (to_be_bytes k z).

(** int.rs 513-523: [write_to] of RangedInt. *)
Definition w_ranged {U} (T : target U) (k : int_kind) (lo hi z : Z) : writer U := fun u =>
  rbind (ri_to_underlying (cf_range_check cf) lo hi z) (fun x =>
    w_add (w_int T k x) (w_call (tg_resolve_zero T)) u).

(** dynamic.rs 379: [S::try_from(l)]. *)
Definition pref_try_from (s : len_pref) (l : Z) : option Z :=
  match s with
  | PrefU8 => ik_try_from U8 l
  | PrefU16 => ik_try_from U16 l
  | PrefU30 => match ri_try_from m U32 0 u30_max l with ROk x => Some x | _ => None end
  end.
Definition w_pref {U} (T : target U) (s : len_pref) (lp : Z) : writer U :=
  match s with
  | PrefU8 => w_int T U8 lp
  | PrefU16 => w_int T U16 lp
  | PrefU30 => w_ranged T U32 0 u30_max lp
  end.

(** [Encode::write_to]. *)
Fixpoint write_to (v : val) : forall (U : Type) (T : target U) (t : ty), writer U :=
  fun U T t =>
  let resolve := w_call (tg_resolve_zero T) in
  match t, v with
  | TUnit, VUnit => fun u => ROk (0, u)
  | TBool, VBool b => w_push_one T (if b then 255 else 0)
  | TInt k, VInt z => w_int T k z
  | TRanged k lo hi, VInt z => w_ranged T k lo hi z
  | TF64, VInt z | TRangedF _ _, VInt z => w_int T U64 z
  | TN, VInt z => fun u => rbind (n_serialize z) (fun bs => w_push_all T bs u)
  | TZ, VInt z => fun u => rbind (z_serialize z) (fun bs => w_push_all T bs u)
  | TBytes, VBytes bs | TString, VBytes bs => w_write_all T bs     (* conv/mod.rs 371-373, 398-400 *)
  | TFixedBytes _, VBytes bs => w_push_many T bs                 (* fixed.rs 247-249 *)
  | TFixedString _, VBytes bs => w_push_all T bs                 (* fixed.rs 472-474 *)
  | TOption t, VSome v => w_add (w_add (w_call (tg_push_one T 255)) (write_to v U T t)) (w_call (tg_resolve_macro T))
  | TOption _, VNone => w_push_one T 0
  | TNullable t, VSome v => w_add (write_to v U T t) resolve
  | TNullable _, VNone => resolve
  | TSeq t, VSeq vs | TLim _ t, VSeq vs | TFix _ t, VSeq vs =>
      w_add (w_sum 0 (map (fun v => write_to v U T t) vs)) resolve
  | TDyn s t, VWrap v => fun u =>
      rbind (if cf_est_override cf then estimate v t
             else rmap fst (write_to v unit tg_counter t tt)) (fun l =>
      rbind (rassert (l <=? pref_max s)) (fun _ =>
      match pref_try_from s l with
      | Some lp =>
          rbind (if cf_est_override cf then ROk (pref_len s)
                 else rmap fst (w_pref tg_counter s lp tt)) (fun ll =>
          rbind (uadd m l ll) (fun total =>
            let u := tg_anticipate T total u in
            w_add (w_add (w_pref T s lp) (write_to v U T t)) resolve u))
      | None => RPanic
      end))
  | TVPad _ t, VWrap v => write_to v U T t
  | TPad n t, VWrap v =>
      w_add (w_add (write_to v U T t) (w_call (tg_push_many T (repeat 0 (Z.to_nat n))))) resolve
  | TBox t, VWrap v => write_to v U T t
  | TNamed i, _ =>
      match nth_error D i, v with
      | Some (DStruct ts), VStruct vs =>
          w_add (w_sum 0 (map2 (fun v t => write_to v U T t) w_bad vs ts)) resolve
      | Some (DCStyle k tags), VEnum ix [] =>
          match nth_error tags ix with Some tag => w_int T k tag | None => w_bad end
      | Some (DData k alts), VEnum ix vs =>
          match nth_error alts ix with
          | Some (tag, ts) =>
              w_add (w_add (w_int T k tag)
                (w_add (w_sum 0 (map2 (fun v t => write_to v U T t) w_bad vs ts)) resolve)) resolve
          | None => w_bad
          end
      | _, _ => w_bad
      end
  | _, _ => w_bad
  end.

(** conv/mod.rs 159-161, 189-191: [enc_len]. *)
Definition enc_len (v : val) (t : ty) : wres Z :=
  if cf_est_override cf then estimate v t else rmap fst (write_to v unit tg_counter t tt).

(** conv/mod.rs 100-104: [encode::<U>()]. *)
Definition encode {U} (T : target U) (v : val) (t : ty) : wres U :=
  rmap snd (write_to v U T t (tg_create T)).

(** conv/mod.rs 121-125 with 82-84: [to_bytes]; 171-175: [to_bytes_full], whose
    [Vec::with_capacity] panics if asked for more than [isize::MAX] bytes. *)
Definition to_bytes (v : val) (t : ty) : wres (list byte) :=
  rmap snd (write_to v (list byte) tg_vec t []).
Definition to_bytes_full (v : val) (t : ty) : wres (list byte) :=
  rbind (enc_len v t) (fun n => if n <=? isize_max then to_bytes v t else RPanic).

End Encode.

(** ------------------------------------------------------------------ *)
(** * try_decode (conv/mod.rs 293-310; prim.rs 31-48 is the same for (), and
    prim.rs 76-81 is modelled in [ModelInput]) *)

(** conv/error.rs: [enum DecodeError], without the hex variant. *)
Inductive decode_error :=
| DParse (e : parse_error)
| DInvariant (e : invariant_error)
| DNonEmpty (rest : leftover).

Definition try_decode {P} (h : handler P) (cleanup : P -> cleanup_result) (init : P)
  (cf : config) (D : list def) (fuel : nat) (t : ty) : res decode_error val :=
  let '(r, p) := run h (parse cf D fuel t) init in
  match r with
  | RErr e => RErr (DParse e)
  | RPanic => RPanic
  | RUB => RUB
  | RDiv => RDiv
  | ROk v =>
      if cf_complete cf then
        match cleanup p with
        | ROk lo => if lo_is_empty lo then ROk v else RErr (DNonEmpty lo)
        | RErr e => RErr (DInvariant e)
        | RPanic => RPanic
        | RUB => RUB
        | RDiv => RDiv
        end
      else ROk v
  end.

Definition byte_decode (cf : config) (D : list def) (fuel : nat) (t : ty) (input : list byte) :=
  try_decode (byte_h (cf_mode cf)) (bp_cleanup (cf_mode cf)) (bp_from_buffer input) cf D fuel t.
Definition memo_decode (cf : config) (D : list def) (fuel : nat) (t : ty) (input : list byte) :=
  try_decode (memo_h (cf_mode cf)) (mp_cleanup (cf_mode cf)) (mp_from_buffer input) cf D fuel t.
Definition slice_decode (cf : config) (D : list def) (fuel : nat) (t : ty) (input : list byte) :=
  try_decode slice_h sp_cleanup (sp_from_buffer input) cf D fuel t.
