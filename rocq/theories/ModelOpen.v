(** Types written outside the library.  The wrappers of the library are generic:
    [Option<T>], [Sequence<T>], [Dynamic<S, T>] and so on, and the derive macros,
    work for every [T] that implements the traits, by hand or not.  ModelSchema
    describes the closed world of types made from the library alone; here the
    wrappers are functions from implementations to implementations. *)
From Verif Require Import Base ModelErrors ModelParser ModelInt ModelTarget ModelSchema.

(** An implementation of [Estimable] (conv/len.rs 107-163: [KNOWN], [unknown]),
    [EncodeLength] (conv/mod.rs 135-176: [enc_len]), [Encode] (conv/mod.rs 65-126:
    [write_to]) and [Decode] (conv/mod.rs 243-330: [parse]) for a type.  As in
    ModelSchema a [KNOWN] that cannot be evaluated is [None], and [parse] has fuel
    for its loops. *)
Record codec (A : Type) := mkCodec {
  c_known : option (option Z);
  c_unknown : A -> wres Z;
  c_enc_len : A -> wres Z;
  c_write : A -> forall U, target U -> writer U;
  c_parse : nat -> prog A
}.
Arguments c_known {A} _.
Arguments c_unknown {A} _ _.
Arguments c_enc_len {A} _ _.
Arguments c_write {A} _ _ _ _.
Arguments c_parse {A} _ _.

(** The fields of a derived struct, each with its own type; a value is the tuple
    of the field values. *)
Inductive fields : Type -> Type :=
| FNil : fields unit
| FCons : forall A B, codec A -> fields B -> fields (A * B).
Arguments FCons {A B} _ _.

(** A variant of an enum made with data! (adt.rs 255-380): its discriminant, its
    payload, the constructor, and taking it apart, which is only possible for
    values of this variant. *)
Record variant (S : Type) := mkVariant {
  va_tag : Z;
  va_type : Type;
  va_fields : fields va_type;
  va_build : va_type -> S;
  va_split : S -> option va_type
}.
Arguments va_tag {S} _.
Arguments va_type {S} _.
Arguments va_fields {S} _.
Arguments va_build {S} _ _.
Arguments va_split {S} _ _.

Section Wrappers.
Variable cf : config.
Let m := cf_mode cf.

(** conv/len.rs 160-162: [estimate]. *)
Definition c_estimate {A} (c : codec A) (v : A) : wres Z := estimate_with (c_known c) (c_unknown c v).

(** conv/mod.rs 178-193: the blanket implementation of [EncodeLength] for types
    with [Encode] and [Estimable]. *)
Definition blanket {A} (known : option (option Z)) (unknown : A -> wres Z)
  (write : A -> forall U, target U -> writer U) (v : A) : wres Z :=
  if cf_est_override cf then estimate_with known (unknown v)
  else rmap fst (write v unit tg_counter tt).
Definition with_blanket {A} (known : option (option Z)) (unknown : A -> wres Z)
  (write : A -> forall U, target U -> writer U) (parse : nat -> prog A) : codec A :=
  mkCodec A known unknown (blanket known unknown write) write parse.

Local Notation resolve T := (w_call (tg_resolve_zero T)).

(** [Option<T>]: conv/len.rs 176-193, conv/mod.rs 411-428. *)
Definition c_option {A} (c : codec A) : codec (option A) := with_blanket
  (match c_known c with
   | Some (Some n) => Some (if n =? 0 then Some 1 else None)
   | Some None => Some None
   | None => None
   end)
  (fun v => match v with None => ROk 1 | Some v => rbind (c_estimate c v) (fun n => uadd m 1 n) end)
  (fun v U T => match v with
                | Some v => w_add cf (w_add cf (w_call (tg_push_one T 255)) (c_write c v U T)) (w_call (tg_resolve_macro T))
                | None => w_push_one cf T 0
                end)
  (fun f =>
     tag <- p_take_tagword U8 [0; 255] ;;
     if tag =? 255 then v <- c_parse c f ;; PRet (Some v)
     else if tag =? 0 then PRet None
     else PPanic).

(** [Nullable<T>]: schema.rs 312-349. *)
Definition c_nullable {A} (c : codec A) : codec (option A) := with_blanket
  (match c_known c with
   | Some (Some n) => Some (if n =? 0 then Some 0 else None)
   | Some None => Some None
   | None => None
   end)
  (fun v => match v with None => ROk 0 | Some v => c_estimate c v end)
  (fun v U T => match v with
                | Some v => w_add cf (c_write c v U T) (resolve T)
                | None => resolve T
                end)
  (fun f =>
     rem <- p_remainder ;;
     if negb (rem =? 0) then v <- c_parse c f ;; PRet (Some v) else PRet None).

(** The elements of a sequence one after the other: seq/mod.rs 221-225, lim.rs
    290-294, fix.rs 270-274. *)
Definition write_elements {A} (c : codec A) (vs : list A) (U : Type) (T : target U) : writer U :=
  w_add cf (w_sum cf 0 (map (fun v => c_write c v U T) vs)) (resolve T).

(** [Sequence<T>]: seq/mod.rs 213-237. *)
Definition c_seq {A} (c : codec A) : codec (list A) := with_blanket
  (Some None)
  (fun vs => usum m 0 (map (c_estimate c) vs))
  (write_elements c)
  (fun f => p_seq_loop f (c_parse c f) []).

(** [LimSeq<T, N>]: seq/lim.rs 279-309. *)
Definition c_lim {A} (n : Z) (c : codec A) : codec (list A) := with_blanket
  (Some None)
  (fun vs => usum m 0 (map (c_estimate c) vs))
  (write_elements c)
  (fun f => p_lim_loop f n (c_parse c f) []).

(** [FixSeq<T, N>]: seq/fix.rs 256-297. *)
Definition c_fix {A} (n : Z) (c : codec A) : codec (list A) := with_blanket
  (match c_known c with
   | Some (Some k) => Some (Some (n * k))
   | Some None => Some None
   | None => None
   end)
  (fun vs => usum m 0 (map (c_unknown c) vs))
  (write_elements c)
  (fun f => p_fix_loop f n (c_parse c f) []).

(** [Dynamic<S, T>]: dynamic.rs 202-216, 360-397.  The length of the prefix itself
    is asked of [S]. *)
Definition c_dyn {A} (s : len_pref) (c : codec A) : codec A := with_blanket
  (match c_known c with
   | Some (Some n) => Some (Some (pref_len s + n))
   | Some None => Some None
   | None => None
   end)
  (fun v => rbind (c_unknown c v) (fun n => uadd m (pref_len s) n))
  (fun v U T u =>
     rbind (c_enc_len c v) (fun l =>
     rbind (rassert (l <=? pref_max s)) (fun _ =>
     match pref_try_from cf s l with
     | Some lp =>
         rbind (if cf_est_override cf then ROk (pref_len s) else rmap fst (w_pref cf tg_counter s lp tt)) (fun ll =>
         rbind (uadd m l ll) (fun total =>
           w_add cf (w_add cf (w_pref cf T s lp) (c_write c v U T)) (resolve T) (tg_anticipate T total u)))
     | None => RPanic
     end)))
  (fun f =>
     buflen <- p_pref cf s ;;
     p_set_fit buflen ;;;
     v <- c_parse c f ;;
     p_enforce_target ;;;
     PRet v).

(** [VPadded<T, N>]: dynamic.rs 457-490. *)
Definition c_vpad {A} (n : Z) (c : codec A) : codec A := with_blanket
  (c_known c) (c_unknown c) (c_write c)
  (fun f =>
     rem <- p_remainder ;;
     plift (debug_assert m (n <=? rem)) ;;;
     win <- plift (usub m rem n) ;;
     p_set_fit win ;;;
     v <- c_parse c f ;;
     p_enforce_target ;;;
     PRet v).

(** [Padded<T, N>]: schema.rs 182-232. *)
Definition c_pad {A} (n : Z) (c : codec A) : codec A := with_blanket
  (match c_known c with
   | Some (Some k) => Some (Some (k + n))
   | Some None => if cf_relaxed_padding cf then Some None else None
   | None => None
   end)
  (fun v => rbind (c_unknown c v) (fun k => uadd m k n))
  (fun v U T => w_add cf (w_add cf (c_write c v U T) (w_call (tg_push_many T (repeat 0 (Z.to_nat n))))) (resolve T))
  (fun f =>
     v <- c_parse c f ;;
     padding <- p_consume n ;;
     if cf_check_padding cf && negb (forallb (Z.eqb 0) padding)
     then PErr (EToken (NonNullPaddingByte padding))
     else PRet v).

(** [AutoBox<T>]: autobox.rs 246-267. *)
Definition c_box {A} (c : codec A) : codec A := with_blanket
  (c_known c) (c_unknown c) (c_write c) (fun f => v <- c_parse c f ;; PRet v).

(** ------------------------------------------------------------------ *)
(** estimable_derive/src/lib.rs 85-173: [KNOWN] and [unknown] of a struct. *)
Fixpoint fields_known {B} (fs : fields B) : option (option Z) :=
  match fs with
  | FNil => Some (Some 0)
  | FCons c fs =>
      match c_known c, fields_known fs with
      | Some (Some a), Some (Some b) => Some (Some (a + b))
      | Some _, Some _ => Some None
      | _, _ => None
      end
  end.
Fixpoint fields_unknown {B} (fs : fields B) : B -> list (wres Z) :=
  match fs in fields B return B -> list (wres Z) with
  | FNil => fun _ => []
  | FCons c fs => fun v => c_unknown c (fst v) :: fields_unknown fs (snd v)
  end.
(** encode_derive: the fields in order. *)
Fixpoint fields_write {B} (fs : fields B) : B -> forall U, target U -> list (writer U) :=
  match fs in fields B return B -> forall U, target U -> list (writer U) with
  | FNil => fun _ _ _ => []
  | FCons c fs => fun v U T => c_write c (fst v) U T :: fields_write fs (snd v) U T
  end.
(** decode_derive: the fields in order. *)
Fixpoint fields_parse {B} (fs : fields B) (f : nat) : prog B :=
  match fs in fields B return prog B with
  | FNil => PRet tt
  | FCons c fs => v <- c_parse c f ;; vs <- fields_parse fs f ;; PRet (v, vs)
  end.

(** A derived struct: [build] is its constructor, [split] takes it apart. *)
Definition c_struct {B S} (fs : fields B) (build : B -> S) (split : S -> B) : codec S := with_blanket
  (fields_known fs)
  (fun s => usum m 0 (fields_unknown fs (split s)))
  (fun s U T => w_add cf (w_sum cf 0 (fields_write fs (split s) U T)) (resolve T))
  (fun f => vs <- fields_parse fs f ;; PRet (build vs)).

(** The [match] on the value: the first variant it belongs to. *)
Fixpoint on_variant {S R} (vs : list (variant S)) (s : S) (bad : R)
  (k : forall va : variant S, va_type va -> R) : R :=
  match vs with
  | [] => bad
  | va :: vs => match va_split va s with Some x => k va x | None => on_variant vs s bad k end
  end.
(** The [match] on the discriminant. *)
Fixpoint on_tag {S R} (vs : list (variant S)) (tag : Z) (bad : R) (k : variant S -> R) : R :=
  match vs with
  | [] => bad
  | va :: vs => if tag =? va_tag va then k va else on_tag vs tag bad k
  end.

(** adt.rs 255-380: an enum with payloads, backed by the integer type [k]. *)
Definition c_data {S} (k : int_kind) (vs : list (variant S)) : codec S := with_blanket
  (Some None)
  (fun s => on_variant vs s (RErr tt) (fun va x =>
     rbind (estimate_with (fields_known (va_fields va)) (usum m 0 (fields_unknown (va_fields va) x)))
           (fun n => uadd m (ik_len k) n)))
  (fun s U T => on_variant vs s w_bad (fun va x =>
     w_add cf (w_add cf (w_int cf T k (va_tag va))
       (w_add cf (w_sum cf 0 (fields_write (va_fields va) x U T)) (resolve T))) (resolve T)))
  (fun f =>
     tag <- p_take_tagword k (map va_tag vs) ;;
     on_tag vs tag PPanic (fun va => x <- fields_parse (va_fields va) f ;; PRet (va_build va x))).

End Wrappers.

(** ------------------------------------------------------------------ *)
(** The types of ModelSchema as implementations. *)
Definition c_schema (cf : config) (D : list def) (kf : nat) (t : ty) : codec val := mkCodec val
  (known cf D kf t)
  (fun v => unknown cf D kf v t)
  (fun v => enc_len cf D kf v t)
  (fun v U T => write_to cf D kf v U T t)
  (fun f => parse cf D f t).

(** conv/mod.rs 121-125: [to_bytes] of such a type, and 293-310 with the three
    parsers: [try_decode]. *)
Definition c_to_bytes {A} (c : codec A) (v : A) : wres (list byte) :=
  rmap snd (c_write c v (list byte) tg_vec []).
Definition c_decode {P A} (h : handler P) (cleanup : P -> cleanup_result) (init : P)
  (cf : config) (c : codec A) (f : nat) : res decode_error A :=
  let '(r, p) := run h (c_parse c f) init in
  match r with
  | RErr e => RErr (DParse e)
  | RPanic => RPanic
  | RUB => RUB
  | RDiv => RDiv
  | ROk v =>
      if cf_complete cf then
        match cleanup p with
        | ROk lo => if lo_is_empty lo then ROk v else RErr (DNonEmpty lo)
        | RErr e => RErr (DInvariant e)
        | RPanic => RPanic
        | RUB => RUB
        | RDiv => RDiv
        end
      else ROk v
  end.
