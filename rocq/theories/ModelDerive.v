(** Model of the derive macros: decode_derive/src/lib.rs, encode_derive/src/lib.rs
    and estimable_derive/src/lib.rs.  A macro is a function from the parsed
    declaration to the code it emits; the code is then given its meaning.

    Simplifications: generic parameters and attributes are ignored by the macros
    and left out here; the emitted code is a small syntax tree instead of tokens. *)
From Coq Require Import String DecimalString.
From Verif Require Import Base ModelErrors ModelParser ModelInt ModelTarget ModelSchema.
Local Open Scope list_scope.

(** [syn::Data] and [syn::Fields]. *)
Inductive fields :=
| FUnit                                   (* struct S;            *)
| FUnnamed (tys : list ty)                (* struct S(T0, T1);    *)
| FNamed (named : list (string * ty)).    (* struct S { a: T0 }   *)
Inductive data := DataEnum | DataUnion | DataStruct (fs : fields).

(** [self.0], [self.name]. *)
Inductive member := MIndex (i : nat) | MName (n : string).
Definition member_eqb (a b : member) : bool :=
  match a, b with
  | MIndex i, MIndex j => Nat.eqb i j
  | MName n, MName n' => String.eqb n n'
  | _, _ => false
  end.

(** A struct in memory: what each member holds. *)
Definition struct := list (member * val).
Fixpoint field_of (m : member) (s : struct) : option val :=
  match s with
  | [] => None
  | (m', v) :: s => if member_eqb m m' then Some v else field_of m s
  end.

(** ------------------------------------------------------------------ *)
(** * Emitted code *)

(** The argument of [Ok]: [Self], [Self(e, ..)], [Self { n: e, .. }], each [e]
    being [<ty as Decode>::parse(p)?]. *)
Inductive self_expr :=
| ESelf
| ESelfTuple (args : list ty)
| ESelfStruct (inits : list (string * ty)).

(** [self.m.write_to(buf) + .. + Target::resolve_zero(buf)] *)
Record sum_expr := mkSum { se_terms : list member }.

(** [const LEN : usize = <ty>::LEN + ..]; the empty sum stands for [0]. *)
Inductive len_item :=
| LenConst (terms : list ty)
| LenBroken (terms : list ty).      (* no semicolon before the closing brace *)

(** What [derive(Estimable)] emits. *)
Inductive est_item :=
| EstFixed                                              (* impl FixedLength, LEN = 0 *)
| EstForward (t : ty) (m : member)                      (* KNOWN and unknown of the field *)
| EstSum (params : list (string * ty)) (terms : list member).
    (* const fn f(params) matching each on Some, applied to the KNOWN of the types;
       self.m.unknown() + .. *)

(** decode_derive/src/lib.rs 13-59: [impl_decode]. *)
Definition derive_decode (d : data) : res unit self_expr :=
  match d with
  | DataEnum => RPanic
  | DataUnion => RPanic
  | DataStruct FUnit => ROk ESelf
  | DataStruct (FUnnamed unnamed) => ROk (ESelfTuple unnamed)
  | DataStruct (FNamed named) => ROk (ESelfStruct named)
  end.

(** encode_derive/src/lib.rs 13-60: [impl_encode]. *)
Definition derive_encode (d : data) : res unit sum_expr :=
  match d with
  | DataEnum => RPanic
  | DataUnion => RPanic
  | DataStruct FUnit => ROk (mkSum [])
  | DataStruct (FUnnamed unnamed) => ROk (mkSum (map MIndex (seq 0 (List.length unnamed))))
  | DataStruct (FNamed named) => ROk (mkSum (map (fun f => MName (fst f)) named))
  end.

(** estimable_derive/src/lib.rs 13-65: [impl_fixedlength]; 35-42 closes the
    [impl] block before the semicolon. *)
Definition derive_fixed_length (d : data) : res unit len_item :=
  match d with
  | DataEnum => RPanic
  | DataUnion => RPanic
  | DataStruct FUnit => ROk (LenConst [])
  | DataStruct (FUnnamed unnamed) =>
      match unnamed with
      | [] => ROk (LenConst [])
      | _ => ROk (LenBroken unnamed)
      end
  | DataStruct (FNamed named) =>
      match named with
      | [] => ROk (LenConst [])
      | _ => ROk (LenConst (map snd named))
      end
  end.

(** [format_ident!("pos{}", x)]. *)
Definition pos_ident (i : nat) : string :=
  String.append "pos" (DecimalString.NilZero.string_of_uint (Nat.to_uint i)).

(** estimable_derive/src/lib.rs 74-177: [impl_estimable]. *)
Definition derive_estimable (d : data) : res unit est_item :=
  match d with
  | DataEnum => RPanic
  | DataUnion => RPanic
  | DataStruct FUnit => ROk EstFixed
  | DataStruct (FUnnamed unnamed) =>
      match unnamed with
      | [] => ROk EstFixed
      | [t] => ROk (EstForward t (MIndex 0))
      | _ =>
          let ixs := seq 0 (List.length unnamed) in
          ROk (EstSum (combine (map pos_ident ixs) unnamed) (map MIndex ixs))
      end
  | DataStruct (FNamed named) =>
      match named with
      | [] => ROk EstFixed
      | _ => ROk (EstSum named (map (fun f => MName (fst f)) named))
      end
  end.

(** ------------------------------------------------------------------ *)
(** * Meaning of the emitted code *)

(** The arguments of a constructor are evaluated left to right. *)
Definition eval_self (cf : config) (D : list def) (fuel : nat) (e : self_expr) : prog struct :=
  match e with
  | ESelf => PRet []
  | ESelfTuple args =>
      vs <- p_fields (parse cf D fuel) args ;;
      PRet (combine (map MIndex (seq 0 (List.length args))) vs)
  | ESelfStruct inits =>
      vs <- p_fields (parse cf D fuel) (map snd inits) ;;
      PRet (combine (map (fun f => MName (fst f)) inits) vs)
  end.

Section Eval.
Variables (cf : config) (D : list def) (kf : nat).

(** The static type of [self.m]. *)
Definition type_of_member (fs : fields) (m : member) : option ty :=
  match fs, m with
  | FUnnamed tys, MIndex i => nth_error tys i
  | FNamed named, MName n =>
      option_map snd (find (fun f => String.eqb n (fst f)) named)
  | _, _ => None
  end.

(** [a + b + .. + last], left to right. *)
Fixpoint eval_terms {U} (T : target U) (fs : fields) (self : struct) (terms : list member) : list (writer U) :=
  match terms with
  | [] => []
  | m :: terms =>
      match field_of m self, type_of_member fs m with
      | Some v, Some t => write_to cf D kf v U T t
      | _, _ => w_bad
      end :: eval_terms T fs self terms
  end.
Definition eval_write {U} (T : target U) (fs : fields) (e : sum_expr) (self : struct) : writer U :=
  w_add cf (w_sum cf 0 (eval_terms T fs self (se_terms e))) (w_call (tg_resolve_zero T)).

(** The arm [(Some(a), Some(b), ..) => Some(a + b + ..), _ => None] of [f]: the
    names are bound by the pattern and looked up in the sum. *)
Fixpoint bind_somes (names : list string) (args : list (option Z)) : option (list (string * Z)) :=
  match names, args with
  | [], [] => Some []
  | n :: names, Some a :: args => option_map (cons (n, a)) (bind_somes names args)
  | _, _ => None
  end.
Fixpoint lookup (n : string) (env : list (string * Z)) : option Z :=
  match env with
  | [] => None
  | (n', z) :: env => if String.eqb n n' then Some z else lookup n env
  end.
Fixpoint sum_names (names : list string) (env : list (string * Z)) : option Z :=
  match names with
  | [] => Some 0
  | n :: names =>
      match lookup n env, sum_names names env with
      | Some a, Some b => Some (a + b)
      | _, _ => None
      end
  end.
Definition call_f (names : list string) (args : list (option Z)) : option Z :=
  match bind_somes names args with
  | Some env => sum_names names env
  | None => None
  end.
Fixpoint all_known (ts : list ty) : option (list (option Z)) :=
  match ts with
  | [] => Some []
  | t :: ts =>
      match known cf D kf t, all_known ts with
      | Some k, Some ks => Some (k :: ks)
      | _, _ => None
      end
  end.

(** [KNOWN] and [unknown()] of the emitted impl (for [EstFixed] through conv/len.rs
    127-160: [FixedLength] types are [Estimable]). *)
Definition eval_known (e : est_item) : option (option Z) :=
  match e with
  | EstFixed => Some (Some 0)
  | EstForward t _ => known cf D kf t
  | EstSum params _ => option_map (call_f (map fst params)) (all_known (map snd params))
  end.
Definition member_unknown (fs : fields) (self : struct) (m : member) : wres Z :=
  match field_of m self, type_of_member fs m with
  | Some v, Some t => unknown cf D kf v t
  | _, _ => RErr tt
  end.
Definition eval_unknown (fs : fields) (e : est_item) (self : struct) : wres Z :=
  match e with
  | EstFixed => ROk 0
  | EstForward _ m => member_unknown fs self m
  | EstSum _ terms => usum (cf_mode cf) 0 (map (member_unknown fs self) terms)
  end.

(** [LEN]; [None] is code that does not compile.  Simplification: a field type
    has a [LEN] when its length is known ([FixedLength] is implemented for most but
    not all of these types). *)
Fixpoint sum_len (ts : list ty) : option Z :=
  match ts with
  | [] => Some 0
  | t :: ts =>
      match known cf D kf t, sum_len ts with
      | Some (Some a), Some b => Some (a + b)
      | _, _ => None
      end
  end.
Definition eval_len (e : len_item) : option Z :=
  match e with LenConst ts => sum_len ts | LenBroken _ => None end.
End Eval.
