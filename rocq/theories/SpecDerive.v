(** What a struct declaration means: its members in the order of declaration. *)
From Coq Require Import String.
From Verif Require Import Base ModelErrors ModelParser ModelInt ModelTarget ModelSchema ModelDerive SpecCodec.
Local Open Scope list_scope.

Definition declared (fs : fields) : list (member * ty) :=
  match fs with
  | FUnit => []
  | FUnnamed tys => combine (map MIndex (seq 0 (List.length tys))) tys
  | FNamed named => map (fun f => (MName (fst f), snd f)) named
  end.
Definition member_types (fs : fields) : list ty := map snd (declared fs).

(** No two members have the same name (Rust refuses other declarations). *)
Definition distinct (fs : fields) : Prop := NoDup (map fst (declared fs)).

(** The struct whose members hold [vs], in the order of declaration. *)
Definition struct_of (fs : fields) (vs : list val) : struct := combine (map fst (declared fs)) vs.
(** The members of [self] hold [vs]; where they lie in [self] does not matter. *)
Definition holds (fs : fields) (self : struct) (vs : list val) : Prop :=
  Forall2 (fun mt v => field_of (fst mt) self = Some v) (declared fs) vs.

(** A decoded value as a struct. *)
Definition as_struct (fs : fields) (v : val) : struct :=
  match v with VStruct vs => struct_of fs vs | _ => [] end.
(** Reading by the derived code, then everything that is left. *)
Definition derived_reads (w : which_parser) (cf : config) (D : list def) (e : self_expr) (input : list byte)
  (out : pres (struct * list byte)) : Prop :=
  settles (fun f => run_with w (cf_mode cf) (then_rest (eval_self cf D f e)) input) out.
