(** What a builder should hold: the groups of bytes written to it. *)
From Verif Require Import Base ModelSplitVec ModelTarget ModelBuilder SpecSplitVec SpecHex.

(** One call on a builder. *)
Inductive call :=
| CPushOne (b : byte)
| CPushMany (arr : list byte)
| CPushAll (bs : list byte)
| CWrite (bs : list byte)
| CResolve
| CFlush
| CAnticipate (n : Z).

(** How it was made. *)
Inductive birth :=
| BCreate
| BEmpty
| BWord (b : byte)
| BWords (arr : list byte)
| BFromVec (l : list byte)
| BFromSlice (l : list byte).

(** The bytes a call, and a birth, put in. *)
Definition call_bytes (c : call) : list byte :=
  match c with
  | CPushOne b => [b]
  | CPushMany l | CPushAll l | CWrite l => l
  | CResolve | CFlush | CAnticipate _ => []
  end.
Definition birth_bytes (b : birth) : list byte :=
  match b with
  | BCreate | BEmpty => []
  | BWord b => [b]
  | BWords l | BFromVec l | BFromSlice l => l
  end.
Definition put_in (b : birth) (cs : list call) : list byte :=
  birth_bytes b ++ concat (map call_bytes cs).

(** The number the call returns: how many bytes it put in. *)
Definition call_returns (c : call) : option Z :=
  match c with
  | CPushOne _ | CPushMany _ | CPushAll _ | CWrite _ => Some (zlen (call_bytes c))
  | CResolve | CFlush | CAnticipate _ => None
  end.

(** Groups: bytes are in the same group unless a [resolve] or [flush] stands
    between them. *)
Definition call_groups (s : segs byte) (c : call) : segs byte :=
  match c with
  | CResolve | CFlush => sg_close s
  | CAnticipate _ => s
  | _ => sg_append (call_bytes c) s
  end.
Definition birth_groups (b : birth) : segs byte :=
  match b with
  | BCreate => mkSegs [] None
  | _ => mkSegs [] (Some (birth_bytes b))
  end.
Definition groups (b : birth) (cs : list call) : list (list byte) :=
  sg_all (fold_left call_groups cs (birth_groups b)).

(** Doing the calls on a builder. *)
Section Do.
Context {U Seg Final : Type} (B : builder U Seg Final).
Definition do_birth (b : birth) : U :=
  match b with
  | BCreate => tg_create (bd_target B)
  | BEmpty => bd_empty B
  | BWord b => bd_word B b
  | BWords l => bd_words B l
  | BFromVec l => bd_from_vec B l
  | BFromSlice l => bd_from_slice B l
  end.
Definition do_call (u : U) (c : call) : option Z * U :=
  let some r := (Some (fst r), snd r) : option Z * U in
  match c with
  | CPushOne b => some (tg_push_one (bd_target B) b u)
  | CPushMany l => some (tg_push_many (bd_target B) l u)
  | CPushAll l => some (tg_push_all (bd_target B) l u)
  | CWrite l => some (bd_write B l u)
  | CResolve => (None, tg_resolve (bd_target B) u)
  | CFlush => (None, bd_flush B u)
  | CAnticipate n => (None, tg_anticipate (bd_target B) n u)
  end.
Fixpoint do_calls (u : U) (cs : list call) : list (option Z) * U :=
  match cs with
  | [] => ([], u)
  | c :: cs =>
      let r := do_call u c in
      let rs := do_calls (snd r) cs in (fst r :: fst rs, snd rs)
  end.
Definition made (b : birth) (cs : list call) : U := snd (do_calls (do_birth b) cs).
End Do.

(** "|" and the brackets *)
Definition bar : byte := 124.

(** [t] shows the groups [gs]: "[|", then for each group its bytes as two
    lower-case hexadecimal digits each and a bar, then "]". *)
Inductive shows_groups : list (list byte) -> list byte -> Prop :=
| shows_none : shows_groups [] [93]
| shows_group g gs h t :
    hex_denotes h g -> Forall lower_hex h -> shows_groups gs t ->
    shows_groups (g :: gs) (h ++ bar :: t).
Definition shows (gs : list (list byte)) (t : list byte) : Prop :=
  exists t', t = 91 :: bar :: t' /\ shows_groups gs t'.
