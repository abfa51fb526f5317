(** How deep Dynamics are nested in a value, and in the values of a type. *)
From Verif Require Import Base ModelErrors ModelInt ModelSchema.

Definition most (l : list Z) : Z := fold_right Z.max 0 l.

Fixpoint nested (D : list def) (v : val) (t : ty) : Z :=
  match t, v with
  | TDyn _ t, VWrap v => 1 + nested D v t
  | TVPad _ t, VWrap v | TPad _ t, VWrap v | TBox t, VWrap v => nested D v t
  | TOption t, VSome v | TNullable t, VSome v => nested D v t
  | TSeq t, VSeq vs | TLim _ t, VSeq vs | TFix _ t, VSeq vs => most (map (fun v => nested D v t) vs)
  | TNamed i, VStruct vs =>
      match nth_error D i with Some (DStruct ts) => most (map2 (nested D) 0 vs ts) | _ => 0 end
  | TNamed i, VEnum ix vs =>
      match nth_error D i with
      | Some (DData _ alts) => most (map2 (nested D) 0 vs (snd (nth ix alts (0, []))))
      | _ => 0
      end
  | _, _ => 0
  end.

(** [L] claims for every declaration how deep Dynamics may be nested in it; a
    declaration that recurs through a Dynamic has no claim. *)
Fixpoint layers (L : list Z) (t : ty) : Z :=
  match t with
  | TDyn _ t => 1 + layers L t
  | TOption t | TNullable t | TSeq t | TLim _ t | TFix _ t | TVPad _ t | TPad _ t | TBox t => layers L t
  | TNamed i => Z.max 0 (nth i L 0)
  | _ => 0
  end.
Definition layered_def (L : list Z) (d : def) (n : Z) : bool :=
  match d with
  | DStruct ts => forallb (fun t => layers L t <=? n) ts
  | DCStyle _ _ => true
  | DData _ alts => forallb (fun alt => forallb (fun t => layers L t <=? n) (snd alt)) alts
  end.
Definition layered (L : list Z) (D : list def) : bool :=
  (zlen L =? zlen D) && forallb (fun dn => layered_def L (fst dn) (snd dn)) (combine D L).

(** An enum that wraps itself in Dynamics (Micheline expressions, say, do), and
    its value with [n] of them. *)
Definition chain_defs : list def := [DData U8 [(0, []); (1, [TDyn PrefU30 (TBox (TNamed 0))])]].
Fixpoint chain (n : nat) : val :=
  match n with O => VEnum 0 [] | S n => VEnum 1 [VWrap (VWrap (chain n))] end.
