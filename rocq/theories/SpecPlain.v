(** Types that share a wire format: what is left of a schema if everything is
    taken away that does not show in the bytes.

    Boxes go; byte strings become sequences of bytes, doubles the integers of their
    bits, a ranged integer whose range excludes nothing the integer, a [data!] enum
    of variants without fields a [cstyle!] enum. *)
From Verif Require Import Base ModelInt ModelSchema SpecCodec.

Definition full_range (k : int_kind) (lo hi : Z) : bool := (lo <=? 0) && (lo <=? ik_min k) && (ik_max k <=? hi).

Fixpoint plain (t : ty) : ty :=
  match t with
  | TBox t => plain t
  | TBytes => TSeq (TInt U8)
  | TFixedBytes n | TFixedString n => TFix n (TInt U8)
  | TF64 => TInt U64
  | TRanged k lo hi => if full_range k lo hi then TInt k else TRanged k lo hi
  | TOption t => TOption (plain t)
  | TNullable t => TNullable (plain t)
  | TSeq t => TSeq (plain t)
  | TLim n t => TLim n (plain t)
  | TFix n t => TFix n (plain t)
  | TDyn s t => TDyn s (plain t)
  | TVPad n t => TVPad n (plain t)
  | TPad n t => TPad n (plain t)
  | TUnit | TBool | TInt _ | TRangedF _ _ | TN | TZ | TString | TNamed _ => t
  end.
Definition no_fields (a : Z * list ty) : bool := match snd a with [] => true | _ => false end.
Definition plain_def (d : def) : def :=
  match d with
  | DStruct ts => DStruct (map plain ts)
  | DCStyle k tags => DCStyle k tags
  | DData k alts => if forallb no_fields alts then DCStyle k (map fst alts)
                    else DData k (map (fun a => (fst a, map plain (snd a))) alts)
  end.
Definition plain_defs (D : list def) : list def := map plain_def D.

(** What is left of a value. *)
Definition map_fields (f : val -> ty -> val) : list val -> list ty -> list val :=
  fix go vs ts :=
    match vs, ts with
    | v :: vs, t :: ts => f v t :: go vs ts
    | _, _ => []
    end.
Fixpoint plain_val (D : list def) (v : val) (t : ty) : val :=
  match t, v with
  | TBox t, VWrap v => plain_val D v t
  | TBytes, VBytes bs | TFixedBytes _, VBytes bs | TFixedString _, VBytes bs => VSeq (map VInt bs)
  | TOption t, VSome v | TNullable t, VSome v => VSome (plain_val D v t)
  | TSeq t, VSeq vs | TLim _ t, VSeq vs | TFix _ t, VSeq vs => VSeq (map (fun v => plain_val D v t) vs)
  | TDyn _ t, VWrap v | TVPad _ t, VWrap v | TPad _ t, VWrap v => VWrap (plain_val D v t)
  | TNamed i, VStruct vs =>
      match nth_error D i with
      | Some (DStruct ts) => VStruct (map_fields (plain_val D) vs ts)
      | _ => v
      end
  | TNamed i, VEnum ix vs =>
      match nth_error D i with
      | Some (DData _ alts) => VEnum ix (map_fields (plain_val D) vs (snd (nth ix alts (0, []))))
      | _ => v
      end
  | _, _ => v
  end.
