(** What is written when the prefix of a Dynamic holds the estimated length of
    its payload instead of the length counted ("enc_len_estimable_override",
    conv/mod.rs 72-86 and dynamic.rs 217-245). *)
From Verif Require Import Base ModelErrors ModelSplitVec ModelParser ModelInt ModelFloat ModelUtf8 ModelTarget
  ModelSchema SpecCodec.

(** The length announced for a value: the length of its encoding, less one byte
    for every N in it that is zero. *)
Definition announced (D : list def) (v : val) (t : ty) : Z := zlen (format D v t) - zeros D v t.

(** The wire format with announced lengths in the prefixes: everything else is
    as in [format]. *)
Fixpoint format_est (D : list def) (v : val) (t : ty) : list byte :=
  match t, v with
  | TOption t, VSome v => 255 :: format_est D v t
  | TNullable t, VSome v => format_est D v t
  | TSeq t, VSeq vs | TLim _ t, VSeq vs | TFix _ t, VSeq vs =>
      concat (map (fun v => format_est D v t) vs)
  | TDyn s t, VWrap v => pref_format s (announced D v t) ++ format_est D v t
  | TVPad _ t, VWrap v => format_est D v t
  | TPad n t, VWrap v => format_est D v t ++ repeat 0 (Z.to_nat n)
  | TBox t, VWrap v => format_est D v t
  | TNamed i, VStruct vs =>
      match nth_error D i with
      | Some (DStruct ts) => concat2 (format_est D) vs ts
      | _ => []
      end
  | TNamed i, VEnum ix vs =>
      match nth_error D i with
      | Some (DData k alts) =>
          let alt := nth ix alts (0, []) in
          int_format k (fst alt) ++ concat2 (format_est D) vs (snd alt)
      | _ => format D v t
      end
  | _, _ => format D v t
  end.

(** Every announced length fits its prefix. *)
Fixpoint fits_est (D : list def) (v : val) (t : ty) : bool :=
  match t, v with
  | TOption t, VSome v | TNullable t, VSome v => fits_est D v t
  | TSeq t, VSeq vs | TLim _ t, VSeq vs | TFix _ t, VSeq vs => forallb (fun v => fits_est D v t) vs
  | TDyn s t, VWrap v => fits_est D v t && (announced D v t <=? pref_max s)
  | TVPad _ t, VWrap v | TPad _ t, VWrap v | TBox t, VWrap v => fits_est D v t
  | TNamed i, VStruct vs =>
      match nth_error D i with
      | Some (DStruct ts) => all2 (fits_est D) vs ts
      | _ => true
      end
  | TNamed i, VEnum ix vs =>
      match nth_error D i with
      | Some (DData k alts) => all2 (fits_est D) vs (snd (nth ix alts (0, [])))
      | _ => true
      end
  | _, _ => true
  end.

(** The number of zeros of type N inside some Dynamic. *)
Fixpoint framed_zeros (D : list def) (v : val) (t : ty) : Z :=
  match t, v with
  | TOption t, VSome v | TNullable t, VSome v => framed_zeros D v t
  | TSeq t, VSeq vs | TLim _ t, VSeq vs | TFix _ t, VSeq vs =>
      fold_right Z.add 0 (map (fun v => framed_zeros D v t) vs)
  | TDyn _ t, VWrap v => zeros D v t
  | TVPad _ t, VWrap v | TPad _ t, VWrap v | TBox t, VWrap v => framed_zeros D v t
  | TNamed i, _ =>
      match nth_error D i, v with
      | Some (DStruct ts), VStruct vs => sum2 (framed_zeros D) vs ts
      | Some (DData _ alts), VEnum ix vs => sum2 (framed_zeros D) vs (snd (nth ix alts (0, [])))
      | _, _ => 0
      end
  | _, _ => 0
  end.

(** The program compiles: the constant [Estimable::KNOWN] of the type and of
    every type in it can be evaluated ([kf] bounds the depth to which constants
    are unfolded; a cycle exhausts every [kf]). *)
Fixpoint sized (cf : config) (D : list def) (kf : nat) (t : ty) : bool :=
  match known cf D kf t with
  | None => false
  | Some _ =>
      match t with
      | TOption t | TNullable t | TSeq t | TLim _ t | TFix _ t | TDyn _ t | TVPad _ t | TPad _ t | TBox t =>
          sized cf D kf t
      | _ => true
      end
  end.
Definition sized_defs (cf : config) (D : list def) (kf : nat) : bool :=
  forallb (fun d =>
    match d with
    | DStruct ts => forallb (sized cf D kf) ts
    | DCStyle _ _ => true
    | DData _ alts => forallb (fun a => forallb (sized cf D kf) (snd a)) alts
    end) D.
