(** The groups in which the bytes of a value are written and read: what a
    MemoBuilder shows of a value that was encoded into it, and a MemoParser of one
    that was decoded from it. *)
From Verif Require Import Base ModelInt ModelSchema SpecCodec.

(** Fields one after the other. *)
Definition by_fields {B} (f : val -> ty -> list B) : list val -> list ty -> list B :=
  fix go vs ts :=
    match vs, ts with
    | v :: vs, t :: ts => f v t ++ go vs ts
    | _, _ => []
    end.

(** Every number, string, tag, length prefix and padding is a group; all else is made
    of these.  [number] says how the bytes of an N or Z are grouped, [tagged] what
    becomes of the groups of [v] (given with its type) in [Some(v)]. *)
Section Groups.
Variable number : list byte -> list (list byte).
Variable tagged : val -> ty -> list (list byte) -> list (list byte).
Variable D : list def.
Fixpoint groups_of (v : val) (t : ty) : list (list byte) :=
  match t, v with
  | TUnit, _ => []
  | TBool, _ | TInt _, _ | TRanged _ _ _, _ | TF64, _ | TRangedF _ _, _
  | TBytes, _ | TString, _ | TFixedBytes _, _ | TFixedString _, _ => [format D v t]
  | TN, _ | TZ, _ => number (format D v t)
  | TOption _, VNone => [[0]]
  | TOption t, VSome v => tagged v t (groups_of v t)
  | TNullable t, VSome v => groups_of v t
  | TSeq t, VSeq vs | TLim _ t, VSeq vs | TFix _ t, VSeq vs => concat (map (fun v => groups_of v t) vs)
  | TDyn s t, VWrap v => pref_format s (zlen (format D v t)) :: groups_of v t
  | TVPad _ t, VWrap v | TBox t, VWrap v => groups_of v t
  | TPad n t, VWrap v => groups_of v t ++ [repeat 0 (Z.to_nat n)]
  | TNamed i, _ =>
      match nth_error D i, v with
      | Some (DStruct ts), VStruct vs => by_fields groups_of vs ts
      | Some (DCStyle k tags), VEnum ix _ => [int_format k (nth ix tags 0)]
      | Some (DData k alts), VEnum ix vs =>
          let alt := nth ix alts (0, []) in int_format k (fst alt) :: by_fields groups_of vs (snd alt)
      | _, _ => []
      end
  | _, _ => []
  end.
End Groups.

(** Reading: the bytes of an N or Z are read one by one, and the tag of [Some] on
    its own. *)
Definition groups_taken : list def -> val -> ty -> list (list byte) :=
  groups_of (map (fun b => [b])) (fun _ _ gs => [255] :: gs).

(** Writing: an N or Z is one group, and the tag of [Some] is in one group with what
    follows, if something does.  An empty sequence ends the group of the tag.
    [begins]: the first thing said about the value is a byte string ([Some true]) or
    the end of a sequence or struct ([Some false]), or nothing is said of it. *)
Definition first_said {A B} (f : A -> B -> option bool) : list A -> list B -> option bool :=
  fix go vs ts :=
    match vs, ts with
    | v :: vs, t :: ts => match f v t with None => go vs ts | said => said end
    | _, _ => Some false
    end.
Fixpoint begins (D : list def) (v : val) (t : ty) : option bool :=
  match t, v with
  | TUnit, _ => None
  | TNullable t, VSome v => match begins D v t with None => Some false | said => said end
  | TNullable _, _ => Some false
  | TSeq t, VSeq vs | TLim _ t, VSeq vs | TFix _ t, VSeq vs =>
      fold_right (fun v said => match begins D v t with None => said | said => said end) (Some false) vs
  | TVPad _ t, VWrap v | TBox t, VWrap v => begins D v t
  | TPad _ t, VWrap v => match begins D v t with None => Some true | said => said end
  | TNamed i, VStruct vs =>
      match nth_error D i with Some (DStruct ts) => first_said (begins D) vs ts | _ => Some true end
  | _, _ => Some true
  end.
Definition groups_written (D : list def) : val -> ty -> list (list byte) :=
  groups_of (fun bs => [bs])
    (fun v t gs =>
       match begins D v t, gs with
       | Some true, g :: gs => (255 :: g) :: gs
       | _, gs => [255] :: gs
       end) D.

(** No [Some] and no N or Z: there reading and writing group alike. *)
Fixpoint no_option_number (D : list def) (v : val) (t : ty) : bool :=
  match t, v with
  | TN, _ | TZ, _ | TOption _, VSome _ => false
  | TNullable t, VSome v | TDyn _ t, VWrap v | TVPad _ t, VWrap v | TPad _ t, VWrap v | TBox t, VWrap v => no_option_number D v t
  | TSeq t, VSeq vs | TLim _ t, VSeq vs | TFix _ t, VSeq vs => forallb (fun v => no_option_number D v t) vs
  | TNamed i, VStruct vs =>
      match nth_error D i with Some (DStruct ts) => all2 (no_option_number D) vs ts | _ => true end
  | TNamed i, VEnum ix vs =>
      match nth_error D i with Some (DData _ alts) => all2 (no_option_number D) vs (snd (nth ix alts (0, []))) | _ => true end
  | _, _ => true
  end.

(** [coarse] arises from [fine] by joining neighbouring groups. *)
Definition merges (fine coarse : list (list byte)) : Prop :=
  exists parts, concat parts = fine /\ map (@concat byte) parts = coarse /\ Forall (fun p => p <> []) parts.
