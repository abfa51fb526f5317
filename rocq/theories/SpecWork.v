(** How much work decoding is: one unit per call of a parser's method, and one per
    byte such a call hands out. *)
From Verif Require Import Base ModelErrors ModelInt ModelParser ModelSchema SpecCodec SpecSize.

Definition handed {X : Set} (o : pop X) : X -> Z :=
  match o in pop X return X -> Z with
  | OpConsumeByte => fun _ => 1
  | OpConsume _ => fun bs => zlen bs
  | _ => fun _ => 0
  end.

(** Along the run of a program, whatever it ends with. *)
Fixpoint effort {P A} (h : handler P) (m : prog A) (s : P) : Z :=
  match m with
  | @POp _ X o k =>
      1 + match h X o s with (ROk x, s') => handed o x + effort h (k x) s' | _ => 0 end
  | @PTry _ X o k f =>
      1 + match h X o s with
          | (ROk x, s') => handed o x + effort h (k x) s'
          | (RErr _, s') => effort h f s'
          | _ => 0
          end
  | _ => 0
  end.

(** The work of [Decode::try_decode] before the clean-up. *)
Definition decode_effort (w : which_parser) (cf : config) (D : list def) (f : nat) (t : ty) (input : list byte) : Z :=
  match w with
  | WByte => effort (byte_h (cf_mode cf)) (parse cf D f t) (bp_from_buffer input)
  | WMemo => effort (memo_h (cf_mode cf)) (parse cf D f t) (mp_from_buffer input)
  | WSlice => effort slice_h (parse cf D f t) (sp_from_buffer input)
  end.

(** What may be spent on a [t] that turns out not to be one, besides [B] for every
    byte there is; [F] claims it for the declarations.  ([base], of SpecSize, bounds
    what is spent on a proper one.) *)
Section Tries.
Variables (B : Z) (A F : list Z).
Notation base := (base B A).
Fixpoint tries (t : ty) : Z :=
  match t with
  | TOption t => Z.max 1 (1 - B + tries t)
  | TDyn s t => Z.max 1 (1 - B * pref_len s + tries t)
  | TLim n t | TFix n t => 1 + n * Z.max 0 (base t) + tries t
  | TNullable t | TSeq t | TVPad _ t | TPad _ t | TBox t => 1 + tries t
  | TNamed i => nth i F 0
  | _ => 1
  end.
Fixpoint tries_fields (ts : list ty) : Z :=
  match ts with [] => 0 | t :: ts => Z.max (tries t) (base t + tries_fields ts) end.
Definition tries_def (d : def) (f : Z) : bool :=
  (1 <=? f) &&
  match d with
  | DStruct ts => 1 + tries_fields ts <=? f
  | DCStyle _ _ => true
  | DData k alts => forallb (fun alt => 1 - B * ik_len k + tries_fields (snd alt) <=? f) alts
  end.
Definition bounded (D : list def) : bool :=
  (zlen F =? zlen D) && forallb (fun af => fst af <=? snd af) (combine A F) &&
  forallb (fun df => tries_def (fst df) (snd df)) (combine D F).
End Tries.

(** A release build with every optional feature off. *)
Definition plain : config := mkConfig Release false false false false false.
