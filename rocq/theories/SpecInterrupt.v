(** What an encoding that may be interrupted by a panic has written, independent of
    the writers: the bytes, and whether it came to its end. *)
From Verif Require Import Base ModelInt ModelSchema SpecCodec.

(** One thing after the other; nothing after an interruption. *)
Definition and_then (a b : list byte * bool) : list byte * bool :=
  if snd a then (fst a ++ fst b, snd b) else a.
Definition in_turn (l : list (list byte * bool)) : list byte * bool := fold_right and_then ([], true) l.

(** A payload that is too long for its length prefix interrupts the encoding before
    the prefix.  So does a payload that would be interrupted itself, if lengths are
    found by encoding ([counted]); if they are computed, the prefix and the beginning
    of the payload are written.  Everything else is written in full. *)
Fixpoint written (counted : bool) (D : list def) (v : val) (t : ty) : list byte * bool :=
  match t, v with
  | TOption t, VSome v => and_then ([255], true) (written counted D v t)
  | TNullable t, VSome v | TVPad _ t, VWrap v | TBox t, VWrap v => written counted D v t
  | TSeq t, VSeq vs | TLim _ t, VSeq vs | TFix _ t, VSeq vs =>
      in_turn (map (fun v => written counted D v t) vs)
  | TDyn s t, VWrap v =>
      let payload := format D v t in
      if pref_max s <? zlen payload then ([], false)
      else if counted && negb (valid D v t) then ([], false)
      else and_then (pref_format s (zlen payload), true) (written counted D v t)
  | TPad n t, VWrap v => and_then (written counted D v t) (repeat 0 (Z.to_nat n), true)
  | TNamed i, _ =>
      match nth_error D i, v with
      | Some (DStruct ts), VStruct vs => in_turn (map2 (written counted D) ([], true) vs ts)
      | Some (DData k alts), VEnum ix vs =>
          let alt := nth ix alts (0, []) in
          and_then (int_format k (fst alt), true) (in_turn (map2 (written counted D) ([], true) vs (snd alt)))
      | _, _ => (format D v t, true)
      end
  | _, _ => (format D v t, true)
  end.
