(** How much a single reservation of decoding can be (C83). *)
From Verif Require Import Base ModelErrors ModelInt ModelParser ModelSchema SpecCodec.

Section Sized.
Variable size_of : ty -> Z.
(** The largest of a type: a slot for each element of a bounded sequence, eight for
    each element of an unbounded one (its Vec has grown in steps), the contents of
    a box; ten bytes for each byte of a text. *)
Fixpoint largest (t : ty) : Z :=
  match t with
  | TSeq t => Z.max (8 * size_of t) (largest t)
  | TLim n t | TFix n t => Z.max (n * size_of t) (largest t)
  | TBox t => Z.max (size_of t) (largest t)
  | TOption t | TNullable t | TDyn _ t | TVPad _ t | TPad _ t => largest t
  | _ => 10
  end.
Definition largest_of (ts : list ty) : Z := fold_right Z.max 10 (map largest ts).
Definition largest_def (d : def) : Z :=
  match d with
  | DStruct ts => largest_of ts
  | DCStyle _ _ => 10
  | DData _ alts => fold_right Z.max 10 (map (fun alt => largest_of (snd alt)) alts)
  end.
Definition largest_in (D : list def) (t : ty) : Z := fold_right Z.max (largest t) (map largest_def D).


(** The capacity of a Vec that [len] elements were pushed to one by one: a power
    of two, at least 8 for elements of one byte, 4 for elements of up to 1024. *)
Definition pushed (size len : Z) : Z :=
  if len =? 0 then 0
  else Z.max (if size =? 1 then 8 else if size <=? 1024 then 4 else 1) (2 ^ Z.log2_up len).

Definition sum2 {A B} (f : A -> B -> Z) : list A -> list B -> Z :=
  fix go xs ys :=
    match xs, ys with
    | x :: xs, y :: ys => f x y + go xs ys
    | _, _ => 0
    end.

(** The memory that a decoded value occupies outside itself (the storage of the
    numbers N and Z apart), if a String has a capacity of [text] times its length. *)
Fixpoint held (text : Z) (D : list def) (v : val) (t : ty) : Z :=
  match t, v with
  | TBytes, VBytes bs => zlen bs
  | TString, VBytes bs => text * zlen bs
  | TOption t, VSome v | TNullable t, VSome v => held text D v t
  | TSeq t, VSeq vs => pushed (size_of t) (zlen vs) * size_of t + fold_right Z.add 0 (map (fun v => held text D v t) vs)
  | TLim n t, VSeq vs | TFix n t, VSeq vs => n * size_of t + fold_right Z.add 0 (map (fun v => held text D v t) vs)
  | TDyn _ t, VWrap v | TVPad _ t, VWrap v | TPad _ t, VWrap v => held text D v t
  | TBox t, VWrap v => size_of t + held text D v t
  | TNamed i, _ =>
      match nth_error D i, v with
      | Some (DStruct ts), VStruct vs => sum2 (held text D) vs ts
      | Some (DData _ alts), VEnum ix vs => sum2 (held text D) vs (snd (nth ix alts (0, [])))
      | _, _ => 0
      end
  | _, _ => 0
  end.
End Sized.
