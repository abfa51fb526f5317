(** Independent specification of a parser: a stack of byte lists.

    The innermost list holds the bytes still readable in the current window;
    the others hold what follows the end of each enclosing window, the last
    one being what follows in the whole input.  Nothing here refers to
    offsets, limits or buffers.  Source of the contract: parse/mod.rs 43-81
    (module documentation) and 82-174, 396-406 (method documentation);
    README.md 199-232. *)
From Verif Require Import Base ModelErrors ModelParser.

Record wstack := mkW { w_cur : list byte; w_outer : list (list byte) }.

(** A fresh parser over an input. *)
Definition w_init (input : list byte) : wstack := mkW input [].

(** What is left of the whole input, windows ignored. *)
Definition w_rest (w : wstack) : list byte := w_cur w ++ concat (w_outer w).

(** The documentation says that a window is only lifted once it is fully
    consumed; it does not say what a failed attempt leaves behind.
    [Keep]: nothing changes.  [Merge]: the window is dissolved, its unread
    bytes become part of the enclosing one.  [Drop]: the window is removed
    together with its unread bytes. *)
Inductive residue_policy := Keep | Merge | Drop.

(** Meaning of each operation: [None] is "fails". *)
Definition spec_op (pol : residue_policy) {X : Set} (o : pop X) (w : wstack)
  : option X * wstack :=
  match o in pop X return option X * wstack with
  | OpRemainder => (Some (zlen (w_cur w)), w)
  | OpConsumeByte =>
      match w_cur w with
      | b :: cur => (Some b, mkW cur (w_outer w))
      | [] => (None, w)
      end
  | OpConsume n =>
      if n <=? zlen (w_cur w)
      then (Some (ztake n (w_cur w)), mkW (zdrop n (w_cur w)) (w_outer w))
      else (None, w)
  | OpSetFit n =>
      if n <=? zlen (w_cur w)
      then (Some tt, mkW (ztake n (w_cur w)) (zdrop n (w_cur w) :: w_outer w))
      else (None, w)
  | OpTestTarget =>
      (Some (match w_outer w, w_cur w with _ :: _, [] => true | _, _ => false end), w)
  | OpEnforceTarget =>
      match w_outer w with
      | [] => (None, w)
      | next :: rest =>
          match w_cur w with
          | [] => (Some tt, mkW next rest)
          | _ => (None, match pol with
                        | Keep => w
                        | Merge => mkW (w_cur w ++ next) rest
                        | Drop => mkW next rest
                        end)
          end
      end
  | OpSkip n =>
      let d := Z.min (zlen (w_cur w)) n in
      (Some d, mkW (zdrop d (w_cur w)) (w_outer w))
  | OpSkipExactly n =>
      if n <=? zlen (w_cur w)
      then (Some tt, mkW (zdrop n (w_cur w)) (w_outer w))
      else (None, w)
  end.

(** The specification as an interpreter of programs.  Error details are not
    part of this specification, so every failure carries the same value. *)
Definition spec_failure : parse_error := EWindow CloseWithoutWindow.

Definition spec_h (pol : residue_policy) : handler wstack :=
  fun X o w =>
    match spec_op pol o w with
    | (Some x, w') => (ROk x, w')
    | (None, w') => (RErr spec_failure, w')
    end.

(** The part of the interface every parser agrees on: sizes are at most
    [isize::MAX], and a window is only tested or closed when one is open. *)
Definition size_ok (n : Z) : bool := (0 <=? n) && (n <=? isize_max).
Definition in_contract {X : Set} (o : pop X) (w : wstack) : bool :=
  match o with
  | OpConsume n | OpSetFit n | OpSkip n | OpSkipExactly n => size_ok n
  | OpTestTarget | OpEnforceTarget => match w_outer w with [] => false | _ => true end
  | _ => true
  end.

(** The contract machine: as [spec_h Keep], with [RUB] marking a use outside
    the contract. *)
Definition contract_h : handler wstack :=
  fun X o w => if in_contract o w then spec_h Keep X o w else (RUB, w).

(** Equality of outcomes up to the details of an error. *)
Definition same_outcome {E E' A} (r : res E A) (r' : res E' A) : Prop :=
  match r, r' with
  | ROk a, ROk a' => a = a'
  | RErr _, RErr _ => True
  | RPanic, RPanic => True
  | RUB, RUB => True
  | RDiv, RDiv => True
  | _, _ => False
  end.

(** The same, but a debug build may panic where the ideal outcome is an error. *)
Definition agrees_with (m : mode) {A} (ideal real : pres A) : Prop :=
  same_outcome ideal real \/ (m = Debug /\ (exists e, ideal = RErr e) /\ real = RPanic).

(** ------------------------------------------------------------------ *)
(** Histories: arbitrary sequences of calls and what the caller observes. *)

Inductive any_op := AnyOp (X : Set) (o : pop X).
Arguments AnyOp {X} o.

Inductive obs :=
| ObsNum (n : Z) | ObsByte (b : byte) | ObsBytes (l : list byte)
| ObsBool (b : bool) | ObsUnit
| ObsFail | ObsPanic | ObsUB.

Definition obs_ok {X : Set} (o : pop X) : X -> obs :=
  match o in pop X return X -> obs with
  | OpRemainder => ObsNum
  | OpConsumeByte => ObsByte
  | OpConsume _ => ObsBytes
  | OpSetFit _ => fun _ => ObsUnit
  | OpTestTarget => ObsBool
  | OpEnforceTarget => fun _ => ObsUnit
  | OpSkip _ => ObsNum
  | OpSkipExactly _ => fun _ => ObsUnit
  end.

(** Observations of a history; it ends at a panic (or at undefined
    behaviour), after which nothing can be called. *)
Fixpoint history {P} (h : handler P) (ops : list any_op) (p : P) : list obs :=
  match ops with
  | [] => []
  | AnyOp o :: rest =>
      match h _ o p with
      | (ROk x, p') => obs_ok o x :: history h rest p'
      | (RErr _, p') => ObsFail :: history h rest p'
      | (RPanic, _) => [ObsPanic]
      | (_, _) => [ObsUB]
      end
  end.

(** The state a history leads to, if it did not panic. *)
Fixpoint after {P} (h : handler P) (ops : list any_op) (p : P) : option P :=
  match ops with
  | [] => Some p
  | AnyOp o :: rest =>
      match h _ o p with
      | (ROk _, p') => after h rest p'
      | (RErr _, p') => after h rest p'
      | _ => None
      end
  end.

(** Arguments a caller can pass: any [usize] ... *)
Definition arg_ok (a : any_op) : Prop :=
  match a with
  | AnyOp (OpConsume n) | AnyOp (OpSetFit n) | AnyOp (OpSkip n) | AnyOp (OpSkipExactly n) =>
      is_usize n
  | _ => True
  end.
(** ... or any size that could possibly be satisfied. *)
Definition arg_small (a : any_op) : Prop :=
  match a with
  | AnyOp (OpConsume n) | AnyOp (OpSetFit n) | AnyOp (OpSkip n) | AnyOp (OpSkipExactly n) =>
      0 <= n <= isize_max
  | _ => True
  end.
(** Arguments that are fine in the given build profile. *)
Definition arg_fits (m : mode) (a : any_op) : Prop :=
  match m with Debug => arg_ok a | Release => arg_small a end.

(** [real] is [ideal], except that [real] may end early by panicking in a call
    that [ideal] fails. *)
Inductive agrees_or_panics : list obs -> list obs -> Prop :=
| aop_nil : agrees_or_panics [] []
| aop_cons o l l' : agrees_or_panics l l' -> agrees_or_panics (o :: l) (o :: l')
| aop_panic l' : agrees_or_panics [ObsPanic] (ObsFail :: l').

(** ------------------------------------------------------------------ *)
(** Vocabulary for statements about parsers. *)

(** A size that is a legal argument in the given build profile: any [usize]
    in a debug build, at most [isize::MAX] in a release build. *)
Definition size_fits (m : mode) (n : Z) : Prop :=
  match m with Debug => is_usize n | Release => 0 <= n <= isize_max end.

(** [p] is the state of a parser over [buf] after some history. *)
Definition reaches {P} (m : mode) (h : handler P) (init : P) (p : P) : Prop :=
  exists ops, Forall (arg_fits m) ops /\ after h ops init = Some p.

(** How many bytes a history has moved past, from its calls and what was
    observed: one per byte read, the length of every slice read, the count
    reported by [skip], the argument of a successful [skip_exactly]. *)
Fixpoint consumed_total (ops : list any_op) (os : list obs) : Z :=
  match ops, os with
  | AnyOp o :: ops, x :: os =>
      match o, x with
      | OpConsumeByte, ObsByte _ => 1
      | OpConsume _, ObsBytes l => zlen l
      | OpSkip _, ObsNum d => d
      | OpSkipExactly n, ObsUnit => n
      | _, _ => 0
      end + consumed_total ops os
  | _, _ => 0
  end.

(** A history that starts with [d] inner windows open and never attempts to
    lift the window around them. *)
Fixpoint window_kept (d : nat) (ops : list any_op) (os : list obs) : Prop :=
  match ops, os with
  | AnyOp o :: ops, x :: os =>
      match o, x with
      | OpSetFit _, ObsUnit => window_kept (S d) ops os
      | OpEnforceTarget, _ => match d with O => False | S d => window_kept d ops os end
      | _, _ => window_kept d ops os
      end
  | _, _ => True
  end.

(** The bytes a history read or skipped, one group per successful consuming
    call, according to the specification. *)
Fixpoint groups_read (pol : residue_policy) (ops : list any_op) (w : wstack) : list (list byte) :=
  match ops with
  | [] => []
  | AnyOp o :: rest =>
      let (x, w') := spec_op pol o w in
      match o, x with
      | OpConsumeByte, Some _ => [ztake 1 (w_cur w)]
      | OpConsume n, Some _ => [ztake n (w_cur w)]
      | OpSkip n, Some _ => [ztake n (w_cur w)]
      | OpSkipExactly n, Some _ => [ztake n (w_cur w)]
      | _, _ => []
      end ++ groups_read pol rest w'
  end.

Definition no_skip_exactly (a : any_op) : Prop :=
  match a with AnyOp (OpSkipExactly _) => False | _ => True end.

(** Cutting a list into consecutive segments of the given lengths. *)
Fixpoint cut {T} (lens : list Z) (l : list T) : list (list T) :=
  match lens with
  | [] => []
  | n :: ns => ztake n l :: cut ns (zdrop n l)
  end.

(** Histories in which a window is tested or closed only while one is open and
    closed only when it is fully consumed. *)
Fixpoint closes_clean (ops : list any_op) (w : wstack) : Prop :=
  match ops with
  | [] => True
  | AnyOp o :: rest =>
      match o with
      | OpTestTarget => w_outer w <> []
      | OpEnforceTarget => w_outer w <> [] /\ w_cur w = []
      | _ => True
      end /\ closes_clean rest (snd (spec_op Keep o w))
  end.

(** Histories in which a window is tested or closed only while one is open. *)
Fixpoint bracketed (pol : residue_policy) (ops : list any_op) (w : wstack) : Prop :=
  match ops with
  | [] => True
  | AnyOp o :: rest =>
      match o with OpTestTarget | OpEnforceTarget => w_outer w <> [] | _ => True end /\
      bracketed pol rest (snd (spec_op pol o w))
  end.

(** A request for no bytes at all. *)
Definition asks_none (a : any_op) : bool :=
  match a with
  | AnyOp (OpConsume n) | AnyOp (OpSetFit n) | AnyOp (OpSkipExactly n) => n =? 0
  | _ => false
  end.
(** No such request is made when no window is open. *)
Fixpoint asks_inside (pol : residue_policy) (ops : list any_op) (w : wstack) : Prop :=
  match ops with
  | [] => True
  | AnyOp o :: rest => (w_outer w = [] -> asks_none (AnyOp o) = false) /\ asks_inside pol rest (snd (spec_op pol o w))
  end.
(** What SliceParser answers once even the window that is the whole input has been closed. *)
Definition closed_answer (a : any_op) : obs :=
  match a with
  | AnyOp OpRemainder => ObsNum 0
  | AnyOp (OpSetFit n) => if n =? 0 then ObsUnit else ObsFail
  | AnyOp OpTestTarget => ObsBool false
  | AnyOp (OpSkip n) => ObsNum 0
  | _ => ObsFail
  end.

(** Programs that recover only from a failed [consume_byte] (all that
    the library itself does: mod.rs 358-376 and 674-684). *)
Definition is_byte_op {X : Set} (o : pop X) : bool :=
  match o with OpConsumeByte => true | _ => false end.
Fixpoint try_bytes_only {A} (pg : prog A) : Prop :=
  match pg with
  | POp _ k => forall x, try_bytes_only (k x)
  | PTry o k f => is_byte_op o = true /\ (forall x, try_bytes_only (k x)) /\ try_bytes_only f
  | _ => True
  end.

(** Programs whose size arguments are legal. *)
Fixpoint prog_fits (m : mode) {A} (pg : prog A) : Prop :=
  match pg with
  | POp o k => arg_fits m (AnyOp o) /\ forall x, prog_fits m (k x)
  | PTry o k f => arg_fits m (AnyOp o) /\ (forall x, prog_fits m (k x)) /\ prog_fits m f
  | _ => True
  end.

(** The bytes of a leftover, and its segments. *)
Definition lo_bytes (lo : leftover) : list byte :=
  match lo with
  | LEmpty => []
  | LWindowless b => b
  | LWindowed sv => ModelSplitVec.sv_buffer sv
  end.
Definition lo_segments (lo : leftover) : list (list byte) :=
  match lo with
  | LEmpty => []
  | LWindowless b => [b]
  | LWindowed sv =>
      let (buf, lens) := ModelSplitVec.sv_into_parts sv in cut lens buf
  end.

(** Exhausting the byte iterator of a parser (at most [fuel] steps). *)
Fixpoint drain (fuel : nat) : prog (list byte) :=
  match fuel with
  | O => PDiv
  | S fuel =>
      pbind p_iter_next (fun ob =>
        match ob with
        | Some b => pbind (drain fuel) (fun bs => PRet (b :: bs))
        | None => PRet []
        end)
  end.

(** The unread bytes of a window stack, one segment per open window (innermost
    first, possibly empty) and one for what follows outside every window, if
    anything does. *)
Definition unread_segments (w : wstack) : list (list byte) :=
  let all := w_cur w :: w_outer w in
  removelast all ++ match last all [] with [] => [] | tail => [tail] end.

(** Calls in which arithmetic overflows, so that a debug build panics; [size]
    is the length of the whole input.  Position plus request can exceed
    [usize]; opening a window wider than the whole input subtracts its width
    from the input length (F2). *)
Definition overflows {X : Set} (size : Z) (o : pop X) (w : wstack) : bool :=
  match o with
  | OpConsume n | OpSkipExactly n => usize_mod <=? size - zlen (w_rest w) + n
  | OpSetFit n => size <? n
  | _ => false
  end.

(** The reference machine with the overflow checks of a debug build. *)
Definition spec_debug_h (size : Z) (pol : residue_policy) : handler wstack :=
  fun X o w => if overflows size o w then (RPanic, w) else spec_h pol X o w.

(** The lengths of the groups a MemoParser logs: those of [groups_read] but
    for [skip_exactly] (F5). *)
Fixpoint logged (pol : residue_policy) (ops : list any_op) (w : wstack) : list Z :=
  match ops with
  | [] => []
  | AnyOp o :: rest =>
      let (x, w') := spec_op pol o w in
      match o, x with
      | OpConsumeByte, Some _ => [1]
      | OpConsume n, Some _ => [n]
      | OpSkip n, Some d => [d]
      | _, _ => []
      end ++ logged pol rest w'
  end.
