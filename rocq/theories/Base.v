(** Shared vocabulary of the model: bytes, machine integers, results.

    Nothing here models a particular function of /repo; these are the
    conventions every model file uses.  See DESIGN.md, "Conventions". *)
From Coq Require Export ZArith List Bool Lia.
Export ListNotations.
#[export] Set Warnings "-notation-overridden".
Global Open Scope Z_scope.

(** A byte (Rust [u8]) is an integer; [is_byte] is its range. *)
Definition byte := Z.
Definition is_byte (b : Z) : Prop := 0 <= b < 256.
Definition is_byteb (b : Z) : bool := (0 <=? b) && (b <? 256).
Definition bytes_ok (l : list byte) : Prop := Forall is_byte l.

(** [usize] on a 64-bit target. *)
Definition usize_mod : Z := 2 ^ 64.
Definition isize_max : Z := 2 ^ 63 - 1.
Definition is_usize (n : Z) : Prop := 0 <= n < usize_mod.
Definition is_usizeb (n : Z) : bool := (0 <=? n) && (n <? usize_mod).

(** Lengths and sub-lists indexed by [Z]. *)
Definition zlen {A} (l : list A) : Z := Z.of_nat (length l).
Definition ztake {A} (n : Z) (l : list A) : list A := firstn (Z.to_nat n) l.
Definition zdrop {A} (n : Z) (l : list A) : list A := skipn (Z.to_nat n) l.
(** The sub-list at positions [i, j). *)
Definition zslice {A} (i j : Z) (l : list A) : list A := ztake (j - i) (zdrop i l).

(** No Rust allocation exceeds [isize::MAX] bytes. *)
Definition buf_ok (l : list byte) : Prop := bytes_ok l /\ zlen l <= isize_max.

(** Build profile: [Debug] = overflow checks and debug assertions on,
    [Release] = arithmetic wraps, debug assertions compiled out. *)
Inductive mode := Debug | Release.

(** Outcome of a computation.
    [ROk]    normal return;          [RErr]   returned an error value;
    [RPanic] panicked;               [RUB]    undefined behaviour (an unchecked
    access outside its slice);       [RDiv]   model ran out of fuel. *)
Inductive res (E A : Type) : Type :=
| ROk (a : A)
| RErr (e : E)
| RPanic
| RUB
| RDiv.
Arguments ROk {E A} a.
Arguments RErr {E A} e.
Arguments RPanic {E A}.
Arguments RUB {E A}.
Arguments RDiv {E A}.

Definition rbind {E A B} (x : res E A) (f : A -> res E B) : res E B :=
  match x with
  | ROk a => f a
  | RErr e => RErr e
  | RPanic => RPanic
  | RUB => RUB
  | RDiv => RDiv
  end.

Definition rmap {E A B} (f : A -> B) (x : res E A) : res E B :=
  rbind x (fun a => ROk (f a)).

(** Rust [a + b], [a - b] and [a * b] on [usize]. *)
Definition uadd {E} (m : mode) (a b : Z) : res E Z :=
  if a + b <? usize_mod then ROk (a + b)
  else match m with Debug => RPanic | Release => ROk ((a + b) mod usize_mod) end.

Definition usub {E} (m : mode) (a b : Z) : res E Z :=
  if b <=? a then ROk (a - b)
  else match m with Debug => RPanic | Release => ROk ((a - b) mod usize_mod) end.

Definition umul {E} (m : mode) (a b : Z) : res E Z :=
  if a * b <? usize_mod then ROk (a * b)
  else match m with Debug => RPanic | Release => ROk ((a * b) mod usize_mod) end.

(** [debug_assert!(c)]: checked in [Debug] only. *)
Definition debug_assert {E} (m : mode) (c : bool) : res E unit :=
  match m with Debug => if c then ROk tt else RPanic | Release => ROk tt end.

(** [assert!(c)]: checked in both profiles. *)
Definition rassert {E} (c : bool) : res E unit := if c then ROk tt else RPanic.
