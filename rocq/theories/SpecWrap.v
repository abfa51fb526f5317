(** What ByteParser and MemoParser do in a release build when calls may pass any
    [usize] at all, also sizes no buffer can have: the reference machine is a
    position and the ends of the open windows, and sums are taken modulo 2^64
    (the overflow checks of a debug build are C02_debug_exact).  Nothing is
    claimed to be desirable here (F1, F49). *)
From Verif Require Import Base ModelErrors ModelParser SpecParser.

(** A position in the input, the ends of the open windows, the innermost first,
    and the sizes of the groups read so far, oldest first. *)
Record tape := mkTape { t_pos : Z; t_ends : list Z; t_log : list Z }.

Definition tape_init : tape := mkTape 0 [] [].

(** Addition and subtraction of 64-bit machine numbers. *)
Definition plus64 (a b : Z) : Z := (a + b) mod 2 ^ 64.
Definition minus64 (a b : Z) : Z := (a - b) mod 2 ^ 64.

(** The end of the innermost window, or of the input. *)
Definition t_end (input : list byte) (t : tape) : Z :=
  match t_ends t with e :: _ => e | [] => zlen input end.

(** A failing MemoParser prints its groups, cutting them from the start of the
    input one after the other: what becomes of that. *)
Inductive printed := PrintsAll | PrintPanics | PrintReadsOutside.
Fixpoint print_groups (input : list byte) (at_ : Z) (log : list Z) : printed :=
  match log with
  | [] => PrintsAll
  | n :: log =>
      if zlen input <? plus64 at_ n then PrintPanics
      else if plus64 at_ n <? at_ then PrintReadsOutside
      else print_groups input (plus64 at_ n) log
  end.

(** How a call that cannot be satisfied ends. *)
Definition refuse {X} (memo : bool) (input : list byte) (t : tape) : pres X :=
  if memo then
    match print_groups input 0 (t_log t) with
    | PrintsAll => RErr spec_failure
    | PrintPanics => RPanic
    | PrintReadsOutside => RUB
    end
  else RErr spec_failure.

(** A call that hits an [unreachable!]; a MemoParser prints first. *)
Definition crash {X} (memo : bool) (input : list byte) (t : tape) : pres X :=
  if memo then match print_groups input 0 (t_log t) with PrintReadsOutside => RUB | _ => RPanic end
  else RPanic.

(** The calls: [memo] says whether it is a MemoParser. *)
Definition tape_h (memo : bool) (input : list byte) : handler tape :=
  fun X o t =>
    let moved n log := mkTape (plus64 (t_pos t) n) (t_ends t) (t_log t ++ log) in
    match o in pop X return pres X * tape with
    | OpRemainder => (ROk (minus64 (t_end input t) (t_pos t)), t)
    | OpConsumeByte =>
        if t_pos t <? t_end input t
        then (ROk (nth (Z.to_nat (t_pos t)) input 0), moved 1 [1])
        else (refuse memo input t, t)
    | OpConsume n =>
        if plus64 (t_pos t) n <=? t_end input t
        then (if t_pos t + n <? 2 ^ 64
              then ROk (zslice (t_pos t) (t_pos t + n) input)
              else RUB (* reads outside the input *), moved n [n])
        else (refuse memo input t, t)
    | OpSetFit n =>
        if plus64 (t_pos t) n <=? t_end input t
        then (ROk tt, mkTape (t_pos t) (plus64 (t_pos t) n :: t_ends t) (t_log t))
        else (RErr spec_failure, t)
    | OpTestTarget =>
        match t_ends t with
        | [] => (ROk false, t)
        | e :: _ => (if e <? t_pos t then RErr spec_failure else ROk (e =? t_pos t), t)
        end
    | OpEnforceTarget =>
        match t_ends t with
        | [] => (RErr spec_failure, t)
        | e :: es => (if e =? t_pos t then ROk tt else RErr spec_failure, mkTape (t_pos t) es (t_log t))
        end
    | OpSkip n =>
        let d := Z.min (minus64 (t_end input t) (t_pos t)) n in
        if plus64 (t_pos t) d <=? t_end input t then (ROk d, moved d [d])
        else (crash memo input t, t)
    | OpSkipExactly n =>
        if plus64 (t_pos t) n <=? t_end input t then (ROk tt, moved n [])
        else (refuse memo input t, t)
    end.
