(** What decoding asks the allocator for: [ModelSchema.parse] once more, with
    every reservation of memory written out.  The bodies are those of
    [ModelSchema.parse], with the same citations. *)
From Verif Require Import Base ModelErrors ModelParser ModelInt ModelFloat ModelZarith
  ModelUtf8 ModelTarget ModelSchema SpecCodec.

(** A program that reserves memory: parts of [prog] that reserve none, entries
    into a decoder ([MTick]), and bytes reserved ([MAsk]) and freed ([MGive]). *)
Inductive mprog (A : Type) : Type :=
| MRet (a : A)
| MRun (X : Type) (pg : prog X) (k : X -> mprog A)
| MTick (k : mprog A)
| MAsk (n : Z) (k : mprog A)
| MGive (n : Z) (k : mprog A).
Arguments MRet {A} a.
Arguments MRun {A X} pg k.
Arguments MTick {A} k.
Arguments MAsk {A} n k.
Arguments MGive {A} n k.

Fixpoint mbind {A B} (m : mprog A) (k : A -> mprog B) : mprog B :=
  match m with
  | MRet a => k a
  | MRun pg c => MRun pg (fun x => mbind (c x) k)
  | MTick c => MTick (mbind c k)
  | MAsk n c => MAsk n (mbind c k)
  | MGive n c => MGive n (mbind c k)
  end.
Declare Scope mprog_scope.
Delimit Scope mprog_scope with mprog.
Notation "x <~ m ;; k" := (mbind m (fun x => k)) (at level 61, m at next level, right associativity) : mprog_scope.
Notation "x <- pg ;; k" := (MRun pg (fun x => k)) (at level 61, pg at next level, right associativity) : mprog_scope.
Local Open Scope mprog_scope.
Definition mfail {A} (pg : prog A) : mprog A := MRun pg MRet.

(** Bytes in use, and the most there ever were. *)
Record memory := mkMem { in_use : Z; at_most : Z }.

Fixpoint mrun {P A} (h : handler P) (m : mprog A) (s : P) (u : memory) : pres A * P * memory :=
  match m with
  | MRet a => (ROk a, s, u)
  | MRun pg k =>
      match run h pg s with
      | (ROk x, s') => mrun h (k x) s' u
      | (RErr e, s') => (RErr e, s', u)
      | (RPanic, s') => (RPanic, s', u)
      | (RUB, s') => (RUB, s', u)
      | (RDiv, s') => (RDiv, s', u)
      end
  | MTick k => mrun h k s u
  | MAsk n k => mrun h k s (mkMem (in_use u + n) (Z.max (at_most u) (in_use u + n)))
  | MGive n k => mrun h k s (mkMem (in_use u - n) (at_most u))
  end.

Section Sized.
(** [size_of::<T>()]; the layout is the compiler's choice. *)
Variable size_of : ty -> Z.

(** What [Vec::push] makes of a full capacity: twice as much, but at least 8 if
    the elements are bytes, 4 if they are larger and 1 if they are of more than
    1024 bytes (the rule of the standard library's RawVec). *)
Definition grown (size cap : Z) : Z :=
  Z.max (Z.max (2 * cap) (cap + 1)) (if size =? 1 then 8 else if size <=? 1024 then 4 else 1).

(** seq/mod.rs 227-237: [Sequence::parse]: a Vec, empty at first, is pushed to.
    [cap] is its capacity; the old block is freed when the new one is filled. *)
Fixpoint m_seq_loop (fuel : nat) (size cap : Z) (elem : mprog val) (seq : list val) : mprog (list val) :=
  match fuel with
  | O => mfail PDiv
  | S fuel =>
      rem <- p_remainder ;;
      if rem =? 0 then MRet seq
      else
        v <~ elem ;;
        if zlen seq =? cap then
          MAsk (grown size cap * size) (MGive (cap * size) (m_seq_loop fuel size (grown size cap) elem (seq ++ [v])))
        else m_seq_loop fuel size cap elem (seq ++ [v])
  end.

(** seq/lim.rs 296-309; the capacity, of [N] elements, is never exceeded. *)
Fixpoint m_lim_loop (fuel : nat) (n : Z) (elem : mprog val) (seq : list val) : mprog (list val) :=
  match fuel with
  | O => mfail PDiv
  | S fuel =>
      rem <- p_remainder ;;
      if rem =? 0 then MRet seq
      else v <~ elem ;; seq' <- plift (ext_len (try_push n seq v)) ;; m_lim_loop fuel n elem seq'
  end.

(** seq/fix.rs 276-297. *)
Fixpoint m_fix_loop (fuel : nat) (n : Z) (elem : mprog val) (seq : list val) : mprog (list val) :=
  match fuel with
  | O => mfail PDiv
  | S fuel =>
      rem <- p_remainder ;;
      if negb (rem =? 0) && (zlen seq <? n) then v <~ elem ;; m_fix_loop fuel n elem (seq ++ [v])
      else if zlen seq =? n then MRet seq
      else mfail (PErr (EExternal (LengthViolation (WrongLength n (zlen seq)))))
  end.

(** parse/mod.rs 358-376 and zarith.rs 20-27, 112-120, 245-268: the bytes of a
    number go to a Vec with room for all that is left, then (at worst) to a Vec of
    their own, both freed when the number has been computed.  Simplification: the
    number's own storage, managed by num-bigint, is left out (C64 bounds it). *)
Definition m_number (deserialize : list byte -> pres Z) : mprog val :=
  rem <- p_remainder ;;
  if rem <=? isize_max then
    MAsk rem (
      bs <- p_self_terminating_loop (S (Z.to_nat rem)) zarith_terminal [] ;;
      MAsk (zlen bs) (
        z <- plift (deserialize bs) ;; MGive (rem + zlen bs) (MRet (VInt z))))
  else mfail PPanic.

(** decode_derive: fields in order. *)
Fixpoint m_fields (parse : ty -> mprog val) (ts : list ty) : mprog (list val) :=
  match ts with
  | [] => MRet []
  | t :: ts => v <~ parse t ;; vs <~ m_fields parse ts ;; MRet (v :: vs)
  end.

(** [Decode::parse].  Simplifications: error values and the parser's own stacks
    are left out; a text that is not UTF-8 is counted with the worst that growing
    its String can take, old and new block together being at most three times its
    length. *)
Fixpoint mparse (cf : config) (D : list def) (fuel : nat) (t : ty) : mprog val :=
  match fuel with
  | O => mfail PDiv
  | S f =>
      MTick
        match t with
        | TN => m_number n_deserialize
        | TZ => m_number z_deserialize
        | TBytes =>                           (* parse/mod.rs 336-338: [Vec::from] *)
            rem <- p_remainder ;; bs <- p_take_dynamic rem ;; MAsk (zlen bs) (MRet (VBytes bs))
        | TString =>                          (* conv/mod.rs 403-409 *)
            rem <- p_remainder ;;
            bs <- p_take_dynamic rem ;;
            MAsk (zlen bs) (
              let len := Z.max (zlen bs) (zlen (utf8_lossy bs)) in
              MAsk (3 * len) (MGive (len + zlen bs) (MRet (VBytes (utf8_lossy bs)))))
        | TOption t =>
            tag <- p_take_tagword U8 [0; 255] ;;
            if tag =? 255 then v <~ mparse cf D f t ;; MRet (VSome v)
            else if tag =? 0 then MRet VNone
            else mfail PPanic
        | TNullable t =>
            rem <- p_remainder ;;
            if negb (rem =? 0) then v <~ mparse cf D f t ;; MRet (VSome v) else MRet VNone
        | TSeq t =>
            vs <~ m_seq_loop f (size_of t) 0 (mparse cf D f t) [] ;; MRet (VSeq vs)
        | TLim n t =>                         (* seq/lim.rs 141-145, 300: [with_capacity(N)] *)
            MAsk (n * size_of t) (vs <~ m_lim_loop f n (mparse cf D f t) [] ;; MRet (VSeq vs))
        | TFix n t =>                         (* seq/fix.rs 86-88, 281: [with_capacity(N)] *)
            MAsk (n * size_of t) (vs <~ m_fix_loop f n (mparse cf D f t) [] ;; MRet (VSeq vs))
        | TDyn s t =>
            buflen <- p_pref cf s ;;
            _ <- p_set_fit buflen ;;
            v <~ mparse cf D f t ;;
            _ <- p_enforce_target ;;
            MRet (VWrap v)
        | TVPad n t =>
            rem <- p_remainder ;;
            _ <- plift (debug_assert (cf_mode cf) (n <=? rem)) ;;
            win <- plift (usub (cf_mode cf) rem n) ;;
            _ <- p_set_fit win ;;
            v <~ mparse cf D f t ;;
            _ <- p_enforce_target ;;
            MRet (VWrap v)
        | TPad n t =>
            v <~ mparse cf D f t ;;
            padding <- p_consume n ;;
            if cf_check_padding cf && negb (forallb (Z.eqb 0) padding)
            then mfail (PErr (EToken (NonNullPaddingByte padding)))
            else MRet (VWrap v)
        | TBox t =>                           (* autobox.rs 253-258: [Box::new] *)
            v <~ mparse cf D f t ;; MAsk (size_of t) (MRet (VWrap v))
        | TNamed i =>
            match nth_error D i with
            | Some (DStruct ts) => vs <~ m_fields (mparse cf D f) ts ;; MRet (VStruct vs)
            | Some (DData k alts) =>
                tag <- p_take_tagword k (map fst alts) ;;
                match find_tag tag (map fst alts) with
                | Some ix =>
                    match nth_error alts ix with
                    | Some (_, ts) => vs <~ m_fields (mparse cf D f) ts ;; MRet (VEnum ix vs)
                    | None => mfail PPanic
                    end
                | None => mfail PPanic
                end
            | _ => mfail (parse cf D fuel t)
            end
        | _ => mfail (parse cf D fuel t)      (* nothing is reserved *)
        end
  end.

(** What [Decode::try_decode] reserves until the value or the error is there; the
    buffer that holds the input is not counted. *)
Definition decode_memory (w : which_parser) (cf : config) (D : list def) (f : nat) (t : ty) (input : list byte) : memory :=
  match w with
  | WByte => snd (mrun (byte_h (cf_mode cf)) (mparse cf D f t) (bp_from_buffer input) (mkMem 0 0))
  | WMemo => snd (mrun (memo_h (cf_mode cf)) (mparse cf D f t) (mp_from_buffer input) (mkMem 0 0))
  | WSlice => snd (mrun slice_h (mparse cf D f t) (sp_from_buffer input) (mkMem 0 0))
  end.
End Sized.
