(** How deeply the calls of an encoder nest: [ModelSchema.write_to], [enc_len],
    [estimate] and [unknown] with the number of calls of these that may be open at
    the same time.  The bodies are those of ModelSchema, with the same citations. *)
From Verif Require Import Base ModelErrors ModelInt ModelFloat ModelZarith ModelTarget ModelSchema.

Section Stack.
Variables (cf : config) (D : list def) (kf : nat).
Let m := cf_mode cf.

(** [Estimable::unknown], at most [frames] calls of [unknown] and [estimate] being
    open at a time; [RDiv]: a further one would be needed.  conv/len.rs 160-162
    ([estimate]), 171-173 and 187-192, schema.rs 229 and 321-326, seq/mod.rs 216,
    seq/lim.rs 282-284, seq/fix.rs 262-267, dynamic.rs 211-215 and 487, autobox.rs
    264, estimable_derive/src/lib.rs, adt.rs 370-377.  Simplification: one frame per
    call, whatever its size, and none for the number types, which call nothing that
    nests; the call on the payload of a data! variant (adt.rs 370-377) shares the
    frame of the call on its enum. *)
Fixpoint unknown_in (frames : nat) (v : val) (t : ty) : wres Z :=
  match frames with
  | O => RDiv
  | S f =>
  let estimate := fun v t =>
    match f with O => RDiv | S f => estimate_with (known cf D kf t) (unknown_in f v t) end in
  match t, v with
  | TUnit, VUnit => ROk 0
  | TBool, VBool _ => ROk 1
  | TInt k, VInt _ | TRanged k _ _, VInt _ => ROk (ik_len k)
  | TF64, VInt _ | TRangedF _ _, VInt _ => ROk 8
  | TN, VInt z => ROk (n_unknown z)
  | TZ, VInt z => ROk (z_unknown z)
  | TBytes, VBytes bs | TString, VBytes bs => ROk (zlen bs)
  | TFixedBytes n, VBytes _ | TFixedString n, VBytes _ => ROk n
  | TOption _, VNone => ROk 1
  | TOption t, VSome v => rbind (estimate v t) (fun n => uadd m 1 n)
  | TNullable _, VNone => ROk 0
  | TNullable t, VSome v => estimate v t
  | TSeq t, VSeq vs | TLim _ t, VSeq vs => usum m 0 (map (fun v => estimate v t) vs)
  | TFix _ t, VSeq vs => usum m 0 (map (fun v => unknown_in f v t) vs)
  | TDyn s t, VWrap v => rbind (unknown_in f v t) (fun n => uadd m (pref_len s) n)
  | TVPad _ t, VWrap v => unknown_in f v t
  | TPad n t, VWrap v => rbind (unknown_in f v t) (fun k => uadd m k n)
  | TBox t, VWrap v => unknown_in f v t
  | TNamed i, _ =>
      match nth_error D i, v with
      | Some (DStruct ts), VStruct vs => usum m 0 (map2 (unknown_in f) (RErr tt) vs ts)
      | Some (DCStyle k _), VEnum _ [] => ROk (ik_len k)
      | Some (DData k alts), VEnum ix vs =>
          match nth_error alts ix with
          | Some (_, ts) =>
              rbind (estimate_with (known_sum (known cf D kf) ts)
                       (usum m 0 (map2 (unknown_in f) (RErr tt) vs ts)))
                    (fun n => uadd m (ik_len k) n)
          | None => RErr tt
          end
      | _, _ => RErr tt
      end
  | _, _ => RErr tt
  end
  end.

(** conv/len.rs 160-162. *)
Definition estimate_in (frames : nat) (v : val) (t : ty) : wres Z :=
  match frames with O => RDiv | S f => estimate_with (known cf D kf t) (unknown_in f v t) end.

(** [Encode::write_to], at most [frames] calls of it, of [enc_len] and of the
    above being open at a time.  The implementations that call others: conv/mod.rs
    412-419 (Option), schema.rs 184-190 (Padded) and 330-337 (Nullable), seq/mod.rs
    222-225, seq/lim.rs 291-294, seq/fix.rs 271-274, dynamic.rs 371-387 (Dynamic,
    which calls [enc_len]: conv/mod.rs 159-161, 189-191) and 458-461 (VPadded),
    autobox.rs 247-250, adt.rs 103-108 and 356-366, encode_derive/src/lib.rs 26-52.
    Simplifications: as for [unknown_in]; the closures and iterators around the
    calls have no frame of their own. *)
Fixpoint write_in (frames : nat) (v : val) (U : Type) (T : target U) (t : ty) : writer U :=
  match frames with
  | O => fun _ => RDiv
  | S f =>
  let resolve := w_call (tg_resolve_zero T) in
  let enc_len := fun v t =>
    match f with
    | O => RDiv
    | S f => if cf_est_override cf then estimate_in f v t else rmap fst (write_in f v unit tg_counter t tt)
    end in
  match t, v with
  | TUnit, VUnit => fun u => ROk (0, u)
  | TBool, VBool b => w_push_one cf T (if b then 255 else 0)
  | TInt k, VInt z => w_int cf T k z
  | TRanged k lo hi, VInt z => w_ranged cf T k lo hi z
  | TF64, VInt z | TRangedF _ _, VInt z => w_int cf T U64 z
  | TN, VInt z => fun u => rbind (n_serialize z) (fun bs => w_push_all cf T bs u)
  | TZ, VInt z => fun u => rbind (z_serialize z) (fun bs => w_push_all cf T bs u)
  | TBytes, VBytes bs | TString, VBytes bs => w_write_all cf T bs
  | TFixedBytes _, VBytes bs => w_push_many cf T bs
  | TFixedString _, VBytes bs => w_push_all cf T bs
  | TOption t, VSome v => w_add cf (w_add cf (w_call (tg_push_one T 255)) (write_in f v U T t)) (w_call (tg_resolve_macro T))
  | TOption _, VNone => w_push_one cf T 0
  | TNullable t, VSome v => w_add cf (write_in f v U T t) resolve
  | TNullable _, VNone => resolve
  | TSeq t, VSeq vs | TLim _ t, VSeq vs | TFix _ t, VSeq vs =>
      w_add cf (w_sum cf 0 (map (fun v => write_in f v U T t) vs)) resolve
  | TDyn s t, VWrap v => fun u =>
      rbind (enc_len v t) (fun l =>
      rbind (rassert (l <=? pref_max s)) (fun _ =>
      match pref_try_from cf s l with
      | Some lp =>
          rbind (if cf_est_override cf then ROk (pref_len s)
                 else rmap fst (w_pref cf tg_counter s lp tt)) (fun ll =>
          rbind (uadd m l ll) (fun total =>
            let u := tg_anticipate T total u in
            w_add cf (w_add cf (w_pref cf T s lp) (write_in f v U T t)) resolve u))
      | None => RPanic
      end))
  | TVPad _ t, VWrap v => write_in f v U T t
  | TPad n t, VWrap v =>
      w_add cf (w_add cf (write_in f v U T t) (w_call (tg_push_many T (repeat 0 (Z.to_nat n))))) resolve
  | TBox t, VWrap v => write_in f v U T t
  | TNamed i, _ =>
      match nth_error D i, v with
      | Some (DStruct ts), VStruct vs =>
          w_add cf (w_sum cf 0 (map2 (fun v t => write_in f v U T t) w_bad vs ts)) resolve
      | Some (DCStyle k tags), VEnum ix [] =>
          match nth_error tags ix with Some tag => w_int cf T k tag | None => w_bad end
      | Some (DData k alts), VEnum ix vs =>
          match nth_error alts ix with
          | Some (tag, ts) =>
              w_add cf (w_add cf (w_int cf T k tag)
                (w_add cf (w_sum cf 0 (map2 (fun v t => write_in f v U T t) w_bad vs ts)) resolve)) resolve
          | None => w_bad
          end
      | _, _ => w_bad
      end
  | _, _ => w_bad
  end
  end.

(** conv/mod.rs 159-161, 189-191. *)
Definition enc_len_in (frames : nat) (v : val) (t : ty) : wres Z :=
  match frames with
  | O => RDiv
  | S f => if cf_est_override cf then estimate_in f v t else rmap fst (write_in f v unit tg_counter t tt)
  end.

(** conv/mod.rs 121-125 with 82-84: [to_bytes], its own frame not counted. *)
Definition to_bytes_in (frames : nat) (v : val) (t : ty) : wres (list byte) :=
  rmap snd (write_in frames v (list byte) tg_vec t []).
End Stack.
