(** The [Default] values of the schema types. *)
From Verif Require Import Base ModelInt ModelFloat ModelSchema.

(** core's [clamp] and [derive(Default)] are modelled by what they are documented
    to do.  [RErr]: the type has no [Default] (a compile error): Dynamic,
    FixedString, the enums of cstyle! and data!, and FixedBytes above the 32
    bytes up to which core gives arrays a default.  [RPanic]: [clamp] with
    MIN > MAX.  [RDiv]: fuel ran out (a struct that contains its own default
    recurses for ever).
    int.rs 375-385 (RangedInt), float.rs 140-150 (RangedFloat), zarith.rs 37 and
    167 (N, Z: derived, the zero of BigUint and BigInt), schema.rs 363 (Bytes:
    derived), fixed.rs 213-220 (FixedBytes), schema.rs 287-292 (Nullable),
    seq/mod.rs 127-131 (Sequence), seq/lim.rs 139-152 (LimSeq), seq/fix.rs 112-117
    with 81-84 (FixSeq: [Self::new()], empty), dynamic.rs 420 (VPadded: derived),
    schema.rs 116 (Padded: derived), autobox.rs 192-202 (AutoBox).
    Simplified: without arrayvec_limseq the default of a LimSeq allocates its N
    elements at once ([Vec::with_capacity(N)]), which for an enormous N fails. *)
Fixpoint default_val (fuel : nat) (D : list def) (t : ty) : wres val :=
  match fuel with
  | O => RDiv
  | S f =>
      match t with
      | TUnit => ROk VUnit
      | TBool => ROk (VBool false)
      | TInt _ | TF64 | TN | TZ => ROk (VInt 0)
      | TRanged k lo hi => rbind (ri_default k lo hi) (fun z => ROk (VInt z))
      | TRangedF lo hi => rbind (rf_default lo hi) (fun z => ROk (VInt z))
      | TBytes | TString => ROk (VBytes [])
      | TFixedBytes n => if n <=? 32 then ROk (VBytes (repeat 0 (Z.to_nat n))) else RErr tt
      | TOption _ | TNullable _ => ROk VNone
      | TSeq _ | TLim _ _ | TFix _ _ => ROk (VSeq [])
      | TVPad _ t | TPad _ t | TBox t => rbind (default_val f D t) (fun v => ROk (VWrap v))
      | TNamed i =>
          match nth_error D i with
          | Some (DStruct ts) =>
              (* derive(Default): the fields in order of declaration *)
              rbind ((fix fields (ts : list ty) : wres (list val) :=
                        match ts with
                        | [] => ROk []
                        | t :: ts => rbind (default_val f D t) (fun v => rbind (fields ts) (fun vs => ROk (v :: vs)))
                        end) ts) (fun vs => ROk (VStruct vs))
          | _ => RErr tt
          end
      | TFixedString _ | TDyn _ _ => RErr tt
      end
  end.
