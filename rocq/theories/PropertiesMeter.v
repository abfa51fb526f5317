(** C76: encoding does work at most proportional to the value.

    [encode_effort] (ModelMeter) counts the calls of [write_to], [estimate] and
    [unknown] and of the targets' methods, and the bytes handed to targets, of one
    encoding, whether it succeeds or panics.  [nested] (SpecMeter) is how deep
    Dynamics are nested in a value. *)
From Verif Require Import Base ModelErrors ModelInt ModelParser ModelTarget ModelSchema ModelMeter SpecCodec SpecSize SpecWork SpecMeter
  ProofWork ProofMeter PropertiesWork.
From Coq Require Import ZifyBool.

(** The meter only watches. *)
Theorem C76_same_encoding cf D kf {U} (T : target U) v t :
  fst (encode_metered cf D kf T v t) = encode cf D kf T v t.
Proof. exact (metered_same cf D kf T v t). Qed.
Print Assumptions C76_same_encoding.

(** Types that nest Dynamics only to a fixed depth are encoded in proportion to
    the size of the value and of its encoding.  Missing: types that recur through
    Dynamics. *)
Theorem C76_proportional_partial L cf D kf {U} (T : target U) v t :
  layered L D = true -> well_typed D v t = true ->
  encode_effort cf D kf T v t <= 2 ^ layers L t * (8 * weight v + zlen (format D v t)).
Proof. exact (effort_layers L cf D kf T v t). Qed.
Print Assumptions C76_proportional_partial.
Example C76_proportional_case :
  layered [0; 1] [DStruct [TN; TSeq (TNamed 0)]; DStruct [TDyn PrefU8 TString; TSeq (TNamed 0)]] = true /\
  layers [0; 1] (TDyn PrefU30 (TSeq (TNamed 1))) = 2.
Proof. split; reflexivity. Qed.

(** In general the depth is the exponent, *)
Theorem C76_bound cf D kf {U} (T : target U) v t :
  cf_est_override cf = false -> well_typed D v t = true ->
  encode_effort cf D kf T v t <= 2 ^ nested D v t * (8 * weight v + zlen (format D v t)).
Proof. exact (bound_default cf D kf T v t). Qed.
Print Assumptions C76_bound.
(** and not less: *)
Theorem C76_at_least cf D kf {U} (T : target U) v t u :
  cf_est_override cf = false -> encode cf D kf T v t = ROk u ->
  2 ^ nested D v t <= encode_effort cf D kf T v t.
Proof. exact (encode_at_least cf D kf T v t u). Qed.
Print Assumptions C76_at_least.
Example C76_counts :
  nested chain_defs (chain 3) (TNamed 0) = 3 /\ weight (chain 3) = 10 /\
  to_bytes plain chain_defs 9 (chain 3) (TNamed 0) = ROk [1; 0; 0; 0; 11; 1; 0; 0; 0; 6; 1; 0; 0; 0; 1; 0] /\
  map (fun n => encode_effort plain chain_defs 9 tg_vec (chain n) (TNamed 0)) [0; 1; 2; 3; 4; 5]%nat
    = [7; 44; 118; 266; 562; 1154].
Proof. repeat split; vm_compute; reflexivity. Qed.

(** So the property fails: five bytes of input, decoded in fifty units of work,
    double the work of encoding what was decoded. *)
Theorem C76_refuted n : 5 * Z.of_nat n <= 2 ^ 29 -> exists v input,
  zlen input = 1 + 5 * Z.of_nat n /\
  forall cf kf, cf_est_override cf = false ->
    decodes WByte cf chain_defs (TNamed 0) input (ROk v) /\
    (forall f w, decode_effort w cf chain_defs f (TNamed 0) input <= 2 + 10 * zlen input) /\
    to_bytes cf chain_defs kf v (TNamed 0) = ROk input /\
    2 ^ Z.of_nat n <= encode_effort cf chain_defs kf tg_vec v (TNamed 0).
Proof. exact (bomb n). Qed.
Print Assumptions C76_refuted.

(** With enc_len_estimable_override the depth is a factor, *)
Theorem C76_override_bound cf D kf {U} (T : target U) v t :
  cf_est_override cf = true -> well_typed D v t = true ->
  encode_effort cf D kf T v t <= (1 + nested D v t) * (8 * weight v + zlen (format D v t)).
Proof. exact (bound_override cf D kf T v t). Qed.
Print Assumptions C76_override_bound.
(** which makes the work quadratic at worst, as it is for the same chain. *)
Theorem C76_override_refuted n cf kf {U} (T : target U) u :
  cf_est_override cf = true -> (4 <= kf)%nat -> encode cf chain_defs kf T (chain n) (TNamed 0) = ROk u ->
  Z.of_nat n * Z.of_nat n <= encode_effort cf chain_defs kf T (chain n) (TNamed 0).
Proof. exact (fun HO HK => quadratic cf kf HO HK n T u). Qed.
Print Assumptions C76_override_refuted.
Example C76_override_counts :
  let cf := mkConfig Debug false true false false false in
  to_bytes cf chain_defs 4 (chain 3) (TNamed 0) = ROk [1; 0; 0; 0; 11; 1; 0; 0; 0; 6; 1; 0; 0; 0; 1; 0] /\
  map (fun n => encode_effort cf chain_defs 4 tg_vec (chain n) (TNamed 0)) [0; 1; 2; 3; 4; 5]%nat
    = [7; 32; 61; 94; 131; 172].
Proof. split; vm_compute; reflexivity. Qed.
