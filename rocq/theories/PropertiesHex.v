(** Property theorems about hexadecimal strings (C35-C37).

    [hex_of_bytes] is [to_hex], [bytes_of_hex] is [from_hex], [eq_hex_bytes s b] is
    [eq_hex] of the bytes [b] with the string [s]. *)
From Verif Require Import Base ModelUtf8 ModelHex SpecHex ProofHex.

(** *** C35 *)
Theorem C35_to_hex : forall b, bytes_ok b ->
  hex_denotes (hex_of_bytes b) b /\ Forall lower_hex (hex_of_bytes b) /\
  zlen (hex_of_bytes b) = 2 * zlen b.
Proof. exact to_hex_spec. Qed.
Print Assumptions C35_to_hex.

Theorem C35_round_trip : forall b, bytes_ok b -> bytes_of_hex (hex_of_bytes b) = ROk b.
Proof. exact hex_round_trip. Qed.
Print Assumptions C35_round_trip.

Theorem C35_case_insensitive : forall s s' b,
  fold_case s = fold_case s' -> bytes_of_hex s = ROk b -> bytes_of_hex s' = ROk b.
Proof. exact from_hex_case. Qed.
Print Assumptions C35_case_insensitive.

(** "00ff0a" and "00Ff0A". *)
Example C35_sample :
  hex_of_bytes [0; 255; 10] = [48; 48; 102; 102; 48; 97] /\
  fold_case [48; 48; 102; 102; 48; 97] = fold_case [48; 48; 70; 102; 48; 65] /\
  bytes_of_hex [48; 48; 70; 102; 48; 65] = ROk [0; 255; 10].
Proof. split; [reflexivity|]. split; reflexivity. Qed.

(** *** C36 *)
(** Missing (and false, see below): strings with a '+'. *)
Theorem C36_accepts_partial : forall s b,
  ~ In plus_sign s -> (bytes_of_hex s = ROk b <-> hex_denotes s b).
Proof. exact from_hex_accepts. Qed.
Print Assumptions C36_accepts_partial.

Theorem C36_odd : forall s, zlen s mod 2 <> 0 -> bytes_of_hex s = RErr (OddParity s).
Proof. exact from_hex_odd. Qed.
Print Assumptions C36_odd.

(** Missing (and false, see below): strings with a '+' or outside ASCII. *)
Theorem C36_rejects_partial : forall s,
  ascii s -> ~ In plus_sign s -> zlen s mod 2 = 0 -> (forall b, ~ hex_denotes s b) ->
  bytes_of_hex s = RErr (NonHex s).
Proof. exact from_hex_rejects_strict. Qed.
Print Assumptions C36_rejects_partial.

(** What is accepted, exactly, over all strings. *)
Theorem C36_accepts_exactly : forall s b, bytes_of_hex s = ROk b <-> loose_denotes s b.
Proof. exact from_hex_exact. Qed.
Print Assumptions C36_accepts_exactly.

(** What is refused, and when the conversion panics instead, exactly: when a
    character lies across the end of the first pair that is not two digits. *)
Theorem C36_refuses_exactly_partial : forall s, zlen s mod 2 = 0 ->
  (bytes_of_hex s = RPanic <-> exists b, straddles s b) /\
  (forall e, bytes_of_hex s = RErr e <->
     e = NonHex s /\ (forall b, ~ loose_denotes s b) /\ (forall b, ~ straddles s b)).
Proof. exact from_hex_even. Qed.
Print Assumptions C36_refuses_exactly_partial.

(** "+f" is accepted. *)
Theorem C36_plus_refuted :
  exists s b, utf8_valid s = true /\ bytes_of_hex s = ROk b /\ forall b', ~ hex_denotes s b'.
Proof. exact from_hex_plus_refuted. Qed.
Print Assumptions C36_plus_refuted.

(** A two-byte character across a pair boundary is a panic. *)
Theorem C36_panic_refuted :
  exists s, utf8_valid s = true /\ zlen s mod 2 = 0 /\ bytes_of_hex s = RPanic.
Proof. exact from_hex_panic_refuted. Qed.
Print Assumptions C36_panic_refuted.

(** "0g", and "dE". *)
Example C36_sample :
  ascii [48; 103] /\ ~ In plus_sign [48; 103] /\ (forall b, ~ hex_denotes [48; 103] b) /\
  bytes_of_hex [48; 103] = RErr (NonHex [48; 103]) /\ hex_denotes [100; 69] [222].
Proof.
  split; [repeat constructor; discriminate|]. split; [intros [H|[H|[]]]; discriminate|].
  split.
  - intros b H. apply C36_accepts_partial in H; [discriminate H|intros [E|[E|[]]]; discriminate].
  - split; [reflexivity|].
    apply (C36_accepts_partial [100; 69] [222]); [intros [E|[E|[]]]; discriminate|reflexivity].
Qed.

(** *** C37 *)
Theorem C37_true : forall s b, eq_hex_bytes s b = ROk true <-> bytes_of_hex s = ROk b.
Proof. exact eq_hex_true. Qed.
Print Assumptions C37_true.

(** Missing (and false, see below): strings outside ASCII. *)
Theorem C37_false_partial : forall s b,
  ascii s -> bytes_of_hex s <> ROk b -> eq_hex_bytes s b = ROk false.
Proof. exact eq_hex_false. Qed.
Print Assumptions C37_false_partial.

Theorem C37_exactly_partial : forall s b,
  (eq_hex_bytes s b = RPanic <-> zlen s = 2 * zlen b /\ exists b1 b2, b = b1 ++ b2 /\ straddles s b1) /\
  (eq_hex_bytes s b = ROk false <->
     bytes_of_hex s <> ROk b /\ (zlen s = 2 * zlen b -> forall b1 b2, b = b1 ++ b2 -> ~ straddles s b1)).
Proof. exact eq_hex_exact. Qed.
Print Assumptions C37_exactly_partial.

(** "a" and half of a two-byte character: with any two bytes it is a panic. *)
Example C37_straddles : straddles [97; 195; 169; 98] [] /\ eq_hex_bytes [97; 195; 169; 98] [1; 2] = RPanic.
Proof.
  split; [|reflexivity]. exists [], 97, 195, 169, [98]. split; [reflexivity|]. split; [constructor|lia].
Qed.

Theorem C37_panic_refuted : exists s b, utf8_valid s = true /\ eq_hex_bytes s b = RPanic.
Proof. exact eq_hex_panic_refuted. Qed.
Print Assumptions C37_panic_refuted.

Example C37_sample :
  eq_hex_bytes [70; 102; 48; 65] [255; 10] = ROk true /\ eq_hex_bytes [70; 102; 48; 65] [255; 11] = ROk false /\
  eq_hex_bytes [70; 102; 48] [255] = ROk false.
Proof. split; [reflexivity|]. split; reflexivity. Qed.
