(** C67: a [HexString] is a list of bytes, and its text is the bytes' text.

    [hs_make] makes one, [hs_step]/[hs_run] change it, [hs_bytes], [hs_len],
    [hs_is_empty], [hs_text] (Display and to_hex), [hs_debug], [hs_cmp], [hs_eq] and
    [hs_eq_text] (== with a string) look at it. *)
From Coq Require Import String.
From Verif Require Import Base ModelHex ModelTarget ModelDisplay ModelHexString SpecHex SpecHexString ProofHexString.

(** Making one gives the bytes meant.  The converse fails only for texts with a plus
    sign (C36_plus_refuted). *)
Theorem C67_make : forall k l, makes k l -> hs_make k = ROk (mkHex l).
Proof. exact make_gives. Qed.
Print Assumptions C67_make.
Theorem C67_make_only : forall k h, hs_make k = ROk h ->
  makes k (hs_bytes h) \/ exists s, k = MkText s /\ In plus_sign s.
Proof. exact make_only. Qed.
Print Assumptions C67_make_only.

Example C67_make_ex : makes (MkText (txt "dE")) [0xde] /\ hs_make (MkText (txt "dE")) = ROk (mkHex [0xde]).
Proof.
  split; [|reflexivity]. constructor. change (txt "dE") with [100; 69].
  change [222] with [16 * (10 + (100 - 97)) + (10 + (69 - 65))]. constructor; [constructor 2|constructor 3|constructor]; lia.
Qed.

(** Every history of changes does to the bytes held, and returns, what it should. *)
Theorem C67_history : forall ops h counts h',
  hs_run ops h = ROk (counts, h') <-> change_all ops (hs_bytes h) counts (hs_bytes h').
Proof. exact history_exact. Qed.
Print Assumptions C67_history.

(** The only other outcome is the panic of a write to a position that does not exist. *)
Theorem C67_history_panics : forall ops h, (forall r, hs_run ops h <> ROk r) ->
  hs_run ops h = RPanic /\ exists pre i b post counts h', ops = pre ++ HsSet i b :: post /\
    hs_run pre h = ROk (counts, h') /\ ~ 0 <= i < zlen (hs_bytes h').
Proof. exact history_panics. Qed.
Print Assumptions C67_history_panics.

Example C67_history_ex :
  hs_run [HsPushAll [1; 2]; HsSet 0 9; HsAnticipate 5; HsPushOne 3; HsVec (@List.tl byte)] (mkHex []) =
    ROk ([Some 2; None; None; Some 1; None], mkHex [2; 3]) /\
  hs_run [HsPushOne 1; HsSet 1 9] (mkHex []) = RPanic.
Proof. split; reflexivity. Qed.

(** Its length is the number of bytes, its text two lower-case digits for each. *)
Theorem C67_text : forall h, bytes_ok (hs_bytes h) ->
  hs_len h = zlen (hs_bytes h) /\ (hs_is_empty h = true <-> hs_bytes h = []) /\ zlen (hs_text h) = 2 * hs_len h /\
  hex_denotes (hs_text h) (hs_bytes h) /\ Forall lower_hex (hs_text h).
Proof. exact len_text. Qed.
Print Assumptions C67_text.

(** Its text parses back to it. *)
Theorem C67_text_back : forall h, bytes_ok (hs_bytes h) -> hs_make (MkText (hs_text h)) = ROk h.
Proof. exact text_back. Qed.
Print Assumptions C67_text_back.

(** Appending bytes appends their text. *)
Theorem C67_append : forall op bs h n h', appends op bs -> hs_step op h = ROk (n, h') ->
  hs_text h' = hs_text h ++ hex_of_bytes bs.
Proof. exact append_text. Qed.
Print Assumptions C67_append.

(** Debug shows the same text. *)
Theorem C67_debug : forall h, hs_debug h = txt "HexString(""" ++ hs_text h ++ txt """)".
Proof. exact debug_hex_text. Qed.
Print Assumptions C67_debug.

Example C67_text_ex : bytes_ok [0xde; 0x0d] /\ hs_debug (mkHex [0xde; 0x0d]) = txt "HexString(""de0d"")" /\
  appends (HsPushOne 7) [7].
Proof. repeat split; repeat constructor; unfold is_byte; lia. Qed.

(** Two are ordered as their bytes are in a dictionary, which is how their texts are. *)
Theorem C67_order : forall h h',
  (hs_cmp h h' = Lt <-> before (hs_bytes h) (hs_bytes h')) /\
  (hs_cmp h h' = Eq <-> hs_bytes h = hs_bytes h') /\
  (hs_cmp h h' = Gt <-> before (hs_bytes h') (hs_bytes h)).
Proof. exact order_bytes. Qed.
Print Assumptions C67_order.
Theorem C67_order_text : forall h h', bytes_ok (hs_bytes h) -> bytes_ok (hs_bytes h') ->
  (hs_cmp h h' = Lt <-> before (hs_text h) (hs_text h')) /\
  (hs_cmp h h' = Eq <-> hs_text h = hs_text h') /\
  (hs_cmp h h' = Gt <-> before (hs_text h') (hs_text h)).
Proof. exact order_text. Qed.
Print Assumptions C67_order_text.
Theorem C67_equal : forall h h', hs_eq h h' = true <-> hs_bytes h = hs_bytes h'.
Proof. exact equal_bytes. Qed.
Print Assumptions C67_equal.

Example C67_order_ex :
  hs_cmp (mkHex [0x9f; 1]) (mkHex [0xa0]) = Lt /\ hs_cmp (mkHex [7]) (mkHex [7; 0]) = Lt /\
  before (txt "9f01") (txt "a0") /\ hs_eq (mkHex [7]) (mkHex [7; 0]) = false.
Proof. repeat split. right. exists [], 57, (txt "f01"), 97, (txt "0"). repeat split. Qed.

(** It equals an ASCII text without plus sign exactly when the text, in lower case, is its own. *)
Theorem C67_equal_text : forall h s, bytes_ok (hs_bytes h) -> ascii s -> ~ In plus_sign s ->
  exists answer, hs_eq_text h s = ROk answer /\ (answer = true <-> fold_case s = hs_text h).
Proof. exact equal_text. Qed.
Print Assumptions C67_equal_text.

Example C67_equal_text_ex : hs_eq_text (mkHex [0xde; 0x0d]) (txt "De0D") = ROk true /\
  ascii (txt "De0D") /\ ~ In plus_sign (txt "De0D").
Proof.
  split; [reflexivity|]. change (txt "De0D") with [68; 101; 48; 68]. unfold plus_sign.
  split; [repeat constructor; lia|]. intros [E|[E|[E|[E|[]]]]]; lia.
Qed.
