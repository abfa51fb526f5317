(** C49 and C50: builders.  [made B b cs] (SpecBuilder.v) is the builder made as
    [b] says after the calls [cs]; [put_in b cs] are the bytes handed to it, in
    order; [groups b cs] are those bytes cut at every [resolve] and [flush]. *)
From Verif Require Import Base ModelHex ModelSplitVec ModelTarget ModelBuilder
  SpecSplitVec SpecHex SpecUtf8 SpecBuilder ProofBuilder.

(** ------------------------------------------------------------------ *)
(** * C49 *)
Theorem C49_strict_contents : forall b cs,
  bd_into_vec bd_strict (made bd_strict b cs) = put_in b cs /\
  bd_into bd_strict (made bd_strict b cs) = put_in b cs /\
  bd_len bd_strict (made bd_strict b cs) = zlen (put_in b cs) /\
  (bd_is_empty bd_strict (made bd_strict b cs) = true <-> put_in b cs = []) /\
  fst (do_calls bd_strict (do_birth bd_strict b) cs) = map call_returns cs.
Proof. exact (builder_contents _ _ strict_lawful). Qed.
Print Assumptions C49_strict_contents.

Theorem C49_memo_contents : forall b cs,
  bd_into_vec bd_memo (made bd_memo b cs) = put_in b cs /\
  bd_into bd_memo (made bd_memo b cs) = put_in b cs /\
  bd_len bd_memo (made bd_memo b cs) = zlen (put_in b cs) /\
  (bd_is_empty bd_memo (made bd_memo b cs) = true <-> put_in b cs = []) /\
  fst (do_calls bd_memo (do_birth bd_memo b) cs) = map call_returns cs.
Proof. exact (builder_contents _ _ memo_lawful). Qed.
Print Assumptions C49_memo_contents.

Theorem C49_promote : forall s l,
  bd_into_vec bd_strict (bd_promote bd_strict s) = bd_into_vec bd_strict s /\
  bd_into_vec bd_memo (bd_promote bd_memo l) = l.
Proof. exact promote_contents. Qed.
Print Assumptions C49_promote.

Theorem C49_strict_hex : forall b cs, bytes_ok (put_in b cs) ->
  hex_denotes (bd_into_hex bd_strict (made bd_strict b cs)) (put_in b cs) /\
  Forall lower_hex (bd_into_hex bd_strict (made bd_strict b cs)) /\
  bytes_of_hex (bd_into_hex bd_strict (made bd_strict b cs)) = ROk (put_in b cs).
Proof. exact (builder_hex _ _ strict_lawful). Qed.
Print Assumptions C49_strict_hex.

Theorem C49_strict_bin : forall b cs, bytes_ok (put_in b cs) ->
  (forall s, bd_into_bin bd_strict (made bd_strict b cs) = ROk s <->
     s = put_in b cs /\ exists chars, Forall scalar chars /\ put_in b cs = utf8_string chars) /\
  ((forall chars, Forall scalar chars -> put_in b cs <> utf8_string chars) ->
   bd_into_bin bd_strict (made bd_strict b cs) = RErr (put_in b cs)).
Proof. exact (builder_bin _ _ strict_lawful). Qed.
Print Assumptions C49_strict_bin.

(** The choice of builder changes nothing but the grouping. *)
Theorem C49_same_either_builder : forall b cs,
  bd_into_vec bd_strict (made bd_strict b cs) = bd_into_vec bd_memo (made bd_memo b cs) /\
  bd_len bd_strict (made bd_strict b cs) = bd_len bd_memo (made bd_memo b cs) /\
  bd_into_hex bd_strict (made bd_strict b cs) = bd_into_hex bd_memo (made bd_memo b cs) /\
  bd_into_bin bd_strict (made bd_strict b cs) = bd_into_bin bd_memo (made bd_memo b cs) /\
  fst (do_calls bd_strict (do_birth bd_strict b) cs) = fst (do_calls bd_memo (do_birth bd_memo b) cs).
Proof. exact strict_memo_same. Qed.
Print Assumptions C49_same_either_builder.

Definition sample_calls : list call :=
  [CPushOne 226; CPushMany [130; 172]; CResolve; CWrite [65]; CAnticipate 7; CFlush; CFlush; CPushAll []].
Example C49_ex :
  put_in (BWords [66]) sample_calls = [66; 226; 130; 172; 65] /\
  bytes_ok (put_in (BWords [66]) sample_calls) /\
  bd_into_bin bd_memo (made bd_memo (BWords [66]) sample_calls) = ROk [66; 226; 130; 172; 65] /\
  bd_into_bin bd_memo (made bd_memo (BWord 226) []) = RErr [226].
Proof.
  split; [reflexivity|]. split; [|split; reflexivity].
  repeat constructor; unfold is_byte; lia.
Qed.

(** ------------------------------------------------------------------ *)
(** * C50 *)
(** The finalized MemoBuilder holds the bytes and the length of every group. *)
Theorem C50_groups_kept : forall b cs,
  bd_finalize bd_memo (made bd_memo b cs) = (put_in b cs, map zlen (groups b cs)) /\
  concat (groups b cs) = put_in b cs.
Proof. intros b cs. exact (conj (memo_final b cs) (groups_elems b cs)). Qed.
Print Assumptions C50_groups_kept.

(** Printing a MemoBuilder shows its groups... *)
Theorem C50_builder_display : forall m b cs,
  zlen (put_in b cs) < usize_mod -> bytes_ok (put_in b cs) ->
  exists t, sv_show m (made bd_memo b cs) = ROk t /\ shows (groups b cs) t.
Proof. exact memo_show_groups. Qed.
Print Assumptions C50_builder_display.

(** ...and a text shows one list of groups only. *)
Theorem C50_display_unambiguous : forall gs1 gs2 t, shows gs1 t -> shows gs2 t -> gs1 = gs2.
Proof. exact shows_unique. Qed.
Print Assumptions C50_display_unambiguous.

Theorem C50_splitvec_display : forall m v s,
  sv_history v s -> zlen (sg_elems s) < usize_mod -> bytes_ok (sg_elems s) ->
  exists t, sv_show m v = ROk t /\ shows (sg_all s) t.
Proof. exact sv_show_history. Qed.
Print Assumptions C50_splitvec_display.

Theorem C50_splitvec_debug : forall T (fmt : list T -> list byte) v s,
  sv_history v s ->
  sv_debug fmt v = ROk ([91; bar] ++ concat (map (fun g => fmt g ++ [bar]) (sg_all s)) ++ [93]).
Proof. exact @sv_debug_history. Qed.
Print Assumptions C50_splitvec_debug.

(** The printed form of the finalized buffer (MemoBuffer) never panics, but has a
    bar after every byte: the groups cannot be read off it. *)
Theorem C50_buffer_display_partial : forall m b cs,
  zlen (put_in b cs) < usize_mod -> bytes_ok (put_in b cs) ->
  exists t, memo_show m (bd_finalize bd_memo (made bd_memo b cs)) = ROk t /\
            shows (map (fun x => [x]) (put_in b cs)) t.
Proof. exact memo_show_bytes. Qed.
Print Assumptions C50_buffer_display_partial.

Theorem C50_buffer_display_refuted :
  exists b cs, groups b cs = [[1; 2]] /\ bytes_ok (put_in b cs) /\
    forall m, exists t, memo_show m (bd_finalize bd_memo (made bd_memo b cs)) = ROk t /\
                        ~ shows (groups b cs) t.
Proof. exact memo_buffer_show_refuted. Qed.
Print Assumptions C50_buffer_display_refuted.

Example C50_ex :
  groups (BWords [66]) sample_calls = [[66; 226; 130; 172]; [65]; []] /\
  zlen (put_in (BWords [66]) sample_calls) < usize_mod /\
  sv_show Debug (made bd_memo (BWords [66]) sample_calls)
  = ROk [91; 124; 52; 50; 101; 50; 56; 50; 97; 99; 124; 52; 49; 124; 124; 93].
Proof. split; [reflexivity|]. split; reflexivity. Qed.
