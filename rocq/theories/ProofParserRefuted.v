(** Witnesses: histories on which the parsers do not do what their
    documentation says.  Each is a computation of the model. *)
From Verif Require Import Base ModelErrors ModelSplitVec ModelParser SpecParser.

Definition usize_max : Z := usize_mod - 1.
Ltac args := repeat constructor; cbn; unfold is_usize; try (split; reflexivity || discriminate); try discriminate.

(** Release: [cur + n] wraps, so a huge [consume] is accepted. *)
Lemma release_consume_ub :
  exists buf ops, zlen buf <= isize_max /\ Forall arg_ok ops /\
    In ObsUB (history (byte_h Release) ops (bp_from_buffer buf)).
Proof.
  exists [1; 2; 3], [AnyOp (OpConsume 2); AnyOp (OpConsume usize_max)].
  split; [vm_compute; discriminate|]. split; [args|]. vm_compute; auto.
Qed.

(** Release: a huge [skip_exactly] succeeds and moves the offset backwards. *)
Lemma release_skip_backwards :
  exists buf ops n p p', zlen buf <= isize_max /\ Forall arg_ok ops /\ is_usize n /\
    after (byte_h Release) ops (bp_from_buffer buf) = Some p /\
    byte_h Release unit (OpSkipExactly n) p = (ROk tt, p') /\ bp_offset p' < bp_offset p.
Proof.
  exists [1; 2; 3], [AnyOp (OpConsume 2)], usize_max.
  eexists; eexists. split; [vm_compute; discriminate|]. split; [args|]. split; [args|].
  split; [vm_compute; reflexivity|]. split; vm_compute; reflexivity.
Qed.

(** A failed [enforce_target] removes the window: bytes behind it become readable. *)
Lemma failed_close_lifts_window :
  exists m buf p p' e, reaches m (byte_h m) (bp_from_buffer buf) p /\
    byte_h m unit OpEnforceTarget p = (RErr e, p') /\
    bp_view_len p < bp_view_len p' /\
    fst (byte_h m _ (OpConsume 3) p) <> ROk [1; 2; 3] /\
    fst (byte_h m _ (OpConsume 3) p') = ROk [1; 2; 3].
Proof.
  exists Debug, [1; 2; 3], (mkBP [1; 2; 3] (mkCO 3 [1] 0)). eexists; eexists.
  split. { exists [AnyOp (OpSetFit 1)]. split; [args|reflexivity]. }
  split; [vm_compute; reflexivity|]. split; [reflexivity|]. split; [vm_compute; discriminate|reflexivity].
Qed.

(** On SliceParser a failed [enforce_target] also drops the unread bytes, so
    it no longer agrees with ByteParser. *)
Lemma slice_drops_residue :
  exists buf ops, Forall arg_small ops /\
    history slice_h ops (sp_from_buffer buf) <> history (byte_h Release) ops (bp_from_buffer buf).
Proof.
  exists [1; 2; 3], [AnyOp (OpSetFit 2); AnyOp OpEnforceTarget; AnyOp OpConsumeByte].
  split; [args|]. vm_compute. discriminate.
Qed.

(** SliceParser treats the whole input as a window: with none open,
    [test_target] answers true and [enforce_target] succeeds once the input
    is consumed. *)
Lemma slice_closes_unopened :
  exists buf, history slice_h [AnyOp OpTestTarget; AnyOp OpEnforceTarget] (sp_from_buffer buf)
      = [ObsBool true; ObsUnit] /\
    history (spec_h Keep) [AnyOp OpTestTarget; AnyOp OpEnforceTarget] (w_init buf)
      = [ObsBool false; ObsFail].
Proof. exists []. split; reflexivity. Qed.

(** With a window still open, a leftover without any byte is not reported as empty. *)
Lemma byteless_leftover_not_empty :
  exists m buf p lo, reaches m (byte_h m) (bp_from_buffer buf) p /\
    bp_cleanup m p = ROk lo /\ lo_bytes lo = [] /\ lo_is_empty lo = false.
Proof.
  exists Debug, [], (mkBP [] (mkCO 0 [0] 0)). eexists.
  split. { exists [AnyOp (OpSetFit 0)]. split; [args|reflexivity]. }
  split; [vm_compute; reflexivity|]. split; reflexivity.
Qed.

(** SliceParser never reports an empty leftover for an input it fully consumed. *)
Lemma slice_leftover_not_empty :
  exists buf p lo, history slice_h [AnyOp OpConsumeByte] (sp_from_buffer buf) = [ObsByte 7] /\
    after slice_h [AnyOp OpConsumeByte] (sp_from_buffer buf) = Some p /\
    sp_cleanup p = ROk lo /\ lo_bytes lo = [] /\ lo_is_empty lo = false.
Proof.
  exists [7], [[]]. eexists. split; [reflexivity|]. split; [reflexivity|].
  split; [vm_compute; reflexivity|]. split; reflexivity.
Qed.

(** MemoParser::skip_exactly is not logged: the dump shows other bytes than
    those read. *)
Lemma skip_exactly_not_logged :
  exists m buf ops p sv, Forall (arg_fits m) ops /\
    after (memo_h m) ops (mp_from_buffer buf) = Some p /\
    @mp_dump unit m p = ROk sv /\ sv_into_inner sv <> ztake (mp_offset p) buf.
Proof.
  exists Debug, [1; 2; 3], [AnyOp (OpSkipExactly 1); AnyOp OpConsumeByte].
  eexists; eexists. split; [args|]. split; [reflexivity|]. split; [reflexivity|]. discriminate.
Qed.

(** [OpenWouldExceedBuffer] reports a wrong number of bytes left ... *)
Lemma open_error_wrong_bytes_left :
  exists m buf p n k, reaches m (byte_h m) (bp_from_buffer buf) p /\
    fst (byte_h m unit (OpSetFit n) p) = RErr (EWindow (OpenWouldExceedBuffer k n)) /\
    k <> zlen buf - bp_offset p.
Proof.
  exists Debug, [1; 2; 3], (mkBP [1; 2; 3] (mkCO 3 [] 3)), 1, 2.
  split. { exists [AnyOp (OpConsume 3)]. split; [args|reflexivity]. }
  split; [reflexivity|discriminate].
Qed.

(** ... or, in a debug build, panics while computing it. *)
Lemma open_error_panics :
  exists buf n, 0 <= n <= 255 /\
    fst (byte_h Debug unit (OpSetFit n) (bp_from_buffer buf)) = RPanic.
Proof. exists [1], 5. split; [split; discriminate|reflexivity]. Qed.

(** [OpenWouldExceedWindow] reports absolute positions instead of the width
    of the window and the request. *)
Lemma open_error_absolute :
  exists m buf p n l r, reaches m (byte_h m) (bp_from_buffer buf) p /\
    fst (byte_h m unit (OpSetFit n) p) = RErr (EWindow (OpenWouldExceedWindow l r)) /\
    r <> n /\ ROk l <> fst (byte_h m Z OpRemainder p).
Proof.
  exists Debug, [1; 2; 3; 4; 5], (mkBP [1; 2; 3; 4; 5] (mkCO 5 [4] 2)), 3, 4, 5.
  split. { exists [AnyOp (OpConsume 2); AnyOp (OpSetFit 2)]. split; [args|reflexivity]. }
  split; [reflexivity|]. split; discriminate.
Qed.

(** [VecBuffer::get_byte] at the end of the buffer passes its assertion. *)
Lemma get_byte_end_ub : exists ix buf, ix = zlen buf /\ @vb_get_byte unit ix buf = RUB.
Proof. exists 2, [1; 2]. split; reflexivity. Qed.

(** [VecBuffer::get_slice] in a release build wraps in its assertion. *)
Lemma get_slice_wrap_ub :
  exists ix n buf, is_usize ix /\ is_usize n /\ @vb_get_slice unit Release ix n buf = RUB.
Proof. exists 2, usize_max, [1; 2]. split; [args|]. split; [args|]. reflexivity. Qed.
