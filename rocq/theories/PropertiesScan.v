(** Property theorems about scanning (C11 skip_dynamic, C12). *)
From Verif Require Import Base ModelErrors ModelParser ModelInt ModelSchema ModelScan
  SpecParser SpecCodec SpecScan ProofScan.

(** ------------------------------------------------------------------ *)
(** * C11: skip_dynamic and process_prefix *)
Theorem C11_skip_dynamic_byte : forall buf p cf s,
  zlen buf <= isize_max -> reaches (cf_mode cf) (byte_h (cf_mode cf)) (bp_from_buffer buf) p ->
  prefix_spec (cf_mode cf) (byte_h (cf_mode cf)) eq cf p (zslice (bp_offset p) (bp_view_len p) buf) s.
Proof. exact byte_prefix. Qed.
Print Assumptions C11_skip_dynamic_byte.

Theorem C11_skip_dynamic_memo : forall buf p cf s,
  zlen buf <= isize_max -> reaches (cf_mode cf) (memo_h (cf_mode cf)) (mp_from_buffer buf) p ->
  prefix_spec (cf_mode cf) (memo_h (cf_mode cf)) memo_same cf p
    (zslice (mp_offset p) (mp_view_len p) buf) s.
Proof. exact memo_prefix. Qed.
Print Assumptions C11_skip_dynamic_memo.

Theorem C11_skip_dynamic_slice : forall w rest cf s,
  prefix_spec (cf_mode cf) slice_h eq cf (w :: rest) w s.
Proof. exact slice_prefix. Qed.
Print Assumptions C11_skip_dynamic_slice.

(** A parser over ten bytes, one read, in a window of eight: a u16 prefix, its
    payload of three bytes and three more. *)
Definition scan_buf := [7; 0; 3; 1; 2; 3; 9; 9; 9; 5].
Definition scan_cf := mkConfig Debug false false false false false.
Definition scan_p : byte_parser := mkBP scan_buf (mkCO 10 [9] 1).
Example C11_sample :
  reaches Debug (byte_h Debug) (bp_from_buffer scan_buf) scan_p /\
  zslice (bp_offset scan_p) (bp_view_len scan_p) scan_buf =
    pref_format PrefU16 (zlen [1; 2; 3]) ++ [1; 2; 3] ++ [9; 9; 9] /\
  run (byte_h Debug) (p_skip_dynamic scan_cf PrefU16) scan_p =
    (ROk 3, mkBP scan_buf (mkCO 10 [9] 6)).
Proof.
  split; [|split; reflexivity].
  exists [AnyOp OpConsumeByte; AnyOp (OpSetFit 8)]. split; [|reflexivity].
  repeat constructor; discriminate.
Qed.

(** A four-byte prefix outside the range of [u30] is a panic, not an error, on any
    parser and in any build profile: what C31 says is false of these two methods. *)
Theorem C31_prefix_panics_refuted :
  (exists buf cf, bytes_ok buf /\ zlen buf = 4 /\ cf_mode cf = Release /\
     fst (run (byte_h Release) (p_process_prefix cf PrefU30) (bp_from_buffer buf)) = RPanic /\
     fst (run (byte_h Release) (p_skip_dynamic cf PrefU30) (bp_from_buffer buf)) = RPanic) /\
  (forall m buf p cf bs rest,
     zlen buf <= isize_max -> reaches m (byte_h m) (bp_from_buffer buf) p ->
     zslice (bp_offset p) (bp_view_len p) buf = bs ++ rest -> bytes_ok bs -> zlen bs = 4 ->
     (forall n, 0 <= n <= u30_max -> bs <> pref_format PrefU30 n) ->
     fst (run (byte_h m) (p_process_prefix cf PrefU30) p) = RPanic /\
     fst (run (byte_h m) (p_skip_dynamic cf PrefU30) p) = RPanic).
Proof. exact prefix_panics_refuted. Qed.
Print Assumptions C31_prefix_panics_refuted.

(** ------------------------------------------------------------------ *)
(** * C12: fast_kv_search *)
Theorem C12_search_byte : forall m buf p V key n (f : list byte -> V),
  zlen buf <= isize_max -> reaches m (byte_h m) (bp_from_buffer buf) p ->
  zlen key <= isize_max -> 0 <= n <= isize_max -> 0 < zlen key + n ->
  search_spec (byte_h m) eq p (zslice (bp_offset p) (bp_view_len p) buf) key n f.
Proof. exact byte_search. Qed.
Print Assumptions C12_search_byte.

Theorem C12_search_memo : forall m buf p V key n (f : list byte -> V),
  zlen buf <= isize_max -> reaches m (memo_h m) (mp_from_buffer buf) p ->
  zlen key <= isize_max -> 0 <= n <= isize_max -> 0 < zlen key + n ->
  search_spec (memo_h m) memo_same p (zslice (mp_offset p) (mp_view_len p) buf) key n f.
Proof. exact memo_search. Qed.
Print Assumptions C12_search_memo.

Theorem C12_search_slice : forall w rest V key n (f : list byte -> V),
  zlen key <= isize_max -> 0 <= n <= isize_max -> 0 < zlen key + n ->
  search_spec slice_h eq (w :: rest) w key n f.
Proof. exact slice_search. Qed.
Print Assumptions C12_search_slice.

(** Keys of one byte and values of two; the key 4 is bound twice, the key 8 not. *)
Definition kv_buf := [7; 3; 0; 3; 4; 0; 4; 4; 1; 1].
Definition kv_p : byte_parser := mkBP kv_buf (mkCO 10 [] 1).
Example C12_sample :
  reaches Debug (byte_h Debug) (bp_from_buffer kv_buf) kv_p /\
  zslice (bp_offset kv_p) (bp_view_len kv_p) kv_buf =
    kv_bytes [([3], [0; 3])] ++ [4] ++ [0; 4] ++ [4; 1; 1] /\
  kv_sized 1 2 [([3], [0; 3])] /\ kv_unbound [4] [([3], [0; 3])] /\
  kv_unbound [8] [([3], [0; 3]); ([4], [0; 4]); ([4], [1; 1])] /\
  run (byte_h Debug) (p_kv_search 9 [4] 2 (fun v => v)) kv_p =
    (ROk (Some [0; 4]), mkBP kv_buf (mkCO 10 [] 7)) /\
  run (byte_h Debug) (p_kv_search 9 [8] 2 (fun v => v)) kv_p =
    (ROk None, mkBP kv_buf (mkCO 10 [] 10)).
Proof.
  split; [exists [AnyOp OpConsumeByte]; split; [repeat constructor|reflexivity]|].
  split; [reflexivity|]. split; [repeat constructor|].
  split; [intros [H|[]]; discriminate|].
  split; [intros [H|[H|[H|[]]]]; discriminate|]. split; reflexivity.
Qed.

(** An empty key with empty values is outside the three cases above: the search
    ends at once, with a value if any byte is unread. *)
Theorem C12_empty_entries : forall V (f : list byte -> V) w rest fuel,
  run slice_h (p_kv_search (S fuel) [] 0 f) (w :: rest) =
    (ROk (match w with [] => None | _ => Some (f []) end), w :: rest).
Proof. exact kv_empty_entries. Qed.
Print Assumptions C12_empty_entries.
