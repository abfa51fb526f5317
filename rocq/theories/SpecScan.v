(** Specification of scanning: an association list on the wire is the
    concatenation of its entries, key then value, without separators. *)
From Verif Require Import Base ModelErrors ModelParser ModelSchema ModelScan SpecParser SpecCodec.

Definition kv_bytes (entries : list (list byte * list byte)) : list byte :=
  concat (map (fun e => fst e ++ snd e) entries).

(** Every key has [m] bytes and every value [n]. *)
Definition kv_sized (m n : Z) (entries : list (list byte * list byte)) : Prop :=
  Forall (fun e => zlen (fst e) = m /\ zlen (snd e) = n) entries.

(** [key] is bound by none of [entries]. *)
Definition kv_unbound (key : list byte) (entries : list (list byte * list byte)) : Prop :=
  ~ In key (map fst entries).

(** What searching must do on a parser state [p] whose current window holds the
    unread bytes [view].  [same] compares two states of the parser; the state after
    a search is that of a parser which consumed the bytes searched. *)
Definition search_spec {P V} (h : handler P) (same : P -> P -> Prop) (p : P) (view : list byte)
  (key : list byte) (n : Z) (f : list byte -> V) : Prop :=
  (* the first binding of the key is found, and nothing after it is read *)
  (forall before v rest,
     view = kv_bytes before ++ key ++ v ++ rest ->
     kv_sized (zlen key) n before -> zlen v = n -> kv_unbound key before ->
     exists bs q, h _ (OpConsume (zlen (kv_bytes before ++ key ++ v))) p = (ROk bs, q) /\
     exists f0, forall fuel, (f0 <= fuel)%nat ->
     exists p', run h (p_kv_search fuel key n f) p = (ROk (Some (f v)), p') /\ same p' q) /\
  (* a window without the key is consumed *)
  (forall entries,
     view = kv_bytes entries -> kv_sized (zlen key) n entries -> kv_unbound key entries ->
     exists q, h _ (OpConsume (zlen view)) p = (ROk view, q) /\
     exists f0, forall fuel, (f0 <= fuel)%nat ->
     exists p', run h (p_kv_search fuel key n f) p = (ROk None, p') /\ same p' q) /\
  (* bytes that do not make up an entry are an error *)
  (forall entries tail,
     view = kv_bytes entries ++ tail -> kv_sized (zlen key) n entries -> kv_unbound key entries ->
     0 < zlen tail < zlen key + n ->
     exists e f0, forall fuel, (f0 <= fuel)%nat -> fst (run h (p_kv_search fuel key n f) p) = RErr e).

(** What [process_prefix] and [skip_dynamic] must do. *)
Definition prefix_spec {P} (m : mode) (h : handler P) (same : P -> P -> Prop) (cf : config) (p : P)
  (view : list byte) (s : len_pref) : Prop :=
  (forall payload rest,
     view = pref_format s (zlen payload) ++ payload ++ rest -> zlen payload <= pref_max s ->
     (* a window over the payload is opened *)
     (exists q0 q p', h _ (OpConsume (pref_len s)) p = (ROk (pref_format s (zlen payload)), q0) /\
        h _ (OpSetFit (zlen payload)) q0 = (ROk tt, q) /\
        run h (p_process_prefix cf s) p = (ROk (zlen payload), p') /\ same p' q) /\
     (* prefix and payload are passed over *)
     (exists q p', h _ (OpConsume (pref_len s + zlen payload)) p =
                     (ROk (pref_format s (zlen payload) ++ payload), q) /\
        run h (p_skip_dynamic cf s) p = (ROk (zlen payload), p') /\ same p' q)) /\
  (* a payload that is cut short *)
  (forall n short,
     view = pref_format s n ++ short -> zlen short < n <= pref_max s ->
     (exists e, fst (run h (p_skip_dynamic cf s) p) = RErr e) \/
     (m = Debug /\ fst (run h (p_skip_dynamic cf s) p) = RPanic)) /\
  (* a prefix that is cut short *)
  (zlen view < pref_len s -> exists e, fst (run h (p_skip_dynamic cf s) p) = RErr e).

(** Two MemoParsers at the same place: the log of what was consumed, which
    [skip_exactly] does not write, is left out. *)
Definition memo_same (p q : memo_parser) : Prop := mp_buf p = mp_buf q /\ mp_off p = mp_off q.
