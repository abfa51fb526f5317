(** Model of the texts of values: [Display] where a codec type has it, [LowerHex]
    of FixedBytes and the [Debug] texts of the wrappers.

    Texts as in ModelDisplay.v.  [num64] is [Display for f64]. *)
From Coq Require Import String.
From Verif Require Import Base ModelErrors ModelHex ModelUtf8 ModelInt ModelSeq ModelSchema ModelDisplay.

(** fixed.rs 483-487: [Display for FixedString]. *)
Definition fs_display (v : list byte) : list byte := utf8_lossy v.

(** fixed.rs 168-175: [LowerHex for FixedBytes], through [write_hex!]
    (hexstring.rs 94-105). *)
Definition fb_lower_hex (v : list byte) : list byte := hex_of_bytes v.

(** fixed.rs 422-455: [FromStr], [TryFrom<String>] and [TryFrom<&str>] of
    FixedString; a string is its UTF-8 bytes. *)
Definition fs_from_str (n : Z) (s : list byte) : res width_error (list byte) := fs_try_from_bytes n s.

(** [Display]: core for bool, the integers, f64 and String; zarith.rs 61-65 and
    191-195; fixed.rs 483-487; dynamic.rs 230-238; autobox.rs 210-214.  [None]:
    the type has no [Display]. *)
Fixpoint display (num64 : Z -> list byte) (v : val) (t : ty) : option (list byte) :=
  match t, v with
  | TBool, VBool b => Some (if b then txt "true" else txt "false")
  | TInt _, VInt z => Some (show_int z)
  | TF64, VInt z => Some (num64 z)
  | TN, VInt z | TZ, VInt z => Some (show_zarith z)
  | TString, VBytes bs => Some bs
  | TFixedString _, VBytes bs => Some (fs_display bs)
  | TDyn _ t, VWrap v | TBox t, VWrap v => display num64 v t
  | _, _ => None
  end.

(** dynamic.rs 275-277: [LenPref::suffix], [std::any::type_name] unless
    overridden, as it is for [u30] (343-345). *)
Definition pref_suffix (s : len_pref) : list byte :=
  match s with PrefU8 => txt "u8" | PrefU16 => txt "u16" | PrefU30 => txt "u30" end.

(** [Debug] of the wrappers: dynamic.rs 218-228 ([enc_len] may panic), dynamic.rs
    424-428 and autobox.rs 204-208.  [dbg] is [Debug] of the payload's type. *)
Definition dyn_debug (cf : config) (D : list def) (kf : nat) (dbg : val -> ty -> list byte)
    (s : len_pref) (v : val) (t : ty) : wres (list byte) :=
  rbind (enc_len cf D kf v t) (fun n =>
    ROk (txt "[" ++ show_int n ++ pref_suffix s ++ txt " bytes|" ++ dbg v t ++ txt "]")).
Definition vpad_debug (dbg : val -> ty -> list byte) (v : val) (t : ty) : list byte := dbg v t.
Definition box_debug (dbg : val -> ty -> list byte) (v : val) (t : ty) : list byte := dbg v t.
