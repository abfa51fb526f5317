(** Model of the type [HexString] (/repo/src/hexstring.rs 183-620): ways to make one,
    to change it and to look at it. *)
From Coq Require Import String.
From Verif Require Import Base ModelHex ModelTarget ModelDisplay.

(** Ways to make a [HexString] from bytes or text. *)
Inductive hs_maker :=
| MkNew                     (* new 262-264, Default (derived), Target::create 478-481 *)
| MkVec (bs : list byte)    (* from_vec 232-234, from_bytes 311-318, From<Vec<u8>> 508-515, 532 *)
| MkCopy (bs : list byte)   (* clone_from_bytes 282-289, From of slices, arrays and pointers to them 516-544 *)
| MkIter (bs : list byte)   (* FromIterator<u8> 412-418 *)
| MkIterRef (bs : list byte)(* FromIterator<&u8> 420-426 *)
| MkText (s : list byte).   (* from_hex 345-352, TryFrom 546-565, FromStr 589-595 *)

Definition hs_make (k : hs_maker) : res hex_error hex_string :=
  match k with
  | MkNew => ROk (mkHex [])
  | MkVec bs | MkCopy bs | MkIter bs => ROk (mkHex bs)
  | MkIterRef bs => ROk (mkHex ([] ++ bs))
  | MkText s => rbind (bytes_of_hex s) (fun bs => ROk (mkHex bs))
  end.

(** Changes to a [HexString]. *)
Inductive hs_op :=
| HsExtend (bs : list byte)         (* Extend<u8>, Extend<&u8> 428-438 *)
| HsWrite (bs : list byte)          (* io::Write::write 462-465; std: Vec takes all of it *)
| HsFlush                           (* io::Write::flush 467-469 *)
| HsAnticipate (n : Z)              (* Target 472-500 *)
| HsPushOne (b : byte)
| HsPushMany (bs : list byte)
| HsPushAll (bs : list byte)
| HsResolve
| HsSet (i : Z) (b : byte)          (* as_mut_bytes 208-210, as_mut 394-398: [h.as_mut_bytes()[i] = b] *)
| HsVec (f : list byte -> list byte). (* as_mut_vec 215-217: any change of the vector *)

(** The count an operation returns, if it returns one, and the new value. *)
Definition hs_step (op : hs_op) (h : hex_string) : res hex_error (option Z * hex_string) :=
  match op with
  | HsExtend bs => ROk (None, mkHex (hx_bytes h ++ bs))
  | HsWrite bs => ROk (Some (zlen bs), mkHex (hx_bytes h ++ bs))
  | HsFlush => ROk (None, h)
  | HsAnticipate n => ROk (None, tg_anticipate tg_hex n h)
  | HsPushOne b => let (n, h) := tg_push_one tg_hex b h in ROk (Some n, h)
  | HsPushMany bs => let (n, h) := tg_push_many tg_hex bs h in ROk (Some n, h)
  | HsPushAll bs => let (n, h) := tg_push_all tg_hex bs h in ROk (Some n, h)
  | HsResolve => ROk (None, tg_resolve tg_hex h)
  | HsSet i b =>
      if (0 <=? i) && (i <? zlen (hx_bytes h))
      then ROk (None, mkHex (ztake i (hx_bytes h) ++ [b] ++ zdrop (i + 1) (hx_bytes h))) else RPanic
  | HsVec f => ROk (None, mkHex (f (hx_bytes h)))
  end.

(** A history of changes. *)
Fixpoint hs_run (ops : list hs_op) (h : hex_string) : res hex_error (list (option Z) * hex_string) :=
  match ops with
  | [] => ROk ([], h)
  | op :: ops =>
      rbind (hs_step op h) (fun '(n, h) => rbind (hs_run ops h) (fun '(ns, h) => ROk (n :: ns, h)))
  end.

(** as_bytes 198-200, as_vec 222-224, into_inner 239-241, iter 383-385, as_ref
    388-392, into_iter 440-460, From<HexString> for Vec<u8> 502-506. *)
Definition hs_bytes (h : hex_string) : list byte := hx_bytes h.
(** 246-248: [is_empty]; 253-255: [len]. *)
Definition hs_is_empty (h : hex_string) : bool := match hx_bytes h with [] => true | _ => false end.
Definition hs_len (h : hex_string) : Z := zlen (hx_bytes h).
(** 335-337: [to_hex]; 406-410: [Display], without width or precision. *)
Definition hs_text (h : hex_string) : list byte := hex_of_bytes (hx_bytes h).
(** 400-404: [Debug]; core's [Debug] of a string of digits and letters puts it in
    quotes. *)
Definition hs_debug (h : hex_string) : list byte := txt "HexString(" ++ [34] ++ hs_text h ++ [34] ++ txt ")".
(** 360-365: [eq_hex]; 597-620: [==] with strings, on either side. *)
Definition hs_eq_text (h : hex_string) (s : list byte) : res hex_error bool := eq_hex_bytes s (hx_bytes h).

(** 186: derived [PartialEq], [Ord]: those of the vector, which core and alloc define
    by [memcmp] on the common length, then by length. *)
Fixpoint memcmp (n : nat) (a b : list byte) : comparison :=
  match n, a, b with
  | S n, x :: a, y :: b => match Z.compare x y with Eq => memcmp n a b | c => c end
  | _, _, _ => Eq
  end.
Definition slice_cmp (a b : list byte) : comparison :=
  match memcmp (Nat.min (List.length a) (List.length b)) a b with
  | Eq => Z.compare (zlen a) (zlen b)
  | c => c
  end.
Definition hs_cmp (h h' : hex_string) : comparison := slice_cmp (hx_bytes h) (hx_bytes h').
Definition hs_eq (h h' : hex_string) : bool :=
  (zlen (hx_bytes h) =? zlen (hx_bytes h')) &&
  match memcmp (List.length (hx_bytes h)) (hx_bytes h) (hx_bytes h') with Eq => true | _ => false end.
