(** Specification of the type [HexString]: it is a list of bytes. *)
From Verif Require Import Base ModelHexString SpecHex.

(** What making one should give: the bytes given, or those the text denotes. *)
Inductive makes : hs_maker -> list byte -> Prop :=
| makes_new : makes MkNew []
| makes_vec bs : makes (MkVec bs) bs
| makes_copy bs : makes (MkCopy bs) bs
| makes_iter bs : makes (MkIter bs) bs
| makes_iter_ref bs : makes (MkIterRef bs) bs
| makes_text s bs : hex_denotes s bs -> makes (MkText s) bs.

(** What a change should do to the bytes held, and the count it should return. *)
Inductive changes : hs_op -> list byte -> option Z -> list byte -> Prop :=
| ch_extend bs l : changes (HsExtend bs) l None (l ++ bs)
| ch_write bs l : changes (HsWrite bs) l (Some (zlen bs)) (l ++ bs)
| ch_flush l : changes HsFlush l None l
| ch_anticipate n l : changes (HsAnticipate n) l None l
| ch_push_one b l : changes (HsPushOne b) l (Some 1) (l ++ [b])
| ch_push_many bs l : changes (HsPushMany bs) l (Some (zlen bs)) (l ++ bs)
| ch_push_all bs l : changes (HsPushAll bs) l (Some (zlen bs)) (l ++ bs)
| ch_resolve l : changes HsResolve l None l
| ch_set i b pre x post : zlen pre = i -> changes (HsSet i b) (pre ++ x :: post) None (pre ++ b :: post)
| ch_vec f l : changes (HsVec f) l None (f l).

Inductive change_all : list hs_op -> list byte -> list (option Z) -> list byte -> Prop :=
| all_nil l : change_all [] l [] l
| all_cons op ops l n l' ns l'' : changes op l n l' -> change_all ops l' ns l'' -> change_all (op :: ops) l (n :: ns) l''.

(** Changes that only add bytes at the end, and the bytes added. *)
Inductive appends : hs_op -> list byte -> Prop :=
| ap_extend bs : appends (HsExtend bs) bs
| ap_write bs : appends (HsWrite bs) bs
| ap_push_one b : appends (HsPushOne b) [b]
| ap_push_many bs : appends (HsPushMany bs) bs
| ap_push_all bs : appends (HsPushAll bs) bs.

(** Dictionary order. *)
Definition before (a b : list Z) : Prop :=
  (exists y t, b = a ++ y :: t) \/
  (exists p x s y t, a = p ++ x :: s /\ b = p ++ y :: t /\ x < y).
