(** Model of the helper functions the enum macros generate (/repo/src/adt.rs),
    of [TagValidator], [TagError], [TagType] (/repo/src/parse/error.rs) and of
    [take_tagword] (/repo/src/parse/mod.rs) over any validator.

    An enum declaration is its list of discriminants, in order of declaration,
    and the list of the variants' names; a variant is its position.  The macros
    expand to matches whose first fitting arm is taken. *)
From Verif Require Import Base ModelErrors ModelParser ModelInt ModelSchema.
From Coq Require Import String.

(** ------------------------------------------------------------------ *)
(** * Tag errors and validators *)

(** parse/error.rs 689-693: [struct TagError].  The type name [for_type] is
    omitted: it only occurs in messages. *)
Record tag_error := mkTagError { te_actual : Z; te_expected : option (list Z) }.

(** parse/error.rs 486-508: [TagType::promote], for the width of [k]. *)
Definition promote (k : int_kind) (e : tag_error) : parse_error :=
  EToken (InvalidTag (tag_width_of k) (te_actual e) (te_expected e)).

(** parse/error.rs 706-718, 722-731: [TagError::new], [with_type]. *)
Definition te_new (actual : Z) (expected : option (list Z)) : tag_error := mkTagError actual expected.

(** parse/error.rs 734-742: [From<T> for TagError<T>]. *)
Definition te_from (actual : Z) : tag_error := mkTagError actual None.

(** parse/error.rs 531-558: [trait TagValidator]. *)
Record validator := mkValidator {
  tv_is_valid : Z -> bool;
  tv_has_valid : bool;
  tv_into_valid : list Z
}.

(** parse/error.rs 560-577: [contains_u8] and the others. *)
Definition contains (needle : Z) (haystack : list Z) : bool := existsb (Z.eqb needle) haystack.

(** parse/error.rs 580-605: [[T; N]], [&[T; N]]; the length is a constant. *)
Definition tv_array (tags : list Z) : validator :=
  mkValidator (fun raw => contains raw tags) (0 <? zlen tags) tags.
(** parse/error.rs 607-647: [&[T]], [Vec<T>], [&Vec<T>]. *)
Definition tv_slice (tags : list Z) : validator :=
  mkValidator (fun raw => contains raw tags) (match tags with [] => false | _ => true end) tags.
(** parse/error.rs 649-661: [HashSet<T>].  The set is given by its elements in
    the order in which [into_iter] yields them; the order is not specified and
    no theorem depends on it. *)
Definition tv_hashset (order : list Z) : validator :=
  mkValidator (fun raw => contains raw order) (match order with [] => false | _ => true end) order.

Local Open Scope prog_scope.
(** parse/mod.rs 310-328: [take_tagword]. *)
Definition p_take_tagword_by (k : int_kind) (v : validator) : prog Z :=
  actual <- p_int k ;;
  if tv_is_valid v actual then PRet actual
  else if tv_has_valid v then PErr (promote k (te_new actual (Some (tv_into_valid v))))
  else PErr (EInternal NoValidTags).

(** ------------------------------------------------------------------ *)
(** * cstyle! and data! *)

(** adt.rs 55-59, 286-290: [get_tagval] of the variant at position [ix]. *)
Definition get_tagval (tags : list Z) (ix : nat) : option Z := nth_error tags ix.

(** adt.rs 61-63, 292-294: [iter_tags]. *)
Definition iter_tags (tags : list Z) : list Z := tags.

(** adt.rs 65-70, 296-301: [is_valid_tag]. *)
Definition is_valid_tag (tags : list Z) (val : Z) : bool :=
  match find_tag val tags with Some _ => true | None => false end.

(** adt.rs 72-77, 303-308: [get_name]. *)
Definition get_name (tags : list Z) (names : list string) (val : Z) : option string :=
  match find_tag val tags with Some ix => nth_error names ix | None => None end.

(** adt.rs 80-89: [TryFrom<$backer>] (cstyle! only). *)
Definition try_from_tag (tags : list Z) (val : Z) : res tag_error nat :=
  match find_tag val tags with
  | Some ix => ROk ix
  | None => RErr (te_new val (Some tags))
  end.
