(** What decoders made of decoders written elsewhere accept. *)
From Verif Require Import Base ModelErrors ModelParser ModelInt ModelTarget ModelSchema ModelOpen SpecParser SpecCodec SpecOpen.

(** A decoder that keeps to the rules: it passes on every error of the parser
    (except that it may react to the end of the input met by consume_byte), asks
    for no more than [isize::MAX] bytes at once, closes the windows it has opened,
    and no others. *)
Record tidy {A} (pg : prog A) : Prop := {
  td_errors : try_bytes_only pg;
  td_windows : forall input, bytes_ok input -> zlen input <= isize_max ->
    match run contract_h pg (w_init input) with
    | (ROk _, w) => w_outer w = []
    | (RUB, _) => False
    | _ => True
    end
}.

(** A fresh parser of the library over [input] decodes the value [v] and stands
    before [rest]. *)
Definition takes (w : which_parser) (cf : config) {A} (c : codec A) (f : nat) (input : list byte) (v : A)
  (rest : list byte) : Prop :=
  run_with w (cf_mode cf) (then_rest (c_parse c f)) input = ROk (v, rest).

(** One value after the other, none of them at the end of the input. *)
Inductive takes_all (w : which_parser) (cf : config) {A} (c : codec A) (f : nat) : list byte -> list A -> list byte -> Prop :=
| TA_nil : forall input, takes_all w cf c f input [] input
| TA_cons : forall input v mid vs rest, input <> [] -> takes w cf c f input v mid -> takes_all w cf c f mid vs rest ->
    takes_all w cf c f input (v :: vs) rest.

(** One field after the other. *)
Fixpoint takes_fields (w : which_parser) (cf : config) (f : nat) {B} (fs : fields B) : list byte -> B -> list byte -> Prop :=
  match fs in fields B return list byte -> B -> list byte -> Prop with
  | FNil => fun input _ rest => rest = input
  | FCons c fs => fun input v rest =>
      exists mid, takes w cf c f input (fst v) mid /\ takes_fields w cf f fs mid (snd v) rest
  end.
Fixpoint tidy_fields {B} (fs : fields B) (f : nat) : Prop :=
  match fs with
  | FNil => True
  | FCons c fs => tidy (c_parse c f) /\ tidy_fields fs f
  end.
