(** * Statements about test messages that stay valid in the suffix table (C138) *)
From Verif Require Import Base Utils Parsers Pattern Spec Spec_table.

(** Next to [p], the pattern [q] does not matter for [text]: [p] begins with a
    literal, and [q] begins with none or with one that shares fewer characters
    with [text]. *)
Definition farther (text : str) (p q : pattern) : Prop :=
  exists l w, starts_with p l /\ longest_common_chars l text w /\
    ((forall l', ~ starts_with q l') \/
     exists l' w', starts_with q l' /\ longest_common_chars l' text w' /\ length w' < length w).

(** [q] begins with a parser that no pattern of [ps] begins with. *)
Definition new_parser_first (ps : list pattern) (q : pattern) : Prop :=
  exists x rest, pat_tokens q = Parser x :: rest /\
    forall p rest', In p ps -> pat_tokens p <> Parser x :: rest'.

(** Some pattern of [ps] makes [q] not matter for [text]. *)
Definition outdone (text : str) (ps : list pattern) (q : pattern) : Prop :=
  exists p, In p ps /\ farther text p q.

(** [ps'] is [ps] without some of the patterns of the kind [D]. *)
Inductive without (D : pattern -> Prop) : list pattern -> list pattern -> Prop :=
| without_nil : without D [] []
| without_keep p ps ps' : without D ps ps' -> without D (p :: ps) (p :: ps')
| without_drop p ps ps' : D p -> without D ps ps' -> without D (p :: ps) ps'.
