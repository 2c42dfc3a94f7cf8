(** * When the suffix table panics: the vocabulary of C125 *)
From Verif Require Import Base Utils Parsers Pattern Spec TrieSpec TableSpec.

(** What the parser is to take from [text] ends inside a character. *)
Definition cuts_character (q : parser) (text : str) : Prop :=
  exists w, captures q text w /\ ~ utf8 w.

(** Matching [text] against the level [L] of TableSpec.v panics: below the nearest
    literal, or, where there are no literals, in a parser that is tried or in what
    follows one. *)
Inductive table_panics : level -> str -> Prop :=
| tp_literal K P text k po c :
    nearest K text = Some (k, (po, Some c)) -> common_prefix_len k text <> length text ->
    table_panics c (skipn (common_prefix_len k text) text) -> table_panics (Level K P) text
| tp_parser A q e B text :
    try_parsers t_parse A text = None -> cuts_character q text ->
    table_panics (Level [] (A ++ (q, e) :: B)) text
| tp_below A q po c B text v :
    try_parsers t_parse A text = None -> captures q text v -> utf8 v ->
    table_panics c (skipn (length v) text) ->
    table_panics (Level [] (A ++ (q, (po, Some c)) :: B)) text.
