(** * Specification of the README's syntax of parsers

    README.md 90-106: %{TYPE(required, optional="value", optional=value):name}, with
    the parameter list and the name left out if not needed. *)
From Verif Require Import Base Spec_grammar.

(** An optional argument: its value bare or in double quotes. *)
Inductive readme_argument : str -> bound -> Prop :=
| readme_bare t b : bound_text t b -> readme_argument t b
| readme_quoted_min d v : number_text d v -> readme_argument ($"min_len=""" ++ d ++ $"""") (MinLen v)
| readme_quoted_max d v : number_text d v -> readme_argument ($"max_len=""" ++ d ++ $"""") (MaxLen v).
Inductive readme_arguments : str -> list bound -> Prop :=
| readme_one t b : readme_argument t b -> readme_arguments t [b]
| readme_more t b c u bs : readme_argument t b -> comma_text c -> readme_arguments u bs ->
    readme_arguments (t ++ c ++ u) (b :: bs).

(** The argument list of INT: no arguments or optional ones. *)
Inductive int_arguments : str -> list bound -> Prop :=
| int_arguments_none : int_arguments [] []
| int_arguments_some t bs : bounds_text t bs -> int_arguments t bs.

(** The argument list of SET: the characters in double quotes; then nothing, or a
    comma, spaces, and bounds, which may be missing even after the comma. *)
Inductive set_arguments : str -> str -> list bound -> Prop :=
| set_arguments_alone chars : chars <> [] -> ~ In x22 chars ->
    set_arguments ($"""" ++ chars ++ $"""") chars []
| set_arguments_comma chars c : chars <> [] -> ~ In x22 chars -> comma_text c ->
    set_arguments ($"""" ++ chars ++ $"""" ++ c) chars []
| set_arguments_more chars c t bs : chars <> [] -> ~ In x22 chars -> comma_text c -> bounds_text t bs ->
    set_arguments ($"""" ++ chars ++ $"""" ++ c ++ t) chars bs.
