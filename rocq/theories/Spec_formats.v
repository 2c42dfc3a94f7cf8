(** * Two formats of pattern files, for C148

    README.md: "The patterns can be specified in a JSON or YAML serialized file.
    Their schema is the same, only the format is different." *)
From Verif Require Import Base Pattern Source Spec_source Deser.

(** A reader of texts agrees with a document: it gives the patterns of the
    document, or its error in the words of the format. *)
Definition reads (parse_uuid : str -> option uuid) (say : de_error -> str)
           (reader : str -> outcome (result (list pattern) str)) (text : str) (v : value) : Prop :=
  reader text = match de_pattern_file parse_uuid v with
                | Ret (Ok ps) => Ret (Ok ps)
                | Ret (Err e) => Ret (Err (say e))
                | Panic => Panic
                | OutOfFuel => OutOfFuel
                end.

(** The same result, up to the words of the two formats. *)
Inductive same_result {A : Type} (say_json say_yaml : de_error -> str)
  : outcome (result A build_error) -> outcome (result A build_error) -> Prop :=
| same_any r : same_result say_json say_yaml r r
| same_error e : same_result say_json say_yaml (Ret (Err (DeserJson (say_json e)))) (Ret (Err (DeserYaml (say_yaml e)))).
