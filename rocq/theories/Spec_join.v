(** * One pattern behind another: the vocabulary of C168 *)
From Verif Require Import Base Parsers Pattern Spec.

(** Every GREEDY of the pattern has an end. *)
Definition closed (p : pattern) : Prop :=
  forall g, In (Parser (PGreedy g)) (pat_tokens p) -> gp_end_string g <> None.

(** No SET or INT of the pattern can take the first character of [text]. *)
Definition stops_at (p : pattern) (text : str) : Prop :=
  exists b rest, text = b :: rest /\
    forall s, In (Parser (PSet s)) (pat_tokens p) \/ In (Parser (PInt s)) (pat_tokens p) -> ~ In b (sp_character_set s).

(** The values of both results; where both have one the first counts. *)
Definition both_values (r r' joined : match_result) : Prop :=
  forall k v, maps_to (mr_values joined) k v <->
    maps_to (mr_values r) k v \/ (maps_to (mr_values r') k v /\ forall w, ~ maps_to (mr_values r) k w).
