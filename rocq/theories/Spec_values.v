(** * What values look like, for C170 *)
From Verif Require Import Base Parsers Pattern Spec Spec_grammar.

Definition looks_right (q : parser) (v : str) : Prop :=
  match q with
  | PSet s => v <> [] /\ Forall (fun b => In b (sp_character_set s)) v /\
      above_min (sp_min_length s) (length v) /\ below_max (sp_max_length s) (length v)
  | PInt s => v <> [] /\ Forall digit v /\
      above_min (sp_min_length s) (length v) /\ below_max (sp_max_length s) (length v)
  | PGreedy g => forall e, gp_end_string g = Some e -> ~ occurs_in e v
  end.

(** Every value belongs to a parser of the pattern, is a part of the message and
    looks as the parser says. *)
Definition values_right (p : pattern) (text : str) (m : list (str * str)) : Prop :=
  forall key v, maps_to m key v ->
    exists q, In (Parser q) (pat_tokens p) /\ name_of q = Some key /\ occurs_in v text /\ looks_right q v.
