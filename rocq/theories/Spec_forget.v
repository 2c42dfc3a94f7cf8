(** * Statements about patterns that later ones replaced (C139) *)
From Verif Require Import Base Utils Parsers Pattern Spec Spec_table.

(** Some pattern of [ps] begins with the parser [x]. *)
Definition known_parser (ps : list pattern) (x : parser) : Prop :=
  exists p rest, In p ps /\ pat_tokens p = Parser x :: rest.

(** [p], added after [before], leaves no trace that [z], added later, could show:
    of two parsers at the beginning one has its place already. *)
Definition no_trace_in_table (before : list pattern) (p z : pattern) : Prop :=
  match pat_tokens p, pat_tokens z with
  | Parser x :: _, Parser y :: _ => x = y \/ known_parser before x \/ known_parser before y
  | _, _ => True
  end.

(** In the trie a literal must also not go behind the other one. *)
Definition no_trace_in_trie (before : list pattern) (p z : pattern) : Prop :=
  match pat_tokens p, pat_tokens z with
  | Literal l :: _, Literal m :: _ => l = m \/ incomparable l m
  | _, _ => no_trace_in_table before p z
  end.

(** [p], the pattern after [before], is replaced by the one after [between] and
    leaves no trace in the ones between. *)
Definition forgotten_in_table (before : list pattern) (p : pattern) (between : list pattern) (q : pattern) : Prop :=
  displaces (pat_tokens q) (pat_tokens p) /\
  forall b z b', between = b ++ z :: b' -> no_trace_in_table (before ++ b) p z.
Definition forgotten_in_trie (before : list pattern) (p : pattern) (between : list pattern) (q : pattern) : Prop :=
  displaces (pat_tokens q) (pat_tokens p) /\
  forall b z b', between = b ++ z :: b' -> no_trace_in_trie (before ++ b) p z.
