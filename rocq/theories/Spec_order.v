(** * Patterns whose order does not matter: the vocabulary of C128 and C129 *)
From Verif Require Import Base Parsers Pattern Spec.

(** Of two patterns with the same first token one ends there, the other goes on. *)
Definition one_ends (rest rest' : list token) : Prop :=
  (rest = [] /\ rest' <> []) \/ (rest <> [] /\ rest' = []).

(** In the trie: one pattern begins with a literal and the other with a parser, or
    with a literal of which neither is a prefix of the other, or one is the common
    first token of both. *)
Definition independent (p q : pattern) : Prop :=
  match pat_tokens p, pat_tokens q with
  | Literal l :: rest, Literal m :: rest' => (l <> m /\ incomparable l m) \/ (l = m /\ one_ends rest rest')
  | Parser x :: rest, Parser y :: rest' => x = y /\ one_ends rest rest'
  | _, _ => True
  end.

(** In the suffix table literals may be prefixes of each other. *)
Definition table_independent (p q : pattern) : Prop :=
  match pat_tokens p, pat_tokens q with
  | Literal l :: rest, Literal m :: rest' => l <> m \/ one_ends rest rest'
  | Parser x :: rest, Parser y :: rest' => x = y /\ one_ends rest rest'
  | _, _ => True
  end.

(** [qs] arises from [ps] by exchanging neighbours related by [R]. *)
Inductive reordered (R : pattern -> pattern -> Prop) : list pattern -> list pattern -> Prop :=
| reordered_same ps : reordered R ps ps
| reordered_swap A p q B qs :
    R p q -> reordered R (A ++ q :: p :: B) qs -> reordered R (A ++ p :: q :: B) qs.
