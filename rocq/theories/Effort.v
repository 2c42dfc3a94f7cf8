(** * Matching, with the calls of the parsers recorded

    TrieCalls.v and TableCalls.v are the two matchers again, line by line,
    returning in addition the list of the calls of [Parser::parse]: the parser
    and the text it is called on.  The list is kept when the call panics.  C126
    shows that leaving the list out gives the functions of Trie.v and
    SuffixArray.v back. *)
From Verif Require Import Base Utils Parsers Pattern.

Definition calls := list (parser * str).
Definition traced (A : Type) : Type := (calls * outcome A)%type.

Definition quiet {A : Type} (m : outcome A) : traced A := ([], m).

Definition tbind {A B : Type} (m : traced A) (k : A -> traced B) : traced B :=
  match snd m with
  | Ret a => (fst m ++ fst (k a), snd (k a))
  | Panic => (fst m, Panic)
  | OutOfFuel => (fst m, OutOfFuel)
  end.

Notation "'let+' x ':=' m 'in' k" := (tbind m (fun x => k))
  (at level 200, x pattern, m at level 100, k at level 200, right associativity).

(** The call of a parser. *)
Definition call (q : parser) (text : str) : traced (option str) :=
  ([(q, text)], parser_parse q text).
