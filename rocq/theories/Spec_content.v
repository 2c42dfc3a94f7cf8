(** * What the trie holds: the vocabulary of C130 and C131

    A pattern of several tokens puts a new level behind its first token, and
    drops whatever was there.  A literal may have been put behind a shorter one;
    the level behind that one is what is dropped then. *)
From Verif Require Import Base Utils Parsers Pattern Spec Spec_grammar TrieSpec Spec_panics.

(** When only the patterns [ps] are there, the literal [l] is looked for behind
    the literal [k], a beginning of it. *)
Definition goes_behind (ps : list pattern) (l k : str) : Prop :=
  exists L l', reaches (s_adds ps) l L l' /\ l = k ++ l' /\ k <> [].

(** Adding [q] drops [p], which had been added after the patterns [before]: it
    has the same tokens; or it goes on after its first token, and [p] is behind
    that token. *)
Definition drops (before : list pattern) (q p : pattern) : Prop :=
  (pat_tokens q <> [] /\ pat_tokens q = pat_tokens p) \/
  exists tok rest, pat_tokens q = tok :: rest /\ rest <> [] /\
    ((exists rest', pat_tokens p = tok :: rest' /\ rest' <> []) \/
     (exists l rest' k, pat_tokens p = Literal l :: rest' /\ tok = Literal k /\ goes_behind before l k)).

(** No two literals stand side by side; compiled patterns are like this (C69). *)
Definition apart_literals (p : pattern) : Prop := literals_apart (pat_tokens p).

(** [p] is added after [before], and nothing added later drops it. *)
Definition survives (ps before : list pattern) (p : pattern) : Prop :=
  exists after, ps = before ++ p :: after /\ pat_tokens p <> [] /\
    forall q, In q after -> ~ drops before q p.
