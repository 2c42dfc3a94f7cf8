(** * Collections of separate patterns (C142) *)
From Verif Require Import Base Utils Parsers Pattern Spec Spec_source Spec_canon.

(** Every pattern begins with a literal, and none of these is the beginning of
    another one. *)
Definition separate (ps : list pattern) : Prop :=
  (forall p, In p ps -> exists l, starts_with p l) /\
  ordered_pairs (fun p q => forall l m r, starts_with p l -> starts_with q m -> m <> l ++ r /\ l <> m ++ r) ps.

(** The pattern, alone, matches the text and captures [caps]; nothing else in
    [ps] does. *)
Definition classified (ps : list pattern) (text : str) (p : pattern) (caps : list (parser * str)) : Prop :=
  In p ps /\ trie_walk (pat_tokens p) text caps /\
  forall p' caps', In p' ps -> trie_walk (pat_tokens p') text caps' -> p' = p /\ caps' = caps.

(** The test message describes the pattern: the pattern, alone, matches it, has
    the expected tags and captures or brings along the expected values. *)
Definition describes (t : test_message) (p : pattern) : Prop :=
  exists caps, trie_walk (pat_tokens p) (tm_message t) caps /\
    has_tags (tm_tags t) (pat_tags p) /\
    forall k v, In (k, v) (tm_values t) ->
      named caps k v \/ ((forall w, ~ named caps k w) /\ static_value p k v).
