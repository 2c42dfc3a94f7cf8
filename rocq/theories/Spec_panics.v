(** * When the trie panics: the vocabulary of C120 to C123

    Node literals are compared by their first byte, cut out with [&s[0..1]]
    (literal.rs:58), which panics when the first character is longer than one
    byte.  The conditions below are about the texts only: they speak of the
    levels of TrieSpec.v, which have no nodes to split. *)
From Verif Require Import Base Utils Parsers Pattern Spec TrieSpec.

(** [s] begins with a byte that is not ASCII. *)
Definition wide (s : str) : bool :=
  match s with b :: _ => N.leb 128 (Byte.to_N b) | [] => false end.

(** The places of a level where literals are compared: its beginning and
    wherever two of its keys part. *)
Definition fork (ks : list str) (w : str) : Prop :=
  w = [] \/ exists k1 k2, In k1 ks /\ In k2 ks /\ k1 <> k2 /\ blcp k1 k2 = w.

(** On the way along [l] there is such a place where something of [l] and of some
    key is left, and either of them goes on with a character that is not ASCII. *)
Definition stuck (ks : list str) (l : str) : Prop :=
  exists w r k s, fork ks w /\ l = w ++ r /\ r <> [] /\ In k ks /\ k = w ++ s /\ s <> [] /\
    (wide r = true \/ wide s = true).

(** Parting [l] from the key [k] makes a new place to compare [a] with [s]. *)
Definition torn (ks : list str) (l : str) : Prop :=
  exists k w a s, In k ks /\ w = blcp k l /\ w <> [] /\ l = w ++ a /\ k = w ++ s /\
    (wide a = true \/ (a <> [] /\ wide s = true)).

(** No key leads from this level to another one. *)
Definition no_route (K : list (str * entry)) (l : str) : Prop :=
  forall k po c, In (k, (po, Some c)) K -> routes (keys K) k l = false.

(** The literals decide nothing: the parsers of the level are tried. *)
Definition no_literal (K : list (str * entry)) (l : str) : Prop :=
  no_route K l /\ ~ In l (keys K) /\ blocked (keys K) l = false.

(** Following the routing keys: from [L] and [l] to the level [L'], where [l'] is
    left of [l]. *)
Inductive reaches : level -> str -> level -> str -> Prop :=
| reaches_here L l : reaches L l L l
| reaches_below K P k po c l L' l' :
    In (k, (po, Some c)) K -> routes (keys K) k l = true ->
    reaches c (skipn (length k) l) L' l' -> reaches (Level K P) l L' l'.

(** Matching [text] against [L] panics: among literals, in a parser that is
    tried, or in what follows a parser. *)
Inductive parse_panics : level -> str -> Prop :=
| pp_literal L text K P l :
    reaches L text (Level K P) l -> stuck (keys K) l -> parse_panics L text
| pp_parser L text K A q e B l :
    reaches L text (Level K (A ++ (q, e) :: B)) l -> no_literal K l ->
    try_parsers s_parse A l = None -> parser_parse q l = Panic -> parse_panics L text
| pp_below L text K A q po c B l v :
    reaches L text (Level K (A ++ (q, (po, Some c)) :: B)) l -> no_literal K l ->
    try_parsers s_parse A l = None -> capture q l = Some v ->
    parse_panics c (skipn (length v) l) -> parse_panics L text.

(** Adding the literal [l] to [L] panics. *)
Inductive literal_panics : level -> str -> Prop :=
| lp_stuck L text K P l :
    reaches L text (Level K P) l -> stuck (keys K) l -> literal_panics L text
| lp_torn L text K P l :
    reaches L text (Level K P) l -> no_route K l -> torn (keys K) l -> literal_panics L text.

(** Adding a pattern panics: only its first token matters. *)
Definition add_panics (L : level) (p : pattern) : Prop :=
  exists l rest, pat_tokens p = Literal l :: rest /\ literal_panics L l.

(** The literals of the patterns that consist of one. *)
Definition single_literals (ps : list pattern) : list str :=
  flat_map (fun p => match pat_tokens p with [Literal l] => [l] | _ => [] end) ps.
