(** * Specification vocabulary about suffix tables *)
From Verif Require Import Base Utils Parsers Pattern Spec SuffixArray.

(** [theld t path p]: the table has pattern [p] at the end of the tokens
    [path]. *)
Inductive theld : table -> list token -> pattern -> Prop :=
| th_literal e les pes p :
    In e les -> le_pattern e = Some p -> theld (Table les pes) [Literal (le_literal e)] p
| th_below_literal e c les pes path p :
    In e les -> le_child e = Some c -> theld c path p ->
    theld (Table les pes) (Literal (le_literal e) :: path) p
| th_parser e les pes p :
    In e pes -> pe_pattern e = Some p -> theld (Table les pes) [Parser (pe_parser e)] p
| th_below_parser e c les pes path p :
    In e pes -> pe_child e = Some c -> theld c path p ->
    theld (Table les pes) (Parser (pe_parser e) :: path) p.

(** Adding a pattern with tokens [new] drops what is stored under [old]: same
    first token, and both or neither consist of that token only. *)
Definition displaces (new old : list token) : Prop :=
  exists tok r r', new = tok :: r /\ old = tok :: r' /\ (r = [] <-> r' = []).

(** What a suffix table matches: a last literal matches every beginning of it;
    any other literal matches the longest beginning of it that is there, unless
    this is the rest of the text. *)
Inductive table_walk : list token -> str -> list (parser * str) -> Prop :=
| bw_literal_last l text : prefix_of text l -> table_walk [Literal l] text []
| bw_parser_last p v : captures p v v -> table_walk [Parser p] v [(p, v)]
| bw_literal l toks w text caps :
    toks <> [] -> longest_common_chars l (w ++ text) w -> text <> [] ->
    table_walk toks text caps -> table_walk (Literal l :: toks) (w ++ text) caps
| bw_parser p toks v text caps :
    toks <> [] -> captures p (v ++ text) v ->
    table_walk toks text caps -> table_walk (Parser p :: toks) (v ++ text) ((p, v) :: caps).

(** The pattern starts with a literal. *)
Definition literal_first (p : pattern) : bool :=
  match pat_tokens p with Literal _ :: _ => true | _ => false end.

(** The pattern starts with the literal [l]. *)
Definition starts_withb (l : str) (p : pattern) : bool :=
  match pat_tokens p with Literal l' :: _ => str_eqb l' l | _ => false end.

(** No literal that a pattern of [ps] starts with shares more characters with
    [text] than [l] does. *)
Definition shares_most (ps : list pattern) (text l : str) : Prop :=
  exists w, longest_common_chars l text w /\
    forall p l' w', In p ps -> starts_with p l' -> longest_common_chars l' text w' ->
      length w' <= length w.

(** [part_of c t]: [c] is [t] or one of the tables below it. *)
Inductive part_of : table -> table -> Prop :=
| part_self t : part_of t t
| part_literal e c x les pes :
    In e les -> le_child e = Some c -> part_of x c -> part_of x (Table les pes)
| part_parser e c x les pes :
    In e pes -> pe_child e = Some c -> part_of x c -> part_of x (Table les pes).
