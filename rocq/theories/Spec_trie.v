(** * Specification vocabulary about tries *)
From Verif Require Import Base Utils Parsers Pattern Spec Trie.

(** [held t path p]: the trie has pattern [p] at the end of the path spelled by
    the literals and parsers of its nodes. *)
Inductive held : tree -> list step -> pattern -> Prop :=
| held_literal n lcs pcs p :
    In n lcs -> ln_has_value n = true -> ln_pattern n = Some p ->
    held (Tree lcs pcs) (map inl (ln_literal n)) p
| held_below_literal n c lcs pcs path p :
    In n lcs -> ln_node n = Some c -> held c path p ->
    held (Tree lcs pcs) (map inl (ln_literal n) ++ path) p
| held_parser n lcs pcs p :
    In n pcs -> pn_pattern n = Some p -> held (Tree lcs pcs) [inr (pn_parser n)] p
| held_below_parser n c lcs pcs path p :
    In n pcs -> pn_node n = Some c -> held c path p ->
    held (Tree lcs pcs) (inr (pn_parser n) :: path) p.
