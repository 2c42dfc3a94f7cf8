(** * Sizes: the vocabulary of C126 and C127 *)
From Coq Require Import List.
From Verif Require Import Base Utils Parsers Pattern TrieSpec Effort.
From Verif Require Trie SuffixArray.

(** Literal and parser tokens of patterns. *)
Definition literal_tokens (ps : list pattern) : nat :=
  length (filter (fun tok => match tok with Literal _ => true | Parser _ => false end)
                 (flat_map pat_tokens ps)).
Definition parser_tokens (ps : list pattern) : nat :=
  length (filter (fun tok => match tok with Literal _ => false | Parser _ => true end)
                 (flat_map pat_tokens ps)).

(** Patterns beginning with a literal. *)
Definition literal_starts (ps : list pattern) : nat :=
  length (filter (fun p => match pat_tokens p with Literal _ :: _ => true | _ => false end) ps).

(** How often [q] occurs in the patterns. *)
Definition parser_uses (q : parser) (ps : list pattern) : nat :=
  length (filter (fun tok => match tok with
                             | Literal _ => false
                             | Parser q' => if parser_eq_dec q' q then true else false
                             end) (flat_map pat_tokens ps)).

(** How often [q] is called. *)
Definition parser_calls (q : parser) (cs : calls) : nat :=
  length (filter (fun c => if parser_eq_dec (fst c) q then true else false) cs).

(** A node counts [a] when it holds a literal and [b q] when it holds the parser
    [q]. *)
Fixpoint trie_weight (a : nat) (b : parser -> nat) (t : Trie.tree) : nat :=
  match t with
  | Trie.Tree lcs pcs =>
      list_sum (map (fun n => a + match Trie.ln_node n with
                                  | Some c => trie_weight a b c | None => 0 end) lcs)
      + list_sum (map (fun n => b (Trie.pn_parser n) + match Trie.pn_node n with
                                    | Some c => trie_weight a b c | None => 0 end) pcs)
  end.

Fixpoint table_weight (a : nat) (b : parser -> nat) (t : SuffixArray.table) : nat :=
  match t with
  | SuffixArray.Table les pes =>
      list_sum (map (fun e => a + match SuffixArray.le_child e with
                                  | Some c => table_weight a b c | None => 0 end) les)
      + list_sum (map (fun e => b (SuffixArray.pe_parser e) + match SuffixArray.pe_child e with
                                    | Some c => table_weight a b c | None => 0 end) pes)
  end.

(** Nodes with literals and nodes with parsers. *)
Definition trie_literals := trie_weight 1 (fun _ => 0).
Definition trie_parsers := trie_weight 0 (fun _ => 1).
Definition table_literals := table_weight 1 (fun _ => 0).
Definition table_parsers := table_weight 0 (fun _ => 1).
