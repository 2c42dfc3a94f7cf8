(** * Depth of the recursion: the vocabulary of C167 *)
From Coq Require Import List.
From Verif Require Import Base Parsers Pattern.
From Verif Require Import Trie.

Definition is_parser_token (tok : token) : bool :=
  match tok with Literal _ => false | Parser _ => true end.

(** The parsers of a pattern that stand before something else, counted with
    repetitions. *)
Definition parsers_before_end (p : pattern) : nat :=
  length (filter is_parser_token (removelast (pat_tokens p))).

Definition tokens_of (p : pattern) : nat := length (pat_tokens p).

(** [u] is [t] or one of the tries below it. *)
Inductive within : tree -> tree -> Prop :=
| within_self t : within t t
| within_literal n c u lcs pcs : In n lcs -> ln_node n = Some c -> within u c -> within u (Tree lcs pcs)
| within_parser n c u lcs pcs : In n pcs -> pn_node n = Some c -> within u c -> within u (Tree lcs pcs).

(** Looking up [l] in [t] goes down at least [k] times (mod.rs:69-88). *)
Inductive goes_down : tree -> str -> nat -> Prop :=
| down_stop t l : goes_down t l 0
| down_more t l pos rest n c k :
    search t l = Ret (GoDown pos rest) -> nth_error (literal_children t) pos = Some n -> ln_node n = Some c ->
    goes_down c rest k -> goes_down t l (S k).
