(** * Matching in the trie, with the calls of the parsers recorded *)
From Verif Require Import Base Utils Parsers Pattern Trie Effort.

Section Parse.
  Variable parse_tree : tree -> str -> traced (option match_result).

  (** trie/node/mod.rs:202-212 *)
  Definition parse_then_push_kvpair (node : tree) (text : str) (kv : parse_result)
    : traced (option match_result) :=
    let+ r := parse_tree node text in
    match r with
    | Some result => quiet (Ret (Some (match_result_insert result kv)))
    | None => quiet (Ret None)
    end.

  (** trie/node/parser.rs:36-51, 87-102 *)
  Definition pnode_parse (n : pnode tree) (text : str) : traced (option match_result) :=
    let+ r := call (pn_parser n) text in
    match r with
    | Some value =>
        let+ text' := quiet (ltrunc text (length value)) in
        match pn_node n with
        | Some node => parse_then_push_kvpair node text' (pn_parser n, value)
        | None => quiet (push_last_kvpair n text' (pn_parser n, value))
        end
    | None => quiet (Ret None)
    end.

  (** trie/node/mod.rs:191-200 *)
  Fixpoint parse_with_parsers (pcs : list (pnode tree)) (text : str)
    : traced (option match_result) :=
    match pcs with
    | [] => quiet (Ret None)
    | i :: pcs' =>
        let+ r := pnode_parse i text in
        match r with
        | Some result => quiet (Ret (Some result))
        | None => parse_with_parsers pcs' text
        end
    end.
End Parse.

(** trie/node/mod.rs:161-178 *)
Fixpoint parse_fuel (fuel : nat) (t : tree) (text : str) : traced (option match_result) :=
  match fuel with
  | O => quiet OutOfFuel
  | S fuel' =>
      let+ r := quiet (lookup_literal t text) in
      match r with
      | inl (node, pos) =>
          let+ child := quiet (get_unwrap (literal_children node) pos) in
          quiet (Ret (create_match_result_if_child_is_leaf child))
      | inr (node, remaining_len) =>
          let+ d := quiet (usub (length text) remaining_len) in
          let+ text' := quiet (ltrunc text d) in
          parse_with_parsers (parse_fuel fuel') (parser_children node) text'
      end
  end.

(** trie/matcher.rs:8-10 *)
Definition parse (t : tree) (text : str) : traced (option match_result) :=
  parse_fuel (height t) t text.
