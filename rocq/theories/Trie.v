(** * Model of src/matcher/trie/ *)
From Verif Require Import Base Utils Parsers Pattern.

(** ** Data *)

(** src/matcher/trie/node/literal.rs:9-15.  [T] is the type of sub-tries. *)
Record lnode (T : Type) := LNode {
  ln_literal : str;
  ln_has_value : bool;
  ln_pattern : option pattern;
  ln_node : option T
}.
Arguments LNode {T}.
Arguments ln_literal {T}.
Arguments ln_has_value {T}.
Arguments ln_pattern {T}.
Arguments ln_node {T}.

(** src/matcher/trie/node/parser.rs:8-13 *)
Record pnode (T : Type) := PNode {
  pn_parser : parser;
  pn_pattern : option pattern;
  pn_node : option T
}.
Arguments PNode {T}.
Arguments pn_parser {T}.
Arguments pn_pattern {T}.
Arguments pn_node {T}.

(** src/matcher/trie/node/mod.rs:16-20 *)
Inductive tree :=
| Tree (lcs : list (lnode tree)) (pcs : list (pnode tree)).

Definition literal_children (t : tree) : list (lnode tree) :=
  match t with Tree l _ => l end.
Definition parser_children (t : tree) : list (pnode tree) :=
  match t with Tree _ l => l end.

(** mod.rs:22-26 *)
Inductive literal_lookup_result :=
| Found (pos : nat)
| NotFound
| GoDown (pos : nat) (rest : str).

(** mod.rs:288-295, 298-303 *)
Definition tree_new : tree := Tree sv_new [].

(** ** LiteralNode: src/matcher/trie/node/literal.rs *)

(** literal.rs:18-25 *)
Definition lnode_new (literal : str) : lnode tree :=
  {| ln_literal := literal; ln_has_value := false; ln_pattern := None; ln_node := None |}.

(** literal.rs:35-37, 39-41 (and [set_child] 117-119), 108-110 *)
Definition lnode_set_has_value (n : lnode tree) (b : bool) : lnode tree :=
  {| ln_literal := ln_literal n; ln_has_value := b; ln_pattern := ln_pattern n;
     ln_node := ln_node n |}.
Definition lnode_set_node (n : lnode tree) (c : option tree) : lnode tree :=
  {| ln_literal := ln_literal n; ln_has_value := ln_has_value n;
     ln_pattern := ln_pattern n; ln_node := c |}.
Definition lnode_set_pattern (n : lnode tree) (p : option pattern) : lnode tree :=
  {| ln_literal := ln_literal n; ln_has_value := ln_has_value n; ln_pattern := p;
     ln_node := ln_node n |}.

(** literal.rs:51-61, on the node's literal [self].  [self[0..1]] panics when the
    first character is longer than one byte. *)
Definition cmp_str (self other : str) : outcome comparison :=
  if is_empty self && is_empty other then Ret Eq
  else if is_empty self then Ret Lt
  else if is_empty other then Ret Gt
  else
    let* a := slice self 0 1 in
    let* b := slice other 0 1 in
    Ret (str_cmp a b).

(** literal.rs:98-100, 140-144: [Ord] of LiteralNode *)
Definition lnode_cmp (self other : lnode tree) : outcome comparison :=
  cmp_str (ln_literal self) (ln_literal other).

(** literal.rs:94-96 *)
Definition lnode_is_leaf (n : lnode tree) : bool :=
  match ln_node n with None => true | Some _ => false end.

(** mod.rs:33-35 *)
Definition add_literal_node (t : tree) (n : lnode tree) : outcome tree :=
  let* lcs := sv_push lnode_cmp (literal_children t) n in
  Ret (Tree lcs (parser_children t)).

(** literal.rs:63-92 *)
Definition split (self : lnode tree) (common_prefix_len : nat) (literal : str)
  : outcome (lnode tree) :=
  let* d := usub (length literal) common_prefix_len in
  let* common_prefix := rtrunc literal d in
  let new_node := tree_new in
  let* left_branch := ltrunc literal common_prefix_len in
  let left_node := lnode_new left_branch in
  let* right_branch := ltrunc (ln_literal self) common_prefix_len in
  let right_node := lnode_new right_branch in
  let left_node := lnode_set_has_value left_node true in
  let right_node := lnode_set_node right_node (ln_node self) in
  let right_node := lnode_set_has_value right_node (ln_has_value self) in
  let right_node := match ln_pattern self with
                    | Some p => lnode_set_pattern right_node (Some p)
                    | None => right_node
                    end in
  let* new_node := add_literal_node new_node left_node in
  let* new_node := add_literal_node new_node right_node in
  Ret {| ln_literal := common_prefix; ln_has_value := false;
         ln_pattern := None; ln_node := Some new_node |}.

(** ** Literal lookup: src/matcher/trie/node/mod.rs *)

(** mod.rs:121-133; [n] is the child at [pos]. *)
Definition search_leaf (n : lnode tree) (literal : str) (pos : nat)
  : literal_lookup_result :=
  if str_eqb (ln_literal n) literal then Found pos else NotFound.

(** mod.rs:135-159.  The [unreachable!()] needs a leaf and is kept as [Panic]. *)
Definition search_not_leaf (n : lnode tree) (literal : str) (pos : nat)
  : outcome literal_lookup_result :=
  let cpl := common_prefix_len (ln_literal n) literal in
  if Nat.ltb cpl (length (ln_literal n)) then Ret NotFound
  else if ln_has_value n && (is_empty literal || Nat.eqb cpl (length literal))
  then Ret (Found pos)
  else match ln_node n with
       | Some _ => let* rest := ltrunc literal cpl in Ret (GoDown pos rest)
       | None => Panic
       end.

(** mod.rs:110-119 *)
Definition search_prefix_is_found (lcs : list (lnode tree)) (literal : str) (pos : nat)
  : outcome literal_lookup_result :=
  let* n := get_unwrap lcs pos in
  if lnode_is_leaf n then Ret (search_leaf n literal pos)
  else search_not_leaf n literal pos.

(** mod.rs:90-108 *)
Definition search (t : tree) (literal : str) : outcome literal_lookup_result :=
  let* r := sv_binary_search_by (literal_children t)
                                (fun probe => cmp_str (ln_literal probe) literal) in
  match r with
  | inl pos => search_prefix_is_found (literal_children t) literal pos
  | inr _ => Ret NotFound
  end.

(** mod.rs:69-88.  [inl (node, pos)] is [Ok((node, pos))], [inr (node, len)] is
    [Err((node, len))].  [descend] is [get(pos).unwrap().node().unwrap()]
    followed by the recursive call. *)
Fixpoint lookup_literal (t : tree) (literal : str) {struct t}
  : outcome ((tree * nat) + (tree * nat)) :=
  let* r := search t literal in
  match r with
  | Found pos => Ret (inl (t, pos))
  | NotFound => Ret (inr (t, length literal))
  | GoDown pos truncated =>
      match t with
      | Tree lcs _ =>
          (fix descend (l : list (lnode tree)) (i : nat) {struct l} :=
             match l with
             | [] => Panic
             | n :: l' =>
                 match i with
                 | O => match n with
                        | LNode _ _ _ (Some c) => lookup_literal c truncated
                        | LNode _ _ _ None => Panic
                        end
                 | S i' => descend l' i'
                 end
             end) lcs pos
      end
  end.

(** mod.rs:47-66.  The returned [&mut SuffixTree] is used by the callers to
    update the trie in place; [k] is that update, applied to the node found and
    to [inl pos] for [Ok((node, pos))] or [inr len] for [Err((node, len))]. *)
Fixpoint lookup_literal_mut (t : tree) (literal : str)
         (k : tree -> nat + nat -> outcome tree) {struct t} : outcome tree :=
  let* r := search t literal in
  match r with
  | Found pos => k t (inl pos)
  | NotFound => k t (inr (length literal))
  | GoDown pos truncated =>
      match t with
      | Tree lcs pcs =>
          let* lcs' :=
            (fix descend (l : list (lnode tree)) (i : nat) {struct l}
               : outcome (list (lnode tree)) :=
               match l with
               | [] => Panic
               | n :: l' =>
                   match i with
                   | O => match n with
                          | LNode lit hv p (Some c) =>
                              let* c' := lookup_literal_mut c truncated k in
                              Ret (LNode lit hv p (Some c') :: l')
                          | LNode _ _ _ None => Panic
                          end
                   | S i' => let* r := descend l' i' in Ret (n :: r)
                   end
               end) lcs pos in
          Ret (Tree lcs' pcs)
      end
  end.

(** ** Insertion *)

(** [node.literal_children.get_mut(pos).unwrap()] and the update made through
    the reference. *)
Definition update_literal_child (t : tree) (pos : nat) (k : lnode tree -> outcome (lnode tree))
  : outcome tree :=
  let* lcs := update_nth (literal_children t) pos k in
  Ret (Tree lcs (parser_children t)).

(** mod.rs:254-259 *)
Definition lookup_freshly_inserted_literal (t : tree) (literal : str)
           (k : lnode tree -> outcome (lnode tree)) : outcome tree :=
  lookup_literal_mut t literal
    (fun node r =>
       match r with
       | inl pos => update_literal_child node pos k
       | inr _ => Panic
       end).

(** mod.rs:218-252 *)
Definition insert_literal_tail (t : tree) (tail : str)
           (k : lnode tree -> outcome (lnode tree)) : outcome tree :=
  let* r := sv_binary_search_by (literal_children t)
                                (fun probe => cmp_str (ln_literal probe) tail) in
  match r with
  | inl pos =>
      let* n := get_unwrap (literal_children t) pos in
      match has_common_prefix (ln_literal n) tail with
      | Some cpl =>
          update_literal_child t pos
            (fun hit =>
               let* hit' := split hit cpl tail in
               let* suffix := ltrunc tail cpl in
               match ln_node hit' with
               | Some node =>
                   let* node' := lookup_freshly_inserted_literal node suffix k in
                   Ret (lnode_set_node hit' (Some node'))
               | None => Panic
               end)
      | None => Panic
      end
  | inr pos =>
      let new_node := lnode_set_has_value (lnode_new tail) true in
      let* t' := add_literal_node t new_node in
      update_literal_child t' pos k
  end.

(** mod.rs:261-275 *)
Definition insert_literal (t : tree) (literal : str)
           (k : lnode tree -> outcome (lnode tree)) : outcome tree :=
  lookup_literal_mut t literal
    (fun node r =>
       match r with
       | inl index => update_literal_child node index k
       | inr rem_len =>
           let* d := usub (length literal) rem_len in
           let* tail := ltrunc literal d in
           insert_literal_tail node tail k
       end).

(** parser.rs:16-22 *)
Definition pnode_new (p : parser) : pnode tree :=
  {| pn_parser := p; pn_pattern := None; pn_node := None |}.

(** parser.rs:72-74, 81-83 *)
Definition pnode_set_pattern (n : pnode tree) (p : option pattern) : pnode tree :=
  {| pn_parser := pn_parser n; pn_pattern := p; pn_node := pn_node n |}.
Definition pnode_set_child (n : pnode tree) (c : option tree) : pnode tree :=
  {| pn_parser := pn_parser n; pn_pattern := pn_pattern n; pn_node := c |}.

(** [Iterator::position] *)
Fixpoint position {A : Type} (f : A -> bool) (l : list A) : option nat :=
  match l with
  | [] => None
  | x :: l' => if f x then Some 0 else option_map S (position f l')
  end.

Section Insert.
  (** The hash function applied to the byte stream of [hash_os]. *)
  Variable sip : list byte -> N.

  (** mod.rs:214-216 *)
  Definition lookup_parser (t : tree) (p : parser) : option nat :=
    position (fun x => N.eqb (hash_os sip (pn_parser x)) (hash_os sip p))
             (parser_children t).

  (** mod.rs:277-285 *)
  Definition insert_parser (t : tree) (p : parser) (k : pnode tree -> outcome (pnode tree))
    : outcome tree :=
    match lookup_parser t p with
    | Some item =>
        let* pcs := update_nth (parser_children t) item k in
        Ret (Tree (literal_children t) pcs)
    | None =>
        let* pn := k (pnode_new p) in
        Ret (Tree (literal_children t) (parser_children t ++ [pn]))
    end.

  (** mod.rs:304-316 with [Entry::insert], interface.rs:17-25.  [toks] is the
      token list of [p], popped token by token ([pop_first_token],
      pattern.rs:74-80); the two closures are [entry.insert(pattern)] for the
      two kinds of entry. *)
  Fixpoint insert_tokens (toks : list token) (t : tree) (p : pattern) : outcome tree :=
    match toks with
    | [] => Ret t
    | tok :: rest =>
        let p := set_pattern_tokens p rest in
        match tok with
        | Literal literal =>
            insert_literal t literal
              (fun e =>
                 if is_empty rest then Ret (lnode_set_pattern e (Some p))
                 else let* c := insert_tokens rest tree_new p in
                      Ret (lnode_set_node e (Some c)))
        | Parser parser =>
            insert_parser t parser
              (fun e =>
                 if is_empty rest then Ret (pnode_set_pattern e (Some p))
                 else let* c := insert_tokens rest tree_new p in
                      Ret (pnode_set_child e (Some c)))
        end
    end.

  (** mod.rs:304-316, matcher.rs:11-13 *)
  Definition add_pattern (t : tree) (p : pattern) : outcome tree :=
    insert_tokens (pat_tokens p) t p.

  (** Successive [add_pattern] calls. *)
  Fixpoint add_patterns (t : tree) (ps : list pattern) : outcome tree :=
    match ps with
    | [] => Ret t
    | p :: ps' => let* t' := add_pattern t p in add_patterns t' ps'
    end.
End Insert.

(** ** Parsing *)

(** mod.rs:180-189 *)
Definition create_match_result_if_child_is_leaf (child : lnode tree) : option match_result :=
  match ln_pattern child with
  | Some p => Some (match_result_new p)
  | None => None
  end.

(** parser.rs:53-64 *)
Definition push_last_kvpair (n : pnode tree) (text : str) (kv : parse_result)
  : outcome (option match_result) :=
  if is_empty text then
    match pn_pattern n with
    | Some p => Ret (Some (match_result_insert (match_result_new p) kv))
    | None => Panic
    end
  else Ret None.

Section Parse.
  (** [parse_tree]: [SuffixTree::parse] on sub-tries. *)
  Variable parse_tree : tree -> str -> outcome (option match_result).

  (** mod.rs:202-212 *)
  Definition parse_then_push_kvpair (node : tree) (text : str) (kv : parse_result)
    : outcome (option match_result) :=
    let* r := parse_tree node text in
    match r with
    | Some result => Ret (Some (match_result_insert result kv))
    | None => Ret None
    end.

  (** parser.rs:36-51, 87-102 *)
  Definition pnode_parse (n : pnode tree) (text : str) : outcome (option match_result) :=
    let* r := parser_parse (pn_parser n) text in
    match r with
    | Some value =>
        let* text' := ltrunc text (length value) in
        match pn_node n with
        | Some node => parse_then_push_kvpair node text' (pn_parser n, value)
        | None => push_last_kvpair n text' (pn_parser n, value)
        end
    | None => Ret None
    end.

  (** mod.rs:191-200 *)
  Fixpoint parse_with_parsers (pcs : list (pnode tree)) (text : str)
    : outcome (option match_result) :=
    match pcs with
    | [] => Ret None
    | i :: pcs' =>
        let* r := pnode_parse i text in
        match r with
        | Some result => Ret (Some result)
        | None => parse_with_parsers pcs' text
        end
    end.
End Parse.

(** mod.rs:161-178.  [fuel] bounds the recursion through parser nodes. *)
Fixpoint parse_fuel (fuel : nat) (t : tree) (text : str) : outcome (option match_result) :=
  match fuel with
  | O => OutOfFuel
  | S fuel' =>
      let* r := lookup_literal t text in
      match r with
      | inl (node, pos) =>
          let* child := get_unwrap (literal_children node) pos in
          Ret (create_match_result_if_child_is_leaf child)
      | inr (node, remaining_len) =>
          let* d := usub (length text) remaining_len in
          let* text' := ltrunc text d in
          parse_with_parsers (parse_fuel fuel') (parser_children node) text'
      end
  end.

Definition list_max_by {A : Type} (f : A -> nat) (l : list A) : nat :=
  fold_right (fun x m => Nat.max (f x) m) 0 l.

(** Height of a trie; enough fuel for [parse_fuel]. *)
Fixpoint height (t : tree) : nat :=
  match t with
  | Tree lcs pcs =>
      S (Nat.max
           (list_max_by (fun n => match ln_node n with Some c => height c | None => 0 end) lcs)
           (list_max_by (fun n => match pn_node n with Some c => height c | None => 0 end) pcs))
  end.

(** [Matcher::parse], matcher.rs:8-10 *)
Definition parse (t : tree) (text : str) : outcome (option match_result) :=
  parse_fuel (height t) t text.
