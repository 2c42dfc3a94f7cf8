(** * Model of src/matcher/suffix_array/ *)
From Verif Require Import Base Utils Parsers Pattern.
From Verif Require Trie.

(** src/matcher/suffix_array/impls.rs:206-211.  [T] is the type of sub-tables. *)
Record literal_e (T : Type) := LiteralE {
  le_literal : str;
  le_pattern : option pattern;
  le_child : option T
}.
Arguments LiteralE {T}.
Arguments le_literal {T}.
Arguments le_pattern {T}.
Arguments le_child {T}.

(** impls.rs:126-131 *)
Record parser_e (T : Type) := ParserE {
  pe_parser : parser;
  pe_pattern : option pattern;
  pe_child : option T
}.
Arguments ParserE {T}.
Arguments pe_parser {T}.
Arguments pe_pattern {T}.
Arguments pe_child {T}.

(** impls.rs:19-23 *)
Inductive table :=
| Table (les : list (literal_e table)) (pes : list (parser_e table)).

Definition literal_entries (t : table) : list (literal_e table) :=
  match t with Table l _ => l end.
Definition parser_entries (t : table) : list (parser_e table) :=
  match t with Table _ l => l end.

(** impls.rs:97-104, 107-109 *)
Definition table_new : table := Table [] [].

(** impls.rs:213-221, 143-150 *)
Definition literal_e_new (l : str) : literal_e table :=
  {| le_literal := l; le_pattern := None; le_child := None |}.
Definition parser_e_new (p : parser) : parser_e table :=
  {| pe_parser := p; pe_pattern := None; pe_child := None |}.

(** impls.rs:228-230, 237-239 and 169-171, 178-180 *)
Definition le_set_pattern (e : literal_e table) (p : option pattern) : literal_e table :=
  {| le_literal := le_literal e; le_pattern := p; le_child := le_child e |}.
Definition le_set_child (e : literal_e table) (c : option table) : literal_e table :=
  {| le_literal := le_literal e; le_pattern := le_pattern e; le_child := c |}.
Definition pe_set_pattern (e : parser_e table) (p : option pattern) : parser_e table :=
  {| pe_parser := pe_parser e; pe_pattern := p; pe_child := pe_child e |}.
Definition pe_set_child (e : parser_e table) (c : option table) : parser_e table :=
  {| pe_parser := pe_parser e; pe_pattern := pe_pattern e; pe_child := c |}.

(** ** Longest common prefix *)

(** impls.rs:26-39 *)
Definition lcp_between_consecutive_entries (les : list (literal_e table)) (value : str)
           (pos : nat) : option (literal_e table) :=
  let first_opt := nth_error les pos in
  let second_opt := nth_error les (pos + 1) in
  match first_opt with
  | None => second_opt
  | Some first =>
      match second_opt with
      | None => first_opt
      | Some second =>
          if Nat.leb (common_prefix_len (le_literal second) value)
                     (common_prefix_len (le_literal first) value)
          then first_opt else second_opt
      end
  end.

(** impls.rs:41-47 *)
Definition lcp_around_pos (les : list (literal_e table)) (value : str) (pos : nat)
  : option (literal_e table) :=
  if Nat.eqb pos 0 then nth_error les pos
  else lcp_between_consecutive_entries les value (pos - 1).

(** impls.rs:85-94 *)
Definition longest_common_prefix (t : table) (value : str)
  : outcome (option (literal_e table)) :=
  let* r := binary_search_by (literal_entries t)
                             (fun probe => Ret (str_cmp (le_literal probe) value)) in
  match r with
  | inl pos => Ret (nth_error (literal_entries t) pos)
  | inr pos => Ret (lcp_around_pos (literal_entries t) value pos)
  end.

(** ** Insertion *)

(** [Vec::insert]: panics when [pos] is past the end. *)
Definition vec_insert {A : Type} (l : list A) (pos : nat) (x : A) : outcome (list A) :=
  if Nat.leb pos (length l) then Ret (firstn pos l ++ x :: skipn pos l) else Panic.

(** impls.rs:49-61; [k] is the update made through the returned reference. *)
Definition insert_literal (t : table) (literal : str)
           (k : literal_e table -> outcome (literal_e table)) : outcome table :=
  let* r := binary_search_by (literal_entries t)
                             (fun probe => Ret (str_cmp (le_literal probe) literal)) in
  match r with
  | inl pos =>
      let* les := update_nth (literal_entries t) pos k in
      Ret (Table les (parser_entries t))
  | inr pos =>
      let* les := vec_insert (literal_entries t) pos (literal_e_new literal) in
      let* les := update_nth les pos k in
      Ret (Table les (parser_entries t))
  end.

Section Insert.
  (** The hash function applied to the byte stream of [hash_os]. *)
  Variable sip : list byte -> N.

  (** impls.rs:72-83 *)
  Definition insert_parser (t : table) (p : parser)
             (k : parser_e table -> outcome (parser_e table)) : outcome table :=
    match Trie.position (fun x => N.eqb (hash_os sip (pe_parser x)) (hash_os sip p))
                        (parser_entries t) with
    | Some pos =>
        let* pes := update_nth (parser_entries t) pos k in
        Ret (Table (literal_entries t) pes)
    | None =>
        let* e := k (parser_e_new p) in
        Ret (Table (literal_entries t) (parser_entries t ++ [e]))
    end.

  (** impls.rs:111-123 with [Entry::insert], interface.rs:17-25; [toks] is the
      token list of [p]. *)
  Fixpoint insert_tokens (toks : list token) (t : table) (p : pattern) : outcome table :=
    match toks with
    | [] => Ret t
    | tok :: rest =>
        let p := set_pattern_tokens p rest in
        match tok with
        | Literal literal =>
            insert_literal t literal
              (fun e =>
                 if is_empty rest then Ret (le_set_pattern e (Some p))
                 else let* c := insert_tokens rest table_new p in
                      Ret (le_set_child e (Some c)))
        | Parser parser =>
            insert_parser t parser
              (fun e =>
                 if is_empty rest then Ret (pe_set_pattern e (Some p))
                 else let* c := insert_tokens rest table_new p in
                      Ret (pe_set_child e (Some c)))
        end
    end.

  (** impls.rs:264-266 *)
  Definition add_pattern (t : table) (p : pattern) : outcome table :=
    insert_tokens (pat_tokens p) t p.

  (** Successive [add_pattern] calls. *)
  Fixpoint add_patterns (t : table) (ps : list pattern) : outcome table :=
    match ps with
    | [] => Ret t
    | p :: ps' => let* t' := add_pattern t p in add_patterns t' ps'
    end.
End Insert.

(** ** Parsing *)

Section Parse.
  (** [parse_table]: [Matcher::parse] on sub-tables. *)
  Variable parse_table : table -> str -> outcome (option match_result).

  (** impls.rs:152-161 *)
  Definition create_match_result (e : parser_e table) (kv : parse_result)
    : option match_result :=
    match pe_pattern e with
    | Some p => Some (match_result_insert (match_result_new p) kv)
    | None => None
    end.

  (** impls.rs:186-203 *)
  Definition parser_e_parse (e : parser_e table) (value : str)
    : outcome (option match_result) :=
    let* r := parser_parse (pe_parser e) value in
    match r with
    | None => Ret None
    | Some v =>
        let* value' := ltrunc value (length v) in
        match pe_child e with
        | Some child =>
            let* r := parse_table child value' in
            match r with
            | Some result => Ret (Some (match_result_insert result (pe_parser e, v)))
            | None => Ret None
            end
        | None =>
            if is_empty value' then Ret (create_match_result e (pe_parser e, v))
            else Ret None
        end
    end.

  (** impls.rs:63-70 *)
  Fixpoint parse_with_parsers (pes : list (parser_e table)) (value : str)
    : outcome (option match_result) :=
    match pes with
    | [] => Ret None
    | e :: pes' =>
        let* r := parser_e_parse e value in
        match r with
        | Some result => Ret (Some result)
        | None => parse_with_parsers pes' value
        end
    end.
End Parse.

(** impls.rs:249-263.  [fuel] bounds the recursion into children. *)
Fixpoint parse_fuel (fuel : nat) (t : table) (value : str) : outcome (option match_result) :=
  match fuel with
  | O => OutOfFuel
  | S fuel' =>
      let* r := longest_common_prefix t value in
      match r with
      | Some child =>
          let cpl := common_prefix_len (le_literal child) value in
          if Nat.eqb cpl (length value) then
            Ret (match le_pattern child with
                 | Some p => Some (match_result_new p)
                 | None => None
                 end)
          else if Nat.ltb cpl (length value) then
            let* value' := ltrunc value cpl in
            match le_child child with
            | Some c => parse_fuel fuel' c value'
            | None => Ret None
            end
          else Ret None
      | None => parse_with_parsers (parse_fuel fuel') (parser_entries t) value
      end
  end.

(** Height of a table; enough fuel for [parse_fuel]. *)
Fixpoint height (t : table) : nat :=
  match t with
  | Table les pes =>
      S (Nat.max
           (Trie.list_max_by
              (fun e => match le_child e with Some c => height c | None => 0 end) les)
           (Trie.list_max_by
              (fun e => match pe_child e with Some c => height c | None => 0 end) pes))
  end.

(** [Matcher::parse], impls.rs:249-263 *)
Definition parse (t : table) (value : str) : outcome (option match_result) :=
  parse_fuel (height t) t value.
