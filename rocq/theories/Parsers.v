(** * Model of src/parsers/ and src/matcher/trie/parser_factory.rs *)
From Verif Require Import Base Utils.

(** ** Parsers as data

    [Box<Parser>] is a trait object; the model covers the three
    implementations the crate ships (Set, Int, Greedy).  User-written
    implementations of the public trait are not modelled. *)

(** src/parsers/base.rs:4-6 (field [base.name]), src/parsers/set.rs:8-13.
    [usize] bounds are [N]. *)
Record set_parser := SetParser {
  sp_name : option str;
  sp_character_set : list byte;
  sp_min_length : option N;
  sp_max_length : option N
}.

(** src/parsers/greedy.rs:5-8 *)
Record greedy_parser := GreedyParser {
  gp_name : option str;
  gp_end_string : option str
}.

(** src/parsers/int.rs:6-8: an IntParser is its [delegate] SetParser. *)
Inductive parser :=
| PSet (p : set_parser)
| PInt (delegate : set_parser)
| PGreedy (p : greedy_parser).

(** ** Constructors *)

(** src/parsers/set.rs:42-45 *)
Definition create_set_from_str (set : str) : list byte := bset_from_iter set.

(** src/parsers/set.rs:25-32 *)
Definition set_new (set : str) : set_parser :=
  {| sp_name := None; sp_character_set := create_set_from_str set;
     sp_min_length := None; sp_max_length := None |}.

(** src/parsers/set.rs:16-23, 34-36 ([from_str]) *)
Definition set_with_name (name set : str) : set_parser :=
  {| sp_name := Some name; sp_character_set := create_set_from_str set;
     sp_min_length := None; sp_max_length := None |}.

(** src/parsers/set.rs:92-94, base.rs:21-23 *)
Definition set_set_name (p : set_parser) (name : option str) : set_parser :=
  {| sp_name := name; sp_character_set := sp_character_set p;
     sp_min_length := sp_min_length p; sp_max_length := sp_max_length p |}.

(** src/parsers/set.rs:66-68 *)
Definition set_set_min_length (p : set_parser) (n : option N) : set_parser :=
  {| sp_name := sp_name p; sp_character_set := sp_character_set p;
     sp_min_length := n; sp_max_length := sp_max_length p |}.

(** src/parsers/set.rs:72-74 *)
Definition set_set_max_length (p : set_parser) (n : option N) : set_parser :=
  {| sp_name := sp_name p; sp_character_set := sp_character_set p;
     sp_min_length := sp_min_length p; sp_max_length := n |}.

(** src/parsers/set.rs:38-40 *)
Definition set_set_character_set (p : set_parser) (set : str) : set_parser :=
  {| sp_name := sp_name p; sp_character_set := create_set_from_str set;
     sp_min_length := sp_min_length p; sp_max_length := sp_max_length p |}.

(** src/parsers/int.rs:12, 41: the digit string. *)
Definition digits : str := $"0123456789".

(** src/parsers/int.rs:39-43 ([new] = [default]) *)
Definition int_new : set_parser := set_new digits.

(** src/parsers/int.rs:11-14 *)
Definition int_with_name (name : str) : set_parser := set_with_name name digits.

(** src/parsers/greedy.rs:34-41 *)
Definition greedy_new : greedy_parser := {| gp_name := None; gp_end_string := None |}.

(** src/parsers/greedy.rs:18-23 *)
Definition greedy_from_str (name end_string : str) : greedy_parser :=
  {| gp_name := Some name; gp_end_string := Some end_string |}.

(** src/parsers/greedy.rs:11-16 *)
Definition greedy_with_name (name : str) : greedy_parser :=
  {| gp_name := Some name; gp_end_string := None |}.

(** src/parsers/greedy.rs:29-31 *)
Definition greedy_set_end_string (p : greedy_parser) (e : option str) : greedy_parser :=
  {| gp_name := gp_name p; gp_end_string := e |}.

(** src/parsers/greedy.rs:65-67 *)
Definition greedy_set_name (p : greedy_parser) (n : option str) : greedy_parser :=
  {| gp_name := n; gp_end_string := gp_end_string p |}.

(** ** Length constraints: src/parsers/has_length_constraint.rs *)

(** has_length_constraint.rs:12-17 *)
Definition is_min_length_ok (p : set_parser) (match_length : nat) : bool :=
  match sp_min_length p with
  | Some x => N.leb x (N.of_nat match_length)
  | None => true
  end.

(** has_length_constraint.rs:19-24 *)
Definition is_max_length_ok (p : set_parser) (match_length : nat) : bool :=
  match sp_max_length p with
  | Some x => N.leb (N.of_nat match_length) x
  | None => true
  end.

(** has_length_constraint.rs:7-10 *)
Definition is_match_length_ok (p : set_parser) (match_length : nat) : bool :=
  Nat.ltb 0 match_length && is_min_length_ok p match_length
  && is_max_length_ok p match_length.

(** ** Parsing *)

(** src/parsers/set.rs:47-59 *)
Fixpoint calculate_match_length (set : list byte) (value : str) : nat :=
  match value with
  | [] => 0
  | c :: value' =>
      if bset_contains set c then S (calculate_match_length set value') else 0
  end.

(** src/parsers/set.rs:78-86.  The slice panics when the match ends inside a
    multi-byte character. *)
Definition set_parse (p : set_parser) (value : str) : outcome (option str) :=
  let match_len := calculate_match_length (sp_character_set p) value in
  if is_match_length_ok p match_len then
    let* v := slice_to value match_len in Ret (Some v)
  else Ret None.

(** src/parsers/greedy.rs:53-59 *)
Definition greedy_parse (p : greedy_parser) (value : str) : outcome (option str) :=
  match gp_end_string p with
  | Some end_string =>
      match str_find end_string value with
      | Some pos => let* v := slice_to value pos in Ret (Some v)
      | None => Ret None
      end
  | None => Ret (Some value)
  end.

(** [Parser::parse], src/parsers/mod.rs:19, with int.rs:22-24 delegating to the
    SetParser.  The result is the [value] of the ParseResult (mod.rs:30-51). *)
Definition parser_parse (p : parser) (value : str) : outcome (option str) :=
  match p with
  | PSet s => set_parse s value
  | PInt delegate => set_parse delegate value
  | PGreedy g => greedy_parse g value
  end.

(** [Parser::name]: set.rs:88-90, int.rs:26-28, greedy.rs:61-63, base.rs:17-19.
    Note that the [parser] field of the ParseResult returned by IntParser is
    the delegate, whose name is the same. *)
Definition parser_name (p : parser) : option str :=
  match p with
  | PSet s => sp_name s
  | PInt delegate => sp_name delegate
  | PGreedy g => gp_name g
  end.

(** [Parser::set_name]: set.rs:92-94, int.rs:30-32, greedy.rs:65-67. *)
Definition parser_set_name (p : parser) (name : option str) : parser :=
  match p with
  | PSet s => PSet (set_set_name s name)
  | PInt delegate => PInt (set_set_name delegate name)
  | PGreedy g => PGreedy (greedy_set_name g name)
  end.

(** ** Hashing: [ObjectSafeHash::hash_os]

    set.rs:101-108, int.rs:60-67, greedy.rs:43-50.  [hash_os] feeds a tag and
    then the derived [Hash] of the struct to a SipHasher.  [hash_stream] is the
    byte stream fed to it: a [str] is its bytes and 0xFF; an [Option] is its
    discriminant as an 8-byte little-endian word and then its content; a
    [usize] is 8 little-endian bytes; a [BTreeSet<u8>] is its elements in
    order (std of the targeted releases writes no length prefix). *)
Fixpoint le_bytes (n : nat) (v : N) : list byte :=
  match n with
  | O => []
  | S n' => byte_of_N v :: le_bytes n' (N.div v 256)
  end.
Definition hs_u64 (v : N) : list byte := le_bytes 8 v.
Definition hs_str (s : str) : list byte := s ++ [xff].
Definition hs_opt {A : Type} (h : A -> list byte) (o : option A) : list byte :=
  match o with
  | None => hs_u64 0
  | Some a => hs_u64 1 ++ h a
  end.

(** derive(Hash) of SetParser, set.rs:7-13, and ParserBase, base.rs:3-6 *)
Definition hs_set (p : set_parser) : list byte :=
  hs_opt hs_str (sp_name p) ++ sp_character_set p
  ++ hs_opt hs_u64 (sp_min_length p) ++ hs_opt hs_u64 (sp_max_length p).

(** derive(Hash) of GreedyParser, greedy.rs:4-8 *)
Definition hs_greedy (p : greedy_parser) : list byte :=
  hs_opt hs_str (gp_name p) ++ hs_opt hs_str (gp_end_string p).

Definition hash_stream (p : parser) : list byte :=
  match p with
  | PSet s => hs_str ($"parser:set") ++ hs_set s
  | PInt s => hs_str ($"parser:int") ++ hs_set s
  | PGreedy g => hs_str ($"parser:greedy") ++ hs_greedy g
  end.

(** [hash_os] for a given hash function on byte streams (SipHash in the code). *)
Definition hash_os (sip : list byte -> N) (p : parser) : N := sip (hash_stream p).

(** ** src/matcher/trie/parser_factory.rs *)

(** src/parsers/mod.rs:26-28 *)
Inductive optional_parameter := OptInt (key : str) (value : N).

(** parser_factory.rs:4-20; the two macros act on the SetParser or on the
    IntParser's delegate (int.rs:49-57) alike. *)
Definition set_optional_param (p : set_parser) (o : optional_parameter) : set_parser :=
  match o with
  | OptInt key value =>
      if str_eqb key ($"min_len") then set_set_min_length p (Some value)
      else if str_eqb key ($"max_len") then set_set_max_length p (Some value)
      else p
  end.

(** parser_factory.rs:22-30 *)
Definition set_optional_params (p : set_parser) (o : option (list optional_parameter))
  : set_parser :=
  match o with
  | Some params => fold_left set_optional_param params p
  | None => p
  end.

(** parser_factory.rs:35-44 *)
Definition new_set (set : str) (name : option str)
           (opt_params : option (list optional_parameter)) : parser :=
  PSet (set_set_name (set_optional_params (set_new set) opt_params) name).

(** parser_factory.rs:45-53 *)
Definition new_int (name : option str) (opt_params : option (list optional_parameter))
  : parser :=
  PInt (set_set_name (set_optional_params int_new opt_params) name).

(** parser_factory.rs:54-61 *)
Definition new_greedy (name end_string : option str) : parser :=
  PGreedy (greedy_set_name (greedy_set_end_string greedy_new end_string) name).
