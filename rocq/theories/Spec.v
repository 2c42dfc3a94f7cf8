(** * Specification vocabulary

    Definitions used in the statements of the properties.  They do not refer to
    the functions of the model, only to its data types (parsers, tokens,
    patterns). *)
From Coq Require Import Sorted.
From Verif Require Import Base Utils Parsers Pattern.

(** ** Strings *)
Definition prefix_of (p s : str) : Prop := exists r, s = p ++ r.

(** [w] is the longest prefix of [v] all of whose bytes satisfy [S]. *)
Definition longest_prefix_in (S : byte -> Prop) (v w : str) : Prop :=
  prefix_of w v /\ Forall S w /\
  forall w', prefix_of w' v -> Forall S w' -> length w' <= length w.

(** [w] is what precedes the first occurrence of [e] in [v]. *)
Definition before_first (e v w : str) : Prop :=
  prefix_of (w ++ e) v /\
  forall w', prefix_of (w' ++ e) v -> length w <= length w'.

Definition occurs_in (e v : str) : Prop := exists a b, v = a ++ e ++ b.

Definition above_min (mn : option N) (n : nat) : Prop :=
  match mn with Some m => (m <= N.of_nat n)%N | None => True end.
Definition below_max (mx : option N) (n : nat) : Prop :=
  match mx with Some m => (N.of_nat n <= m)%N | None => True end.

(** [w] is the longest string that is a prefix of both [a] and [b] and consists
    of whole characters. *)
Definition longest_common_chars (a b w : str) : Prop :=
  utf8 w /\ prefix_of w a /\ prefix_of w b /\
  forall w', utf8 w' -> prefix_of w' a -> prefix_of w' b -> length w' <= length w.

(** ** Orders *)
Record total_order {A : Type} (c : A -> A -> comparison) : Prop := {
  to_antisym : forall x y, c y x = CompOpp (c x y);
  to_trans : forall x y z, c x y <> Gt -> c y z <> Gt -> c x z <> Gt
}.
Definition sle {A : Type} (c : A -> A -> comparison) (x y : A) : Prop := c x y <> Gt.

(** ** Values that can exist

    Invariants of the Rust types: strings are UTF-8, a BTreeSet<u8> is an
    ascending list, a [usize] is below 2^64. *)
Definition opt_utf8 (o : option str) : Prop := match o with Some s => utf8 s | None => True end.
Definition byte_lt (x y : byte) : Prop := (Byte.to_N x < Byte.to_N y)%N.
Definition fits (v : N) : Prop := (v < 2 ^ 64)%N.
Definition opt_fits (o : option N) : Prop := match o with Some v => fits v | None => True end.

Definition valid_set (s : set_parser) : Prop :=
  opt_utf8 (sp_name s) /\ StronglySorted byte_lt (sp_character_set s) /\
  opt_fits (sp_min_length s) /\ opt_fits (sp_max_length s).
Definition valid_parser (p : parser) : Prop :=
  match p with
  | PSet s | PInt s => valid_set s
  | PGreedy g => opt_utf8 (gp_name g) /\ opt_utf8 (gp_end_string g)
  end.
Definition valid_token (t : token) : Prop :=
  match t with Literal l => utf8 l | Parser q => valid_parser q end.
Definition valid_pattern (p : pattern) : Prop := Forall valid_token (pat_tokens p).

(** The part of it needed for parsing. *)
Definition parser_utf8 (p : parser) : Prop :=
  match p with PGreedy g => opt_utf8 (gp_end_string g) | _ => True end.

(** Character sets consist of ASCII characters. *)
Definition parser_ascii_set (p : parser) : Prop :=
  match p with
  | PSet s | PInt s => forall b, In b (sp_character_set s) -> ascii_byte b = true
  | PGreedy _ => True
  end.
Definition ascii_token (t : token) : Prop :=
  match t with Literal l => ascii l = true | Parser q => parser_ascii_set q end.
Definition ascii_pattern (p : pattern) : Prop := Forall ascii_token (pat_tokens p).

(** [q] occurs in one of the patterns. *)
Definition parser_in (ps : list pattern) (q : parser) : Prop :=
  exists p, In p ps /\ In (Parser q) (pat_tokens p).

(** The hash function tells the parsers of the patterns apart. *)
Definition collision_free (sip : list byte -> N) (ps : list pattern) : Prop :=
  forall q q', parser_in ps q -> parser_in ps q' ->
    sip (hash_stream q) = sip (hash_stream q') -> hash_stream q = hash_stream q'.

(** ** Parsers *)

(** A SET over the bytes of [set] with the given bounds captures [w] from [v]. *)
Definition set_captures (set : str) (mn mx : option N) (v w : str) : Prop :=
  longest_prefix_in (fun b => In b set) v w /\ w <> [] /\
  above_min mn (length w) /\ below_max mx (length w).

(** A digit, by its code. *)
Definition is_digit (b : byte) : Prop := (48 <= Byte.to_N b <= 57)%N.

(** What the regular expression [set]{mn,mx} matches at the start of [v]: the
    longest run within the upper bound. *)
Definition regex_captures (set : str) (mn mx : option N) (v w : str) : Prop :=
  prefix_of w v /\ Forall (fun b => In b set) w /\ w <> [] /\
  above_min mn (length w) /\ below_max mx (length w) /\
  forall w', prefix_of w' v -> Forall (fun b => In b set) w' -> below_max mx (length w') ->
    length w' <= length w.

Definition greedy_captures (e : option str) (v w : str) : Prop :=
  match e with Some e => before_first e v w | None => w = v end.

Definition captures (p : parser) (v w : str) : Prop :=
  match p with
  | PSet s | PInt s =>
      set_captures (sp_character_set s) (sp_min_length s) (sp_max_length s) v w
  | PGreedy g => greedy_captures (gp_end_string g) v w
  end.

(** ** Token sequences

    [walk toks text caps]: reading [toks] from left to right consumes [text]
    completely; [caps] are the parsers met with what each of them captured. *)
Inductive walk : list token -> str -> list (parser * str) -> Prop :=
| walk_nil : walk [] [] []
| walk_literal l toks text caps :
    walk toks text caps -> walk (Literal l :: toks) (l ++ text) caps
| walk_parser p toks v text caps :
    captures p (v ++ text) v -> walk toks text caps ->
    walk (Parser p :: toks) (v ++ text) ((p, v) :: caps).

(** The name a parser was given. *)
Definition name_of (p : parser) : option str :=
  match p with
  | PSet s => sp_name s
  | PInt s => sp_name s
  | PGreedy g => gp_name g
  end.

(** [named caps key v]: the leftmost parser named [key] captured [v]. *)
Inductive named : list (parser * str) -> str -> str -> Prop :=
| named_here p v caps key : name_of p = Some key -> named ((p, v) :: caps) key v
| named_later p v caps key v' :
    name_of p <> Some key -> named caps key v' -> named ((p, v) :: caps) key v'.

(** The pattern as it is kept by a matcher: without its tokens. *)
Definition stripped (p : pattern) : pattern :=
  {| pat_name := pat_name p; pat_uuid := pat_uuid p; pat_tokens := [];
     pat_values := pat_values p; pat_tags := pat_tags p;
     pat_test_messages := pat_test_messages p |}.

(** [maps_to m key v]: the map [m] has [key] bound to [v]. *)
Definition maps_to (m : list (str * str)) (key v : str) : Prop := In (key, v) m.

(** The values reported for the captures [caps]: a map with exactly the named
    ones, the leftmost of every name. *)
Definition reports (caps : list (parser * str)) (m : list (str * str)) : Prop :=
  (forall key v, maps_to m key v <-> named caps key v) /\ NoDup (map fst m).

(** What a trie holding a single pattern matches: as [walk], but a literal
    followed by further tokens must not be empty and must not be the end of the
    text. *)
Inductive trie_walk : list token -> str -> list (parser * str) -> Prop :=
| tw_literal_last l : trie_walk [Literal l] l []
| tw_parser_last p v : captures p v v -> trie_walk [Parser p] v [(p, v)]
| tw_literal l toks text caps :
    toks <> [] -> l <> [] -> text <> [] ->
    trie_walk toks text caps -> trie_walk (Literal l :: toks) (l ++ text) caps
| tw_parser p toks v text caps :
    toks <> [] -> captures p (v ++ text) v ->
    trie_walk toks text caps -> trie_walk (Parser p :: toks) (v ++ text) ((p, v) :: caps).

(** A token sequence as bytes and parsers: where its literals are cut does not
    matter any more. *)
Definition step := (byte + parser)%type.
Definition flat_token (t : token) : list step :=
  match t with Literal l => map inl l | Parser q => [inr q] end.
Definition flat (toks : list token) : list step := flat_map flat_token toks.

Definition nonempty_literals (p : pattern) : Prop :=
  forall l, In (Literal l) (pat_tokens p) -> l <> [].

(** The pattern starts with the literal [l]. *)
Definition starts_with (p : pattern) (l : str) : Prop :=
  exists rest, pat_tokens p = Literal l :: rest.

(** Neither string is a proper prefix of the other. *)
Definition incomparable (a b : str) : Prop :=
  forall r, (b = a ++ r \/ a = b ++ r) -> r = [].

(** Every pattern starts with a literal, and different ones are no prefixes of
    each other. *)
Definition apart (ps : list pattern) : Prop :=
  (forall p, In p ps -> exists l, starts_with p l) /\
  (forall p p' l l', In p ps -> In p' ps -> starts_with p l -> starts_with p' l' -> incomparable l l').

(** The first token of the pattern is a parser or a literal starting with the
    same byte as [text] (or both are empty). *)
Definition may_concern (text : str) (p : pattern) : bool :=
  match pat_tokens p with
  | Literal l :: _ =>
      match l, text with
      | [], [] => true
      | x :: _, y :: _ => byte_eqb x y
      | _, _ => false
      end
  | _ => true
  end.

(** The first token of the pattern is a literal that [text] starts with. *)
Definition first_literal_fits (text : str) (p : pattern) : bool :=
  match pat_tokens p with
  | Literal l :: _ => prefixb l text
  | _ => false
  end.

(** Which of several patterns consisting of one parser wins: [q] belongs to the first pattern whose parser accepts
    the whole text, [p] is the last pattern with that parser. *)
Definition wins (ps : list pattern) (text : str) (q : parser) (p : pattern) : Prop :=
  (exists a p0 b, ps = a ++ p0 :: b /\ pat_tokens p0 = [Parser q] /\ captures q text text /\
     forall p' q', In p' a -> pat_tokens p' = [Parser q'] -> ~ captures q' text text) /\
  (exists a b, ps = a ++ p :: b /\ pat_tokens p = [Parser q] /\
     forall p', In p' b -> pat_tokens p' <> [Parser q]).
