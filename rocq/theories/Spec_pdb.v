(** * Specification of the conversion from patterndb

    patterndb patterns as data, how they are written, and the actiondb items
    (Spec_grammar.v) they are to become.  Of Pdb2adb.v only the types of the
    input are used here. *)
From Verif Require Import Base Utils Pattern Spec Grammar Spec_grammar Deser Spec_deser Errors Pdb2adb.

(** ** patterndb patterns *)
Inductive pdb_kind :=
| NUMBER | ANYSTRING | ESTRING | QSTRING | SET | STRING | HOSTNAME | FLOAT | DOUBLE
| IPvANY | IPv4 | MACADDR | LLADDR.
Definition kind_name (k : pdb_kind) : str :=
  match k with
  | NUMBER => $"NUMBER" | ANYSTRING => $"ANYSTRING" | ESTRING => $"ESTRING" | QSTRING => $"QSTRING"
  | SET => $"SET" | STRING => $"STRING" | HOSTNAME => $"HOSTNAME" | FLOAT => $"FLOAT" | DOUBLE => $"DOUBLE"
  | IPvANY => $"IPvANY" | IPv4 => $"IPv4" | MACADDR => $"MACADDR" | LLADDR => $"LLADDR"
  end.
Definition all_kinds : list pdb_kind :=
  [NUMBER; ANYSTRING; ESTRING; QSTRING; SET; STRING; HOSTNAME; FLOAT; DOUBLE; IPvANY; IPv4; MACADDR; LLADDR].

(** A parser has a name or not, and an option or not. *)
Inductive pdb_item :=
| PdbText (s : str)
| PdbParser (k : pdb_kind) (name : option str) (opt : option str).

Definition pdb_body (k : pdb_kind) (name opt : option str) : str :=
  kind_name k ++
  match name, opt with
  | None, None => []
  | Some n, None => $":" ++ n
  | None, Some o => $"::" ++ o
  | Some n, Some o => $":" ++ n ++ $":" ++ o
  end.
Definition pdb_text (i : pdb_item) : str :=
  match i with
  | PdbText s => s
  | PdbParser k name opt => $"@" ++ pdb_body k name opt ++ $"@"
  end.

(** Texts without at signs, names that actiondb accepts, options without colons
    and at signs.  A single colon is possible as the delimiter of ESTRING. *)
Definition plain_option (o : str) : Prop := utf8 o /\ o <> [] /\ ~ In x3a o /\ ~ In x40 o.
Definition convertible (i : pdb_item) : Prop :=
  match i with
  | PdbText s => utf8 s /\ ~ In x40 s
  | PdbParser k n o =>
      (forall x, n = Some x -> name x) /\
      (forall x, o = Some x -> plain_option x \/ (k = ESTRING /\ x = $":"))
  end.

(** ** What they become *)
Definition letters_digits : list byte :=
  $"ABCDEFGHIJKLMNOPQRSTUVWXYZabcdefghijklmnopqrstuvwxyz0123456789".
Definition same_bytes (a b : str) : Prop := forall x, In x a <-> In x b.
Definition unnamed : str := $"pdb2adb2ignore".

(** [converted i is]: the items [is] stand for [i]. *)
Inductive converted : pdb_item -> list item -> Prop :=
| conv_text s : s <> [] -> converted (PdbText s) [IText s]
| conv_empty : converted (PdbText []) []
| conv_number n o : converted (PdbParser NUMBER n o) [IInt [] (Some (match n with Some x => x | None => unnamed end))]
| conv_greedy k n o : In k [ANYSTRING; IPvANY; IPv4; MACADDR; LLADDR] ->
    converted (PdbParser k n o) [IGreedy (Some (match n with Some x => x | None => unnamed end))]
| conv_estring n o : converted (PdbParser ESTRING n (Some o))
    [IGreedy (Some (match n with Some x => x | None => unnamed end)); IText o]
| conv_estring_open n : converted (PdbParser ESTRING n None)
    [IGreedy (Some (match n with Some x => x | None => unnamed end))]
(** One quotation mark on both sides, or two different ones; more are ignored. *)
| conv_qstring_one n q : utf8_char q = true -> converted (PdbParser QSTRING n (Some q))
    [IText q; IGreedy (Some (match n with Some x => x | None => unnamed end)); IText q]
| conv_qstring n q r more : utf8_char q = true -> utf8_char r = true -> converted (PdbParser QSTRING n (Some (q ++ r ++ more)))
    [IText q; IGreedy (Some (match n with Some x => x | None => unnamed end)); IText r]
| conv_qstring_open n : converted (PdbParser QSTRING n None)
    [IGreedy (Some (match n with Some x => x | None => unnamed end))]
| conv_set n o : converted (PdbParser SET n (Some o)) [ISet o [] (Some (match n with Some x => x | None => unnamed end))]
| conv_string n o chars : same_bytes chars (letters_digits ++ match o with Some x => x | None => [] end) ->
    converted (PdbParser STRING n o) [ISet chars [] (Some (match n with Some x => x | None => unnamed end))]
| conv_hostname n o chars : same_bytes chars (letters_digits ++ $"-.") ->
    converted (PdbParser HOSTNAME n o) [ISet chars [] (Some (match n with Some x => x | None => unnamed end))]
| conv_float k n o chars : In k [FLOAT; DOUBLE] -> same_bytes chars ($"0123456789.") ->
    converted (PdbParser k n o) [ISet chars [] (Some (match n with Some x => x | None => unnamed end))].

(** Texts that come to stand next to each other become one. *)
Fixpoint merge (is : list item) : list item :=
  match is with
  | [] => []
  | IText a :: is' => match merge is' with
                      | IText b :: r => IText (a ++ b) :: r
                      | r => IText a :: r
                      end
  | i :: is' => i :: merge is'
  end.
(** What cannot be written in an actiondb pattern. *)
Definition expressible (i : item) : Prop :=
  match i with
  | IText s => ~ occurs_in ($"%{") s
  | ISet chars _ _ => ~ In x22 chars
  | _ => True
  end.

(** ** The parser types that are accepted *)
Definition or_line (x s : str) : Prop := s = x \/ s = x ++ [x0a].
Definition begins_with (x s : str) : Prop := prefix_of x s.
Definition ends_in (x s : str) : Prop := exists a, or_line (a ++ x) s.
Definition accepted_type (t : str) : Prop :=
  or_line ($"ESTRING") t \/ occurs_in ($"QSTRING") t \/ or_line ($"NUMBER") t \/ or_line ($"HOSTNAME") t \/
  begins_with ($"FLOAT") t \/ ends_in ($"DOUBLE") t \/ or_line ($"STRING") t \/ or_line ($"ANYSTRING") t \/
  or_line ($"SET") t \/
  begins_with ($"IPvANY") t \/ begins_with ($"MACADDR") t \/ begins_with ($"IPv4") t \/ begins_with ($"LLADDR") t.
(** The part of a parser before the first colon. *)
Definition type_part (p t : str) : Prop :=
  ~ In x3a t /\ (p = t \/ exists r, p = t ++ x3a :: r).
(** The parts of a pattern between at signs, in order: texts and parsers take
    turns; the last at sign may be missing.  An at sign at the very end that
    opens a parser is ignored. *)
Inductive parts : str -> list str -> Prop :=
| parts_text t : ~ In x40 t -> parts t []
| parts_dangling t : ~ In x40 t -> parts (t ++ [x40]) []
| parts_open t p : ~ In x40 t -> ~ In x40 p -> p <> [] -> parts (t ++ [x40] ++ p) [p]
| parts_more t p s ps : ~ In x40 t -> ~ In x40 p -> parts s ps -> parts (t ++ [x40] ++ p ++ [x40] ++ s) (p :: ps).

(** Nothing follows, or a parser that does not start with a text. *)
Definition parser_next (is : list pdb_item) : Prop :=
  match is with
  | [] => True
  | PdbText _ :: _ => False
  | PdbParser k _ _ :: _ => k <> QSTRING
  end.

(** ** Documents *)

(** A pattern of a rule: the program of the ruleset and the position in the rule. *)
Record source := Source {
  src_rule : rule;
  src_program : str;
  src_index : nat;
  src_pattern : str
}.
Definition numbered {A} (l : list A) : list (nat * A) := combine (List.seq 0 (length l)) l.
Definition rule_sources (programs : str -> option (list str)) (r : rule) : list source :=
  match programs (rl_ruleset r), rl_patterns r with
  | Some (program :: _), Some ps => map (fun ip => Source r program (fst ip) (snd ip)) (numbered ps)
  | _, _ => []
  end.
Definition sources (programs : str -> option (list str)) (rs : list rule) : list (nat * source) :=
  numbered (flat_map (rule_sources programs) rs).

(** The patterns that [conv] converts to something other than the empty text and "0". *)
Definition results (conv : str -> option str) (l : list (nat * source)) : list (nat * source * str) :=
  flat_map (fun gs => match conv (src_pattern (snd gs)) with
                      | Some s => if is_empty s || str_eqb s ($"0") then [] else [(gs, s)]
                      | None => []
                      end) l.

(** The first pattern of a rule gets its id. *)
Definition source_uuid (fresh : nat -> str) (gs : nat * source) : str :=
  match src_index (snd gs) with
  | O => rl_id (src_rule (snd gs))
  | S _ => fresh (pred (fst gs))
  end.
Definition prefixed (with_program : bool) (program : option str) (s : str) : str :=
  if with_program then match program with Some p => p | None => [] end ++ $": " ++ s else s.

Definition example_becomes (with_program : bool) (e : example) (t : test_message) : Prop :=
  tm_message t = prefixed with_program (ex_program e) (ex_message e) /\ tm_tags t = None /\
  ascending_keys (tm_values t) /\
  forall k s, In (k, s) (tm_values t) <-> exists l, ex_values e = Some l /\ In (k, s) l.
Definition kept_value (r : rule) (k s : str) : Prop :=
  exists l, rl_values r = Some l /\ In (k, s) l /\ ~ occurs_in ($"$(") s.
Record becomes (with_program : bool) (parse_uuid : str -> option uuid) (fresh : nat -> str)
  (res : nat * source * str) (number : nat) (p : pattern) : Prop := {
  bc_name : pat_name p = Some (rl_ruleset (src_rule (snd (fst res))) ++ $"_" ++ nat_text number);
  bc_uuid : parse_uuid (source_uuid fresh (fst res)) = Some (pat_uuid p);
  bc_tokens : compile (prefixed with_program (Some (src_program (snd (fst res)))) (snd res)) = Ret (Ok (pat_tokens p));
  bc_tags : pat_tags p = rl_tags (src_rule (snd (fst res)));
  bc_no_values : pat_values p = None <-> ~ exists k s, kept_value (src_rule (snd (fst res))) k s;
  bc_values : forall m, pat_values p = Some m -> ascending_keys m /\
    forall k s, In (k, s) m <-> kept_value (src_rule (snd (fst res))) k s;
  bc_tests : exists l, pat_test_messages p = Some l /\
    Forall2 (example_becomes with_program) (rl_examples (src_rule (snd (fst res)))) l
}.
(** A hash has every key once. *)
Definition distinct_keys {A} (o : option (list (str * A))) : Prop :=
  match o with Some l => NoDup (map fst l) | None => True end.
Definition proper_rule (r : rule) : Prop :=
  distinct_keys (rl_values r) /\ forall e, In e (rl_examples r) -> distinct_keys (ex_values e).
(** A rule with examples and without patterns. *)
Definition untestable (programs : str -> option (list str)) (r : rule) : Prop :=
  (exists program more, programs (rl_ruleset r) = Some (program :: more)) /\
  rl_patterns r = None /\ rl_examples r <> [].
(** Created uuids differ from each other and from the ids of the rules. *)
Definition uuids_differ (parse_uuid : str -> option uuid) (fresh : nat -> str) (rs : list rule) : Prop :=
  (forall i j, parse_uuid (fresh i) = parse_uuid (fresh j) -> i = j) /\
  (forall i r, In r rs -> parse_uuid (fresh i) <> parse_uuid (rl_id r)) /\
  NoDup (map (fun r => parse_uuid (rl_id r)) rs).

(** In patterndb a text with at signs is written with every one of them doubled. *)
Definition doubled (t : str) : str := flat_map (fun b => if byte_eqb b x40 then [x40; x40] else [b]) t.
