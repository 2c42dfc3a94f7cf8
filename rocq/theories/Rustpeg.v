(** * The grammar file src/grammar/parser/pattern.rustpeg and its meaning

    pattern_parser.rs (modelled in Grammar.v) was generated from pattern.rustpeg.
    Here is the grammar file as data, together with the meaning of parsing
    expressions, independent of the generated code.  The values computed by the
    actions are left out; Spec_grammar.v describes them. *)
From Verif Require Import Base Spec.

(** ** Parsing expressions *)
Inductive class_item := Between (lo hi : byte) | One (b : byte).

(** The rules of the grammar file. *)
Inductive rule_name :=
| R_pattern | R_pattern_piece | R_piece_literal | R_piece_parser | R_parser
| R_parser_SET | R_parser_SET_optional_params | R_parser_INT | R_parser_INT_optional_params
| R_parser_GREEDY | R_parser_BASE_optional_param
| R_MIN_LEN | R_MAX_LEN | R_INT | R_SET | R_GREEDY
| R_PARSER_BEGIN | R_PARSER_END | R_PARSER_PARAMS_BEGIN | R_PARSER_PARAMS_END
| R_parser_name | R_identifier | R_string | R_literal | R_all_chars_until_quotation_mark
| R_comma | R_int.

Inductive peg :=
| Text (m : str)                (** ["m"] *)
| AnyChar                       (** [.] *)
| Class (c : list class_item)   (** [[a-z_]] *)
| Seq (a b : peg)               (** [a b] *)
| Or (a b : peg)                (** [a / b] *)
| Opt (a : peg)                 (** [a?] *)
| Many (a : peg)                (** [a*] *)
| Some_ (a : peg)               (** [a+] *)
| Sep (a sep : peg)             (** [a ** sep] *)
| Not (a : peg)                 (** [!a] *)
| Rule (r : rule_name).

Definition in_class (c : list class_item) (b : byte) : Prop :=
  exists i, In i c /\
    match i with
    | Between lo hi => (Byte.to_N lo <= Byte.to_N b <= Byte.to_N hi)%N
    | One x => b = x
    end.

(** How a class is written. *)
Definition class_text (c : list class_item) : str :=
  $"[" ++ flat_map (fun i => match i with Between lo hi => [lo; x2d; hi] | One b => [b] end) c ++ $"]".

(** ** pattern.rustpeg:9-105 *)
Infix ";;" := Seq (at level 41, right associativity).
Infix "//" := Or (at level 42, right associativity).
Definition rustpeg (r : rule_name) : peg :=
  match r with
  | R_pattern => Some_ (Rule R_pattern_piece)
  | R_pattern_piece => Rule R_parser_GREEDY // Rule R_piece_literal // Rule R_piece_parser
  | R_piece_literal => Rule R_literal
  | R_piece_parser => Rule R_PARSER_BEGIN;; Rule R_parser;; Rule R_PARSER_END
  | R_parser => Rule R_parser_SET // Rule R_parser_INT
  | R_parser_SET =>
      Rule R_SET;; Rule R_PARSER_PARAMS_BEGIN;; Rule R_string;; Opt (Rule R_parser_SET_optional_params);;
      Rule R_PARSER_PARAMS_END;; Opt (Rule R_parser_name)
  | R_parser_SET_optional_params =>
      Rule R_comma;; Sep (Rule R_parser_BASE_optional_param) (Rule R_comma)
  | R_parser_INT =>
      Rule R_INT;; Opt (Rule R_parser_INT_optional_params);; Opt (Rule R_parser_name)
  | R_parser_INT_optional_params =>
      Rule R_PARSER_PARAMS_BEGIN;; Sep (Rule R_parser_BASE_optional_param) (Rule R_comma);;
      Rule R_PARSER_PARAMS_END
  | R_parser_GREEDY =>
      Rule R_PARSER_BEGIN;; Rule R_GREEDY;; Opt (Rule R_parser_name);; Rule R_PARSER_END;; Opt (Rule R_literal)
  | R_parser_BASE_optional_param =>
      (Rule R_MIN_LEN;; Text ($"=");; Rule R_int) // (Rule R_MAX_LEN;; Text ($"=");; Rule R_int)
  | R_MIN_LEN => Text ($"min_len")
  | R_MAX_LEN => Text ($"max_len")
  | R_INT => Text ($"INT")
  | R_SET => Text ($"SET")
  | R_GREEDY => Text ($"GREEDY")
  | R_PARSER_BEGIN => Text ($"%{")
  | R_PARSER_END => Text ($"}")
  | R_PARSER_PARAMS_BEGIN => Text ($"(")
  | R_PARSER_PARAMS_END => Text ($")")
  | R_parser_name => Text ($":");; Rule R_identifier
  | R_identifier =>
      Class [Between x61 x7a; Between x41 x5a; One x5f; One x2e];;
      Many (Class [Between x61 x7a; One x2d; Between x41 x5a; Between x30 x39; One x5f; One x2e];;
            Not (Class [One x2d]))
  | R_string => Text [x22];; Rule R_all_chars_until_quotation_mark;; Text [x22]
  | R_literal => Some_ (Not (Rule R_PARSER_BEGIN);; AnyChar)
  | R_all_chars_until_quotation_mark => Some_ (Not (Text [x22]);; AnyChar)
  | R_comma => Text ($",");; Many (Text ($" "))
  | R_int => Some_ (Class [Between x30 x39])
  end.

(** ** Meaning

    [run e s r m]: parsing expression [e] on the text [s] gives [r] -- what
    remains after a match, or nothing -- and on the way the terminals [m] were
    looked for in vain: pairs of the text that was there and the terminal. *)
Inductive run : peg -> str -> option str -> list (str * str) -> Prop :=
| run_text m s : run (Text m) (m ++ s) (Some s) []
| run_text_fail m s : ~ prefix_of m s -> run (Text m) s None [(s, m)]
| run_any c s : utf8_char c = true -> run AnyChar (c ++ s) (Some s) []
| run_any_fail : run AnyChar [] None [([], $"<character>")]
| run_class c b s : in_class c b -> run (Class c) (b :: s) (Some s) []
| run_class_fail c s : (forall b s', s = b :: s' -> ~ in_class c b) -> run (Class c) s None [(s, class_text c)]
| run_seq a b s s' r m m' : run a s (Some s') m -> run b s' r m' -> run (Seq a b) s r (m ++ m')
| run_seq_fail a b s m : run a s None m -> run (Seq a b) s None m
| run_or a b s s' m : run a s (Some s') m -> run (Or a b) s (Some s') m
| run_or_else a b s r m m' : run a s None m -> run b s r m' -> run (Or a b) s r (m ++ m')
| run_opt a s s' m : run a s (Some s') m -> run (Opt a) s (Some s') m
| run_opt_none a s m : run a s None m -> run (Opt a) s (Some s) m
| run_many a s s' r m m' : run a s (Some s') m -> run (Many a) s' r m' -> run (Many a) s r (m ++ m')
| run_many_done a s m : run a s None m -> run (Many a) s (Some s) m
| run_some a s r m : run (Seq a (Many a)) s r m -> run (Some_ a) s r m
| run_sep a sep s r m : run (Opt (Seq a (Many (Seq sep a)))) s r m -> run (Sep a sep) s r m
| run_not a s m : run a s None m -> run (Not a) s (Some s) m
| run_not_fail a s s' m : run a s (Some s') m -> run (Not a) s None m
| run_rule n s r m : run (rustpeg n) s r m -> run (Rule n) s r m.

(** The terminals looked for at the furthest point, [off] bytes into [s]. *)
Definition furthest (s : str) (m : list (str * str)) (off : nat) (ex : list str) : Prop :=
  off <= length s /\ ex <> [] /\ NoDup ex /\
  (forall x, In x ex <-> In (skipn off s, x) m) /\
  (forall t x, In (t, x) m -> length s - off <= length t).

(** How a class is read: a character, a hyphen and another character are a range. *)
Fixpoint read_class (t : str) : list class_item :=
  match t with
  | [] => []
  | a :: t' => match t' with
               | x2d :: b :: t'' => Between a b :: read_class t''
               | _ => One a :: read_class t'
               end
  end.
(** The texts a terminal of the grammar stands for. *)
Inductive stands_for : str -> str -> Prop :=
| stands_text m : match m with [] | x5b :: _ | x3c :: _ => False | _ => True end -> stands_for m m
| stands_class t b : in_class (read_class t) b -> stands_for ($"[" ++ t ++ $"]") [b]
| stands_any c : utf8_char c = true -> stands_for ($"<character>") c.
