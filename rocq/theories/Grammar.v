(** * Model of src/grammar/

    src/grammar/parser/pattern_parser.rs is the parser generated from
    pattern.rustpeg; it is modelled rule by rule.  Line numbers below refer to
    pattern_parser.rs unless another file is named. *)
From Verif Require Import Base Utils Parsers Pattern.

(** ** std helpers *)

(** [str::replace(from, to)] for a non-empty [from]: leftmost, non-overlapping
    occurrences.  [skip] counts the bytes of the current occurrence still to be
    dropped. *)
Fixpoint str_replace_go (from to s : str) (skip : nat) : str :=
  match s with
  | [] => []
  | x :: s' =>
      match skip with
      | S k => str_replace_go from to s' k
      | O =>
          if prefixb from s then to ++ str_replace_go from to s' (length from - 1)
          else x :: str_replace_go from to s' 0
      end
  end.
Definition str_replace (from to s : str) : str := str_replace_go from to s 0.

(** src/grammar/mod.rs:5-7 *)
Definition escaped_begin : str := $"\%\{".
Definition parser_begin : str := $"%{".
Definition unescape_literal (literal : str) : str :=
  str_replace escaped_begin parser_begin literal.

(** 13-17: the character at [pos], as its bytes, and the next position. *)
Definition char_range_at (s : str) (pos : nat) : outcome (str * nat) :=
  let* rest := slice_from s pos in
  match rest with
  | [] => Panic
  | b :: _ => Ret (firstn (utf8_width b) rest, pos + utf8_width b)
  end.

(** usize is 64 bits wide. *)
Definition usize_max_plus_1 : N := 2 ^ 64.

Definition digit_value (b : byte) : option N :=
  if in_rng 48 57 b then Some (Byte.to_N b - 48)%N else None.

(** [usize::from_str] on a string of digits; [None] on overflow. *)
Fixpoint usize_from_str_go (s : str) (acc : N) : option N :=
  match s with
  | [] => Some acc
  | b :: s' =>
      match digit_value b with
      | None => None
      | Some d =>
          let acc' := (acc * 10 + d)%N in
          if N.ltb acc' usize_max_plus_1 then usize_from_str_go s' acc' else None
      end
  end.
Definition usize_from_str (s : str) : option N :=
  match s with [] => None | _ => usize_from_str_go s 0 end.

(** ** Parser state *)

(** 106-110; the HashSet [expected] is a duplicate-free list. *)
Record pstate := PState { max_err_pos : nat; expected : list str }.

(** 112-118 *)
Definition pstate_new : pstate := {| max_err_pos := 0; expected := [] |}.

Definition hset_insert (x : str) (l : list str) : list str :=
  if existsb (str_eqb x) l then l else l ++ [x].

(** 119-128 *)
Definition mark_failure (st : pstate) (pos : nat) (e : str) : pstate :=
  let st := if Nat.ltb (max_err_pos st) pos
            then {| max_err_pos := pos; expected := [] |} else st in
  if Nat.eqb pos (max_err_pos st)
  then {| max_err_pos := max_err_pos st; expected := hset_insert e (expected st) |}
  else st.

(** 18-22: [Some (pos, v)] is [Matched(pos, v)], [None] is [Failed].  A rule
    threads the state. *)
Definition rresult (A : Type) := outcome (pstate * option (nat * A)).
Definition rule (A : Type) := pstate -> nat -> rresult A.

Definition matched {A : Type} (st : pstate) (pos : nat) (v : A) : rresult A :=
  Ret (st, Some (pos, v)).
Definition failed {A : Type} (st : pstate) : rresult A := Ret (st, None).

(** The generated [match seq_res { Matched(pos, v) => .., Failed => Failed }]. *)
Definition seq {A B : Type} (r : rresult A) (k : pstate -> nat -> A -> rresult B) : rresult B :=
  let* x := r in
  match x with
  | (st, Some (pos, v)) => k st pos v
  | (st, None) => failed st
  end.

(** The generated code of [a / b]. *)
Definition choice {A : Type} (r : rresult A) (alt : pstate -> rresult A) : rresult A :=
  let* x := r in
  match x with
  | (st, Some (pos, v)) => matched st pos v
  | (st, None) => alt st
  end.

(** The generated code of [a?] at [pos]. *)
Definition optional {A : Type} (r : rresult A) (pos : nat) : rresult (option A) :=
  let* x := r in
  match x with
  | (st, Some (newpos, v)) => matched st newpos (Some v)
  | (st, None) => matched st pos None
  end.

(** The generated [loop] of [a*] and [a+]: final position and the values. *)
Fixpoint repeat_loop {A : Type} (fuel : nat) (step : rule A) (st : pstate) (repeat_pos : nat)
         (repeat_value : list A) : outcome (pstate * (nat * list A)) :=
  match fuel with
  | O => OutOfFuel
  | S fuel' =>
      let* x := step st repeat_pos in
      match x with
      | (st, Some (newpos, v)) => repeat_loop fuel' step st newpos (repeat_value ++ [v])
      | (st, None) => Ret (st, (repeat_pos, repeat_value))
      end
  end.

(** The generated [loop] of [a ** sep]. *)
Fixpoint repeat_sep_loop {A : Type} (fuel : nat) (sep : rule unit) (step : rule A) (st : pstate)
         (repeat_pos : nat) (repeat_value : list A) : outcome (pstate * (nat * list A)) :=
  match fuel with
  | O => OutOfFuel
  | S fuel' =>
      let* s := if negb (is_empty repeat_value) then sep st repeat_pos
                else matched st repeat_pos tt in
      match s with
      | (st, None) => Ret (st, (repeat_pos, repeat_value))
      | (st, Some (pos, _)) =>
          let* x := step st pos in
          match x with
          | (st, Some (newpos, v)) =>
              repeat_sep_loop fuel' sep step st newpos (repeat_value ++ [v])
          | (st, None) => Ret (st, (repeat_pos, repeat_value))
          end
      end
  end.

(** ** Rules *)
Section Rules.
  Variable input : str.

  (** Bound on the iterations of every loop: each one consumes input. *)
  Definition loop_fuel : nat := S (length input).

  (** 55-64 *)
  Definition slice_eq (st : pstate) (pos : nat) (m : str) : rresult unit :=
    let l := length m in
    if Nat.leb (pos + l) (length input) && str_eqb (firstn l (skipn pos input)) m
    then matched st (pos + l) tt
    else failed (mark_failure st pos m).

  (** 83-92 *)
  Definition any_char (st : pstate) (pos : nat) : rresult unit :=
    if Nat.ltb pos (length input) then
      let* c := char_range_at input pos in
      matched st (snd c) tt
    else failed (mark_failure st pos ($"<character>")).

  (** The generated code of a character class, e.g. 887-895. *)
  Definition char_class (ok : str -> bool) (name : str) (st : pstate) (pos : nat)
    : rresult unit :=
    if Nat.ltb pos (length input) then
      let* c := char_range_at input pos in
      if ok (fst c) then matched st (snd c) tt else failed (mark_failure st pos name)
    else failed (mark_failure st pos name).

  (** 826-848 *)
  Definition parse_PARSER_BEGIN : rule unit := fun st pos => slice_eq st pos parser_begin.
  Definition parse_PARSER_END : rule unit := fun st pos => slice_eq st pos ($"}").
  Definition parse_PARSER_PARAMS_BEGIN : rule unit := fun st pos => slice_eq st pos ($"(").
  Definition parse_PARSER_PARAMS_END : rule unit := fun st pos => slice_eq st pos ($")").

  (** 716-825: the keyword rules return the matched text. *)
  Definition keyword (m : str) : rule str := fun st pos =>
    let start_pos := pos in
    seq (slice_eq st pos m) (fun st pos _ =>
    let* match_str := slice input start_pos pos in
    matched st pos match_str).
  Definition parse_MIN_LEN : rule str := keyword ($"min_len").
  Definition parse_MAX_LEN : rule str := keyword ($"max_len").
  Definition parse_INT : rule str := keyword ($"INT").
  Definition parse_SET : rule str := keyword ($"SET").
  Definition parse_GREEDY : rule str := keyword ($"GREEDY").

  (** 889-892: [a-zA-Z_.] *)
  Definition ident_first (c : str) : bool :=
    match c with
    | [b] => in_rng 97 122 b || in_rng 65 90 b || byte_eqb b x5f || byte_eqb b x2e
    | _ => false
    end.
  (** 906-913: [a-z-A-Z0-9_.] *)
  Definition ident_next (c : str) : bool :=
    match c with
    | [b] => in_rng 97 122 b || byte_eqb b x2d || in_rng 65 90 b || in_rng 48 57 b
             || byte_eqb b x5f || byte_eqb b x2e
    | _ => false
    end.
  (** 923-926: [-] *)
  Definition is_hyphen (c : str) : bool :=
    match c with [b] => byte_eqb b x2d | _ => false end.
  (** 1163-1165: [0-9] *)
  Definition is_digit (c : str) : bool :=
    match c with [b] => in_rng 48 57 b | _ => false end.

  (** 903-938: one step of ([a-z-A-Z0-9_.]![-])* *)
  Definition identifier_step : rule unit := fun st pos =>
    seq (char_class ident_next ($"[a-z-A-Z0-9_.]") st pos) (fun st pos _ =>
    let* assert_res := char_class is_hyphen ($"[-]") st pos in
    match assert_res with
    | (st, None) => matched st pos tt
    | (st, Some _) => failed st
    end).

  (** 880-967 *)
  Definition parse_identifier : rule str := fun st pos =>
    let start_pos := pos in
    seq (char_class ident_first ($"[a-zA-Z_.]") st pos) (fun st pos _ =>
    let* x := repeat_loop loop_fuel identifier_step st pos [] in
    match x with
    | (st, (pos, _)) =>
        let* match_str := slice input start_pos pos in
        matched st pos match_str
    end).

  (** 850-879 *)
  Definition parse_parser_name : rule str := fun st pos =>
    let start_pos := pos in
    seq (slice_eq st pos ($":")) (fun st pos _ =>
    seq (parse_identifier st pos) (fun st pos name =>
    let* match_str := slice input start_pos pos in
    matched st pos name)).

  (** 1018-1032 and 1075-1089: one step of (!m .)+ *)
  Definition not_then_any (m : str) : rule unit := fun st pos =>
    let* assert_res := slice_eq st pos m in
    match assert_res with
    | (st, None) => any_char st pos
    | (st, Some _) => failed st
    end.

  (** 1006-1062 ([m] = "%{") and 1063-1119 ([m] = quotation mark) *)
  Definition chars_until (m : str) : rule str := fun st pos =>
    let start_pos := pos in
    let* x := repeat_loop loop_fuel (not_then_any m) st pos [] in
    match x with
    | (st, (pos, repeat_value)) =>
        if Nat.leb 1 (length repeat_value) then
          let* match_str := slice input start_pos pos in
          matched st pos match_str
        else failed st
    end.
  Definition quotation_mark : str := [x22].
  Definition parse_literal : rule str := chars_until parser_begin.
  Definition parse_all_chars_until_quotation_mark : rule str := chars_until quotation_mark.

  (** 968-1005 *)
  Definition parse_string : rule str := fun st pos =>
    let start_pos := pos in
    seq (slice_eq st pos quotation_mark) (fun st pos _ =>
    seq (parse_all_chars_until_quotation_mark st pos) (fun st pos s =>
    seq (slice_eq st pos quotation_mark) (fun st pos _ =>
    let* match_str := slice input start_pos pos in
    matched st pos s))).

  (** 1120-1148 *)
  Definition parse_comma : rule unit := fun st pos =>
    seq (slice_eq st pos ($",")) (fun st pos _ =>
    let* x := repeat_loop loop_fuel (fun st pos => slice_eq st pos ($" ")) st pos [] in
    match x with
    | (st, (pos, _)) => matched st pos tt
    end).

  (** 1149-1199; the [unwrap] fails when the number does not fit a usize. *)
  Definition parse_int : rule N := fun st pos =>
    let start_pos := pos in
    let* x := repeat_loop loop_fuel (char_class is_digit ($"[0-9]")) st pos [] in
    match x with
    | (st, (pos, repeat_value)) =>
        if Nat.leb 1 (length repeat_value) then
          let* match_str := slice input start_pos pos in
          match usize_from_str match_str with
          | Some n => matched st pos n
          | None => Panic
          end
        else failed st
    end.

  (** 646-676 and 681-712: one alternative of parser_BASE_optional_param *)
  Definition optional_param (name_rule : rule str) : rule optional_parameter := fun st pos =>
    let start_pos := pos in
    seq (name_rule st pos) (fun st pos name =>
    seq (slice_eq st pos ($"=")) (fun st pos _ =>
    seq (parse_int st pos) (fun st pos value =>
    let* match_str := slice input start_pos pos in
    matched st pos (OptInt name value)))).

  (** 639-715 *)
  Definition parse_parser_BASE_optional_param : rule optional_parameter := fun st pos =>
    choice (optional_param parse_MIN_LEN st pos)
           (fun st => optional_param parse_MAX_LEN st pos).

  (** 365-425 *)
  Definition parse_parser_SET_optional_params : rule (list optional_parameter) := fun st pos =>
    let start_pos := pos in
    seq (parse_comma st pos) (fun st pos _ =>
    let* x := repeat_sep_loop loop_fuel parse_comma parse_parser_BASE_optional_param st pos [] in
    match x with
    | (st, (pos, params)) =>
        let* match_str := slice input start_pos pos in
        matched st pos params
    end).

  (** 480-548 *)
  Definition parse_parser_INT_optional_params : rule (list optional_parameter) := fun st pos =>
    let start_pos := pos in
    seq (parse_PARSER_PARAMS_BEGIN st pos) (fun st pos _ =>
    let* x := repeat_sep_loop loop_fuel parse_comma parse_parser_BASE_optional_param st pos [] in
    match x with
    | (st, (pos, params)) =>
        seq (parse_PARSER_PARAMS_END st pos) (fun st pos _ =>
        let* match_str := slice input start_pos pos in
        matched st pos params)
    end).

  (** 265-364 *)
  Definition parse_parser_SET : rule parser := fun st pos =>
    let start_pos := pos in
    seq (parse_SET st pos) (fun st pos _ =>
    seq (parse_PARSER_PARAMS_BEGIN st pos) (fun st pos _ =>
    seq (parse_string st pos) (fun st pos set =>
    seq (optional (parse_parser_SET_optional_params st pos) pos) (fun st pos opt_params =>
    seq (parse_PARSER_PARAMS_END st pos) (fun st pos _ =>
    seq (optional (parse_parser_name st pos) pos) (fun st pos name =>
    let* match_str := slice input start_pos pos in
    matched st pos (new_set set name opt_params))))))).

  (** 426-479 *)
  Definition parse_parser_INT : rule parser := fun st pos =>
    let start_pos := pos in
    seq (parse_INT st pos) (fun st pos _ =>
    seq (optional (parse_parser_INT_optional_params st pos) pos) (fun st pos opt_params =>
    seq (optional (parse_parser_name st pos) pos) (fun st pos name =>
    let* match_str := slice input start_pos pos in
    matched st pos (new_int name opt_params)))).

  (** 253-264 *)
  Definition parse_parser : rule parser := fun st pos =>
    choice (parse_parser_SET st pos) (fun st => parse_parser_INT st pos).

  (** 215-252 *)
  Definition parse_piece_parser : rule (list token) := fun st pos =>
    let start_pos := pos in
    seq (parse_PARSER_BEGIN st pos) (fun st pos _ =>
    seq (parse_parser st pos) (fun st pos parser =>
    seq (parse_PARSER_END st pos) (fun st pos _ =>
    let* match_str := slice input start_pos pos in
    matched st pos [Parser parser]))).

  (** 192-214 *)
  Definition parse_piece_literal : rule (list token) := fun st pos =>
    let start_pos := pos in
    seq (parse_literal st pos) (fun st pos literal =>
    let* match_str := slice input start_pos pos in
    matched st pos [Literal (unescape_literal literal)]).

  (** 549-638 *)
  Definition parse_parser_GREEDY : rule (list token) := fun st pos =>
    let start_pos := pos in
    seq (parse_PARSER_BEGIN st pos) (fun st pos _ =>
    seq (parse_GREEDY st pos) (fun st pos _ =>
    seq (optional (parse_parser_name st pos) pos) (fun st pos name =>
    seq (parse_PARSER_END st pos) (fun st pos _ =>
    seq (optional (parse_literal st pos) pos) (fun st pos end_string =>
    let* match_str := slice input start_pos pos in
    let tokens := [Parser (new_greedy name end_string)] in
    matched st pos
      (match end_string with
       | Some end_string => tokens ++ [Literal end_string]
       | None => tokens
       end)))))).

  (** 174-191 *)
  Definition parse_pattern_piece : rule (list token) := fun st pos =>
    choice (parse_parser_GREEDY st pos) (fun st =>
    choice (parse_piece_literal st pos) (fun st =>
    parse_piece_parser st pos)).

  (** 130-173 *)
  Definition parse_pattern : rule compiled_pattern := fun st pos =>
    let start_pos := pos in
    let* x := repeat_loop loop_fuel parse_pattern_piece st pos [] in
    match x with
    | (st, (pos, pieces)) =>
        if Nat.leb 1 (length pieces) then
          let* match_str := slice input start_pos pos in
          matched st pos (flatten_vec pieces)
        else failed st
    end.
End Rules.

(** ** Errors *)

(** 23-29 *)
Record parse_error := ParseError {
  pe_line : nat;
  pe_column : nat;
  pe_offset : nat;
  pe_expected : list str
}.

(** [str::lines]: split at newlines, a trailing carriage return of each line is
    dropped, no line after a final newline.  [cur] is the current line in
    reverse. *)
Definition strip_cr (rev_line : str) : str :=
  match rev_line with
  | b :: l => if byte_eqb b x0d then rev l else rev rev_line
  | [] => []
  end.
Fixpoint lines_go (s cur : str) : list str :=
  match s with
  | [] => match cur with [] => [] | _ => [strip_cr cur] end
  | b :: s' => if byte_eqb b x0a then strip_cr cur :: lines_go s' [] else lines_go s' (b :: cur)
  end.
Definition lines (s : str) : list str := lines_go s [].

(** 93-105 *)
Fixpoint pos_to_line_loop (ls : list str) (remaining lineno : nat) : nat * nat :=
  match ls with
  | [] => (lineno, remaining + 1)
  | line :: ls' =>
      let line_length := length line + 1 in
      if Nat.ltb remaining line_length then (lineno, remaining + 1)
      else pos_to_line_loop ls' (remaining - line_length) (lineno + 1)
  end.
Definition pos_to_line (input : str) (pos : nat) : nat * nat :=
  pos_to_line_loop (lines input) pos 1.

(** 1200-1214 *)
Definition pattern_error (input : str) (st : pstate) : parse_error :=
  let (line, col) := pos_to_line input (max_err_pos st) in
  {| pe_line := line; pe_column := col; pe_offset := max_err_pos st;
     pe_expected := expected st |}.
Definition compile (input : str) : outcome (result compiled_pattern parse_error) :=
  let* x := parse_pattern input pstate_new 0 in
  match x with
  | (st, Some (pos, value)) =>
      if Nat.eqb pos (length input) then Ret (Ok value) else Ret (Err (pattern_error input st))
  | (st, None) => Ret (Err (pattern_error input st))
  end.
